(* C85: ancillary qubits, C86: garbage qubits, C87: isCloseToIdentity. *)
From Coq Require Import Reals Lra Psatz List Bool Arith Lia FunctionalExtensionality.
From Verif Require Import Cplx Qsem DDModel DDSpec DDProofs DDCanonProofs DDOpsProofs DDReduceModel DDReduceSpec DDReduceProofs
  DDGarbageProofs DDGarbageMProofs DDCloseProofs.
Import ListNotations.
Local Open Scope R_scope.

Lemma not_hit fl n b : hit fl n b = false <-> ~ touches fl n b.
Proof. rewrite <- hit_iff. destruct hit; split; congruence. Qed.

(* ---- C85 ------------------------------------------------------------------------------------------ *)

(* The columns (or rows) in which an ancillary qubit is one become zero, all other entries stay. *)
Theorem C85_ancillae : forall n e anc regular, mcanon n e -> (n <= length anc)%nat ->
  exists e', reduceAncillae e anc regular = DOk e' /\ mcanon (length anc) e' /\
    forall r c,
      (touches anc (length anc) (if regular then c else r) -> meden (length anc) e' r c = C0) /\
      (~ touches anc (length anc) (if regular then c else r) -> meden (length anc) e' r c = meden (length anc) e r c).
Proof.
  intros n e anc regular H L. destruct (reduceAncillae_spec anc regular n e H L) as (e' & E & Ce & D).
  exists e'. split; auto. split; auto. intros r c. unfold cleared, entry in D.
  destruct regular; (split; intros T; [apply hit_iff in T|apply not_hit in T]).
  - specialize (D c r). rewrite T in D. auto.
  - specialize (D c r). rewrite T in D. auto.
  - specialize (D r c). rewrite T in D. auto.
  - specialize (D r c). rewrite T in D. auto.
Qed.
Print Assumptions C85_ancillae.

(* Hence the identity with the ancillary columns cleared, and a second reduction changes nothing. *)
Theorem C85_initial : forall anc, exists e', createInitialMatrix anc = DOk e' /\ mcanon (length anc) e' /\
  forall r c, (agree (length anc) r c /\ ~ touches anc (length anc) c -> meden (length anc) e' r c = C1) /\
              (~ agree (length anc) r c \/ touches anc (length anc) c -> meden (length anc) e' r c = C0).
Proof.
  intros anc. destruct (C85_ancillae 0 mone anc true (mcanon_T _ _) (Nat.le_0_l _)) as (e' & E & Ce & D).
  exists e'. split; [exact E|]. split; auto. intros r c. destruct (D r c) as [D1 D2].
  assert (M : meden (length anc) mone r c = mden (length anc) MT r c) by (unfold meden; cbn; ring).
  destruct (mden_MT_agree (length anc) r c) as [[A B]|[A B]]; split.
  - intros [_ T]. rewrite D2, M; auto.
  - intros [T|T]; [tauto|auto].
  - tauto.
  - intros _. destruct (hit anc (length anc) c) eqn:Hh; [apply D1, hit_iff; auto|].
    rewrite D2, M; auto. apply not_hit; auto.
Qed.
Print Assumptions C85_initial.
Theorem C85_twice : forall n e anc regular e', mcanon n e -> (n <= length anc)%nat ->
  reduceAncillae e anc regular = DOk e' -> reduceAncillae e' anc regular = DOk e'.
Proof.
  intros n e anc regular e' H L E. destruct (C85_ancillae n e anc regular H L) as (x & Ex & Cx & Dx).
  assert (x = e') as -> by congruence.
  destruct (C85_ancillae (length anc) e' anc regular Cx (Nat.le_refl _)) as (y & Ey & Cy & Dy).
  rewrite Ey. f_equal. apply (mcanon_unique (length anc)); auto. intros r c.
  destruct (Dy r c) as [A B]. destruct (hit anc (length anc) (if regular then c else r)) eqn:T.
  - rewrite A by (apply hit_iff; auto). symmetry. apply Dx. apply hit_iff; auto.
  - apply B. apply not_hit; auto.
Qed.
Print Assumptions C85_twice.

(* Flags for fewer qubits than the diagram has are read beyond their end. *)
Definition Xw : bool -> bool -> C := fun i j => if eqb i j then C0 else C1.
Definition Xnode (q : nat) : mtree := MNode q Xw (fun _ _ => MT).
Lemma X_munit : munit Xw.
Proof.
  exists (false, true). split; [reflexivity|]. intros [[] []]; cbn; unfold Xw; cbn; rewrite ?Cnorm2_0, ?Cnorm2_1; lra.
Qed.
Lemma X_canon q n w : w <> C0 -> (q < n)%nat -> mcanon n (w, Xnode q).
Proof.
  intros W Q. unfold mcanon; cbn. split; auto. split; auto. split; [apply X_munit|]. split.
  - intros (A & _). cbn in A. apply C1_neq_C0; auto.
  - intros; exact Logic.I.
Qed.
Theorem C85_short_refuted : exists n e anc, mcanon n e /\ reduceAncillae e anc true = DUb.
Proof.
  exists 2%nat, (C1, Xnode 1), [true]. split; [apply X_canon; auto using C1_neq_C0|]. reflexivity.
Qed.
Print Assumptions C85_short_refuted.

(* X on an ancillary qubit: the column of |1> disappears, the one of |0> stays *)
Example C85_ex : exists e', reduceAncillae (C1, Xnode 0) [true] true = DOk e' /\
  meden 1 e' (fun _ => true) (fun _ => false) = C1 /\ meden 1 e' (fun _ => false) (fun _ => true) = C0.
Proof.
  destruct (C85_ancillae 1 (C1, Xnode 0) [true] true) as (e' & E & _ & D);
    [apply X_canon; auto using C1_neq_C0|auto|].
  exists e'. split; auto. split.
  - rewrite (proj2 (D _ _)); [unfold meden; cbn; ring|]. intros (q & _ & _ & Q). discriminate.
  - rewrite (proj1 (D _ _)); auto. exists 0%nat. repeat split; auto.
Qed.

(* ---- C86 ------------------------------------------------------------------------------------------ *)

(* addMagnitudes adds the squared magnitudes of the entries. *)
Theorem C86_magnitudes : forall n x y, vcanon n x -> vcanon n y ->
  exists r, vaddmag n x y = DOk r /\ forall b, Cnorm2 (veden r b) = Cnorm2 (veden x b) + Cnorm2 (veden y b).
Proof.
  intros n x y Hx Hy. destruct (vaddmag_spec n x y) as (r & E & _ & _ & D); try (right; auto). eauto.
Qed.
Print Assumptions C86_magnitudes.

(* The probability of the reduced vector at an assignment is the sum over all values of the garbage
   qubits where these are zero, and zero elsewhere. *)
Theorem C86_vector_partial : forall n e gar nw, vcanon n e -> (n <= length gar)%nat -> (nw = true -> snd e <> VT) ->
  exists e', reduceGarbageV e gar nw = DOk e' /\ vcanon n e' /\
    forall b, (touches gar n b -> veden e' b = C0) /\
              (~ touches gar n b -> Cnorm2 (veden e' b) = fsum gar n (fun c => Cnorm2 (veden e c)) b).
Proof.
  intros n e gar nw H L NT. destruct (reduceGarbageV_spec gar nw n e H L NT) as (e' & E & Ce & _ & D).
  exists e'. split; auto. split; auto. intros b. specialize (D b). split; intros T.
  - apply hit_iff in T. rewrite T in D. apply Cnorm2_zero; auto.
  - apply not_hit in T. rewrite T in D. auto.
Qed.
Print Assumptions C86_vector_partial.
(* The same for the rows (or columns) of a matrix. *)
Theorem C86_matrix_partial : forall n e gar regular nw, mcanon n e -> (n <= length gar)%nat ->
  (nw = true -> snd e = MT -> fst e <> C0) ->
  exists e', reduceGarbageM e gar regular nw = DOk e' /\ mcanon (length gar) e' /\
    forall s k, (touches gar (length gar) s -> entry regular (length gar) e' s k = C0) /\
      (~ touches gar (length gar) s -> Cnorm2 (entry regular (length gar) e' s k) =
         fsum gar (length gar) (fun c => Cnorm2 (entry regular (length gar) e c k)) s).
Proof.
  intros n e gar regular nw H L NZ. destruct (reduceGarbageM_spec gar regular nw n e H L NZ) as (e' & E & Ce & _ & D).
  exists e'. split; auto. split; auto. intros s k. specialize (D s k). split; intros T.
  - apply hit_iff in T. rewrite T in D. apply Cnorm2_zero; auto.
  - apply not_hit in T. rewrite T in D. auto.
Qed.
Print Assumptions C86_matrix_partial.

(* With normalised weights the entries are the square roots of these sums, as documented. *)
Lemma nn_sqrt z x : nonneg z -> Cnorm2 z = x -> z = RtoC (sqrt x).
Proof.
  intros (y & Py & ->) <-. rewrite Cnorm2_RtoC. rewrite sqrt_square; auto.
Qed.
Theorem C86_normalised_partial : forall n e gar, vcanon n e -> (n <= length gar)%nat -> snd e <> VT ->
  exists e', reduceGarbageV e gar true = DOk e' /\
    forall b, ~ touches gar n b -> veden e' b = RtoC (sqrt (fsum gar n (fun c => Cnorm2 (veden e c)) b)).
Proof.
  intros n e gar H L NT. destruct (reduceGarbageV_spec gar true n e H L (fun _ => NT)) as (e' & E & Ce & P & D).
  exists e'. split; auto. intros b T. apply nn_sqrt; [apply vposE_den; auto|].
  specialize (D b). apply not_hit in T. rewrite T in D. auto.
Qed.
Print Assumptions C86_normalised_partial.
Theorem C86_normalised_matrix_partial : forall n e gar regular, mcanon n e -> (n <= length gar)%nat -> snd e <> MT ->
  exists e', reduceGarbageM e gar regular true = DOk e' /\
    forall s k, ~ touches gar (length gar) s -> entry regular (length gar) e' s k =
      RtoC (sqrt (fsum gar (length gar) (fun c => Cnorm2 (entry regular (length gar) e c k)) s)).
Proof.
  intros n e gar regular H L NT.
  destruct (reduceGarbageM_spec gar regular true n e H L) as (e' & E & Ce & P & D); [tauto|].
  exists e'. split; auto. intros s k T. apply nn_sqrt; [unfold entry; destruct regular; apply mposE_den; auto|].
  specialize (D s k). apply not_hit in T. rewrite T in D. auto.
Qed.
Print Assumptions C86_normalised_matrix_partial.

(* So two states reduce to the same edge exactly when measuring the other qubits cannot tell them
   apart: partial equivalence may be decided by comparing pointers. *)
Theorem C86_partial_equivalence : forall n e1 e2 gar r1 r2, vcanon n e1 -> vcanon n e2 -> (n <= length gar)%nat ->
  snd e1 <> VT -> snd e2 <> VT -> reduceGarbageV e1 gar true = DOk r1 -> reduceGarbageV e2 gar true = DOk r2 ->
  (r1 = r2 <-> forall b, fsum gar n (fun c => Cnorm2 (veden e1 c)) b = fsum gar n (fun c => Cnorm2 (veden e2 c)) b).
Proof.
  intros n e1 e2 gar r1 r2 H1 H2 L N1 N2 E1 E2.
  destruct (reduceGarbageV_spec gar true n e1 H1 L (fun _ => N1)) as (x & Ex & Cx & Px & Dx).
  destruct (reduceGarbageV_spec gar true n e2 H2 L (fun _ => N2)) as (y & Ey & Cy & Py & Dy).
  rewrite E1 in Ex; injection Ex as <-. rewrite E2 in Ey; injection Ey as <-. split.
  - intros <- b. set (b' := fun q => if Nat.ltb q n && nth q gar false then false else b q).
    assert (IR : forall f, fsum gar n f b = fsum gar n f b').
    { intros f. apply fsum_irrel. intros q. unfold b'. destruct (Nat.ltb_spec q n); cbn [andb]; auto.
      destruct (nth q gar false); auto. }
    assert (NH : hit gar n b' = false).
    { apply not_hit. intros (q & A & B & D). unfold b' in D. apply nth_flag in B. rewrite B in D.
      apply Nat.ltb_lt in A. rewrite A in D. discriminate. }
    specialize (Dx b'). specialize (Dy b'). rewrite NH in Dx, Dy. rewrite !IR. congruence.
  - intros F. apply (vcanon_unique n); auto. intros b. apply nn_eq; try (apply vposE_den; auto).
    rewrite Dx, Dy, F. auto.
Qed.
Print Assumptions C86_partial_equivalence.

(* Without normalisation phases below a garbage qubit survive: the entry is not sqrt (|a|^2 + |b|^2). *)
Definition minus_w : bool -> C := fun i => if i then RtoC (- s22) else RtoC s22.
Definition minus_state : vtree := VNode 0 minus_w (fun _ => VT).
Definition one_minus : vedge := (C1, VNode 1 (fun i => if i then C1 else C0) (fun i => if i then minus_state else VT)).
Lemma s22_sq : s22 * s22 = / 2.
Proof. unfold s22. rewrite <- Rinv_mult, sqrt_sqrt by lra. auto. Qed.
Lemma s22_pos : 0 < s22.
Proof. unfold s22. apply Rinv_0_lt_compat, sqrt_lt_R0. lra. Qed.
Lemma one_minus_canon : vcanon 2 one_minus.
Proof.
  unfold vcanon; cbn. split; [apply C1_neq_C0|]. split; auto. split; [apply vunit_01|].
  intros []; cbn; [|right; auto].
  split; [apply C1_neq_C0|]. split; auto. split.
  - unfold vunit, minus_w. rewrite !Cnorm2_RtoC. pose proof s22_sq. split; [lra|].
    exists s22. split; [apply s22_pos|]. unfold vfirst. rewrite !Cnorm2_RtoC.
    destruct Rle_dec; auto. exfalso. apply n. lra.
  - intros []; left; auto.
Qed.
Theorem C86_phase_refuted : exists n e gar e' b, vcanon n e /\ length gar = n /\ reduceGarbageV e gar false = DOk e' /\
  ~ touches gar n b /\ veden e' b <> RtoC (sqrt (fsum gar n (fun c => Cnorm2 (veden e c)) b)).
Proof.
  exists 2%nat, one_minus, [false; true].
  assert (E : reduceGarbageV one_minus [false; true] false =
              DOk ((C1 * cmag (C1 * C1))%C, VNode 1 (fun i => if i then C0 else C1) (fun i => if i then VT else minus_state))).
  { assert (CM : cmag (C1 * C1) <> C0) by (apply cmag_neq, Cmul_neq0; apply C1_neq_C0).
    cbn. rewrite ezero_0. replace (ezero (C1 * C1)) with false by (symmetry; apply ezero_false, Cmul_neq0; apply C1_neq_C0).
    unfold vmk, vmakeC. cbn. rewrite !azero_0, ezero_0, (proj2 (ezero_false _) CM). cbn [fst snd].
    do 3 f_equal; apply functional_extensionality; intros []; auto. }
  eexists. exists (fun q => Nat.eqb q 0). split; [apply one_minus_canon|]. split; [auto|]. split; [apply E|]. split.
  - intros (q & A & B & D). apply Nat.eqb_eq in D. subst q. discriminate.
  - unfold veden at 1. cbn [fst snd vden Nat.eqb minus_state minus_w].
    intros Q. apply (f_equal fst) in Q. unfold cmag, Cmod in Q.
    replace (C1 * C1)%C with C1 in Q by ring. rewrite Cnorm2_1, sqrt_1 in Q. cbn in Q.
    match type of Q with _ = sqrt ?x => pose proof (sqrt_pos x) end. pose proof s22_pos. lra.
Qed.
Print Assumptions C86_phase_refuted.

(* With normalisation the zero vector and the zero matrix are dereferenced, and a multiple of the
   identity keeps its phase. *)
Theorem C86_zero_refuted : vcanon 1 vzero /\ reduceGarbageV vzero [true] true = DUb /\
  mcanon 1 mzero /\ reduceGarbageM mzero [true] true true = DUb.
Proof.
  split; [apply vcanon_zero|]. split; [reflexivity|]. split; [apply mcanon_T|].
  unfold reduceGarbageM. cbn. rewrite ezero_0. reflexivity.
Qed.
Print Assumptions C86_zero_refuted.
Theorem C86_identity_refuted : exists e' r, reduceGarbageM (RtoC (-1), MT) [false] true true = DOk e' /\
  ~ touches [false] 1 r /\ ~ nonneg (meden 1 e' r r).
Proof.
  exists (RtoC (-1), MT), (fun _ => false). split; [|split].
  - unfold reduceGarbageM. cbn. replace (ezero (RtoC (-1))) with false; auto.
    symmetry. apply ezero_false. intros H. apply (f_equal fst) in H. cbn in H. lra.
  - intros (q & _ & _ & ?). discriminate.
  - intros (x & P & E). unfold meden in E. cbn in E. apply (f_equal fst) in E. cbn in E. lra.
Qed.
Print Assumptions C86_identity_refuted.

(* the state |1>|-> with its upper qubit garbage: both outcomes of the lower one have probability 1/2 *)
Example C86_ex : exists e', reduceGarbageV one_minus [false; true] true = DOk e' /\
  veden e' (fun _ => false) = RtoC (sqrt (/ 2)) /\ veden e' (fun q => Nat.eqb q 0) = RtoC (sqrt (/ 2)).
Proof.
  destruct (C86_normalised_partial 2 one_minus [false; true] one_minus_canon (Nat.le_refl _)) as (e' & E & D);
    [discriminate|]. exists e'. split; auto.
  pose proof s22_sq as Q.
  split; (rewrite D; [f_equal; f_equal; cbn; unfold veden; cbn [fst snd one_minus vden setb Nat.eqb];
    unfold setb; cbn; unfold Cnorm2, Cmul, RtoC; cbn; nra
   |intros (q & A & B & T); try discriminate; apply Nat.eqb_eq in T; subst q; discriminate]).
Qed.

(* ---- C87 ------------------------------------------------------------------------------------------ *)

(* Entries that connect different values of the other qubits are small compared with the root weight. *)
Theorem C87_off_diagonal : forall n m tol gar co r c, mcanon n m -> 0 <= tol ->
  isCloseToIdentity m tol gar co = true -> differ gar n r c ->
  Cnorm2 (meden n m r c) <= tol * Cnorm2 (fst m).
Proof.
  intros n m tol gar co r c H T CL D. unfold meden. rewrite Cnorm2_mul.
  pose proof (close_off tol gar co T n (snd m) n (fst m) r c H CL D). pose proof (Cnorm2_pos (fst m)). nra.
Qed.
Print Assumptions C87_off_diagonal.
(* With tolerance zero and without the check for ones the test decides exactly this. *)
Theorem C87_diagonal : forall n m gar, mcanon n m ->
  (isCloseToIdentity m 0 gar false = true <-> forall r c, differ gar n r c -> meden n m r c = C0).
Proof.
  intros n m gar H. split.
  - intros CL r c D. apply Cnorm2_zero.
    pose proof (C87_off_diagonal n m 0 gar false r c H (Rle_refl 0) CL D). pose proof (Cnorm2_pos (meden n m r c)). lra.
  - intros Z. unfold isCloseToIdentity. destruct (snd m) as [|q w s] eqn:E; auto. rewrite <- E in *.
    assert (N : fst m <> C0) by (unfold mcanon in H; rewrite E in H; destruct H; auto).
    apply (close_complete gar n (snd m) n (fst m)); auto. intros r c D. specialize (Z r c D). unfold meden in Z.
    destruct (Ceq_dec (mden n (snd m) r c) C0); auto. exfalso. revert Z. apply Cmul_neq0; auto.
Qed.
Print Assumptions C87_diagonal.
(* With the check, a diagonal entry is close to the root weight or to zero; the first one is close to
   the root weight. *)
Theorem C87_close_partial : forall n m tol r, mcanon n m -> 0 <= tol <= 1 -> isCloseToIdentity m tol [] true = true ->
  (exists z, meden n m r r = (fst m * z)%C /\ nearly_one n tol z) \/
  (Cnorm2 (meden n m r r) <= tol * Cnorm2 (fst m) /\ exists q, (q < n)%nat /\ r q = true).
Proof.
  intros n m tol r H T CL.
  destruct (close_diag tol [] true (proj1 T) n (snd m) n (fst m) r H (proj2 T) eq_refl) as [A|[A B]]; auto.
  - intros []; auto.
  - left. eexists; split; [reflexivity|auto].
  - right. split; auto. unfold meden. rewrite Cnorm2_mul. pose proof (Cnorm2_pos (fst m)). nra.
Qed.
Print Assumptions C87_close_partial.
(* Multiples of the identity, also with ancillary columns cleared, are accepted. *)
Theorem C87_accepts : forall n m anc k tol gar co, mcanon n m -> length anc = n -> 0 <= tol ->
  (forall r c, (agree n r c /\ ~ touches anc n c -> meden n m r c = k) /\
               (~ agree n r c \/ touches anc n c -> meden n m r c = C0)) ->
  isCloseToIdentity m tol gar co = true.
Proof.
  intros n m anc k tol gar co H L T E. subst n.
  destruct (Ceq_dec k C0) as [->|K].
  - replace m with mzero; [reflexivity|]. symmetry. apply (meden_zero_canon (length anc)); auto. intros r c.
    destruct (E r c) as [A B]. destruct (mden_MT_agree (length anc) r c) as [[_ D]|[_ D]]; auto.
    destruct (hit anc (length anc) c) eqn:Hh; [apply B; right; apply hit_iff; auto|apply A; split; auto; apply not_hit; auto].
  - destruct (C85_initial anc) as (e' & Ee & Ce & De).
    assert (M : m = mscale k e').
    { apply (mcanon_unique (length anc)); auto; [apply mcanon_scale; auto|]. intros r c. rewrite meden_scale.
      destruct (E r c) as [A B]. destruct (De r c) as [A' B'].
      destruct (mden_MT_agree (length anc) r c) as [[_ D]|[_ D]]; [|rewrite B, B' by auto; ring].
      destruct (hit anc (length anc) c) eqn:Hh.
      - apply hit_iff in Hh. rewrite B, B' by auto. ring.
      - apply not_hit in Hh. rewrite A, A' by auto. ring. }
    rewrite M. unfold isCloseToIdentity; cbn [mscale snd].
    unfold createInitialMatrix, reduceAncillae in Ee. cbn [snd mone fst] in Ee.
    destruct noneflag; [injection Ee as <-; reflexivity|]. rewrite ezero_1 in Ee.
    eapply (close_raise tol gar co anc T); [| |exact Ee]; [apply C1_neq_C0|reflexivity].
Qed.
Print Assumptions C87_accepts.

(* The weight of the root is never looked at: the zero matrix is close to the identity. *)
Theorem C87_zero_refuted : forall tol gar co, isCloseToIdentity mzero tol gar co = true.
Proof. reflexivity. Qed.
Print Assumptions C87_zero_refuted.
(* Blocks of zeros are accepted anywhere, not only where an ancillary qubit explains them. *)
Definition pw : bool -> bool -> C := fun i j => if i then C0 else if j then C0 else C1.
Definition P0 : mtree := MNode 0 pw (fun _ _ => MT).
Definition dw : bool -> bool -> C := fun i j => if eqb i j then C1 else C0.
Definition three : medge := (C1, MNode 1 dw (fun i j => if i && j then P0 else MT)).
Lemma gt00 : gt 0 0 = false. Proof. apply gt_false; lra. Qed.
Lemma far1 : far_from_one 0 C1 = false.
Proof.
  unfold far_from_one. rewrite Cnorm2_1. unfold carg. rewrite ezero_1. cbn [snd fst C1]. destruct Rle_dec; [|lra].
  unfold Cmod. rewrite Cnorm2_1, sqrt_1. replace (1 / 1) with 1 by field. rewrite acos_1, Rabs_R0.
  replace (1 - 1) with 0 by ring. rewrite Rabs_R0, gt00. auto.
Qed.
Lemma pw_unit : munit pw.
Proof.
  exists (false, false). split; [reflexivity|]. intros [[] []]; cbn; unfold pw; rewrite ?Cnorm2_0, ?Cnorm2_1; lra.
Qed.
Lemma dw_unit : munit dw.
Proof.
  exists (false, false). split; [reflexivity|]. intros [[] []]; cbn; unfold dw; cbn; rewrite ?Cnorm2_0, ?Cnorm2_1; lra.
Qed.
Lemma three_canon : mcanon 2 three.
Proof.
  unfold mcanon; cbn. split; [apply C1_neq_C0|]. split; [lia|]. split; [apply dw_unit|]. split.
  - intros (_ & _ & _ & _ & E). discriminate.
  - intros [] []; cbn; auto. split; [apply C1_neq_C0|]. split; [lia|]. split; [apply pw_unit|]. split; auto.
    intros (_ & _ & _ & E & _). apply C1_neq_C0; auto.
Qed.
Theorem C87_ancilla_refuted : exists n m, mcanon n m /\ isCloseToIdentity m 0 [] true = true /\
  ~ exists anc k, forall r c, (agree n r c /\ ~ touches anc n c -> meden n m r c = k) /\
               (~ agree n r c \/ touches anc n c -> meden n m r c = C0).
Proof.
  exists 2%nat, three. split; [apply three_canon|]. split.
  - unfold isCloseToIdentity. cbn [snd three close nth]. unfold dw; cbn [eqb].
    rewrite Cnorm2_0, Cnorm2_1, gt00, far1. cbn. unfold pw. rewrite Cnorm2_0, gt00, far1. cbn.
    destruct (gt 1 0); reflexivity.
  - intros (anc & k & E).
    set (b11 := fun _ : nat => true).
    assert (Z : meden 2 three b11 b11 = C0) by (unfold meden; cbn; unfold pw, b11; cbn; ring).
    assert (NZ : forall b, b 0%nat = false \/ b 1%nat = false -> meden 2 three b b = C1).
    { intros b. unfold meden; cbn. unfold dw, pw. destruct (b 0%nat), (b 1%nat); cbn; intros []; try discriminate; ring. }
    assert (NT : forall b, b 0%nat = false \/ b 1%nat = false -> ~ touches anc 2 b).
    { intros b B T. pose proof (proj2 (E b b) (or_intror T)) as Q. rewrite NZ in Q by auto. apply C1_neq_C0; auto. }
    assert (K : k = C1).
    { rewrite <- (NZ (fun _ => false)) by auto. symmetry. apply E. split; [intros q _; auto|apply NT; auto]. }
    assert (NT11 : ~ touches anc 2 b11).
    { intros (q & Q & F & _). apply (NT (fun x => Nat.eqb x q)).
      - destruct q as [|[|]]; cbn; auto; lia.
      - exists q. repeat split; auto. apply Nat.eqb_refl. }
    pose proof (proj1 (E b11 b11) (conj (fun q _ => eq_refl) NT11)) as Q. rewrite Z, K in Q.
    apply C1_neq_C0; auto.
Qed.
Print Assumptions C87_ancilla_refuted.
(* A controlled X whose target is garbage is accepted, although it is no operation of the garbage qubit
   alone. *)
Definition cx10 : medge := (C1, MNode 1 dw (fun i j => if i && j then Xnode 0 else MT)).
Theorem C87_garbage_refuted : exists n m gar, mcanon n m /\ isCloseToIdentity m 0 gar true = true /\
  nth_error gar 0 = Some true /\ nth_error gar 1 = Some false /\
  ~ exists w : bool -> bool -> C, forall r c, meden n m r c = if eqb (r 1%nat) (c 1%nat) then w (r 0%nat) (c 0%nat) else C0.
Proof.
  exists 2%nat, cx10, [true; false]. split; [|split; [|split; [|split]]]; auto.
  - unfold mcanon; cbn. split; [apply C1_neq_C0|]. split; [lia|]. split; [apply dw_unit|]. split.
    + intros (_ & _ & _ & _ & E). discriminate.
    + intros [] []; cbn; auto. apply (X_canon 0 1 C1); auto using C1_neq_C0.
  - unfold isCloseToIdentity. cbn [snd cx10 close nth]. unfold dw; cbn [eqb].
    rewrite Cnorm2_0, Cnorm2_1, gt00, far1. cbn. destruct (gt 1 0); reflexivity.
  - intros (w & E).
    pose proof (E (fun _ => false) (fun _ => false)) as A. pose proof (E (fun _ => true) (fun _ => true)) as B.
    pose proof (E (fun q => Nat.eqb q 1) (fun q => Nat.eqb q 1)) as D.
    unfold meden in A, D. cbn in A, D. unfold dw, Xw in A, D. cbn in A, D. rewrite <- A in D.
    apply (f_equal fst) in D. cbn in D. lra.
Qed.
Print Assumptions C87_garbage_refuted.

(* the identity with its upper qubit ancillary is accepted, X is not *)
Example C87_ex : isCloseToIdentity (C1, P0) 0 [] true = true /\ isCloseToIdentity (C1, Xnode 0) 0 [] true = false.
Proof.
  unfold isCloseToIdentity. cbn [snd P0 Xnode close nth]. unfold pw, Xw. cbn [eqb].
  rewrite Cnorm2_0, Cnorm2_1, gt00, far1. split; [reflexivity|].
  replace (gt 1 0) with true by (symmetry; apply gt_true; lra). reflexivity.
Qed.
