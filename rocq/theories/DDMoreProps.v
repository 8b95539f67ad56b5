(* Kronecker products, traces and transfers of decision diagrams: properties C19-C21. *)
From Coq Require Import Reals Lra Psatz List Bool Arith Lia FunctionalExtensionality.
From Verif Require Import Cplx Qsem DDModel DDSpec DDProofs DDCanonProofs DDOpsProofs DDGateProofs DDStateProofs
  DDMoreModel DDKronProofs DDTraceProofs DDTransferProofs.
Import ListNotations.
Local Open Scope R_scope.

(* ---- small concrete operators -------------------------------------------------------------- *)
Definition w4 (a b c d : C) : bool -> bool -> C := fun i j => if i then (if j then d else c) else (if j then b else a).
Definition s4 (a b c d : mtree) : bool -> bool -> mtree := fun i j => if i then (if j then d else c) else (if j then b else a).
(* X and |0><0| on qubit v *)
Definition xat (v : nat) : mtree := MNode v (w4 C0 C1 C1 C0) (s4 MT MT MT MT).
Definition pat (v : nat) : mtree := MNode v (w4 C1 C0 C0 C0) (s4 MT MT MT MT).
Lemma ezero_C0 : ezero C0 = true. Proof. apply ezero_true; auto. Qed.
Lemma ezero_C1 : ezero C1 = false. Proof. apply ezero_false, C1_neq_C0. Qed.
Lemma Cnorm2_C0 : Cnorm2 C0 = 0. Proof. unfold Cnorm2; cbn; ring. Qed.
Lemma Cnorm2_C1 : Cnorm2 C1 = 1. Proof. unfold Cnorm2; cbn; ring. Qed.
Lemma munit_x : munit (w4 C0 C1 C1 C0).
Proof.
  exists (false, true). split; [reflexivity|]. intros [[] []]; cbn; rewrite ?Cnorm2_C0, ?Cnorm2_C1; lra.
Qed.
Lemma munit_p a b c : (Cnorm2 a <= 1) -> (Cnorm2 b <= 1) -> (Cnorm2 c <= 1) -> munit (w4 C1 a b c).
Proof.
  intros A B D. exists (false, false). split; [reflexivity|]. intros [[] []]; cbn; rewrite ?Cnorm2_C1; lra.
Qed.
Lemma xat_can v n w : (v < n)%nat -> w <> C0 -> mcan n w (xat v).
Proof.
  intros H W. cbn. split; [auto|]. split; [auto|]. split; [apply munit_x|]. split.
  - intros (E & _). cbn in E. apply C1_neq_C0; auto.
  - intros [] []; cbn; auto.
Qed.
Lemma pat_can v n w : (v < n)%nat -> w <> C0 -> mcan n w (pat v).
Proof.
  intros H W. cbn. split; [auto|]. split; [auto|]. split; [apply munit_p; rewrite Cnorm2_C0; lra|]. split.
  - intros (_ & _ & _ & E & _). cbn in E. apply C1_neq_C0; auto.
  - intros [] []; cbn; auto.
Qed.

Lemma Forall2_imp {A B} (P Q : A -> B -> Prop) l r : (forall a b, P a b -> Q a b) -> Forall2 P l r -> Forall2 Q l r.
Proof. intros H F. induction F; constructor; auto. Qed.

(** ** C19: Kronecker products *)
(* vectors: every sequence of calls against one compute table *)
Lemma vkron_calls_spec : forall l c, VI c ->
  Forall (fun xy : vedge * vedge => exists m n, vcanon m (fst xy) /\ vcanon n (snd xy)) l ->
  Forall2 (fun xy r => forall m n, vcanon m (fst xy) -> vcanon n (snd xy) -> vcanon (n + m) r /\
      forall b, veden r b = (veden (fst xy) (shift n b) * veden (snd xy) b)%C)
    l (snd (vkron_calls c l)).
Proof.
  induction l as [|[x y] l IH]; intros c HI F; cbn [vkron_calls]; [constructor|].
  inversion F as [|? ? (m & n & Hx & Hy) F']; subst. cbn [fst snd] in *.
  destruct (vkron c (fst x) (snd x) y true) as [c1 e] eqn:E.
  destruct (vkron_calls c1 l) as [c2 es] eqn:E2. cbn [snd].
  pose proof (vkron_spec (snd x) m (fst x) c y n Hx Hy HI) as S1. rewrite E in S1. destruct S1 as (HI1 & _).
  constructor.
  - intros m' n' Hx' Hy'. pose proof (vkron_spec (snd x) m' (fst x) c y n' Hx' Hy' HI) as S2. rewrite E in S2.
    destruct S2 as (_ & A & _ & B). split; [auto|]. intros b. rewrite B. cbn [fst snd]. unfold veden. ring.
  - specialize (IH c1 HI1 F'). rewrite E2 in IH. exact IH.
Qed.
Theorem C19_vectors : forall l : list (vedge * vedge),
  Forall (fun xy => exists m n, vcanon m (fst xy) /\ vcanon n (snd xy)) l ->
  Forall2 (fun xy r => forall m n, vcanon m (fst xy) -> vcanon n (snd xy) -> vcanon (n + m) r /\
      forall b, veden r b = (veden (fst xy) (fun q => b (n + q)%nat) * veden (snd xy) b)%C)
    l (snd (vkron_calls [] l)).
Proof.
  intros l F. pose proof (vkron_calls_spec l [] (fun _ _ _ H => match H with end) F) as H.
  eapply Forall2_imp; [|exact H]. cbn beta. intros xy r K m n Hx Hy. destruct (K m n Hx Hy) as [A B].
  split; [auto|]. intros b. rewrite B. reflexivity.
Qed.
Print Assumptions C19_vectors.
(* matrices: right for every sequence of calls in which non-identity right factors have a node for their
   topmost qubit and identities are all declared with the same width K.  Missing: the rest, where the
   property is false (below). *)
Lemma mkron_calls_spec K : forall l c, MI K c ->
  Forall (fun xyn : medge * medge * nat => let '(x, y, n) := xyn in
     n = width K (snd y) /\ exists m, mcanon m x /\ mcanon n y) l ->
  Forall2 (fun xyn r => let '(x, y, n) := xyn in forall m, mcanon m x -> mcanon (n + m) r /\
      forall b d, meden (n + m) r b d = (meden m x (shift n b) (shift n d) * meden n y b d)%C)
    l (snd (mkron_calls c l)).
Proof.
  induction l as [|[[x y] n] l IH]; intros c HI F; cbn [mkron_calls]; [constructor|].
  inversion F as [|? ? F0 F']; subst. cbv beta iota in F0. destruct F0 as (Hn & m & Hx & Hy). subst n.
  destruct (mkron c (fst x) (snd x) y (width K (snd y)) true) as [c1 e] eqn:E.
  destruct (mkron_calls c1 l) as [c2 es] eqn:E2. cbn [snd].
  pose proof (mkron_spec K (snd x) m (fst x) c y _ Hx Hy eq_refl HI) as S1. rewrite E in S1. destruct S1 as (HI1 & _).
  constructor.
  - intros m' Hx'. pose proof (mkron_spec K (snd x) m' (fst x) c y _ Hx' Hy eq_refl HI) as S2. rewrite E in S2.
    destruct S2 as (_ & A & _ & B). split; [auto|]. intros b d. rewrite B. unfold meden. ring.
  - specialize (IH c1 HI1 F'). rewrite E2 in IH. exact IH.
Qed.
Theorem C19_matrices_partial : forall K (l : list (medge * medge * nat)),
  Forall (fun xyn => let '(x, y, n) := xyn in
     n = match snd y with MT => K | MNode v _ _ => S v end /\ exists m, mcanon m x /\ mcanon n y) l ->
  Forall2 (fun xyn r => let '(x, y, n) := xyn in forall m, mcanon m x -> mcanon (n + m) r /\
      forall b d, meden (n + m) r b d =
        (meden m x (fun q => b (n + q)%nat) (fun q => d (n + q)%nat) * meden n y b d)%C)
    l (snd (mkron_calls [] l)).
Proof.
  intros K l F. pose proof (mkron_calls_spec K l [] (fun _ _ _ H => match H with end) F) as H.
  eapply Forall2_imp; [|exact H]. cbn beta. intros [[x y] n] r A m Hx. destruct (A m Hx) as [B D].
  split; [auto|]. intros b d. rewrite D. reflexivity.
Qed.
Print Assumptions C19_matrices_partial.

Lemma mden_xat0 b d : mden 1 (xat 0) b d = if eqb (b 0%nat) (d 0%nat) then C0 else C1.
Proof. cbn. destruct (b 0%nat), (d 0%nat); cbn; ring. Qed.
(* the first product of X with the identity on one qubit *)
Lemma xi_first : exists e, mkron [] C1 (xat 0) mone 1 true = ([(xat 0, MT, e)], ((C1 * C1)%C, snd e)) /\ mlev 2 (snd e).
Proof.
  unfold xat. cbn [mkron w4 s4 mone fst snd mkfind orb]. rewrite ezero_C0, ezero_C1. cbn [orb fst snd].
  eexists. split; [reflexivity|]. apply (mmk_wf 1). intros [] []; cbn; auto.
Qed.
(** The compute table is keyed by the two nodes only: after kronecker(X, I, 1) the call kronecker(X, I, 2)
    answers from the table with the operator on the wrong qubit. *)
Theorem C19_history_refuted : exists x y r1 r2, mcanon 1 x /\ mcanon 1 y /\ mcanon 2 y /\
  snd (mkron_calls [] [((x, y), 1%nat); ((x, y), 2%nat)]) = [r1; r2] /\
  snd (mkron_calls [] [((x, y), 2%nat)]) <> [r2] /\
  exists b d, meden 3 r2 b d <> (meden 1 x (fun q => b (2 + q)%nat) (fun q => d (2 + q)%nat) * meden 2 y b d)%C.
Proof.
  destruct xi_first as (e & E & L).
  set (b := fun q : nat => Nat.eqb q 2). set (d := fun _ : nat => false).
  assert (W : meden 3 ((C1 * C1)%C, snd e) b d <>
     (meden 1 (C1, xat 0) (fun q => b (2 + q)%nat) (fun q => d (2 + q)%nat) * meden 2 mone b d)%C).
  { unfold meden. cbn [fst snd mone]. rewrite mden_xat0, mden_lift by auto. cbn. intros H. apply C1_neq_C0.
    transitivity (C1 * C1 * (C1 * C1))%C; [ring|]. rewrite <- H. ring. }
  exists (C1, xat 0), mone, ((C1 * C1)%C, snd e), ((C1 * C1)%C, snd e).
  split; [apply xat_can; auto using C1_neq_C0|]. split; [apply mcanon_T|]. split; [apply mcanon_T|]. split; [|split].
  - cbn [mkron_calls fst snd]. rewrite E. unfold xat. cbn [mkron mkfind fst snd mone].
    rewrite ezero_C1. cbn [orb]. destruct (mtree_eq_dec _ _) as [_|N]; [|exfalso; apply N; auto].
    destruct (mtree_eq_dec _ _) as [_|N]; [|exfalso; apply N; auto]. reflexivity.
  - pose proof (C19_matrices_partial 2 [(((C1, xat 0) : medge), mone, 2%nat)]) as H. intros Q. rewrite Q in H.
    assert (F : Forall2 (fun xyn r => let '(x, y, n) := xyn in forall m, mcanon m x -> mcanon (n + m) r /\
      forall b d, meden (n + m) r b d =
        (meden m x (fun q => b (n + q)%nat) (fun q => d (n + q)%nat) * meden n y b d)%C)
      [(((C1, xat 0) : medge), mone, 2%nat)] [((C1 * C1)%C, snd e)]).
    { apply H. constructor; auto. split; [reflexivity|]. exists 1%nat. split; [apply xat_can; auto using C1_neq_C0|apply mcanon_T]. }
    inversion F as [|? ? ? ? K _]; subst. destruct (K 1%nat) as [_ D]; [apply xat_can; auto using C1_neq_C0|].
    apply W. apply D.
  - exists b, d. exact W.
Qed.
Print Assumptions C19_history_refuted.
(** A right factor whose topmost declared qubit carries no node shifts the left factor too little: the
    number of qubits is read off the node, not off the argument. *)
Theorem C19_width_refuted : exists x y r, mcanon 1 x /\ mcanon 2 y /\
  snd (mkron_calls [] [((x, y), 2%nat)]) = [r] /\
  exists b d, meden 3 r b d <> (meden 1 x (fun q => b (2 + q)%nat) (fun q => d (2 + q)%nat) * meden 2 y b d)%C.
Proof.
  assert (X : forall n, (0 < n)%nat -> mcanon n (C1, xat 0)) by (intros n Hn; apply xat_can; auto using C1_neq_C0).
  destruct (mkron [] C1 (xat 0) (C1, xat 0) 2 true) as [c r] eqn:E.
  assert (E1 : mkron [] C1 (xat 0) (C1, xat 0) 1 true = (c, r)).
  { rewrite <- E. unfold xat. cbn [mkron w4 s4]. cbn [fst snd mkfind]. reflexivity. }
  exists (C1, xat 0), (C1, xat 0), r. split; [auto|]. split; [auto|]. split; [cbn [mkron_calls fst snd]; rewrite E; auto|].
  pose proof (mkron_spec 0 (xat 0) 1 C1 [] (C1, xat 0) 1 (X 1%nat ltac:(lia)) (X 1%nat ltac:(lia)) eq_refl
    (fun _ _ _ H => match H with end)) as S1. rewrite E1 in S1. destruct S1 as (_ & Ca & _ & _).
  set (b := fun q : nat => Nat.eqb q 2 || Nat.eqb q 0). set (d := fun _ : nat => false).
  exists b, d. unfold meden. pose proof (mcanon_wf _ _ Ca) as L. cbn [Nat.add] in L. rewrite (mden_lift 2) by exact L.
  cbn [fst snd]. rewrite mden_xat0, (mden_lift 1 (xat 0)) by exact (mcanon_wf 1 (C1, xat 0) (X 1%nat ltac:(lia))). rewrite mden_xat0. cbn. intros H.
  apply C1_neq_C0. transitivity (C1 * C1 * (C1 * C1))%C; [ring|]. rewrite <- H. ring.
Qed.
Print Assumptions C19_width_refuted.
(* the table is hit: the second product reuses the entry of the first and scales it *)
Example C19_ex : exists r1 r2, snd (mkron_calls [] [((C1, xat 0), (C1, xat 0), 1%nat); ((RtoC 2, xat 0), (RtoC 3, xat 0), 1%nat)]) = [r1; r2] /\
  snd r1 = snd r2 /\ meden 2 r2 (fun _ => true) (fun _ => false) = RtoC 6.
Proof.
  assert (R2 : RtoC 2 <> C0) by (intros H; injection H as H; lra). assert (R3 : RtoC 3 <> C0) by (intros H; injection H as H; lra).
  pose proof (C19_matrices_partial 0 [((C1, xat 0), (C1, xat 0), 1%nat); ((RtoC 2, xat 0), (RtoC 3, xat 0), 1%nat)]) as H.
  assert (F0 : forall w w' : C, w <> C0 -> w' <> C0 -> 1%nat = match snd (w', xat 0) with MT => 0%nat | MNode v _ _ => S v end /\
    exists m, mcanon m (w, xat 0) /\ mcanon 1 (w', xat 0)).
  { intros w w' Hw Hw'. split; [auto|]. exists 1%nat. split; apply xat_can; auto. }
  match type of H with ?P -> _ => assert (P0 : P) end.
  { apply Forall_cons; [apply (F0 C1 C1); auto using C1_neq_C0|]. apply Forall_cons; [apply (F0 (RtoC 2) (RtoC 3)); auto|]. apply Forall_nil. }
  specialize (H P0).
  destruct (mkron [] C1 (xat 0) (C1, xat 0) 1 true) as [c r] eqn:E.
  assert (HC : exists e, mkfind c (xat 0) (xat 0) = Some e /\ snd r = snd e).
  { unfold xat in E. cbn [mkron mkfind fst snd w4 s4] in E. rewrite ezero_C0, ezero_C1 in E. cbn [orb] in E.
    injection E as <- <-. eexists. split.
    { cbn [mkfind]. unfold xat. destruct (mtree_eq_dec _ _) as [_|N]; [reflexivity|exfalso; apply N; auto]. }
    reflexivity. }
  destruct HC as (e & F & Se).
  assert (E2 : mkron c (RtoC 2) (xat 0) (RtoC 3, xat 0) 1 true = (c, ((RtoC 2 * RtoC 3)%C, snd e))).
  { unfold xat in *. cbn [mkron fst snd]. rewrite F. apply ezero_false in R2, R3. rewrite R2, R3. reflexivity. }
  cbn [mkron_calls fst snd] in *. rewrite E, E2 in *. cbn [snd] in *. eexists. eexists. split; [reflexivity|].
  split; [exact Se|]. inversion H as [|? ? ? ? _ H2]; subst. inversion H2 as [|? ? ? ? H3 _]; subst.
  destruct (H3 1%nat) as [_ D]; [apply xat_can; auto|]. cbn [Nat.add] in D. rewrite D. unfold meden. cbn [fst snd].
  rewrite !mden_xat0. cbn. unfold RtoC, Cmul, C1; cbn. f_equal; ring.
Qed.

(** ** C20: traces *)
(* The partial trace over an arbitrary set of qubits, provided every node of a kept qubit has a node for
   each eliminated qubit above it.  Missing: operators skipping an eliminated level above a kept node,
   for which the property is false (below). *)
Theorem C20_partial_trace_partial : forall el n a, mcanon n a -> (n <= length el)%nat -> trok el 0 (snd a) ->
  exists e, partialTrace a el = DOk e /\ mcan0 (kept el n) e /\
    forall r c x, meden (kept el n) e r c = esum el n (fun y => meden n a (ext el r y) (ext el c y)) x.
Proof. intros. apply partialTrace_spec; auto. Qed.
Print Assumptions C20_partial_trace_partial.
(* tracing out the lowest k qubits is always right *)
Theorem C20_lowest : forall k n a, (k <= n)%nat -> mcanon n a ->
  exists e, partialTrace a (low k n) = DOk e /\
    forall r c x, meden (kept (low k n) n) e r c = esum (low k n) n (fun y => meden n a (ext (low k n) r y) (ext (low k n) c y)) x.
Proof.
  intros k n a H Ca. destruct (C20_partial_trace_partial (low k n) n a Ca) as (e & E & _ & D).
  - rewrite low_length; auto.
  - eapply trok_low. exact (mcanon_wf _ _ Ca).
  - exists e. auto.
Qed.
Print Assumptions C20_lowest.
(* and so is the full trace *)
Theorem C20_trace : forall n a x, mcanon n a -> trace a n = DOk (RtoC (/ 2 ^ n) * bsum n (fun b => meden n a b b) x)%C.
Proof. exact trace_spec. Qed.
Print Assumptions C20_trace.
(** Tracing out qubit 1 of X on qubit 0 (whose diagram skips qubit 1) wraps the node index below zero. *)
Theorem C20_skipped_refuted : exists el a, mcanon 2 a /\ length el = 2%nat /\ partialTrace a el = DUb.
Proof.
  exists [false; true], (C1, xat 0). split; [apply xat_can; auto using C1_neq_C0|]. split; [reflexivity|].
  unfold partialTrace, xat. cbn -[ezero]. rewrite ezero_C0, ezero_C1. cbn. reflexivity.
Qed.
Print Assumptions C20_skipped_refuted.
(** With more kept qubits below, the result is wrong without any sign: X on qubit 1 of three, tracing out
    qubit 2, gives X on qubit 0. *)
Theorem C20_shifted_refuted : exists el a e b d, mcanon 3 a /\ length el = 3%nat /\ partialTrace a el = DOk e /\
  esum el 3 (fun y => meden 3 a (ext el b y) (ext el d y)) b = C1 /\ meden 2 e b d = C0.
Proof.
  exists [false; false; true], (C1, xat 1). eexists. exists (Nat.testbit 2), (Nat.testbit 0).
  split; [apply xat_can; auto using C1_neq_C0|]. split; [reflexivity|]. split.
  { unfold partialTrace, xat. cbn -[ezero mmk]. rewrite ezero_C0, ezero_C1. cbn -[mmk]. reflexivity. }
  split.
  - unfold meden, esum, ext, elim. cbn. unfold RtoC, Cmul, Cadd, C1, C0; cbn. f_equal; field.
  - unfold meden. cbn [fst snd].
    match goal with |- context [mden 2 (snd (mmk 0 ?f)) _ _] => set (g := f); assert (L : mlev 1 (snd (mmk 0 g))) by
      (apply (mmk_wf 0); intros [] []; cbn; auto) end.
    rewrite (mden_lift 1) by exact L. cbn. ring.
Qed.
Print Assumptions C20_shifted_refuted.
Example C20_ex : trace (C1, pat 1) 2 = DOk (RtoC (/ 2)).
Proof.
  rewrite (C20_trace 2 _ (fun _ => false)) by (apply pat_can; auto using C1_neq_C0). f_equal.
  unfold bsum, meden. cbn. unfold RtoC, Cmul, Cadd, C1, C0; cbn. f_equal; field.
Qed.
Example C20_ex_lowest : exists e, partialTrace (C1, pat 0) (low 1 2) = DOk e /\
  meden 1 e (fun _ => true) (fun _ => true) = RtoC (/ 2) /\ meden 1 e (fun _ => true) (fun _ => false) = C0.
Proof.
  destruct (C20_lowest 1 2 (C1, pat 0)) as (e & E & D); [lia|apply pat_can; auto using C1_neq_C0|]. exists e. split; [auto|].
  change (kept (low 1 2) 2) with 1%nat in D.
  split; rewrite (D _ _ (fun _ => false)); unfold esum, meden, ext, elim, low; cbn;
    unfold RtoC, Cmul, Cadd, C1, C0; cbn; f_equal; field.
Qed.

(** ** C21: transfer between packages *)
(* Vectors of three or more qubits are transferred faithfully; shorter ones either are, or the traversal
   reads the top of an empty stack.  Missing: those, and matrices, where the property is false (below). *)
Theorem C21_vectors_partial : forall n e, vcanon n e -> vtransfers e e \/ (vtransfer_ub e /\ (n <= 2)%nat).
Proof. exact vtransfer_spec. Qed.
Print Assumptions C21_vectors_partial.
Theorem C21_three_qubits : forall n e, (3 <= n)%nat -> vcanon n e -> vtransfers e e.
Proof. intros n e H Ca. destruct (vtransfer_spec n e Ca) as [|[_ L]]; [auto|lia]. Qed.
Print Assumptions C21_three_qubits.
(* the outcome of a transfer is unique, so the faithful result above is the only one *)
Lemma titer_done k : forall r, vtiter k (Done r) = Done r. Proof. induction k; cbn; auto. Qed.
Lemma titer_stuck k : vtiter k Stuck = Stuck. Proof. induction k; cbn; auto. Qed.
Theorem C21_unique : forall e r r', vtransfers e r -> (vtransfers e r' -> r = r') /\ ~ vtransfer_ub e.
Proof.
  intros e r r'. unfold vtransfers, vtransfer_ub. destruct (snd e) as [|v w s].
  - intros ->. split; [auto|]. intros [N _]; auto.
  - intros (n & p & N & ->). split.
    + intros (n' & p' & N' & ->). destruct (Nat.le_ge_cases n n') as [L|L].
      * replace n' with (n + (n' - n))%nat in N' by lia. rewrite titer_add, N, titer_done in N'. injection N' as ->; auto.
      * replace n with (n' + (n - n'))%nat in N by lia. rewrite titer_add, N', titer_done in N. injection N as ->; auto.
    + intros [_ (n' & N')]. destruct (Nat.le_ge_cases n n') as [L|L].
      * replace n' with (n + (n' - n))%nat in N' by lia. rewrite titer_add, N, titer_done in N'. discriminate.
      * replace n with (n' + (n - n'))%nat in N by lia. rewrite titer_add, N', titer_stuck in N. discriminate.
Qed.
Print Assumptions C21_unique.

(* |+> on one qubit *)
Definition plus : vtree := VNode 0 (fun _ => RtoC s22) (fun _ => VT).
Lemma plus_canon : vcanon 1 (C1, plus).
Proof.
  cbn. split; [apply C1_neq_C0|]. split; [auto|]. split; [|intros []; cbn; auto].
  split.
  - unfold Cnorm2, RtoC; cbn. pose proof s22_sq. lra.
  - exists s22. split; [|auto]. apply s22_pos.
Qed.
(** Transferring |+> on one qubit reads the top of an empty stack. *)
Theorem C21_small_refuted : exists e, vcanon 1 e /\ vtransfer_ub e.
Proof.
  exists (C1, plus). split; [apply plus_canon|]. split; [discriminate|]. exists 3%nat.
  assert (Z : ezero (RtoC s22) = false).
  { apply ezero_false. intros H. injection H as H. pose proof s22_sq. rewrite H in *. lra. }
  unfold vtiter, vtransfer_start, plus. cbn [titer tstep snd vsucc tl pushed filter map app].
  unfold isterm. destruct (vtree_eq_dec (VNode 0 _ _) VT) as [|_]; [discriminate|].
  destruct (vtree_eq_dec VT VT) as [_|N]; [|congruence]. cbn [titer tstep snd vsucc tl negb andb filter map app].
  unfold isterm. destruct (vtree_eq_dec VT VT) as [_|N]; [|congruence].
  cbn [titer tstep snd vsucc tl has_child fst tmem tfind]. rewrite Z. reflexivity.
Qed.
Print Assumptions C21_small_refuted.

(* a three-qubit operator: block rows (A, X0; P0, 0) with A = |0><0| (x) X *)
Definition tB := xat 0.
Definition tC := pat 0.
Definition tA := MNode 1 (w4 C1 C0 C0 C0) (s4 tB MT MT MT).
Definition tR := MNode 2 (w4 C1 C1 C1 C0) (s4 tA tB tC MT).
Lemma tA_can n w : (1 < n)%nat -> w <> C0 -> mcan n w tA.
Proof.
  intros H W. cbn [mcan tA]. split; [auto|]. split; [auto|]. split; [apply munit_p; rewrite Cnorm2_C0; lra|]. split.
  - intros (_ & _ & _ & E & _). cbn in E. apply C1_neq_C0; auto.
  - intros [] []; [exact Logic.I|exact Logic.I|exact Logic.I|]. apply xat_can; [lia|apply C1_neq_C0].
Qed.
Lemma tR_can : mcan 3 C1 tR.
Proof.
  cbn [mcan tR]. split; [apply C1_neq_C0|]. split; [auto|]. split; [apply munit_p; rewrite ?Cnorm2_C0, ?Cnorm2_C1; lra|]. split.
  - intros (_ & E & _). cbn in E. apply C1_neq_C0; auto.
  - intros [] []; [exact Logic.I|apply pat_can|apply xat_can|apply tA_can]; auto using C1_neq_C0.
Qed.
Lemma BC : tB <> tC. Proof. intros H. injection H as H. apply (f_equal (fun f => f false false)) in H. cbn in H. apply C1_neq_C0; auto. Qed.
Lemma mrebuild_id v w s : mcan (S v) C1 (MNode v w s) ->
  mrebuild (MNode v w s) (msucc (MNode v w s)) = (C1, MNode v w s).
Proof.
  intros Ca. pose proof Ca as (_ & _ & U & NI & H). apply (mcanon_unique (S v)).
  - cbn [mrebuild msucc]. rewrite mmkE_mmk. apply mmk_canon. intros [] []; right; apply H.
  - exact Ca.
  - intros r c. cbn [mrebuild msucc]. rewrite mmkE_mmk, mmk_den.
    + unfold meden. cbn [fst snd mden]. rewrite Nat.eqb_refl. destruct (r v), (c v); cbn [m4 fst snd]; ring.
    + intros [] []; apply mcanon_wf; apply H.
Qed.
Lemma neqs : tA <> tR /\ tB <> tR /\ tC <> tR /\ tB <> tA /\ tC <> tA /\ tR <> MT /\ tA <> MT /\ tB <> MT /\ tC <> MT /\
  MT <> tR /\ MT <> tA /\ MT <> tB /\ MT <> tC.
Proof. repeat split; intros H; discriminate H. Qed.
Ltac decs := repeat match goal with |- context [mtree_eq_dec ?a ?b] =>
  let E := fresh in destruct (mtree_eq_dec a b) as [E|E]; [try (exfalso; congruence)|try (exfalso; congruence)] end.
Definition rA : medge := mrebuild tR [(C1, tA); (C1, tB); (C1, MT); (C0, MT)].
Lemma sR : msucc tR = [(C1, tA); (C1, tB); (C1, tC); (C0, MT)]. Proof. reflexivity. Qed.
Lemma sA : msucc tA = [(C1, tB); (C0, MT); (C0, MT); (C0, MT)]. Proof. reflexivity. Qed.
Lemma sB : msucc tB = [(C0, MT); (C1, MT); (C1, MT); (C0, MT)]. Proof. reflexivity. Qed.
Lemma sC : msucc tC = [(C1, MT); (C0, MT); (C0, MT); (C0, MT)]. Proof. reflexivity. Qed.
Lemma reB : mrebuild tB [(C0, MT); (C1, MT); (C1, MT); (C0, MT)] = (C1, tB).
Proof. rewrite <- sB. apply mrebuild_id. apply xat_can; auto using C1_neq_C0. Qed.
Lemma reA : mrebuild tA [(C1, tB); (C0, MT); (C0, MT); (C0, MT)] = (C1, tA).
Proof. rewrite <- sA. apply mrebuild_id. apply tA_can; auto using C1_neq_C0. Qed.
Ltac simp := rewrite ?sR, ?sA, ?sB, ?sC;
  cbn [tstep finish tl filter map app has_child tfind map_succ fst snd negb andb orb];
  unfold pushed, isterm, tmem; rewrite ?sR, ?sA, ?sB, ?sC;
  cbn [tstep finish tl filter map app has_child tfind map_succ fst snd negb andb orb]; decs;
  rewrite ?ezero_C0, ?ezero_C1, ?reA, ?reB.
Ltac mst := pose proof neqs as (?&?&?&?&?&?&?&?&?&?&?&?&?); pose proof BC; pose proof (not_eq_sym BC); unfold mtstep;
  repeat (progress simp); try reflexivity.
Lemma run1 : mtstep (Down tR [] [] mzero) = Down tA [tR; tB; tC] [] mzero. Proof. mst. Qed.
Lemma run2 : mtstep (Down tA [tR; tB; tC] [] mzero) = Down tB [tA; tR; tB; tC] [] mzero. Proof. mst. Qed.
Lemma run3 : mtstep (Down tB [tA; tR; tB; tC] [] mzero) = Down MT [tB; tA; tR; tB; tC] [] mzero. Proof. mst. Qed.
Lemma run4 : mtstep (Down MT [tB; tA; tR; tB; tC] [] mzero) = Up [tB; tA; tR; tB; tC] [] mzero. Proof. mst. Qed.
Lemma run5 : mtstep (Up [tB; tA; tR; tB; tC] [] mzero) = Up [tA; tR; tB; tC] [(tB, tB)] (C1, tB). Proof. mst. Qed.
Lemma run6 : mtstep (Up [tA; tR; tB; tC] [(tB, tB)] (C1, tB)) = Up [tR; tB; tC] [(tA, tA); (tB, tB)] (C1, tA). Proof. mst. Qed.
(* here the node for |0><0| has not been transferred yet: a null pointer is entered for it *)
Lemma run7 : mtstep (Up [tR; tB; tC] [(tA, tA); (tB, tB)] (C1, tA)) =
  Up [tB; tC] [(tR, snd rA); (tC, MT); (tA, tA); (tB, tB)] rA. Proof. mst. Qed.
Lemma run8 : mtstep (Up [tB; tC] [(tR, snd rA); (tC, MT); (tA, tA); (tB, tB)] rA) =
  Up [tC] [(tR, snd rA); (tC, MT); (tA, tA); (tB, tB)] rA. Proof. mst. Qed.
Lemma run9 : mtstep (Up [tC] [(tR, snd rA); (tC, MT); (tA, tA); (tB, tB)] rA) = Done rA. Proof. mst. Qed.
(** A successor that is reached inside an earlier successor stays on the stack and hides the next one: the
    transferred operator has the identity in place of |0><0|. *)
Theorem C21_matrix_refuted : exists e r, mcanon 3 e /\ mtransfers e r /\
  exists b d, meden 3 e b d = C0 /\ meden 3 r b d = C1.
Proof.
  exists (C1, tR), ((C1 * fst rA)%C, snd rA). split; [apply tR_can|]. split.
  - unfold mtransfers. cbn [snd fst]. unfold tR at 1. exists 9%nat, rA. split; [|reflexivity].
    unfold mtransfer_start. cbn [snd]. assert (TS : forall n s, mtiter (S n) s = mtiter n (mtstep s)) by reflexivity.
    rewrite TS, run1, TS, run2, TS, run3, TS, run4, TS, run5, TS, run6, TS, run7, TS, run8, TS, run9. reflexivity.
  - exists (Nat.testbit 5), (Nat.testbit 1). split.
    + unfold meden. cbn. ring.
    + assert (M : meden 3 ((C1 * fst rA)%C, snd rA) (Nat.testbit 5) (Nat.testbit 1) = meden 3 rA (Nat.testbit 5) (Nat.testbit 1)).
      { unfold meden; cbn [fst snd]. ring. }
      rewrite M. unfold rA, tR. cbn [mrebuild]. rewrite mmkE_mmk, (mmk_den 2).
      * unfold meden. cbn. ring.
      * intros [] []; cbn [m4]; apply mcanon_wf; [exact Logic.I|exact Logic.I|apply xat_can|apply tA_can]; auto using C1_neq_C0.
Qed.
Print Assumptions C21_matrix_refuted.
(* the three-qubit GHZ state *)
Example C21_ex : exists e, makeGHZState 3 3 = DOk e /\ vtransfers e e.
Proof.
  destruct (makeGHZState_spec 3 3 ltac:(lia) ltac:(lia)) as (e & E & Ca & D). exists e. split; [auto|].
  apply (C21_three_qubits 3); auto.
Qed.
