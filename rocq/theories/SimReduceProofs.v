(* Functionality and simulation with ancillary and garbage qubits: proofs. *)
From Coq Require Import Reals Lra List Bool Arith Lia FunctionalExtensionality.
From Verif Require Import Cplx Qsem GateModel GateSpec IRModel OptModel OptElideProofs DDModel DDSpec DDProofs DDCanonProofs DDOpsProofs
  SimModel SimOpProofs SimPermProofs SimLoopProofs DDReduceModel DDReduceSpec DDReduceProofs DDGarbageProofs DDGarbageMProofs
  DDReduceProps SimReduceModel.
Import ListNotations.

(* two matrices are relayouted alike *)
Lemma cp_same_matrix n to : forall from e v, cp_ok n from to -> mcanon n e -> mcanon n v ->
  exists sg from' e' v', cp_loop n multiplyMM to from e = DOk (from', e') /\ cp_loop n multiplyMM to from v = DOk (from', v') /\
    mcanon n e' /\ mcanon n v' /\ moved_l n sg e e' /\ moved_l n sg v v'.
Proof.
  intros from e v K E V.
  set (mul := fun s (x : medge * medge) => dbind (multiplyMM s (fst x)) (fun a => dbind (multiplyMM s (snd x)) (fun b => DOk (a, b)))).
  destruct (cp_loop_spec n mul (fun x => mcanon n (fst x) /\ mcanon n (snd x)) (fun sg x y => moved_l n sg (fst x) (fst y) /\ moved_l n sg (snd x) (snd y)))
    with (to := to) (from := from) (on := (e, v)) as (sg & f & [e' v'] & X & [C1 C2] & [M1 M2] & P & _); auto.
  - intros s x y [a b] Cs Ds N [Ca Cb]. cbn [fst snd] in *.
    destruct (mm_spec n s a Cs Ca) as (r & E1 & Cr & D1). destruct (mm_spec n s b Cs Cb) as (r2 & E2 & Cr2 & D2).
    exists (r, r2). unfold mul. cbn [fst snd]. rewrite E1. cbn [dbind]. rewrite E2. cbn [dbind]. split; [auto|]. split; [auto|].
    split; [intros psi; rewrite D1; apply Ds|intros psi; rewrite D2; apply Ds].
  - intros x _. split; intros psi; reflexivity.
  - intros s t a b c [H1 H2] [H3 H4]. split; intros psi; [rewrite H3, H1|rewrite H4, H2]; apply move_move.
  - exists sg, f, e', v'. cbn [fst snd] in *.
    assert (G : forall to from e v f e' v', cp_loop n mul to from (e, v) = DOk (f, (e', v')) ->
      cp_loop n multiplyMM to from e = DOk (f, e') /\ cp_loop n multiplyMM to from v = DOk (f, v')).
    { clear. induction to as [|[i goal] to IH]; intros from e v f e' v' H; cbn [cp_loop] in *; [injection H as <- <- <-; auto|].
      destruct (plookup from i); [|discriminate]. destruct (Nat.eqb _ _); [auto|].
      destruct (plookup from (find_val from goal)); [|discriminate]. destruct (makeTwoQubitGateDD _ _ _ _ _) as [s| |]; cbn [dbind] in *; try discriminate.
      unfold mul in H at 1. cbn [fst snd] in H. destruct (multiplyMM s e) as [a| |]; cbn [dbind] in *; try discriminate.
      destruct (multiplyMM s v) as [b| |]; cbn [dbind] in *; try discriminate. auto. }
    destruct (G _ _ _ _ _ _ _ X). auto 10.
Qed.
Lemma change_zero n p to sg e e' : moved_l n sg e e' ->
  match snd e with MT => ezero (fst e) | _ => false end = true ->
  changePermutationM n true e p to = DOk (p, e) /\ moved_l n sg e e.
Proof.
  intros _ Z. unfold changePermutationM. rewrite Z. split; auto. intros psi. destruct e as [w t]. cbn in Z. destruct t; [|discriminate].
  unfold ezero in Z. destruct (Ceq_dec w C0) as [->|]; [|discriminate]. rewrite mact_MT, scal_zero. reflexivity.
Qed.
Lemma change_same n from to e v : cp_ok n from to -> mcanon n e -> mcanon n v ->
  exists sg f1 f2 e' v', changePermutationM n true e from to = DOk (f1, e') /\ changePermutationM n true v from to = DOk (f2, v') /\
    mcanon n e' /\ mcanon n v' /\ moved_l n sg e e' /\ moved_l n sg v v'.
Proof.
  intros K E V. destruct (cp_same_matrix n to from e v K E V) as (sg & f & e' & v' & X1 & X2 & C1 & C2 & M1 & M2).
  destruct (match snd e with MT => ezero (fst e) | _ => false end) eqn:Z1;
  destruct (match snd v with MT => ezero (fst v) | _ => false end) eqn:Z2.
  - destruct (change_zero n from to sg e e' M1 Z1), (change_zero n from to sg v v' M2 Z2). exists sg, from, from, e, v. auto 10.
  - destruct (change_zero n from to sg e e' M1 Z1). exists sg, from, f, e, v'. unfold changePermutationM at 2. rewrite Z2. auto 10.
  - destruct (change_zero n from to sg v v' M2 Z2). exists sg, f, from, e', v. unfold changePermutationM at 1. rewrite Z1. auto 10.
  - exists sg, f, f, e', v'. unfold changePermutationM. rewrite Z1, Z2. auto 10.
Qed.

Lemma Cmul_swap a b : (a * b)%C = (b * a)%C. Proof. ring. Qed.
(* a matrix times the initial matrix keeps the columns without ancillary ones *)
Lemma initial_columns anc f e0 e : mcanon (length anc) f -> mcanon (length anc) e -> createInitialMatrix anc = DOk e0 ->
  (forall psi, mact (length anc) e psi = mact (length anc) f (mact (length anc) e0 psi)) ->
  forall r c, ~ touches anc (length anc) c -> meden (length anc) e r c = meden (length anc) f r c.
Proof.
  set (n := length anc). intros Cf Ce I H r c T.
  destruct (C85_initial anc) as (x & Ex & C0' & D0). rewrite I in Ex. injection Ex as <-. fold n in C0', D0.
  destruct (multiplyMM_spec n f e0 Cf C0') as (y & Ey & Cy & Dy).
  destruct (mm_spec n f e0 Cf C0') as (y' & Ey' & Cy' & My). rewrite Ey in Ey'. injection Ey' as <-.
  assert (e = y) as -> by (apply (mact_inj n); auto; intros psi; rewrite H, My; auto).
  rewrite (Dy r c c). rewrite (bsum_ext_in n _ (fun k => (mden n MT c k * meden n f r k)%C)).
  - apply bsum_id. apply meden_local_r.
  - intros k _. rewrite (Cmul_swap (meden n f r k)). f_equal. destruct (D0 k c) as [A B].
    destruct (DDCloseProofs.mden_MT_agree n c k) as [[Q P]|[Q P]]; rewrite Q.
    + apply A. split; auto. intros q L. symmetry. apply P; auto.
    + apply B. left. intros X. apply P. intros q L. symmetry. apply X; auto.
Qed.
Lemma same_reduced anc f e : mcanon (length anc) f -> mcanon (length anc) e ->
  (forall r c, ~ touches anc (length anc) c -> meden (length anc) e r c = meden (length anc) f r c) ->
  reduceAncillae e anc true = reduceAncillae f anc true.
Proof.
  intros Cf Ce H. destruct (C85_ancillae _ f anc true Cf (Nat.le_refl _)) as (x & Ex & Cx & Dx).
  destruct (C85_ancillae _ e anc true Ce (Nat.le_refl _)) as (y & Ey & Cy & Dy).
  rewrite Ex, Ey. f_equal. apply (mcanon_unique (length anc)); auto. intros r c. destruct (Dx r c) as [A B], (Dy r c) as [A' B'].
  destruct (hit anc (length anc) c) eqn:T.
  - apply hit_iff in T. rewrite A, A'; auto.
  - apply not_hit in T. rewrite B, B'; auto.
Qed.

Definition reduced (f : medge) (anc gar : list bool) : dres medge :=
  let* a := reduceAncillae f anc true in reduceGarbageM a gar true false.

(* building with the initial matrix is reducing what is built without *)
Theorem buildR_reduced c anc gar : circ_ok c -> length anc = qc_n c ->
  exists f, buildFunctionality c = DOk f /\ mcanon (qc_n c) f /\ buildFunctionalityR c anc gar = reduced f anc gar.
Proof.
  intros (N & G & O) L. unfold buildFunctionality, buildFunctionalityR. destruct (Nat.eqb_spec (qc_n c) 0); [lia|].
  destruct (steps_spec (qc_n c) _ _ G) as (p' & ds & S & F & _ & P' & K' & _).
  destruct (C85_initial anc) as (e0 & E0 & C0' & _). rewrite E0. cbn [dbind].
  assert (C0n : mcanon (qc_n c) e0) by (rewrite <- L; auto).
  destruct (func_loop_steps _ _ _ _ _ S F mone (mone_canon _)) as (e & E & Ce & De).
  destruct (func_loop_steps _ _ _ _ _ S F e0 C0n) as (v & V & Cv & Dv). rewrite E, V. cbn [dbind].
  assert (K : cp_ok (qc_n c) p' (qc_out c)) by (apply (out_cp _ (qc_init c)); auto).
  destruct (change_same _ p' (qc_out c) e v K Ce Cv) as (sg & f1 & f2 & e' & v' & X1 & X2 & C1 & C2 & M1 & M2).
  rewrite X1, X2. cbn [dbind]. exists e'. split; auto. split; auto. unfold reduced. f_equal.
  apply same_reduced; try (rewrite L; auto). rewrite <- L in *. intros r d T.
  apply (initial_columns anc e' e0 v'); auto. intros psi. rewrite M2, M1, Dv, De, mact_mone. auto.
Qed.
Theorem recR_reduced c anc gar : circ_ok c -> (2 <= length (qc_ops c))%nat ->
  exists f, buildFunctionality c = DOk f /\ buildFunctionalityRecursiveR c anc gar = reduced f anc gar.
Proof.
  intros OK L. destruct (functionality_recursive c OK L) as (f & E & R). exists f. split; auto.
  unfold buildFunctionalityRecursive, buildFunctionalityRecursiveR in *. destruct OK as (N & _). destruct (Nat.eqb_spec (qc_n c) 0); [lia|].
  destruct (qc_ops c) as [|o1 [|o2 ops]]; cbn [length] in L; try lia.
  destruct (func_rec _ _ _ _ _ _) as [[[b s] p]| |]; cbn [dbind] in *; try discriminate. destruct s as [|e s]; [discriminate|].
  destruct (changePermutationM _ _ _ _ _) as [[p1 e1]| |]; cbn [dbind] in *; try discriminate. injection R as ->. reflexivity.
Qed.

Lemma reduced_spec n f anc gar : mcanon n f -> length anc = n -> length gar = n ->
  exists e, reduced f anc gar = DOk e /\ mcanon n e /\
    forall r c, (touches gar n r \/ touches anc n c -> meden n e r c = C0) /\
      (~ touches gar n r -> ~ touches anc n c ->
         Cnorm2 (meden n e r c) = fsum gar n (fun k => Cnorm2 (meden n f k c)) r).
Proof.
  intros Cf LA LG. unfold reduced. rewrite <- LA in Cf. destruct (C85_ancillae _ f anc true Cf (Nat.le_refl _)) as (x & Ex & Cx & Dx). rewrite Ex. cbn [dbind].
  rewrite LA in *. destruct (C86_matrix_partial n x gar true false Cx) as (e & E & Ce & D); [lia|discriminate|]. rewrite LG in *.
  exists e. split; auto. split; auto. intros r c. destruct (D r c) as [A B]. unfold entry in *. split.
  - intros [T|T]; [auto|]. destruct (hit gar n r) eqn:H; [apply A, hit_iff; auto|].
    apply not_hit in H. apply Cnorm2_zero. rewrite B by auto. clear - Dx T.
    replace (fun k => Cnorm2 (meden n x k c)) with (fun _ : bits => 0%R).
    + clear. revert r. generalize n. intros m. induction m as [|m IH]; intros r; cbn [fsum]; auto. destruct nth; rewrite ?IH; lra.
    + apply functional_extensionality. intros k. rewrite (proj1 (Dx k c) T). unfold Cnorm2, C0; cbn. ring.
  - intros TG TA. rewrite B by auto. f_equal. apply functional_extensionality. intros k. rewrite (proj2 (Dx k c) TA). auto.
Qed.

(* simulation followed by the reduction; the global phase does not matter for the probabilities *)
Theorem simulateR_spec c gar inp : circ_ok c -> vcanon (qc_n c) inp -> length gar = qc_n c ->
  exists out e, simulate c inp = DOk out /\ simulateR c gar inp = DOk e /\ vcanon (qc_n c) e /\
    forall b, (touches gar (qc_n c) b -> veden e b = C0) /\
      (~ touches gar (qc_n c) b -> Cnorm2 (veden e b) = fsum gar (qc_n c) (fun k => Cnorm2 (veden out k)) b).
Proof.
  intros (N & G & O) V LG. unfold simulate, simulateR.
  destruct (steps_spec (qc_n c) _ _ G) as (p' & ds & S & F & _ & P' & K' & T).
  destruct (sim_loop_steps _ _ _ _ _ S F inp V) as (e & E & Ce & De). rewrite E. cbn [dbind].
  destruct (changeV (qc_n c) p' (qc_out c) e) as (sg & f' & f1 & e' & X & Ce' & _); auto; [apply (out_cp _ (qc_init c)); auto|].
  rewrite X. cbn [dbind]. destruct (phase_step c e' Ce') as (r & Er & Cr & Dr). rewrite Er.
  destruct (C86_vector_partial (qc_n c) e' gar false Ce') as (g & Eg & Cg & Dg); [lia|discriminate|]. rewrite Eg. cbn [dbind].
  destruct (phase_step c g Cg) as (h & Eh & Ch & Dh). rewrite Eh. exists r, h. split; auto. split; auto. split; auto. intros b.
  assert (PH : forall z, Cnorm2 (Cexp (qc_phase c) * z) = Cnorm2 z).
  { intros z. rewrite Cnorm2_mul. replace (Cnorm2 (Cexp (qc_phase c))) with 1%R; [ring|].
    unfold Cnorm2, Cexp; cbn. pose proof (sin2_cos2 (qc_phase c)) as SC. unfold Rsqr in SC. lra. }
  destruct (Dg b) as [A B]. rewrite Dh. unfold sscal. split; intros TT.
  - rewrite A by auto. ring.
  - rewrite PH, B by auto. f_equal. apply functional_extensionality. intros k. rewrite Dr. unfold sscal. rewrite PH. auto.
Qed.
