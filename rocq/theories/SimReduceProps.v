(* C88: functionality and simulation of circuits with ancillary and garbage qubits. *)
From Coq Require Import Reals Lra List Bool Arith Lia FunctionalExtensionality.
From Verif Require Import Cplx Qsem GateModel GateSpec GateProofs OpProofs IRModel IRSpec IRProofs OutcomeSpec OptModel
  OptDagProofs OptElideProofs OptResetProofs DDModel DDSpec DDProofs DDCanonProofs DDOpsProofs DDProps
  SimModel SimOpProofs SimPermProofs SimLoopProofs SimMeasProofs SimNormProofs SimProps DDReduceModel DDReduceSpec DDReduceProofs DDReduceProps
  SimReduceModel SimReduceProofs.
Import ListNotations.
Local Open Scope R_scope.

(* The magnitudes are those of the functionality f without the flags, summed over the garbage qubits;
   the columns with an ancillary one and the rows with a garbage one are zero. *)
Theorem C88_functionality : forall c anc gar, circ_ok c -> length anc = qc_n c -> length gar = qc_n c ->
  exists f e, buildFunctionality c = DOk f /\ buildFunctionalityR c anc gar = DOk e /\ mcanon (qc_n c) e /\
    forall r d, (touches gar (qc_n c) r \/ touches anc (qc_n c) d -> meden (qc_n c) e r d = C0) /\
      (~ touches gar (qc_n c) r -> ~ touches anc (qc_n c) d ->
         Cnorm2 (meden (qc_n c) e r d) = fsum gar (qc_n c) (fun k => Cnorm2 (meden (qc_n c) f k d)) r).
Proof.
  intros c anc gar OK LA LG. destruct (buildR_reduced c anc gar OK LA) as (f & F & Cf & E).
  destruct (reduced_spec (qc_n c) f anc gar Cf LA LG) as (e & R & Ce & D). exists f, e. rewrite E. auto.
Qed.
Print Assumptions C88_functionality.

(* without garbage qubits the entries themselves are those of f *)
Theorem C88_ancillae : forall c anc gar, circ_ok c -> length anc = qc_n c -> (forall b, In b gar -> b = false) ->
  exists f e, buildFunctionality c = DOk f /\ buildFunctionalityR c anc gar = DOk e /\ mcanon (qc_n c) e /\
    forall r d, (touches anc (qc_n c) d -> meden (qc_n c) e r d = C0) /\
      (~ touches anc (qc_n c) d -> meden (qc_n c) e r d = meden (qc_n c) f r d).
Proof.
  intros c anc gar OK LA LG. destruct (buildR_reduced c anc gar OK LA) as (f & F & Cf & E). rewrite E. unfold reduced.
  rewrite <- LA in *. destruct (C85_ancillae _ f anc true Cf (Nat.le_refl _)) as (x & Ex & Cx & Dx). rewrite Ex. cbn [dbind].
  exists f, x. split; auto. split; [|auto]. unfold reduceGarbageM. replace (noneflag gar) with true; auto.
  symmetry. unfold noneflag. replace (existsb (fun b => b) gar) with false; auto. symmetry. clear - LG.
  induction gar as [|a l IH]; auto. cbn. rewrite (LG a), IH; cbn; auto. intros b H. apply LG. cbn; auto.
Qed.
Print Assumptions C88_ancillae.

(* starting from the initial matrix and reducing at the end alone give the same diagram *)
Theorem C88_recursive_partial : forall c anc gar, circ_ok c -> length anc = qc_n c -> length gar = qc_n c ->
  (2 <= length (qc_ops c))%nat ->
  exists e, buildFunctionalityR c anc gar = DOk e /\ buildFunctionalityRecursiveR c anc gar = DOk e.
Proof.
  intros c anc gar OK LA LG L. destruct (buildR_reduced c anc gar OK LA) as (f & F & Cf & E).
  destruct (recR_reduced c anc gar OK L) as (f' & F' & E'). assert (f' = f) by congruence. subst f'.
  destruct (reduced_spec (qc_n c) f anc gar Cf LA LG) as (e & R & _). exists e. rewrite E, E'. auto.
Qed.
Print Assumptions C88_recursive_partial.

(* Simulation gives every assignment of the other qubits its probability: chi is the final state of the
   circuit, pi' the level of every qubit demanded by the output permutation. *)
Theorem C88_simulate : forall c gar inp, circ_ok c -> vcanon (qc_n c) inp -> length gar = qc_n c ->
  exists e, simulateR c gar inp = DOk e /\ vcanon (qc_n c) e /\
    forall pi psi, agrees_out pi (qc_init c) -> inj pi -> veden inp = move pi psi ->
    exists pi' chi, inj pi' /\ agrees_out pi' (qc_out c) /\ (permutes (qc_n c) pi -> permutes (qc_n c) pi') /\
      (forall m, run_qc c (psi, m) = [(chi, m)]) /\
      forall b, (touches gar (qc_n c) b -> veden e b = C0) /\
        (~ touches gar (qc_n c) b -> Cnorm2 (veden e b) = fsum gar (qc_n c) (fun k => Cnorm2 (move pi' chi k)) b).
Proof.
  intros c gar inp OK V LG. destruct (simulateR_spec c gar inp OK V LG) as (out & e & Eo & Ee & Ce & D).
  destruct (simulate_correct c inp OK V) as (out' & Eo' & _ & M). rewrite Eo in Eo'. injection Eo' as <-.
  exists e. split; auto. split; auto. intros pi psi A I IN. destruct (M pi psi A I IN) as (pi' & chi & H1 & H2 & H3 & H4 & H5).
  exists pi', chi. split; auto. split; auto. split; auto. split; auto. rewrite <- H5. exact D.
Qed.
Print Assumptions C88_simulate.

(* A column of the functionality has the magnitudes of the simulation of that basis state, whatever the
   global phase. *)
Theorem C88_column : forall c anc gar inp d, circ_ok c -> length anc = qc_n c -> length gar = qc_n c ->
  vcanon (qc_n c) inp -> (forall k, veden inp k = mden (qc_n c) MT d k) -> ~ touches anc (qc_n c) d ->
  exists e out, buildFunctionalityR c anc gar = DOk e /\ simulateR c gar inp = DOk out /\
    forall r, Cnorm2 (meden (qc_n c) e r d) = Cnorm2 (veden out r).
Proof.
  intros c anc gar inp d OK LA LG V B T. destruct (C88_functionality c anc gar OK LA LG) as (f & e & F & E & Ce & D).
  destruct (simulateR_spec c gar inp OK V LG) as (so & out & Eo & Ee & _ & Do). exists e, out. split; auto. split; auto.
  destruct (functionality_simulate c inp OK V) as (f' & r & so' & F' & R & S' & P & _).
  assert (f' = f) by congruence. assert (so' = so) by congruence. subst f' so'.
  assert (Cf : mcanon (qc_n c) f) by (destruct (buildR_reduced c anc gar OK LA) as (g & G1 & G2 & _); congruence).
  destruct (mv_spec _ f inp Cf V) as (r' & R' & _ & Dr). assert (r' = r) by congruence. subst r'.
  assert (Q : forall k, Cnorm2 (veden so k) = Cnorm2 (meden (qc_n c) f k d)).
  { intros k. rewrite P, Dr. unfold sscal. rewrite Cnorm2_mul. replace (Cnorm2 (Cexp (qc_phase c))) with 1.
    2:{ unfold Cnorm2, Cexp; cbn. pose proof (sin2_cos2 (qc_phase c)) as SC. unfold Rsqr in SC. lra. }
    rewrite Rmult_1_l. f_equal. unfold mact. rewrite (bsum_ext _ _ (fun x => (mden (qc_n c) MT d x * meden (qc_n c) f k x)%C)).
    - apply bsum_id. apply meden_local_r.
    - intros x. rewrite B. ring. }
  intros b. destruct (hit gar (qc_n c) b) eqn:H.
  - apply hit_iff in H. rewrite (proj1 (D b d)), (proj1 (Do b)); auto.
  - apply not_hit in H. rewrite (proj2 (D b d)), (proj2 (Do b)) by auto. f_equal. apply functional_extensionality. auto.
Qed.
Print Assumptions C88_column.

(* The recursive construction of a single operation reduces nothing. *)
Theorem C88_single_refuted : exists c anc gar d e r, circ_ok c /\ length anc = qc_n c /\ length gar = qc_n c /\
  touches anc (qc_n c) d /\ buildFunctionalityRecursiveR c anc gar = DOk e /\ meden (qc_n c) e r d <> C0.
Proof.
  assert (OK : circ_ok (plain 1 [bar [0%nat]] 0)).
  { apply plain_ok; [lia|constructor; [apply bar_ok; repeat constructor; intros []|constructor]|]. intros q [<-|[]]. lia. }
  exists (plain 1 [bar [0%nat]] 0), [true], [false], (fun _ => true), mone, (fun _ => true).
  split; auto. split; auto. split; auto. split; [exists 0%nat; repeat split; auto; cbn; lia|]. split; [reflexivity|].
  unfold meden. cbn. intros H. apply (f_equal fst) in H. cbn in H. lra.
Qed.
Print Assumptions C88_single_refuted.

(* a Bell pair whose second qubit is garbage: both values of the first have probability 1/2 *)
Example C88_ex : exists e, simulateR (plain 2 [hop 0; cxop 0 1] 1) [false; true] (zket 2) = DOk e /\
  Cnorm2 (veden e zeros) = 1 / 2 /\ Cnorm2 (veden e (setb zeros 0 true)) = 1 / 2 /\ veden e (setb (setb zeros 0 true) 1 true) = C0.
Proof.
  assert (OK : circ_ok (plain 2 [hop 0; cxop 0 1] 1)).
  { apply plain_ok; [lia|constructor; [apply hop_ok|constructor; [apply cxop_ok; lia|constructor]]|]. cbn. intros q Q. intuition lia. }
  destruct (zket_good 2) as (Cz & Wz & Dz).
  destruct (C88_simulate _ [false; true] (zket 2) OK Cz eq_refl) as (e & E & Ce & M). exists e. split; auto.
  destruct (M (fun q => q) (zstate 2)) as (pi' & chi & I & A & PP & R & D).
  { intros q l H. now apply idp_look in H. } { intros x y H. exact H. } { rewrite Dz. reflexivity. }
  assert (P0 : pi' 0%nat = 0%nat) by (apply A; reflexivity). assert (P1 : pi' 1%nat = 1%nat) by (apply A; reflexivity).
  assert (X : chi = sscal (Cexp 1) (uacts [hop 0; cxop 0 1] (zstate 2))).
  { specialize (R zeros). unfold run_qc in R. rewrite run_uacts' in R. { cbn [map fst snd plain qc_phase qc_ops] in R. congruence. }
    cbn. constructor; [apply hop_ok|constructor; [apply cxop_ok; lia|constructor]]. }
  assert (V : forall b, Cnorm2 (move pi' chi b) = if Bool.eqb (b 0%nat) (b 1%nat) then 1 / 2 else 0).
  { intros b. rewrite X. unfold move, sscal. rewrite Cnorm2_mul. replace (Cnorm2 (Cexp 1)) with 1.
    2:{ unfold Cnorm2, Cexp; cbn. pose proof (sin2_cos2 1) as SC. unfold Rsqr in SC. lra. }
    rewrite Rmult_1_l. unfold uacts, zstate. cbn. unfold semf. cbn. unfold capply, apply, csum, sat. cbn. rewrite ?P0, ?P1.
    destruct (b 0%nat), (b 1%nat); cbn; rewrite ?P0, ?P1; cbn; unfold Cnorm2; cbn; unfold setb; cbn; rewrite ?P0, ?P1; cbn.
    all: pose proof sq2_sq as SQ; ring_simplify; try (replace (sq2 ^ 2) with (sq2 * sq2) by ring); lra. }
  assert (N : forall b, b 1%nat = false -> ~ touches [false; true] 2 b).
  { intros b Z (q & Q & F & T). destruct q as [|[|q]]; cbn in F; try discriminate; [congruence|lia]. }
  split; [|split].
  - rewrite (proj2 (D zeros)) by (apply N; reflexivity). cbn [fsum qc_n plain nth]. rewrite !V. cbn. lra.
  - rewrite (proj2 (D (setb zeros 0 true))) by (apply N; reflexivity). cbn [fsum qc_n plain nth]. rewrite !V. cbn. lra.
  - apply (proj1 (D _)). exists 1%nat. split; [cbn; lia|]. split; reflexivity.
Qed.
(* the same circuit with the second qubit ancillary as well *)
Example C88_ex2 : exists e, buildFunctionalityR (plain 2 [hop 0; cxop 0 1] 1) [false; true] [false; true] = DOk e /\
  Cnorm2 (meden 2 e zeros zeros) = 1 / 2 /\ meden 2 e zeros (setb zeros 1 true) = C0.
Proof.
  assert (OK : circ_ok (plain 2 [hop 0; cxop 0 1] 1)).
  { apply plain_ok; [lia|constructor; [apply hop_ok|constructor; [apply cxop_ok; lia|constructor]]|]. cbn. intros q Q. intuition lia. }
  destruct (zket_good 2) as (Cz & Wz & Dz). destruct C88_ex as (out & Eo & P & _).
  destruct (C88_functionality _ [false; true] [false; true] OK eq_refl eq_refl) as (f & e & _ & E & _ & D).
  destruct (C88_column _ [false; true] [false; true] (zket 2) zeros OK eq_refl eq_refl Cz) as (e' & o' & E' & Eo' & Q).
  - intros k. rewrite Dz. unfold move, zstate. cbn. destruct (k 0%nat), (k 1%nat); cbn; apply Ceq; cbn; ring.
  - intros (q & _ & _ & T). discriminate.
  - assert (e' = e) by congruence. assert (o' = out) by congruence. subst e' o'. exists e. split; auto. split.
    + rewrite <- P. apply Q.
    + apply D. right. exists 1%nat. split; [cbn; lia|]. split; reflexivity.
Qed.
