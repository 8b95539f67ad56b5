(** The circuit generators of src/algorithms: C69-C75. *)
From Coq Require Import Reals Lra List Arith Bool Lia NArith ZArith FunctionalExtensionality.
From Verif Require Import Cplx Qsem GateModel GateSpec IRModel IRSpec OutcomeSpec OptModel OptElideProofs DDModel DDSpec DDProofs DDCanonProofs DDGateProofs
  DDStateProofs SimModel SimOpProofs SimPermProofs SimLoopProofs SimProps AlgoModel AlgoSpec AlgoBaseProofs AlgoStateProofs AlgoQftProofs AlgoMeasProofs AlgoIterProofs AlgoUnrollProofs AlgoQpeProofs
  AlgoDistProofs AlgoGroverProofs AlgoGroverBound.
Import ListNotations.
Local Open Scope nat_scope.

(** ** C69: GHZ states *)
Theorem C69_ghz : forall n, 0 < n -> exists c, createGHZState n = Some c /\ qc_n c = n /\
  forall m, run_qc c (basis n zeros, m) = [(ghz_state n, m)].
Proof.
  intros n P. destruct (createGHZState n) as [c|] eqn:E.
  - exists c. split; auto. split; [unfold createGHZState in E; destruct (n =? 0); [discriminate|]; injection E as <-; reflexivity|]. intros m. now apply ghz_run.
  - unfold createGHZState in E. destruct (Nat.eqb_spec n 0); [lia|discriminate].
Qed.
Print Assumptions C69_ghz.
Example C69_ex : ghz_state 3 (fun _ => true) = RtoC (/ sqrt 2) /\ ghz_state 3 (fun q => q =? 1) = C0 /\
  option_map (fun c => length (qc_ops c)) (createGHZState 3) = Some 3.
Proof. repeat split. Qed.

(** ** C70: W states *)
Theorem C70_w : forall n, 0 < n -> exists c, createWState n = Some c /\ qc_n c = n /\
  forall m, run_qc c (basis n zeros, m) = [(w_state n, m)].
Proof.
  intros n P. destruct (createWState n) as [c|] eqn:E.
  - exists c. split; auto. split; [unfold createWState in E; destruct (n =? 0); [discriminate|]; injection E as <-; reflexivity|]. intros m. now apply w_run.
  - unfold createWState in E. destruct (Nat.eqb_spec n 0); [lia|discriminate].
Qed.
Print Assumptions C70_w.
Example C70_ex : w_state 3 (fun q => q =? 1) = RtoC (/ sqrt 3) /\ w_state 3 zeros = C0 /\ w_state 3 (fun _ => true) = C0.
Proof. repeat split. unfold w_state. cbn. do 3 f_equal. ring. Qed.

(** ** C71: the quantum Fourier transform. Qubit 0 is the most significant one. *)
Theorem C71_qft : forall n psi m, run_qc (createQFT n false) (psi, m) = [(apply (dft n) (seq 0 n) psi, m)].
Proof. exact qft_run. Qed.
Print Assumptions C71_qft.
(** With measurements, the outcome [m] has the probability of the basis state
    [m] after the transform. *)
Theorem C71_qft_measured : forall n psi m0 m,
  prob n n m (run_qc (createQFT n true) (psi, m0)) = Cnorm2 (apply (dft n) (seq 0 n) psi (fun q => if q <? n then m q else false)).
Proof. exact qft_measured. Qed.
Print Assumptions C71_qft_measured.

(** The SWAP gates are carried out and the output permutation is reversed as
    well: simulation, which undoes the latter, does not end in the transform. *)
Lemma cs_dd : dd_ok (cg1 gS 1 0).
Proof.
  split; [split; [split; [repeat constructor; intros []|intros x [<-|[]] [X|[]]; cbn in X; congruence]|eexists; reflexivity]|].
  split; [repeat constructor; intros []|]. split; [split; [intros x []|exact Logic.I]|discriminate].
Qed.
Lemma qft2_ok : circ_ok (createQFT 2 false).
Proof.
  change (createQFT 2 false) with (xout [hop 0; cg1 gS 1 0; hop 1; swop 0 1]). apply xout_ok.
  - constructor; [apply hop_ok|]. constructor; [apply cs_dd|]. constructor; [apply hop_ok|]. constructor; [apply swop_ok; lia|constructor].
  - intros x X. cbn in X. cbn. intuition lia.
Qed.
Lemma dft2_one b : apply (dft 2) (seq 0 2) (basis 2 (fun q => q =? 0)) b =
  (RtoC (/ 2) * Cexp (2 * PI * (INR (value [b 0; b 1]) * 2) / 4))%C.
Proof.
  unfold apply. cbn [seq length]. rewrite (csum_single _ [true; false]).
  - assert (B : basis 2 (fun q => q =? 0) (setl b [0; 1] [true; false]) = C1) by (unfold basis, setl, setb; reflexivity).
    rewrite B. unfold dft. cbn [map]. replace (2 ^ 2)%R with (2 * 2)%R by (cbn; ring). rewrite sqrt_square by lra.
    replace (INR (value [true; false])) with 2%R by (cbn; ring). replace (2 * 2)%R with 4%R by ring. ring.
  - apply allb_NoDup.
  - apply allb_In. reflexivity.
  - intros v V NE. apply allb_In in V. destruct v as [|v0 [|v1 [|]]]; try discriminate V.
    assert (B : basis 2 (fun q => q =? 0) (setl b [0; 1] [v0; v1]) = C0).
    { destruct v0, v1; try reflexivity. congruence. }
    rewrite B. ring.
Qed.
Theorem C71_simulated_refuted : exists n inp out, circ_ok (createQFT n false) /\ vcanon n inp /\ simulate (createQFT n false) inp = DOk out /\
  veden out <> apply (dft n) (seq 0 n) (veden inp).
Proof.
  destruct (basis_loop_spec 2 0 [true; false] (Nat.le_refl 2)) as (inp & _ & _ & Cs & Ds). specialize (Cs eq_refl).
  assert (D : veden inp = basis 2 (fun q => q =? 0)).
  { apply functional_extensionality. intros b. rewrite Ds. cbn. unfold basis. cbn. destruct (b 0), (b 1); reflexivity. }
  destruct (simulate_correct (createQFT 2 false) inp qft2_ok Cs) as (out & E & Co & M).
  exists 2, inp, out. split; [apply qft2_ok|]. split; [auto|]. split; [auto|].
  destruct (M (fun q => q) (basis 2 (fun q => q =? 0))) as (pi' & chi & I & A & _ & R & V).
  { intros q l H. change (plookup [(0, 0); (1, 1)] q = Some l) in H. cbn in H. destruct (Nat.eqb_spec q 0), (Nat.eqb_spec q 1); congruence. }
  { intros x y H. exact H. } { rewrite D. reflexivity. }
  rewrite V, D. specialize (R zeros). rewrite C71_qft in R. injection R as R. rewrite <- R.
  pose proof (A 0 1 eq_refl) as P0. pose proof (A 1 0 eq_refl) as P1.
  intros X. apply (f_equal (fun f : state => f (fun q => q =? 0))) in X. unfold move in X. rewrite !dft2_one, P0, P1 in X. cbn [Nat.eqb] in X.
  replace (2 * PI * (INR (value [false; true]) * 2) / 4)%R with PI in X by (cbn; field).
  replace (2 * PI * (INR (value [true; false]) * 2) / 4)%R with (0 + 2 * PI)%R in X by (cbn; field).
  rewrite Cexp_2PI, Cexp_0, Cplx.Cexp_PI in X. injection X as X. lra.
Qed.
Print Assumptions C71_simulated_refuted.
(** The transform of |10> on two qubits: 1/2 (|00> + |01> ...) with signs. *)
Example C71_ex : forall m, exists phi, run_qc (createQFT 2 false) (basis 2 (fun q => q =? 0), m) = [(phi, m)] /\ phi zeros = RtoC (/ 2) /\
  phi (fun q => q =? 1) = RtoC (- / 2).
Proof.
  intros m. eexists. split; [apply C71_qft|]. rewrite !dft2_one. split.
  - replace (2 * PI * (INR (value [zeros 0%nat; zeros 1%nat]) * 2) / 4)%R with 0%R by (cbn; field). rewrite Cexp_0. ring.
  - cbn [Nat.eqb]. replace (2 * PI * (INR (value [false; true]) * 2) / 4)%R with PI by (cbn; field). rewrite Cplx.Cexp_PI. apply Ceq; cbn; ring.
Qed.

(** ** C72: the iterative Fourier transform behaves like the measured one on |0..0> *)
Lemma dft_zeros n m : Cnorm2 (apply (dft n) (seq 0 n) (basis n zeros) m) = ((/ 2) ^ n)%R.
Proof.
  unfold apply. rewrite seq_length, (csum_single _ (repeat false n)).
  - assert (B : basis n zeros (setl m (seq 0 n) (repeat false n)) = C1).
    { unfold basis. replace (forallb _ (seq 0 n)) with true; auto. symmetry. apply forallb_forall. intros q Q. rewrite setl_repeat_in by auto. reflexivity. }
    rewrite B. unfold dft. rewrite !Cnorm2_mul, Cexp_norm2, Cnorm2_1, Cnorm2_RtoC, <- sq2_pow, !Rmult_1_r, <- Rpow_mult_distr, sq2_sq. auto.
  - apply allb_NoDup.
  - apply allb_In. now rewrite repeat_length.
  - intros x X NE. apply allb_In in X. unfold basis. destruct (forallb _ _) eqn:F; [|ring]. exfalso. apply NE.
    apply nth_ext with (d := false) (d' := false); [now rewrite repeat_length|]. intros i I. rewrite nth_repeat. rewrite forallb_forall in F.
    specialize (F i ltac:(apply in_seq; lia)). rewrite setl_seq_nth in F by lia. now apply eqb_prop in F.
Qed.
Theorem C72_iterative_qft : forall n m0 m0' m, 0 < n ->
  prob 1 n m (run_qc (createIterativeQFT n) (basis 1 zeros, m0)) = prob n n m (run_qc (createQFT n true) (basis n zeros, m0')) /\
  prob 1 n m (run_qc (createIterativeQFT n) (basis 1 zeros, m0)) = ((/ 2) ^ n)%R.
Proof. intros n m0 m0' m P. rewrite C71_qft_measured, dft_zeros, iqft_run by auto. auto. Qed.
Print Assumptions C72_iterative_qft.
Example C72_ex : forall m, prob 1 3 m (run_qc (createIterativeQFT 3) (basis 1 zeros, zeros)) = (/ 8)%R.
Proof. intros m. etransitivity; [apply (C72_iterative_qft 3 zeros zeros m); lia|]. field. Qed.

(** For inputs other than |0..0>: with round [i] on the i-th qubit of a register
    instead of the i-th reset, the rounds are the measured transform, branch by
    branch, for every state of the register. *)
Theorem C72_any_input : forall n, 0 < n -> same_run (unrolled (qc_ops (createIterativeQFT n))) (qc_ops (createQFT n true)).
Proof. exact iterative_unrolled. Qed.
Print Assumptions C72_any_input.
Example C72_unrolled_ex : unrolled (qc_ops (createIterativeQFT 3)) =
  [g1 gH 0; meas 0 2; cc1 gS [] 1 2; g1 gH 1; meas 1 1; cc1 gT [] 2 2; cc1 gS [] 2 1; g1 gH 2; meas 2 0].
Proof. reflexivity. Qed.

(** ** C73: Bernstein-Vazirani finds the hidden string with certainty *)
Theorem C73_bernstein_vazirani : forall s n, 0 < n <= bv_bits -> exists c, createBernsteinVazirani s n = Some c /\ qc_n c = n + 1 /\
  forall m0 m, prob (n + 1) n m (run_qc c (basis (n + 1) zeros, m0)) = if same_bits n m s then 1%R else 0%R.
Proof.
  intros s n B. destruct (createBernsteinVazirani s n) as [c|] eqn:E.
  - exists c. split; auto. split.
    + unfold createBernsteinVazirani in E. destruct (_ || _); [discriminate|]. injection E as <-. reflexivity.
    + intros m0 m. now apply bv_run.
  - unfold createBernsteinVazirani in E. destruct (Nat.eqb_spec n 0); [lia|]. destruct (Nat.ltb_spec bv_bits n); [lia|discriminate].
Qed.
Print Assumptions C73_bernstein_vazirani.
Theorem C73_iterative : forall s n, 0 < n <= bv_bits -> exists c, createIterativeBernsteinVazirani s n = Some c /\ qc_n c = 2 /\
  forall m0 m, prob 2 n m (run_qc c (basis 2 zeros, m0)) = if same_bits n m s then 1%R else 0%R.
Proof.
  intros s n B. destruct (createIterativeBernsteinVazirani s n) as [c|] eqn:E.
  - exists c. split; auto. split.
    + unfold createIterativeBernsteinVazirani in E. destruct (_ || _); [discriminate|]. injection E as <-. reflexivity.
    + intros m0 m. now apply ibv_run.
  - unfold createIterativeBernsteinVazirani in E. destruct (Nat.eqb_spec n 0); [lia|]. destruct (Nat.ltb_spec bv_bits n); [lia|discriminate].
Qed.
Print Assumptions C73_iterative.
(** The length is found from the string itself: no bit is lost. *)
Lemma msb_spec k s : let j := getMostSignificantBit k s in (j < k \/ j = 0) /\ forall i, j < i < k -> s i = false.
Proof.
  unfold getMostSignificantBit. induction k as [|k [IH1 IH2]]; [cbn; split; auto; intros; lia|].
  rewrite seq_S, fold_left_app. cbn [plus fold_left]. destruct (s k) eqn:S.
  - split; [left; lia|]. intros i I. lia.
  - split; [destruct IH1; auto|]. intros i I. destruct (Nat.eq_dec i k) as [->|]; auto. apply IH2. lia.
Qed.
Theorem C73_sized_by_string : forall s, (forall i, bv_bits <= i -> s i = false) ->
  exists c n, createBernsteinVazirani1 s = Some c /\ qc_n c = n + 1 /\ (forall i, n <= i -> s i = false) /\ (2 <= n -> s (n - 1) = true) /\
  forall m0 m, prob (n + 1) n m (run_qc c (basis (n + 1) zeros, m0)) = if same_bits n m s then 1%R else 0%R.
Proof.
  intros s H. destruct (msb_spec bv_bits s) as [A B]. set (n := getMostSignificantBit bv_bits s + 1).
  destruct (C73_bernstein_vazirani s n) as (c & E & Q & P). { unfold n. split; [lia|]. destruct A as [A|A]; [lia|]. rewrite A. unfold bv_bits. lia. }
  exists c, n. split; [exact E|]. split; [exact Q|]. split; [|split; [|exact P]].
  - intros i I. destruct (le_lt_dec bv_bits i) as [L|L]; auto. apply B. unfold n in I. lia.
  - intros N. unfold n in *. replace (getMostSignificantBit bv_bits s + 1 - 1) with (getMostSignificantBit bv_bits s) by lia.
    assert (Z : forall k, getMostSignificantBit k s <> 0 -> s (getMostSignificantBit k s) = true).
    { unfold getMostSignificantBit. induction k as [|k IH]; [cbn; congruence|]. rewrite seq_S, fold_left_app. cbn [plus fold_left]. destruct (s k) eqn:S; auto. }
    apply Z. lia.
Qed.
Print Assumptions C73_sized_by_string.
Example C73_ex : exists c, createBernsteinVazirani (fun i => i mod 2 =? 0) 3 = Some c /\
  prob 4 3 (fun i => i mod 2 =? 0) (run_qc c (basis 4 zeros, zeros)) = 1%R /\ prob 4 3 (fun _ => true) (run_qc c (basis 4 zeros, zeros)) = 0%R.
Proof.
  destruct (C73_bernstein_vazirani (fun i => i mod 2 =? 0) 3) as (c & E & _ & P); [unfold bv_bits; lia|]. exists c. split; [exact E|].
  split; [apply (P zeros (fun i => i mod 2 =? 0))|apply (P zeros (fun _ => true))].
Qed.

(** ** C74: quantum phase estimation. The operator is P(lambda * pi), its eigenvalue on |1> exp (2 pi i lambda / 2). *)
Lemma qpe_some lambda n : 0 < n <= 64 -> exists c, createQPE lambda n = Some c /\ qc_n c = n + 1.
Proof.
  intros B. unfold createQPE. destruct (Nat.eqb_spec n 0); [lia|]. destruct (Nat.ltb_spec 64 n); [lia|]. eexists. split; reflexivity.
Qed.
Lemma iqpe_some lambda n : 0 < n <= 64 -> exists c, createIterativeQPE lambda n = Some c /\ qc_n c = 2.
Proof.
  intros B. unfold createIterativeQPE. destruct (Nat.eqb_spec n 0); [lia|]. destruct (Nat.ltb_spec 64 n); [lia|]. eexists. split; reflexivity.
Qed.
Theorem C74_qpe : forall lambda n, 0 < n <= 64 -> exists c, createQPE lambda n = Some c /\ qc_n c = n + 1 /\
  forall m0 m, prob (n + 1) n m (run_qc c (basis (n + 1) zeros, m0)) = qpe_dist n (lambda / 2) (outcome n m).
Proof.
  intros lambda n B. destruct (qpe_some lambda n B) as (c & E & Q). exists c. split; [auto|]. split; [auto|]. intros m0 m.
  rewrite (qpe_run lambda n c m0 m E). apply qpe_dist_amp.
Qed.
Print Assumptions C74_qpe.
Theorem C74_iterative : forall lambda n, 0 < n <= 64 -> exists c, createIterativeQPE lambda n = Some c /\ qc_n c = 2 /\
  forall m0 m, prob 2 n m (run_qc c (basis 2 zeros, m0)) = qpe_dist n (lambda / 2) (outcome n m).
Proof.
  intros lambda n B. destruct (iqpe_some lambda n B) as (c & E & Q). exists c. split; [auto|]. split; [auto|]. intros m0 m.
  rewrite (iqpe_run lambda n c m0 m E). apply qpe_dist_amp.
Qed.
Print Assumptions C74_iterative.
(** A phase with [n] bits is found with certainty. *)
Theorem C74_exact : forall theta n, 0 < n <= 64 -> exists c c', createQPE (exact_phase n theta) n = Some c /\
  createIterativeQPE (exact_phase n theta) n = Some c' /\
  forall m0 m, prob (n + 1) n m (run_qc c (basis (n + 1) zeros, m0)) = (if same_bits n m (fun i => N.testbit theta (N.of_nat i)) then 1%R else 0%R) /\
  prob 2 n m (run_qc c' (basis 2 zeros, m0)) = (if same_bits n m (fun i => N.testbit theta (N.of_nat i)) then 1%R else 0%R).
Proof.
  intros theta n B. destruct (C74_qpe (exact_phase n theta) n B) as (c & E & _ & P). destruct (C74_iterative (exact_phase n theta) n B) as (c' & E' & _ & P').
  exists c, c'. split; [auto|]. split; [auto|]. intros m0 m. rewrite P, P', exact_phase_half, qpe_dist_exact. auto.
Qed.
Print Assumptions C74_exact.
(** Every outcome nearest to the phase (modulo 1) is found with probability at
    least 4 / pi^2, and there is one. *)
Theorem C74_nearest : forall lambda n, 0 < n <= 64 -> exists c c', createQPE lambda n = Some c /\ createIterativeQPE lambda n = Some c' /\
  (exists m z, (Rabs (2 ^ n * (lambda / 2 + IZR z) - INR (outcome n m)) <= / 2)%R) /\
  forall m0 m z, (Rabs (2 ^ n * (lambda / 2 + IZR z) - INR (outcome n m)) <= / 2)%R ->
    (4 / PI ^ 2 <= prob (n + 1) n m (run_qc c (basis (n + 1) zeros, m0)))%R /\ (4 / PI ^ 2 <= prob 2 n m (run_qc c' (basis 2 zeros, m0)))%R.
Proof.
  intros lambda n B. destruct (C74_qpe lambda n B) as (c & E & _ & P). destruct (C74_iterative lambda n B) as (c' & E' & _ & P').
  exists c, c'. split; [auto|]. split; [auto|]. split; [apply near_exists|]. intros m0 m z H. rewrite P, P'. split; eapply qpe_dist_near; eauto.
Qed.
Print Assumptions C74_nearest.
(** createInexactPhase draws an odd number of n + 1 bits: both neighbours are found with that probability. *)
Theorem C74_inexact : forall theta n, 0 < n <= 64 -> N.testbit theta 0 = true -> exists c, createQPE (inexact_phase n theta) n = Some c /\
  forall m0 m, let T := outcome (n + 1) (fun i => N.testbit theta (N.of_nat i)) in
    outcome n m = T / 2 \/ outcome n m = (T / 2 + 1) mod 2 ^ n ->
    (4 / PI ^ 2 <= prob (n + 1) n m (run_qc c (basis (n + 1) zeros, m0)))%R.
Proof.
  intros theta n B O. destruct (C74_qpe (inexact_phase n theta) n B) as (c & E & _ & P). exists c. split; [auto|]. intros m0 m T H. rewrite P, inexact_phase_half. fold T.
  assert (TL : T < 2 ^ (n + 1)) by apply outcome_lt.
  assert (ODD : T = 2 * (T / 2) + 1).
  { destruct (levalue_mod 1 (n + 1) (fun i => N.testbit theta (N.of_nat i))) as [k K]; [lia|]. change (levalue (n + 1) _) with T in K.
    assert (L1 : levalue 1 (fun i => N.testbit theta (N.of_nat i)) = 1) by (rewrite levalue_S; cbn [N.of_nat]; rewrite O; reflexivity).
    rewrite L1 in K. cbn [Nat.pow] in K. rewrite K. replace (1 + 2 * 1 * k) with (1 + k * 2) by lia. rewrite Nat.div_add by lia. cbn. lia. }
  replace (2 ^ (n + 1)) with (2 * 2 ^ n) in TL by (rewrite Nat.add_1_r; cbn; lia).
  assert (TR : (2 ^ n * (INR T / 2 ^ (n + 1)) = INR (T / 2) + / 2)%R).
  { rewrite pow_add, ODD at 1. rewrite plus_INR, mult_INR. cbn [pow INR]. field. apply pow2_neq. }
  pose proof (pow2_neq n) as N0.
  destruct H as [H|H].
  - apply (qpe_dist_near _ _ _ 0). rewrite Rplus_0_r, TR, H. apply Rabs_le. lra.
  - destruct (Nat.eq_dec (T / 2 + 1) (2 ^ n)) as [W|W].
    + rewrite W, Nat.mod_same in H by (apply Nat.pow_nonzero; lia). apply (qpe_dist_near _ _ _ (-1)). rewrite Rmult_plus_distr_l, TR, H. cbn [INR].
      apply (f_equal INR) in W. rewrite plus_INR, INR_pow2 in W. cbn [INR] in W. rewrite <- W. apply Rabs_le. lra.
    + rewrite Nat.mod_small in H by lia. apply (qpe_dist_near _ _ _ 0). rewrite Rplus_0_r, TR, H, plus_INR. cbn [INR]. apply Rabs_le. lra.
Qed.
Print Assumptions C74_inexact.
Example C74_ex : exists c c', createQPE (exact_phase 3 5) 3 = Some c /\ createIterativeQPE (exact_phase 3 5) 3 = Some c' /\
  exact_phase 3 5 = (5 / 4)%R /\ prob 4 3 (fun i => N.testbit 5 (N.of_nat i)) (run_qc c (basis 4 zeros, zeros)) = 1%R.
Proof.
  destruct (C74_exact 5 3) as (c & c' & E & E' & P); [lia|]. exists c, c'. split; [auto|]. split; [auto|]. split.
  - unfold exact_phase. cbn. field.
  - destruct (P zeros (fun i => N.testbit 5 (N.of_nat i))) as [X _]. etransitivity; [exact X|]. reflexivity.
Qed.

(** ** C75: Grover's algorithm *)
Theorem C75_grover : forall n t, 0 < n <= grover_bits -> exists c, createGrover n t = Some c /\ qc_n c = n + 1 /\
  forall m0 m, prob (n + 1) n m (run_qc c (basis (n + 1) zeros, m0)) =
    let x := (INR (2 * iterations n + 1) * asin (/ sqrt (2 ^ n)))%R in
    if same_bits n m t then (sin x ^ 2)%R else (cos x ^ 2 / (2 ^ n - 1))%R.
Proof.
  intros n t B. destruct (createGrover n t) as [c|] eqn:E.
  - exists c. split; auto. split.
    + unfold createGrover in E. destruct (_ || _); [discriminate|]. injection E as <-. reflexivity.
    + intros m0 m. now apply grover_run.
  - unfold createGrover in E. destruct (Nat.eqb_spec n 0); [lia|]. destruct (Nat.ltb_spec grover_bits n); [lia|discriminate].
Qed.
Print Assumptions C75_grover.
Theorem C75_success : forall n t, 0 < n <= grover_bits -> exists c, createGrover n t = Some c /\
  forall m0, (/ 2 <= prob (n + 1) n t (run_qc c (basis (n + 1) zeros, m0)))%R /\
  ((2 <= n)%nat -> (1 - 5 / 2 ^ n <= prob (n + 1) n t (run_qc c (basis (n + 1) zeros, m0)))%R).
Proof.
  intros n t B. destruct (C75_grover n t B) as (c & E & _ & P). exists c. split; [auto|]. intros m0. rewrite P. cbv zeta.
  rewrite (proj2 (same_bits_iff n t t)) by auto. change (asin (/ sqrt (2 ^ n))) with (gangle n). split; [now apply success|]. intros N.
  destruct (le_lt_dec 3 n) as [L|L]; [now apply success_large|]. assert (n = 2) by lia. subst n. rewrite gangle_2. unfold iterations. cbn [Nat.leb].
  replace (INR (2 * 1 + 1) * (PI / 6))%R with (PI / 2)%R by (cbn; field). rewrite sin_PI2. lra.
Qed.
Print Assumptions C75_success.
(** Two qubits: the target is found with certainty. *)
Example C75_ex : exists c, createGrover 2 (fun q => q =? 1) = Some c /\ prob 3 2 (fun q => q =? 1) (run_qc c (basis 3 zeros, zeros)) = 1%R.
Proof.
  destruct (C75_grover 2 (fun q => q =? 1)) as (c & E & _ & P); [unfold grover_bits; lia|]. exists c. split; [auto|].
  etransitivity; [apply P|]. cbv zeta. change (asin (/ sqrt (2 ^ 2))) with (gangle 2). rewrite gangle_2. unfold iterations. cbn [Nat.leb same_bits Bool.eqb Nat.eqb andb].
  replace (INR (2 * 1 + 1) * (PI / 6))%R with (PI / 2)%R by (cbn; field). rewrite sin_PI2. ring.
Qed.
