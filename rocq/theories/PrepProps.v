(** C76: state preparation. *)
From Coq Require Import Reals Lra Lia List Arith Bool NArith.
From Verif Require Import Cplx Qsem GateModel IRModel IRSpec OutcomeSpec AlgoModel AlgoSpec.
From Verif Require Import PrepModel PrepSpec PrepNormProofs PrepProofs.
Import ListNotations.
Local Open Scope R_scope.

(** C76: createStatePreparationCircuit accepts exactly the vectors whose norm is
    within eps of one and whose size is a power of two. *)
Theorem C76_accepts amps eps : 0 < eps ->
  ((exists c, createStatePreparationCircuit amps eps = Some c)
   <-> Rabs (1 - sqrt (sqnorm amps)) < eps /\ exists n, length amps = (2 ^ n)%nat).
Proof.
  intros E. unfold createStatePreparationCircuit, isNormalized. rewrite twoNorm_eq.
  destruct (Rlt_dec (Rabs (1 - sqrt (sqnorm amps))) eps) as [H|H]; cbn [negb].
  2: { split; [intros [c X]; discriminate|intros [X _]; contradiction]. }
  destruct (N.eqb _ 0 || _)%bool eqn:B.
  - split; [intros [c X]; discriminate|]. intros [_ X]. apply pow2_nat in X. congruence.
  - split; [intros _; split; auto; now apply pow2_nat|]. intros [_ [n L]].
    destruct (prep_main n amps eps E L H) as (c & phi & I & _). exists c. rewrite L, log2_pow. exact I.
Qed.
Print Assumptions C76_accepts.

(** C76: the circuit takes |0..0> to a unit vector, and that vector - with its
    global phase - differs from the given one by at most
    eps * (n |amps| + 5 sqrt(2^n)). *)
Theorem C76_prepares amps eps c : 0 < eps -> createStatePreparationCircuit amps eps = Some c ->
  exists n phi, length amps = (2 ^ n)%nat /\ qc_n c = n
    /\ (forall m, run_qc c (basis n zeros, m) = [(phi, m)])
    /\ weight n phi = 1
    /\ distance n phi (vec_state n amps) <= eps * (INR n * sqrt (sqnorm amps) + 5 * sqrt (2 ^ n)).
Proof.
  intros E. unfold createStatePreparationCircuit, isNormalized. rewrite twoNorm_eq.
  destruct (Rlt_dec (Rabs (1 - sqrt (sqnorm amps))) eps) as [H|H]; cbn [negb]; [|discriminate].
  destruct (N.eqb _ 0 || _)%bool eqn:B; [discriminate|]. apply pow2_nat in B as [n L].
  destruct (prep_main n amps eps E L H) as (c' & phi & I & Q & R & W & D). rewrite L, log2_pow, I. intros [= <-].
  exists n, phi. auto.
Qed.
Print Assumptions C76_prepares.

(** (3/5, 4i/5) is accepted, and the qubit ends up within 1/1000 of it. *)
Example C76_example : exists c phi,
  createStatePreparationCircuit [RtoC (3 / 5); (0, 4 / 5)] (1 / 8100) = Some c
  /\ run_qc c (basis 1 zeros, zeros) = [(phi, zeros)]
  /\ distance 1 phi (vec_state 1 [RtoC (3 / 5); (0, 4 / 5)]) <= 1 / 1000.
Proof.
  assert (S1 : sqnorm [RtoC (3 / 5); (0, 4 / 5)] = 1) by (unfold sqnorm, Cnorm2; cbn; field).
  destruct (proj2 (C76_accepts [RtoC (3 / 5); (0, 4 / 5)] (1 / 8100) ltac:(lra))) as [c H].
  { rewrite S1, sqrt_1. split; [|now exists 1%nat]. rewrite Rminus_diag_eq, Rabs_R0 by reflexivity. lra. }
  destruct (C76_prepares _ (1 / 8100) _ ltac:(lra) H) as (n & phi & L & _ & R & _ & D).
  assert (n = 1)%nat as ->.
  { apply (Nat.pow_inj_r 2); [lia|]. rewrite <- L. reflexivity. }
  exists c, phi. split; [exact H|split; [apply R|]]. eapply Rle_trans; [exact D|]. rewrite S1, sqrt_1.
  assert (sqrt (2 ^ 1) <= 1.42). { apply Rle_trans with (sqrt (1.42 * 1.42)); [apply sqrt_le_1; lra|rewrite sqrt_square; lra]. }
  cbn [INR]. lra.
Qed.
(** (1, 1) and a vector of three amplitudes are rejected. *)
Example C76_example_norm : createStatePreparationCircuit [C1; C1] (/ 10) = None.
Proof.
  destruct (createStatePreparationCircuit [C1; C1] (/ 10)) eqn:E; auto. exfalso.
  destruct (proj1 (C76_accepts [C1; C1] (/ 10) ltac:(lra)) (ex_intro _ _ E)) as [H _].
  replace (sqnorm [C1; C1]) with 2 in H by (unfold sqnorm, Cnorm2; cbn; ring).
  assert (1.2 <= sqrt 2). { apply Rle_trans with (sqrt (1.2 * 1.2)); [rewrite sqrt_square; lra|apply sqrt_le_1; lra]. }
  rewrite Rabs_left in H by lra. lra.
Qed.
Example C76_example_size : createStatePreparationCircuit [C1; C0; C0] (/ 10) = None.
Proof.
  destruct (createStatePreparationCircuit [C1; C0; C0] (/ 10)) eqn:E; auto. exfalso.
  destruct (proj1 (C76_accepts _ (/ 10) ltac:(lra)) (ex_intro _ _ E)) as [_ [n L]].
  destruct n as [|n]; cbn [length] in L; [discriminate|]. rewrite Nat.pow_succ_r' in L. lia.
Qed.
