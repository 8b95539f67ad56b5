(** C111: fidelity of measurement outcomes. *)
From Coq Require Import Reals Lra List Bool Arith Lia.
From Verif Require Import Cplx Qsem DDModel DDSpec DDProofs TravModel TravSpec TravProofs FidModel FidSpec FidProofs.
Import ListNotations.
Local Open Scope R_scope.

(** C111: without a permutation the result is the overlap sum_i |a_i| sqrt(p_i) over all basis states; outcomes that are
    not listed and entries below the dropped zero edges contribute nothing. *)
Theorem C111_sum n e probs : vcanon (S n) e ->
  fidelityOfMeasurementOutcomes e probs [] = Some (sumBelow (2 ^ S n) (fun i => Cmod (ventry e i) * sqrt (prob probs i))).
Proof. intros H. apply (fid_sum n e probs [] (fun i => i) H). reflexivity. Qed.
Print Assumptions C111_sum.

(** C111: for a normalised state and a distribution it is at most one, and one exactly for the distribution of the state. *)
Theorem C111_one n e probs : vcanon (S n) e -> (forall i, 0 <= prob probs i) -> sumBelow (2 ^ S n) (prob probs) = 1 ->
  sumBelow (2 ^ S n) (fun i => Cnorm2 (ventry e i)) = 1 ->
  exists r, fidelityOfMeasurementOutcomes e probs [] = Some r /\ r <= 1 /\
    (r = 1 <-> forall i, (i < 2 ^ S n)%nat -> prob probs i = Cnorm2 (ventry e i)).
Proof.
  intros H P Sp Sa. eexists. split; [exact (C111_sum n e probs H)|].
  destruct (overlap (2 ^ S n) (fun i => Cmod (ventry e i)) (prob probs)) as [O1 O2].
  - intros i _. apply Cmod_pos.
  - intros i _. apply P.
  - rewrite <- Sa. apply Rsum_ext. intros i _. apply Cmod_sq.
  - exact Sp.
  - split; [exact O1|]. rewrite O2. split; intros Q i I; rewrite Q by exact I; [|symmetry]; apply Cmod_sq.
Qed.
Print Assumptions C111_one.

(** C111 (partial): with a permutation of all qubits, every basis state is compared with the outcome its logical qubits
    spell; missing: permutations that change when all qubits are counted from the other end. *)
Theorem C111_permuted_partial n e probs perm g : vcanon (S n) e -> full (S n) perm ->
  (forall i, (i < 2 ^ S n)%nat -> (g i < 2 ^ S n)%nat /\ outcome_of perm i (g i)) ->
  (forall p l, In (p, l) perm -> In (n - p, n - l)%nat perm) ->
  fidelityOfMeasurementOutcomes e probs perm = Some (sumBelow (2 ^ S n) (fun i => Cmod (ventry e i) * sqrt (prob probs (g i)))).
Proof.
  intros H F G M. apply (fid_sum n e probs perm g H). intros i Hi. destruct (G i Hi). apply key_mirror; auto; [lia|].
  intros p l I. cbn [Nat.sub]. rewrite Nat.sub_0_r. now apply M.
Qed.
Print Assumptions C111_permuted_partial.

(** C111: what is computed for every permutation of all qubits: the one counted from the other end. *)
Theorem C111_reversed n e probs perm g : vcanon (S n) e -> full (S n) perm ->
  (forall i, (i < 2 ^ S n)%nat -> (g i < 2 ^ S n)%nat /\ outcome_of (map (fun pl => (n - fst pl, n - snd pl)%nat) perm) i (g i)) ->
  fidelityOfMeasurementOutcomes e probs perm = Some (sumBelow (2 ^ S n) (fun i => Cmod (ventry e i) * sqrt (prob probs (g i)))).
Proof.
  intros H F G. apply (fid_sum n e probs perm g H). intros i Hi. destruct (G i Hi) as [Gi O]. pose proof F as (L & _ & N & B).
  destruct (key_spec (S n) perm i) as (j & E & Hj & K); [intros ->; discriminate L|intros p l I; rewrite L; now apply B|exact N|].
  rewrite E. f_equal. rewrite L in *. apply (bits_eq (S n)); auto. intros k Hk.
  destruct (full_onto (S n) perm (n - k) F ltac:(lia)) as [p I]. pose proof (K _ _ I) as K'.
  replace (S n - 1 - (n - k))%nat with k in K' by lia. replace (S n - 1 - p)%nat with (n - p)%nat in K' by lia. rewrite K'. symmetry.
  replace k with (n - (n - k))%nat by lia. apply (O (n - p)%nat). apply in_map_iff. exists (p, n - k)%nat. now split.
Qed.
Print Assumptions C111_reversed.

(** Basis states of three qubits *)
Definition only (b i : bool) : C := if Bool.eqb b i then C1 else C0.
Definition ket3 (b2 b1 b0 : bool) : vedge :=
  (C1, VNode 2 (only b2) (fun i => if Bool.eqb b2 i then VNode 1 (only b1) (fun j => if Bool.eqb b1 j then VNode 0 (only b0) (fun _ => VT) else VT) else VT)).
Lemma only_unit b : vunit (only b).
Proof.
  unfold vunit, vfirst, only. destruct b; cbn [Bool.eqb]; rewrite Cnorm2_0, Cnorm2_1; (split; [ring|]); exists 1; (split; [lra|]);
    destruct Rle_dec; try lra; reflexivity.
Qed.
Lemma Cmod_RtoC x : Cmod (RtoC x) = Rabs x. Proof. unfold Cmod. rewrite Cnorm2_RtoC. apply sqrt_Rsqr_abs. Qed.
Lemma Cmod_1 : Cmod C1 = 1. Proof. unfold Cmod. rewrite Cnorm2_1. apply sqrt_1. Qed.
Lemma ket3_canon b2 b1 b0 : vcanon 3 (ket3 b2 b1 b0).
Proof.
  cbn. repeat split; try apply C1_neq_C0; try apply only_unit. intros i. unfold only at 1. destruct (Bool.eqb b2 i); cbn; [|now right].
  repeat split; try apply C1_neq_C0; try apply only_unit. intros j. unfold only at 1. destruct (Bool.eqb b1 j); cbn; [|now right].
  repeat split; try apply C1_neq_C0; try apply only_unit. intros k. now left.
Qed.

(** C111 (refuted): with qubits 0 and 1 exchanged, the state |001> is found at the outcome 1 instead of 2. *)
Definition swap01 : list (nat * nat) := [(0, 1); (1, 0); (2, 2)]%nat.
Lemma swap01_full : full 3 swap01.
Proof. repeat split; cbn; try (repeat constructor; cbn; lia); destruct H as [E|[E|[E|[]]]]; injection E as <- <-; lia. Qed.
Definition swapped (i : nat) : nat := nth i [0; 2; 1; 3; 4; 6; 5; 7]%nat 0%nat.
Theorem C111_permuted_refuted : exists n e probs perm g, vcanon (S n) e /\ full (S n) perm /\
  (forall i, (i < 2 ^ S n)%nat -> (g i < 2 ^ S n)%nat /\ outcome_of perm i (g i)) /\
  sumBelow (2 ^ S n) (fun i => Cmod (ventry e i) * sqrt (prob probs (g i))) = 1 /\
  fidelityOfMeasurementOutcomes e probs perm = Some 0.
Proof.
  exists 2%nat, (ket3 false false true), [(2%nat, 1)], swap01, swapped. split; [apply ket3_canon|]. split; [apply swap01_full|]. split.
  - intros i Hi. change (2 ^ 3)%nat with 8%nat in *. do 8 (destruct i as [|i]; [split; [cbn; lia|intros p l [E|[E|[E|[]]]]; injection E as <- <-; reflexivity]|]). lia.
  - split.
    + unfold sumBelow, Rsum, ventry, veden, prob, only. cbn -[Cmod C0 C1 Cmul sqrt]. rewrite !Cmod_mul, Cmod_1, Cmod_0, sqrt_0, sqrt_1. ring.
    + unfold fidelityOfMeasurementOutcomes, ezero, ket3. cbn [fst snd]. destruct (Ceq_dec C1 C0) as [E|_]; [now destruct (C1_neq_C0 E)|].
      cbn. unfold only; cbn. unfold ezero. destruct (Ceq_dec C1 C0) as [E|_]; [now destruct (C1_neq_C0 E)|]. destruct (Ceq_dec C0 C0) as [_|E]; [|congruence].
      cbn. f_equal. ring.
Qed.
Print Assumptions C111_permuted_refuted.

(** C111 (refuted): with an ignored qubit, amplitudes are added where probabilities should be, so a normalised state and a
    distribution can have a "fidelity" above one. *)
Lemma prob_pos probs i : Forall (fun kp => 0 <= snd kp) probs -> 0 <= prob probs i.
Proof. unfold prob. induction 1 as [|[k p] r H _ IH]; cbn [look]; [lra|]. destruct Nat.eq_dec; [exact H|exact IH]. Qed.
Definition hw : R := / sqrt 2.
Lemma hw_sq : hw * hw = / 2. Proof. unfold hw. rewrite <- Rinv_mult, sqrt_sqrt by lra. auto. Qed.
Lemma hw_pos : 0 < hw. Proof. unfold hw. apply Rinv_0_lt_compat, sqrt_lt_R0. lra. Qed.
Definition plus0 : vedge := (C1, VNode 1 (only false) (fun i => if i then VT else VNode 0 (fun _ => RtoC hw) (fun _ => VT))).
Lemma plus0_canon : vcanon 2 plus0.
Proof.
  pose proof hw_sq as Q. pose proof hw_pos as P. cbn. repeat split; try apply C1_neq_C0; try apply only_unit. intros [|]; cbn; [now right|].
  repeat split; [apply C1_neq_C0|rewrite !Cnorm2_RtoC; lra| |intros _; now left]. exists hw. split; [lra|reflexivity].
Qed.
Theorem C111_ignored_refuted : exists n e probs perm r, vcanon (S n) e /\ sumBelow (2 ^ S n) (fun i => Cnorm2 (ventry e i)) = 1 /\
  sumBelow (2 ^ length perm) (prob probs) = 1 /\ (forall i, 0 <= prob probs i) /\
  fidelityOfMeasurementOutcomes e probs perm = Some r /\ 1 < r.
Proof.
  pose proof hw_sq as Q. pose proof hw_pos as P. exists 1%nat, plus0, [(0%nat, 1)], [(0, 0)]%nat, (hw + hw).
  split; [apply plus0_canon|]. split.
  { unfold sumBelow, Rsum, ventry, veden, plus0, only, Cnorm2. cbn. nra. }
  split; [unfold sumBelow, Rsum, prob; cbn; ring|]. split; [intros i; apply prob_pos; repeat constructor; cbn; lra|]. split; [|destruct (Rle_lt_dec hw (1 / 2)); nra].
  pose proof Cmod_1 as M1.
  assert (Mh : Cmod (RtoC hw) = hw) by (rewrite Cmod_RtoC; apply Rabs_pos_eq; lra).
  assert (Zh : RtoC hw <> C0) by (intros E; apply (f_equal fst) in E; cbn in E; lra).
  unfold fidelityOfMeasurementOutcomes, ezero, plus0. cbn [fst snd]. destruct (Ceq_dec C1 C0) as [E|_]; [now destruct (C1_neq_C0 E)|].
  cbn. unfold only; cbn. unfold ezero. destruct (Ceq_dec C1 C0) as [E|_]; [now destruct (C1_neq_C0 E)|]. destruct (Ceq_dec C0 C0) as [_|E]; [|congruence].
  destruct (Ceq_dec (RtoC hw) C0) as [E|_]; [contradiction|]. cbn. rewrite M1, Mh, sqrt_1. f_equal. ring.
Qed.
Print Assumptions C111_ignored_refuted.

(** ** Examples *)
(** The outcome that the reversed reading expects is accepted in full *)
Example C111_ex_wrong : fidelityOfMeasurementOutcomes (ket3 false false true) [(1%nat, 1)] swap01 = Some 1.
Proof.
  pose proof Cmod_1 as M1.
  unfold fidelityOfMeasurementOutcomes, ezero, ket3. cbn [fst snd]. destruct (Ceq_dec C1 C0) as [E|_]; [now destruct (C1_neq_C0 E)|].
  cbn. unfold only; cbn. unfold ezero. destruct (Ceq_dec C1 C0) as [E|_]; [now destruct (C1_neq_C0 E)|]. destruct (Ceq_dec C0 C0) as [_|E]; [|congruence].
  cbn. rewrite M1, sqrt_1. f_equal. ring.
Qed.
(** |0>|+> against its own distribution and against a quarter and three quarters *)
Example C111_ex : fidelityOfMeasurementOutcomes plus0 [(0%nat, / 2); (1%nat, / 2)] [] = Some 1 /\
  exists r, fidelityOfMeasurementOutcomes plus0 [(0%nat, / 4); (1%nat, 3 / 4)] [] = Some r /\ r < 1.
Proof.
  pose proof hw_sq as Q. assert (N : sumBelow (2 ^ 2) (fun i => Cnorm2 (ventry plus0 i)) = 1) by (unfold sumBelow, Rsum, ventry, veden, plus0, only, Cnorm2; cbn; nra).
  split.
  - destruct (C111_one 1 plus0 [(0%nat, / 2); (1%nat, / 2)] plus0_canon) as (r & -> & _ & E); [intros i; apply prob_pos; repeat constructor; cbn; lra|unfold sumBelow, Rsum, prob; cbn; lra|exact N|].
    f_equal. apply E. intros i Hi. change (2 ^ 2)%nat with 4%nat in Hi. unfold prob, ventry, veden, plus0, only, Cnorm2.
    do 4 (destruct i as [|i]; [cbn; nra|]). lia.
  - destruct (C111_one 1 plus0 [(0%nat, / 4); (1%nat, 3 / 4)] plus0_canon) as (r & E & L & O); [intros i; apply prob_pos; repeat constructor; cbn; lra|unfold sumBelow, Rsum, prob; cbn; lra|exact N|].
    exists r. split; [exact E|]. destruct (Req_dec r 1) as [R1|R1]; [|lra]. exfalso. pose proof (proj1 O R1 0%nat ltac:(cbn; lia)) as K.
    unfold prob, ventry, veden, plus0, only, Cnorm2 in K. cbn in K. nra.
Qed.
(** All permutations of two qubits are read correctly; one for three qubits is out of range for a state of two *)
Example C111_ex_swap : fidelityOfMeasurementOutcomes plus0 [(0%nat, / 2); (2%nat, / 2)] [(0, 1); (1, 0)]%nat = Some (sumBelow 4 (fun i => Cmod (ventry plus0 i) * sqrt (prob [(0%nat, / 2); (2%nat, / 2)] (nth i [0; 2; 1; 3]%nat 0%nat)))) /\
  fidelityOfMeasurementOutcomes plus0 [] [(0, 0); (1, 1); (2, 2)]%nat = None.
Proof.
  split.
  - apply (C111_permuted_partial 1 plus0 _ _ (fun i => nth i [0; 2; 1; 3]%nat 0%nat) plus0_canon).
    + repeat split; cbn; try (repeat constructor; cbn; lia); destruct H as [E|[E|[]]]; injection E as <- <-; lia.
    + intros i Hi. change (2 ^ 2)%nat with 4%nat in *. do 4 (destruct i as [|i]; [split; [cbn; lia|intros p l [E|[E|[]]]; injection E as <- <-; reflexivity]|]). lia.
    + intros p l [E|[E|[]]]; injection E as <- <-; cbn; tauto.
  - pose proof hw_pos as P. assert (Zh : RtoC hw <> C0) by (intros E; apply (f_equal fst) in E; cbn in E; lra).
    unfold fidelityOfMeasurementOutcomes, ezero, plus0. cbn [fst snd]. destruct (Ceq_dec C1 C0) as [E|_]; [now destruct (C1_neq_C0 E)|].
    cbn. unfold only; cbn. unfold ezero. destruct (Ceq_dec C1 C0) as [E|_]; [now destruct (C1_neq_C0 E)|].
    destruct (Ceq_dec (RtoC hw) C0) as [E|_]; [contradiction|]. reflexivity.
Qed.
