(** C102, C103: random Clifford circuits. *)
From Coq Require Import Reals List Arith Bool NArith Lia FunctionalExtensionality FMapPositive.
From Verif Require Import Cplx Qsem GateModel GateSpec IRModel IRSpec AlgoModel AlgoBaseProofs CircSpec CliffordSpec CliffordModel CliffordProofs CliffordMainProofs CliffordLayerProofs.
Import ListNotations.

(** The generated circuit is a Clifford operator, whatever is drawn. *)
Theorem C102_clifford nq depth draw : 1 <= nq ->
  exists qc U, createRandomCliffordCircuit nq depth draw = Some qc /\ denotes (qc_ops qc) U /\ clifford_op nq U.
Proof.
  intros L. unfold createRandomCliffordCircuit. destruct (Nat.eqb_spec nq 0); [lia|].
  destruct (layers_good nq depth 0 draw 0 L) as (U & A & B). eexists _, U. split; [reflexivity|]. split; [exact A|exact B].
Qed.
Print Assumptions C102_clifford.
(** Conjugation with H maps X to Z. *)
Example C102_clifford_ex : forall psi, hst 0 (opX 0 psi) = opZ 0 (hst 0 psi).
Proof.
  intros psi. apply functional_extensionality. intros v. unfold hst, opX, opZ. rewrite !setb_same, !setb_setb. cbn [negb]. destruct (v 0); ring.
Qed.

(** The positions of the operations: the k-th number drawn decides the k-th operation. *)
Theorem C102_layout nq depth draw qc : createRandomCliffordCircuit nq depth draw = Some qc ->
  qc_n qc = nq /\
  (nq = 1 -> qc_ops qc = map (fun k => OComp false (clifford1 (draw k))) (seq 0 depth)) /\
  (2 <= nq -> qc_ops qc = map (fun p => OComp false (clifford2 (draw (fst p)) (snd p) (S (snd p)))) (numbered (flat_map (bricks nq) (seq 0 depth)))).
Proof.
  unfold createRandomCliffordCircuit. destruct (Nat.eqb_spec nq 0); [discriminate|]. intros E. injection E as <-. cbn [qc_ops qc_n plain_qc].
  split; [reflexivity|]. split; [intros ->; apply layers1_eq|intros L; now apply layers_eq].
Qed.
Print Assumptions C102_layout.
Example C102_layout_ex : flat_map (bricks 5) (seq 0 3) = [0; 2; 1; 3; 0; 2] /\ flat_map (bricks 2) (seq 0 3) = [0; 0; 0].
Proof. split; reflexivity. Qed.

(** The operations of a pair use the qubits of the pair only. *)
Theorem C102_support idx a b o q : In o (clifford2 idx a b) -> uses o q -> q = a \/ q = b.
Proof. rewrite code2_ok. intros I. apply in_map_iff in I as (g & <- & _). apply interp_uses. Qed.
Print Assumptions C102_support.

(** One qubit: the 24 operators are different, and every circuit of Clifford gates is one of them. *)
Theorem C103_single i j : (i < 24)%N -> (j < 24)%N -> same_operator (clifford1 i) (clifford1 j) -> i = j.
Proof. intros A B. rewrite !(code1_ok 1), same_op_tab by discriminate. now apply tab1_inj. Qed.
Print Assumptions C103_single.
Theorem C103_single_all l : gates1 0 l -> exists i, (i < 24)%N /\ same_operator l (clifford1 i).
Proof.
  intros G. destruct (gates1_code 0 1 l G) as (m & -> & O). apply oneside_in_table in O. unfold table1 in O. apply in_map_iff in O as (i & E & I). apply in_seq in I.
  exists (N.of_nat i). split; [lia|]. rewrite (code1_ok 1). apply same_op_tab; [discriminate|auto].
Qed.
Print Assumptions C103_single_all.
Example C103_single_ex : same_operator [g1 gS 0; g1 gH 0; g1 gS 0; g1 gH 0; g1 gS 0] (clifford1 12) /\ clifford1 12 = [g1 gH 0].
Proof.
  split; [|reflexivity]. rewrite (code1_ok 1). change [g1 gS 0; g1 gH 0; g1 gS 0; g1 gH 0; g1 gS 0] with (map (interp 0 1) [GS false; GH false; GS false; GH false; GS false]).
  apply same_op_tab; [discriminate|vm_compute; reflexivity].
Qed.

(** How many of the numbers 0 .. 11520 that can be drawn give an operator: one qubit. *)
Theorem C103_weight1_partial r : (r < 24)%N -> exists l, NoDup l /\ (forall n, In n l <-> drawn n /\ same_operator (clifford1 n) (clifford1 r)) /\
  length l = if N.eqb r 0 then 481 else 480.
Proof.
  intros L. set (f := fun k => (24 * N.of_nat k + r)%N). exists (map f (seq 0 480) ++ if N.eqb r 0 then [11520%N] else []).
  assert (In_f : forall n, In n (map f (seq 0 480)) <-> (n < 11520)%N /\ (n mod 24 = r)%N).
  { intros n. rewrite in_map_iff. unfold f. split.
    - intros (k & <- & I). apply in_seq in I. split; [lia|]. symmetry. apply N.mod_unique with (N.of_nat k); [exact L|reflexivity].
    - intros [A B]. pose proof (N.div_mod n 24 ltac:(discriminate)) as D. rewrite B in D. exists (N.to_nat (n / 24)). rewrite N2Nat.id. split; [now symmetry|]. apply in_seq. revert D. generalize (n / 24)%N. intros q D. lia. }
  split; [|split].
  - destruct (N.eqb r 0); [|rewrite app_nil_r; apply FinFun.Injective_map_NoDup; [intros x y E; unfold f in E; lia|apply seq_NoDup]].
    apply NoDup_snoc; [apply FinFun.Injective_map_NoDup; [intros x y E; unfold f in E; lia|apply seq_NoDup]|]. intros I. apply In_f in I as [I _]. lia.
  - intros n. rewrite in_app_iff, In_f. rewrite !(code1_ok 1), same_op_tab by discriminate. unfold drawn.
    assert (T : tab (code1 n) = tab (code1 r) <-> (n mod 24 = r)%N).
    { rewrite <- (code1_mod n). split; [intros E; apply tab1_inj; auto; apply N.mod_lt; discriminate|now intros ->]. }
    rewrite T. split.
    + intros [[A B]|I]; [split; [lia|exact B]|]. destruct (N.eqb_spec r 0) as [->|]; [destruct I as [<-|[]]; split; [lia|reflexivity]|destruct I].
    + intros [D E]. destruct (N.eq_dec n 11520) as [->|N]; [|left; split; [lia|exact E]]. right. change (11520 mod 24)%N with 0%N in E. rewrite <- E. now left.
  - rewrite app_length, map_length, seq_length. destruct (N.eqb r 0); reflexivity.
Qed.
Print Assumptions C103_weight1_partial.

(** Two qubits: operators of one number, of two (the identity) and of three. *)
Theorem C103_weight2_partial a b r : a <> b -> (r < 11520)%N -> exists l, NoDup l /\ (forall n, In n l <-> drawn n /\ same_operator (clifford2 n a b) (clifford2 r a b)) /\
  length l = if N.eqb r 0 then 2 else if N.ltb r 5760 then 1 else 3.
Proof.
  intros N L. destruct (fiber_length r L) as [ND E]. exists (fiber r). split; [exact ND|]. split; [|exact E]. intros n. now apply fiber_spec.
Qed.
Print Assumptions C103_weight2_partial.

(** C103 asks that every operator is given by as many numbers as every other: false for one qubit and for two. *)
Theorem C103_even1_refuted : exists r s l m, (r < 24)%N /\ (s < 24)%N /\ NoDup l /\ NoDup m /\
  (forall n, In n l <-> drawn n /\ same_operator (clifford1 n) (clifford1 r)) /\ (forall n, In n m <-> drawn n /\ same_operator (clifford1 n) (clifford1 s)) /\ length l <> length m.
Proof.
  destruct (C103_weight1_partial 0 eq_refl) as (l & A & B & E). destruct (C103_weight1_partial 1 eq_refl) as (m & A' & B' & E').
  exists 0%N, 1%N, l, m. repeat (split; [first [reflexivity|assumption]|]). rewrite E, E'. discriminate.
Qed.
(** Two-qubit Clifford operators that are never generated. *)
Theorem C103_missing_refuted : exists l, (forall o, In o l -> o = g1 gH 1 \/ o = g1 gS 1 \/ o = cg1 gX 0 1 \/ o = cg1 gX 1 0) /\
  (exists U, denotes l U /\ clifford_op 2 U) /\ forall idx, ~ same_operator l (clifford2 idx 0 1).
Proof.
  set (w := [GH true; GS true; GC false; GC true; GC false]). exists (map (interp 0 1) w). split; [|split].
  - intros o I. cbn in I. intuition.
  - exists (lift 0 1 (gmaps w)). split; [apply interps_ok; discriminate|apply two_clifford; lia].
  - intros idx. rewrite code2_ok, same_op_tab by discriminate. rewrite <- code2_mod.
    assert (L : (idx mod 11520 < 11520)%N) by now apply N.mod_lt. generalize dependent (idx mod 11520)%N. intros i L E.
    assert (T : forallb (fun kc => negb (Pos.eqb (enc (tab w)) (fst kc))) keys = true) by (vm_compute; reflexivity).
    rewrite forallb_forall in T. specialize (T (enc (tab (body2 (i / 16))), canD (i / 16))). rewrite E, code2_split, enc_cp in T by (exact L || apply mod16). cbn [fst] in T. rewrite Pos.eqb_refl in T.
    assert (I : In (enc (tab (body2 (i / 16))), canD (i / 16)) keys) by (unfold keys; apply in_map_iff; exists (i / 16)%N; split; [reflexivity|apply bodies_in, div16; exact L]). discriminate (T I).
Qed.
Print Assumptions C103_missing_refuted.
Example C103_two_ex : clifford2 5760 3 4 = [cg1 gX 3 4; cg1 gX 4 3] /\ clifford2 (5760 + 432) 3 4 = clifford2 5760 3 4 /\
  clifford2 (16 * 36 + 7) 0 1 = [cg1 gX 0 1; g1 gY 0; g1 gZ 1].
Proof. repeat split. Qed.
