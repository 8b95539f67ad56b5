(* C80: writing a circuit as OpenQASM and reading it back. *)
From Coq Require Import Reals ZArith NArith Bool List String Ascii Arith Lia Lra FunctionalExtensionality.
From Verif Require Import Cplx Qsem GateModel GateSpec IRModel IRSpec IRProofs QasmEnvModel QasmConstModel QasmIfModel QasmGateModel AlgoModel AlgoBaseProofs
  ExportModel ExportSpec ExportRegProofs ExportProofs.
Import ListNotations.
Local Open Scope nat_scope.
Local Open Scope string_scope.

(* what is written is accepted, declares the same registers and acts alike: in both versions of the language, for registers
   in any order, every gate but Peres, any controls, barriers, measurements, resets, conditions and compound operations as
   admitted by exportable *)
Theorem C80_export_import_partial (v3 asserts : bool) (qregs bregs : cregs) (nq nb : nat) (asked : string -> Prop) (ops : list cop) :
  divides qregs nq -> divides bregs nb -> NoDup (map fst qregs ++ map fst bregs) -> (Z.of_nat nb <= 2 ^ 64)%Z ->
  Forall (exportable v3 qregs bregs nq nb asked) ops ->
  exists p c, dumpOpenQASM v3 qregs bregs ops = ROk p /\ import asserts p = ROk c /\
    (forall r, In r (ci_qregs c) <-> In r qregs) /\ (forall r, In r (ci_bregs c) <-> In r bregs) /\ forall b, run (ci_ops c) b = run ops b.
Proof.
  intros DQ DB ND NB F. destruct (round_trip v3 asserts qregs bregs nq nb asked DQ DB NB ND ops F) as (p & c & D & I & EQ & EB & R).
  exists p, c. split; auto. split; auto. rewrite EQ, EB.
  assert (X : forall l n r, divides l n -> In r (sortedRegs l) <-> In r l).
  { intros l n r DV. destruct (sorted_perm l n DV) as [P _]. split; apply Permutation.Permutation_in; [exact P|apply Permutation.Permutation_sym, P]. }
  split; [intros r; eapply X; eauto|]. split; [intros r; eapply X; eauto|]. exact R.
Qed.
Print Assumptions C80_export_import_partial.

Definition std t ps cl ts : cop := OStd {| o_type := t; o_par := ps; o_ctl := cl; o_tgt := ts |}.
(* a register declared after, and lying before, another; positive and negative controls; a condition *)
Definition ex_q : cregs := [("a", (2, 1)); ("q", (0, 2))].
Definition ex_c : cregs := [("c", (0, 2))].
Definition ex_ops : list cop :=
  [std gH [] [] [2]; std gRZ [1%R] [(0, true); (2, false)] [1]; OComp false [std gX [] [(0, true)] [1]; OReset [2]];
   OMeas [0; 1] [0; 1]; OMeas [2] [1]; OClass (CReg 0 2 3 kGeq) (std gS [] [(0, false)] [2])].
Example ex_written : dumpOpenQASM true ex_q ex_c ex_ops = ROk
  {| pr_v3 := true; pr_qubits := [("q", 2); ("a", 1)]; pr_bits := [("c", 2)];
     pr_items :=
       let q i := {| op_name := "q"; op_index := Some i |} in let a := {| op_name := "a"; op_index := Some 0 |} in let all s := {| op_name := s; op_index := None |} in
       [TStmt (XCall {| c_gate := "h"; c_mods := []; c_args := []; c_ops := [a] |});
        TStmt (XCall {| c_gate := "rz"; c_mods := [MCtrl true None; MCtrl false None]; c_args := [PNum 1]; c_ops := [q 0; a; q 1] |});
        TStmt (XCall {| c_gate := "cx"; c_mods := []; c_args := []; c_ops := [q 0; q 1] |}); TStmt (XReset (all "a"));
        TStmt (XMeasure (all "c") (all "q")); TStmt (XMeasure {| op_name := "c"; op_index := Some 1 |} a);
        TIf (EBin GreaterThanOrEqual (EId "c" []) (EInt false 3)); TOpen;
        TStmt (XCall {| c_gate := "p"; c_mods := [MCtrl false None]; c_args := [pi_half]; c_ops := [q 0; a] |}); TClose] |}.
Proof. reflexivity. Qed.
Lemma ex_divides_q : divides ex_q 3.
Proof.
  split; [repeat constructor; cbn; intuition discriminate|]. split; [repeat constructor; cbn; lia|]. split.
  - intros i L. destruct (Nat.eq_dec i 2); [exists ("a", (2, 1))|exists ("q", (0, 2))]; unfold contains, start, size; cbn; split; auto; lia.
  - intros r r' i [<-|[<-|[]]] [<-|[<-|[]]]; unfold contains, start, size; cbn; intros; auto; lia.
Qed.
Lemma ex_divides_c : divides ex_c 2.
Proof.
  split; [repeat constructor; cbn; intuition discriminate|]. split; [repeat constructor; cbn; lia|]. split.
  - intros i L. exists ("c", (0, 2)). unfold contains, start, size; cbn; split; auto; lia.
  - intros r r' i [<-|[]] [<-|[]]. auto.
Qed.
Ltac gate := split; [split; [split; [repeat constructor; cbn; intuition discriminate|intros c I; cbn in I; intuition (subst; cbn in *; intuition discriminate)]|eexists; reflexivity]
                    |split; [repeat constructor; cbn; intuition discriminate|split; [repeat constructor|exact I]]].
Lemma ex_fine v3 : v3 = true -> Forall (exportable v3 ex_q ex_c 3 2 (fun _ => False)) ex_ops.
Proof.
  intros ->. unfold ex_ops, std. repeat apply Forall_cons; [gate|gate| | | | |constructor].
  - split; [gate|]. split; [|exact I]. split; [discriminate|]. split; [repeat constructor|]. left. exists ("a", (2, 1)). split; [now left|reflexivity].
  - split; [reflexivity|]. split; [discriminate|]. split; [repeat constructor|]. split; [repeat constructor|]. left. exists ("q", (0, 2)), ("c", (0, 2)). split; [split; [right; now left|reflexivity]|]. split; [split; [now left|reflexivity]|]. tauto.
  - split; [reflexivity|]. split; [discriminate|]. split; [repeat constructor|]. split; [repeat constructor|]. right. split; [|reflexivity]. right. intros (r & x & IR & _ & H1 & H2). destruct IR as [<-|[]]. cbn in H1. discriminate H1.
  - split; [split; [exists "c"; now left|reflexivity]|]. split; [gate|discriminate].
Qed.
Example C80_example (asserts : bool) : exists p c, dumpOpenQASM true ex_q ex_c ex_ops = ROk p /\ import asserts p = ROk c /\ ci_qregs c = [("q", (0, 2)); ("a", (2, 1))] /\ forall b, run (ci_ops c) b = run ex_ops b.
Proof.
  destruct (round_trip true asserts ex_q ex_c 3 2 (fun _ => False) ex_divides_q ex_divides_c) with (ops := ex_ops) as (p & c & D & I & EQ & _ & R); [cbn; lia|repeat constructor; cbn; intuition discriminate|now apply ex_fine|].
  exists p, c. rewrite EQ. auto.
Qed.

(* ---- circuits that are not read back ---- *)
(* the text of the circuit is accepted, with another meaning *)
Definition misread (v3 : bool) (qregs bregs : cregs) (ops : list cop) : Prop :=
  exists p c, dumpOpenQASM v3 qregs bregs ops = ROk p /\ import true p = ROk c /\ ~ (forall b, run (ci_ops c) b = run ops b).
Definition rejected (v3 : bool) (qregs bregs : cregs) (ops : list cop) : Prop := exists p, dumpOpenQASM v3 qregs bregs ops = ROk p /\ import true p = RError.
Definition q2 : cregs := [("q", (0, 2))].
Definition q3 : cregs := [("q", (0, 3))].
Definition c2 : cregs := [("c", (0, 2))].
Definition off : store := fun _ => false.
Definition zero : state := fun b => if b 0 || b 1 then C0 else C1.
(* OpenQASM 3: all qubits of one measurement are written to the first bit *)
Theorem C80_measure_refuted : misread true q2 c2 [OMeas [0; 1] [1; 0]].
Proof.
  do 2 eexists. split; [reflexivity|]. split; [reflexivity|]. intros H. specialize (H (zero, off)). apply (f_equal (map (fun x => snd x 0))) in H. vm_compute in H. discriminate H.
Qed.
Print Assumptions C80_measure_refuted.
(* only the first and the last qubit are compared with those of the register *)
Theorem C80_whole_refuted : forall v3, misread v3 q3 c2 [OReset [0; 2]].
Proof.
  intros v3. do 2 eexists. split; [reflexivity|]. split; [destruct v3; reflexivity|]. intros H. specialize (H (zero, off)). apply (f_equal (@List.length branch)) in H. destruct v3; vm_compute in H; discriminate H.
Qed.
Print Assumptions C80_whole_refuted.
(* OpenQASM 2: the condition covers the first statement only, or, with an empty block, the next operation *)
Theorem C80_empty_if_refuted : misread false q2 c2 [OClass (CReg 0 2 1 kEq) (OComp false []); std gX [] [] [0]].
Proof.
  do 2 eexists. split; [reflexivity|]. split; [reflexivity|]. intros H. specialize (H (zero, off)). cbn [ci_ops i_ops app] in H.
  change (run [OClass (CReg 0 2 1 kEq) (OComp false []); std gX [] [] [0]] (zero, off)) with (run [g1 gX 0] (zero, off)) in H. rewrite (acts_x 0) in H.
  cbn in H. injection H as H. apply (f_equal (fun f => f (fun _ => false))) in H. unfold xst, zero in H. cbn in H. unfold C1, C0, RtoC in H. injection H. lra.
Qed.
Print Assumptions C80_empty_if_refuted.
Theorem C80_block_if_refuted : misread false q2 c2 [OClass (CReg 0 2 1 kEq) (OComp false [std gX [] [] [0]; std gX [] [] [1]])].
Proof.
  do 2 eexists. split; [reflexivity|]. split; [reflexivity|]. intros H. specialize (H (zero, off)). cbn [ci_ops i_ops app] in H.
  change (run [OClass (CReg 0 2 1 kEq) (OComp false [std gX [] [] [0]; std gX [] [] [1]])] (zero, off)) with [(zero, off)] in H.
  match type of H with run [?a; ?b] ?s = _ => change (run [a; b] s) with (run [g1 gX 1] s) in H end. rewrite (acts_x 1) in H.
  injection H as H. apply (f_equal (fun f => f (fun _ => false))) in H. unfold xst, zero in H. cbn in H. unfold C1, C0, RtoC in H. injection H. lra.
Qed.
Print Assumptions C80_block_if_refuted.
(* the same for the gates around a negative control *)
Theorem C80_negative_if_refuted : misread false q2 c2 [OClass (CReg 0 2 1 kEq) (std gX [] [(0, false)] [1])].
Proof.
  do 2 eexists. split; [reflexivity|]. split; [reflexivity|]. intros H. specialize (H (zero, off)). cbn [ci_ops i_ops app] in H.
  change (run [OClass (CReg 0 2 1 kEq) (std gX [] [(0, false)] [1])] (zero, off)) with [(zero, off)] in H.
  match type of H with run [?a; ?b; ?c] ?s = _ => change (run [a; b; c] s) with (run ([cg1 gX 0 1] ++ [g1 gX 0]) s) in H end. rewrite (acts_app _ _ _ _ (acts_cx 0 1) (acts_x 0)) in H.
  injection H as H. apply (f_equal (fun f => f (fun _ => false))) in H. unfold xst, cxst, zero in H. cbn in H. unfold C1, C0, RtoC in H. injection H. lra.
Qed.
Print Assumptions C80_negative_if_refuted.
(* the Peres gate is written with its qubits exchanged *)
Theorem C80_peres_refuted : misread true q2 c2 [std gPeres [] [] [0; 1]].
Proof.
  do 2 eexists. split; [reflexivity|]. split; [reflexivity|]. intros H. specialize (H (zero, off)). cbn [ci_ops i_ops app] in H.
  match type of H with run [?a; ?b] ?s = _ => change (run [a; b] s) with (run ([cg1 gX 1 0] ++ [g1 gX 1]) s) in H end. rewrite (acts_app _ _ _ _ (acts_cx 1 0) (acts_x 1)) in H.
  cbn [run run_op flat_map fst snd app] in H. injection H as H. apply (f_equal (fun f => f (fun q => Nat.eqb q 1))) in H. unfold xst, cxst, zero in H. cbn in H. unfold Cmul, Cadd, C1, C0, RtoC in H. cbn in H. injection H. intros. lra.
Qed.
Print Assumptions C80_peres_refuted.
(* blocks hold gates only *)
Theorem C80_block_rejected_refuted : rejected true q2 c2 [OClass (CReg 0 2 1 kEq) (OMeas [0] [0])] /\ rejected true q2 c2 [OClass (CReg 0 2 1 kEq) (OReset [0])] /\
  rejected true q2 c2 [OClass (CReg 0 2 1 kEq) (std gBarrier [] [] [0])] /\ rejected true q2 c2 [OClass (CReg 0 2 1 kEq) (OClass (CBit 0 1 kEq) (std gX [] [] [0]))].
Proof. repeat split; (eexists; split; reflexivity). Qed.
Print Assumptions C80_block_rejected_refuted.
(* after a condition on one bit, its register cannot be assigned as a whole *)
Theorem C80_width_refuted : forall v3, rejected v3 q2 c2 [OClass (CBit 0 1 kEq) (std gX [] [] [0]); OMeas [0; 1] [0; 1]].
Proof. intros [|]; (eexists; split; reflexivity). Qed.
Print Assumptions C80_width_refuted.
(* there is no gate move to read *)
Theorem C80_move_refuted : forall v3, rejected v3 q2 c2 [std gMove [] [] [0; 1]].
Proof. intros [|]; (eexists; split; reflexivity). Qed.
Print Assumptions C80_move_refuted.
