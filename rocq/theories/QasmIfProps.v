(* C66: if statements. *)
From Coq Require Import ZArith NArith Bool List String Lia Reals.
From Verif Require Import Cplx Qsem GateModel GateSpec IRModel IRSpec IRProofs QasmConstModel QasmIfModel QasmIfProofs.
Import ListNotations.
Local Open Scope string_scope.

(* For every register content and state, the translation of an if statement runs the then-block if the condition holds
   and the else-block otherwise. *)
Theorem C66_if_partial : forall asserts regs c th el m psi d, translated regs c -> means regs m c = Some d -> Forall no_class th -> Forall no_class el ->
  exists ops, visitIfStatement asserts regs c th el = ROk ops /\ run ops (psi, m) = run (if d then th else el) (psi, m).
Proof. exact if_ok. Qed.
Print Assumptions C66_if_partial.
Definition id (s : string) : expr := EId s []. Definition num (z : Z) : expr := EInt false z.
Definition regs : cregs := [("c", (0, 3)%nat); ("d", (3, 2)%nat)].
Definition g (t : nat) : cop := OStd {| o_type := gX; o_par := []; o_ctl := []; o_tgt := [t] |}.
(* if (d >= 2) x q[0]; else x q[1]; and if (!c[1]) x q[0]; *)
Example C66_example : translated regs (EBin GreaterThanOrEqual (id "d") (num 2)) /\ means regs (fun b => Nat.eqb b 4) (EBin GreaterThanOrEqual (id "d") (num 2)) = Some true /\
  visitIfStatement true regs (EBin GreaterThanOrEqual (id "d") (num 2)) [g 0] [g 1] = ROk [OClass (CReg 3 2 2 kGeq) (OComp false [g 0]); OClass (CReg 3 2 2 kLt) (OComp false [g 1])] /\
  translated regs (EUn LogicalNot (EId "c" [num 1])) /\ means regs (fun b => Nat.eqb b 0) (EUn LogicalNot (EId "c" [num 1])) = Some true /\
  visitIfStatement true regs (EUn LogicalNot (EId "c" [num 1])) [g 0] [] = ROk [OClass (CBit 1 0 kEq) (OComp false [g 0])].
Proof. repeat split; cbn; try lia; try reflexivity. Qed.

(* With the constant on the left the comparison is not turned around: 1 < d is translated to d < 1. *)
Theorem C66_constant_left_refuted : exists c m, means regs m c = Some true /\ c = EBin LessThan (num 1) (id "d") /\
  visitIfStatement true regs c [g 0] [] = ROk [OClass (CReg 3 2 1 kLt) (OComp false [g 0])] /\ cond_holds (CReg 3 2 1 kLt) m = false.
Proof. exists (EBin LessThan (num 1) (id "d")), (fun b => Nat.eqb b 4). vm_compute. auto. Qed.
Print Assumptions C66_constant_left_refuted.
(* An index in a comparison is ignored: c[1] == 1 compares the whole register. The type check accepts it. *)
Theorem C66_index_refuted : exists c m, means regs m c = Some true /\ c = EBin Equal (EId "c" [num 1]) (num 1) /\ (exists ws, check_condition [("c", 3%Z); ("d", 2%Z)] c = Some ws) /\
  visitIfStatement true regs c [g 0] [] = ROk [OClass (CReg 0 3 1 kEq) (OComp false [g 0])] /\ cond_holds (CReg 0 3 1 kEq) m = false.
Proof. exists (EBin Equal (EId "c" [num 1]) (num 1)), (fun b => Nat.eqb b 1). vm_compute. eauto 6. Qed.
Print Assumptions C66_index_refuted.
(* if (c) for a register of three bits is rejected by the type check, but not after any use of c[i] in a condition:
   that changes the type of c. With assertions the translation aborts; without, only the first bit is looked at. *)
Theorem C66_shared_type_refuted : check_condition [("c", 3%Z)] (id "c") = None /\
  exists ws, check_condition [("c", 3%Z)] (EId "c" [num 0]) = Some ws /\ check_condition ws (id "c") = Some ws /\
  visitIfStatement true regs (id "c") [g 0] [] = RUndef /\ visitIfStatement false regs (id "c") [g 0] [] = ROk [OClass (CBit 0 1 kEq) (OComp false [g 0])] /\
  exists m, means regs m (id "c") = Some true /\ cond_holds (CBit 0 1 kEq) m = false.
Proof. split; [reflexivity|]. eexists. do 4 (split; [reflexivity|]). exists (fun b => Nat.eqb b 1). split; reflexivity. Qed.
Print Assumptions C66_shared_type_refuted.
(* Conversely, after if (b == 1) for a single bit b the condition if (b) is rejected: its type has become 32 bits wide. *)
Theorem C66_widened_type_refuted : exists ws, check_condition [("b", 1%Z)] (id "b") = Some [("b", 1%Z)] /\ check_condition [("b", 1%Z)] (EBin Equal (id "b") (num 1)) = Some ws /\ check_condition ws (id "b") = None.
Proof. eexists. repeat split; reflexivity. Qed.
Print Assumptions C66_widened_type_refuted.
(* A comparison with a boolean constant passes the type check and ends in an exception of std::variant. *)
Theorem C66_boolean_refuted : exists c ws, c = EBin Equal (EId "c" [num 1]) (EBool true) /\ check_condition [("c", 3%Z)] c = Some ws /\ visitIfStatement true regs c [g 0] [] = RError.
Proof. do 2 eexists. repeat split; reflexivity. Qed.
Print Assumptions C66_boolean_refuted.
