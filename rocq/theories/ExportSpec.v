(* Guards for C80: circuits whose OpenQASM text is read back unchanged. *)
From Coq Require Import ZArith NArith Bool List String Arith.
From Verif Require Import Qsem GateModel GateSpec IRModel IRSpec QasmIfModel QasmGateModel ExportModel.
Import ListNotations.
Local Open Scope nat_scope.

Definition start (r : string * (nat * nat)) : nat := fst (snd r).
Definition size (r : string * (nat * nat)) : nat := snd (snd r).
Definition contains (r : string * (nat * nat)) (i : nat) : Prop := start r <= i < start r + size r.
(* the registers divide the indices below n; their names differ *)
Definition divides (l : cregs) (n : nat) : Prop :=
  NoDup (map fst l) /\ Forall (fun r => 0 < size r /\ start r + size r <= n) l /\
  (forall i, i < n -> exists r, In r l /\ contains r i) /\ (forall r r' i, In r l -> In r' l -> contains r i -> contains r' i -> r = r').

Section Guards.
Variables (v3 : bool) (qregs bregs : cregs) (nq nb : nat).
Variable asked : string -> Prop.        (* classical registers of which single bits are conditions *)
Definition below (n : nat) (l : list nat) : Prop := Forall (fun q => q < n) l.
(* a unitary gate or a barrier on qubits of the circuit, other than Peres, without repeated controls *)
Definition gate_ok (s : stdop) : Prop :=
  op_ok (OStd s) /\ NoDup (map fst (o_ctl s)) /\ below nq (map fst (o_ctl s) ++ o_tgt s) /\
  match o_type s with gPeres | gPeresdg => False | gBarrier => o_ctl s = [] | _ => True end.
Definition is_whole (regs : cregs) (l : list nat) (r : string * (nat * nat)) : Prop := In r regs /\ l = seq (start r) (size r).
(* begins and ends like a register *)
Definition looks_whole (regs : cregs) (l : list nat) : Prop := exists r x, In r regs /\ l <> [] /\ hd x l = start r /\ last l x = start r + size r - 1.
Definition meas_ok (qs bits : list nat) : Prop :=
  List.length qs = List.length bits /\ qs <> [] /\ below nq qs /\ below nb bits /\
  ((exists r rb, is_whole qregs qs r /\ is_whole bregs bits rb /\ (1 < List.length qs -> ~ asked (fst rb))) \/
   ((~ looks_whole qregs qs \/ ~ looks_whole bregs bits) /\ (v3 = true -> List.length qs = 1))).
Definition reset_ok (qs : list nat) : Prop := qs <> [] /\ below nq qs /\ ((exists r, is_whole qregs qs r) \/ ~ looks_whole qregs qs).
Definition cond_ok (c : cond) : Prop :=
  match c with
  | CReg s n v _ => (exists name, In (name, (s, n)) bregs) /\ (v < 2 ^ 64)%N
  | CBit b v k => b < nb /\ (v <= 1)%N /\ k = kEq /\ exists r, In r bregs /\ contains r b /\ asked (fst r)
  end.
(* a block: gates only; in OpenQASM 2, one gate without negative controls *)
Fixpoint gates_only (o : cop) : Prop :=
  match o with
  | OStd s => gate_ok s /\ o_type s <> gBarrier
  | OComp _ l => (fix go l := match l with [] => True | o :: l' => gates_only o /\ go l' end) l
  | _ => False
  end.
Fixpoint one_gate (o : cop) : Prop :=
  match o with
  | OStd s => gate_ok s /\ o_type s <> gBarrier /\ Forall (fun c => snd c = true) (o_ctl s)
  | OComp _ [o'] => one_gate o'
  | _ => False
  end.
Fixpoint exportable (o : cop) : Prop :=
  match o with
  | OStd s => gate_ok s
  | OMeas qs bits => meas_ok qs bits
  | OReset qs => reset_ok qs
  | OClass c o' => cond_ok c /\ (if v3 then gates_only o' else one_gate o')
  | OComp _ l => (fix go l := match l with [] => True | o :: l' => exportable o /\ go l' end) l
  end.
End Guards.
