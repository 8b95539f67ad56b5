(* Writing OpenQASM: src/ir/QuantumComputation.cpp:54-74, 633-702 and dumpOpenQASM of the operations, and reading it back:
   src/qasm3/Parser.cpp:384-427 and the statements of src/qasm3/Importer.cpp that such a program uses.
   The text is a sequence of items; spaces, indentation and the comments with the layouts are left out, numbers are printed
   exactly (the code prints 15 digits), and names are assumed not to be keywords. Symbolic operations are left out. The
   name of the control register of a classically controlled operation is that of the register with its range. *)
From Coq Require Import Reals ZArith NArith Bool List String Ascii Arith.
From Verif Require Import Cplx Qsem GateModel IRModel QasmEnvModel QasmConstModel QasmIfModel QasmGateModel.
Import ListNotations.
Local Open Scope nat_scope.
Local Open Scope string_scope.

(* ---- the written program --------------------------------------------------------------------------------------------- *)
Inductive xstmt := XCall (c : call) | XBarrier (l : list operand) | XReset (o : operand) | XMeasure (bit qubit : operand)
| XIf (c : expr) (body : list xstmt).
(* TBad: text that is not a statement *)
Inductive item := TStmt (s : xstmt) | TIf (c : expr) | TOpen | TClose | TBad.
Definition decl := (string * nat)%type.
Record program := { pr_v3 : bool; pr_qubits : list decl; pr_bits : list decl; pr_items : list item }.

Definition bind {A B} (r : res A) (f : A -> res B) : res B := match r with ROk a => f a | RError => RError | RUndef => RUndef end.
Fixpoint mapr {A B} (f : A -> res B) (l : list A) : res (list B) :=
  match l with [] => ROk [] | x :: l' => bind (f x) (fun y => bind (mapr f l') (fun r => ROk (y :: r))) end.

(* QuantumComputation.cpp:54-74: a std::map from the first index, so of two registers with the same one is kept *)
Fixpoint insert_reg (r : string * (nat * nat)) (l : cregs) : cregs :=
  match l with
  | [] => [r]
  | x :: l' => if Nat.ltb (fst (snd r)) (fst (snd x)) then r :: l else if Nat.eqb (fst (snd r)) (fst (snd x)) then l else x :: insert_reg r l'
  end.
Definition sortedRegs (l : cregs) : cregs := fold_left (fun acc r => insert_reg r acc) l [].
Definition decls (l : cregs) : list decl := map (fun r => (fst r, snd (snd r))) (sortedRegs l).
(* 682-697: the register of an index; registers do not overlap *)
Fixpoint reg_at (i : nat) (l : cregs) : res (string * (nat * nat)) :=
  match l with [] => RError | (n, (s, k)) :: l' => if Nat.leb s i && Nat.ltb i (s + k) then ROk (n, (s, k)) else reg_at i l' end.
Definition elem (regs : cregs) (i : nat) : res operand := bind (reg_at i regs) (fun r => ROk {| op_name := fst r; op_index := Some (i - fst (snd r)) |}).
Definition whole_operand (r : string * (nat * nat)) : operand := {| op_name := fst r; op_index := None |}.
(* Operation.hpp:39-46, NonUnitaryOperation.cpp:80-87; Register::operator== compares name and size *)
Definition whole (regs : cregs) (first last : nat) : res (option (string * (nat * nat))) :=
  bind (reg_at first regs) (fun a => bind (reg_at last regs) (fun b =>
    ROk (if String.eqb (fst a) (fst b) && Nat.eqb (snd (snd a)) (snd (snd b)) && Nat.eqb (fst (snd a)) first && Nat.eqb (fst (snd b) + snd (snd b) - 1) last
         then Some a else None))).

(* ---- StandardOperation.cpp:253-495, 645-707 ----------------------------------------------------------------------------- *)
Fixpoint cs (n : nat) (s : string) : string := match n with O => s | S n' => String "c" (cs n' s) end.
Definition pi_half : pexpr := PAp2 Rdiv (PName "pi") (PNum 2).
Definition pi_quarter : pexpr := PAp2 Rdiv (PName "pi") (PNum 4).
Definition neg (e : pexpr) : pexpr := PAp1 Ropp e.
(* 322-447; RUndef: a parameter is missing. RError: the gate has no text *)
Definition gate_text (t : optype) (ps : list R) (controlled : bool) : res (string * list pexpr) :=
  let par1 n := match ps with p :: _ => ROk (n, [PNum p]) | _ => RUndef end in
  let par2 n := match ps with p :: q :: _ => ROk (n, [PNum p; PNum q]) | _ => RUndef end in
  match t with
  | gGPhase => par1 "gphase" | gI => ROk ("id", []) | gH => ROk ("h", []) | gX => ROk ("x", []) | gY => ROk ("y", []) | gZ => ROk ("z", [])
  | gS => ROk (if controlled then ("p", [pi_half]) else ("s", []))
  | gSdg => ROk (if controlled then ("p", [neg pi_half]) else ("sdg", []))
  | gT => ROk (if controlled then ("p", [pi_quarter]) else ("t", []))
  | gTdg => ROk (if controlled then ("p", [neg pi_quarter]) else ("tdg", []))
  | gV => ROk ("U", [pi_half; neg pi_half; pi_half]) | gVdg => ROk ("U", [pi_half; pi_half; neg pi_half])
  | gU => match ps with p :: q :: r :: _ => ROk ("U", [PNum p; PNum q; PNum r]) | _ => RUndef end
  | gU2 => match ps with p :: q :: _ => ROk ("U", [pi_half; PNum p; PNum q]) | _ => RUndef end
  | gP => par1 "p" | gSX => ROk ("sx", []) | gSXdg => ROk ("sxdg", []) | gRX => par1 "rx" | gRY => par1 "ry" | gRZ => par1 "rz"
  | gDCX => ROk ("dcx", []) | gECR => ROk ("ecr", []) | gRXX => par1 "rxx" | gRYY => par1 "ryy" | gRZZ => par1 "rzz" | gRZX => par1 "rzx"
  | gXXminusYY => par2 "xx_minus_yy" | gXXplusYY => par2 "xx_plus_yy" | gSWAP => ROk ("swap", []) | giSWAP => ROk ("iswap", []) | giSWAPdg => ROk ("iswapdg", [])
  | gMove => ROk ("move", [])
  | _ => RError
  end.
(* 645-707: the number of c in front of the name and the modifiers *)
Definition count_text (n : nat) : option nat := if Nat.ltb 1 n then Some n else None.
Fixpoint runs (cur : bool) (count : nat) (l : list ctl) : list modifier :=
  match l with
  | [] => [MCtrl cur (count_text count)]
  | c :: l' => if Bool.eqb (snd c) cur then runs cur (S count) l' else MCtrl cur (count_text count) :: runs (snd c) 1 l'
  end.
Definition builtin (t : optype) (n : nat) : bool :=
  match t with gP | gRX | gY | gRY | gZ | gRZ | gH | gSWAP => Nat.eqb n 1 | gX => Nat.eqb n 1 || Nat.eqb n 2 | _ => false end.
Definition dumpControls (t : optype) (l : list ctl) : nat * list modifier :=
  match l with
  | [] => (0, [])
  | c :: _ => if forallb snd l && builtin t (List.length l) then (List.length l, []) else (0, runs (snd c) 0 l)
  end.
Definition stmt_of (prefix : nat) (name : string) (mods : list modifier) (args : list pexpr) (ops : list operand) : item :=
  TStmt (XCall {| c_gate := cs prefix name; c_mods := mods; c_args := args; c_ops := ops |}).
(* 316-495 *)
Definition dumpGateType (regs : cregs) (o : stdop) (prefix : nat) (mods : list modifier) : res (list item) :=
  bind (mapr (fun c => elem regs (fst c)) (o_ctl o)) (fun ctls =>
  match o_type o with
  | gBarrier =>
      match o_ctl o, o_tgt o with
      | _ :: _, _ => RUndef                                                      (* assertion *)
      | [], [] => ROk [TStmt (XBarrier [])]
      | [], t :: _ =>
          bind (whole regs t (last (o_tgt o) t)) (fun w =>
            match w with
            | Some r => ROk [TStmt (XBarrier [whole_operand r])]
            | None => bind (mapr (elem regs) (o_tgt o)) (fun ts => ROk [TStmt (XBarrier ts)])
            end)
      end
  | gPeres | gPeresdg =>
      match o_tgt o with
      | t0 :: t1 :: _ =>
          bind (elem regs t0) (fun a => bind (elem regs t1) (fun b =>
            let cx := stmt_of prefix "cx" mods [] (ctls ++ [b; a])%list in let x := stmt_of prefix "x" mods [] (ctls ++ [b])%list in
            ROk (match o_type o with gPeres => [cx; x] | _ => [x; cx] end)))
      | _ => RUndef
      end
  | t =>
      bind (mapr (elem regs) (o_tgt o)) (fun ts =>
      match gate_text t (o_par o) (match o_ctl o with [] => false | _ => true end) with
      | ROk (name, args) => ROk [stmt_of prefix name mods args (ctls ++ ts)%list]
      | RError => ROk [TBad]
      | RUndef => RUndef
      end)
  end).
(* 269-305 *)
Definition negations (regs : cregs) (l : list ctl) : res (list item) :=
  mapr (fun c => bind (elem regs (fst c)) (fun q => ROk (stmt_of 0 "x" [] [] [q]))) (filter (fun c => negb (snd c)) l).
Definition dumpOpenQASM2 (regs : cregs) (o : stdop) : res (list item) :=
  bind (dumpGateType regs o (List.length (o_ctl o)) []) (fun g =>
  match o_type o with
  | gPeres | gPeresdg => ROk g
  | _ => bind (negations regs (o_ctl o)) (fun x => ROk (x ++ g ++ x)%list)
  end).
(* 307-314 *)
Definition dumpOpenQASM3 (regs : cregs) (o : stdop) : res (list item) :=
  let '(n, mods) := dumpControls (o_type o) (o_ctl o) in dumpGateType regs o n mods.

(* ---- NonUnitaryOperation.cpp:90-126: the iterator over the bits is not advanced in the syntax of OpenQASM 3 ------------------ *)
Fixpoint measures (v3 : bool) (qregs bregs : cregs) (qs bits : list nat) : res (list item) :=
  match qs with
  | [] => ROk []
  | q :: qs' =>
      match bits with
      | [] => RUndef                                                             (* past the end *)
      | b :: bits' => bind (elem bregs b) (fun bo => bind (elem qregs q) (fun qo =>
          bind (measures v3 qregs bregs qs' (if v3 then bits else bits')) (fun r => ROk (TStmt (XMeasure bo qo) :: r))))
      end
  end.
Definition dumpMeasure (v3 : bool) (qregs bregs : cregs) (qs bits : list nat) : res (list item) :=
  match qs, bits with
  | q :: _, b :: _ =>
      bind (whole qregs q (last qs q)) (fun wq =>
      match wq with
      | Some r => bind (whole bregs b (last bits b)) (fun wb =>
                    match wb with Some rb => ROk [TStmt (XMeasure (whole_operand rb) (whole_operand r))] | None => measures v3 qregs bregs qs bits end)
      | None => measures v3 qregs bregs qs bits
      end)
  | _, _ => RUndef                                                               (* front() of an empty vector *)
  end.
Definition dumpReset (qregs : cregs) (qs : list nat) : res (list item) :=
  match qs with
  | q :: _ => bind (whole qregs q (last qs q)) (fun w =>
      match w with Some r => ROk [TStmt (XReset (whole_operand r))] | None => mapr (fun q => bind (elem qregs q) (fun o => ROk (TStmt (XReset o)))) qs end)
  | [] => RUndef
  end.

(* ---- ClassicControlledOperation.cpp:30-52, 130-149; CompoundOperation.cpp:181-189 --------------------------------------------- *)
Definition cmp_text (k : cmpk) : bop :=
  match k with kLt => LessThan | kLeq => LessThanOrEqual | kGt => GreaterThan | kGeq => GreaterThanOrEqual | kEq => Equal | kNeq => NotEqual end.
Fixpoint reg_named (s n : nat) (l : cregs) : res string :=
  match l with [] => RError | (k, (s', n')) :: l' => if Nat.eqb s s' && Nat.eqb n n' then ROk k else reg_named s n l' end.
Definition cond_text (bregs : cregs) (c : cond) : res expr :=
  match c with
  | CReg s n v k => bind (reg_named s n bregs) (fun name => ROk (EBin (cmp_text k) (EId name []) (EInt false (Z.of_N v))))
  | CBit b v _ => bind (elem bregs b) (fun o =>
      let e := EId (op_name o) (match op_index o with Some i => [EInt false (Z.of_nat i)] | None => [] end) in
      ROk (if N.eqb v 0 then EUn LogicalNot e else e))
  end.
Fixpoint dump (v3 : bool) (qregs bregs : cregs) (o : cop) : res (list item) :=
  match o with
  | OStd s => if v3 then dumpOpenQASM3 qregs s else dumpOpenQASM2 qregs s
  | OMeas qs bits => dumpMeasure v3 qregs bregs qs bits
  | OReset qs => dumpReset qregs qs
  | OClass c o' => bind (cond_text bregs c) (fun e => bind (dump v3 qregs bregs o') (fun l =>
      ROk (TIf e :: (if v3 then TOpen :: l ++ [TClose] else l)%list)))
  | OComp _ l => (fix go l := match l with [] => ROk [] | o :: l' => bind (dump v3 qregs bregs o) (fun a => bind (go l') (fun r => ROk (a ++ r)%list)) end) l
  end.
Fixpoint dump_list (v3 : bool) (qregs bregs : cregs) (l : list cop) : res (list item) :=
  match l with [] => ROk [] | o :: l' => bind (dump v3 qregs bregs o) (fun a => bind (dump_list v3 qregs bregs l') (fun r => ROk (a ++ r)%list)) end.
(* QuantumComputation.cpp:633-702; the quantum registers include the ancillary ones *)
Definition dumpOpenQASM (v3 : bool) (qregs bregs : cregs) (ops : list cop) : res program :=
  bind (dump_list v3 qregs bregs ops) (fun l => ROk {| pr_v3 := v3; pr_qubits := decls qregs; pr_bits := decls bregs; pr_items := l |}).

(* ---- reading: Parser.cpp:152-244 and 384-427 ---------------------------------------------------------------------------------- *)
Fixpoint parseStatement (fuel : nat) (l : list item) : option (xstmt * list item) :=
  match fuel with
  | O => None
  | S n =>
      match l with
      | TStmt s :: l' => Some (s, l')
      | TIf c :: TOpen :: l' => match parseBlock n l' with Some (b, r) => Some (XIf c b, r) | None => None end
      | TIf c :: l' => match parseStatement n l' with Some (s, r) => Some (XIf c [s], r) | None => None end
      | _ => None
      end
  end
with parseBlock (fuel : nat) (l : list item) : option (list xstmt * list item) :=
  match fuel with
  | O => None
  | S n =>
      match l with
      | TClose :: l' => Some ([], l')
      | _ => match parseStatement n l with
             | Some (s, r) => match parseBlock n r with Some (b, r') => Some (s :: b, r') | None => None end
             | None => None end
      end
  end.
Fixpoint parseProgram (fuel : nat) (l : list item) : option (list xstmt) :=
  match l with
  | [] => Some []
  | _ => match fuel with
         | O => None
         | S n => match parseStatement (2 * List.length l) l with
                  | Some (s, r) => match parseProgram n r with Some p => Some (s :: p) | None => None end
                  | None => None end
         end
  end.

(* ---- the gates known to a program: StdGates.hpp:23-48 ---------------------------------------------------------------------------- *)
Definition var (s : string) : operand := {| op_name := s; op_index := None |}.
Definition simple (g : string) (a : list pexpr) (o : list string) : stmt := SCall {| c_gate := g; c_mods := []; c_args := a; c_ops := map var o |}.
Definition cu_gate : gate := GComp ["theta"; "phi"; "lambda"; "gamma"] ["c"; "t"]
  [simple "p" [PName "gamma"] ["c"]; SCall {| c_gate := "U"; c_mods := [MCtrl true None]; c_args := [PName "theta"; PName "phi"; PName "lambda"]; c_ops := [var "c"; var "t"] |}].
Definition h2 (q : string) := simple "u2" [PNum 0; PName "pi"] [q].
Definition rccx_gate : gate := GComp [] ["a"; "b"; "c"]
  [h2 "c"; simple "u1" [pi_quarter] ["c"]; simple "cx" [] ["b"; "c"]; simple "u1" [neg pi_quarter] ["c"]; simple "cx" [] ["a"; "c"]; simple "u1" [pi_quarter] ["c"];
   simple "cx" [] ["b"; "c"]; simple "u1" [neg pi_quarter] ["c"]; h2 "c"].
Definition rc3x_gate : gate := GComp [] ["a"; "b"; "c"; "d"]
  [h2 "d"; simple "u1" [pi_quarter] ["d"]; simple "cx" [] ["c"; "d"]; simple "u1" [neg pi_quarter] ["d"]; h2 "d"; simple "cx" [] ["a"; "d"]; simple "u1" [pi_quarter] ["d"];
   simple "cx" [] ["b"; "d"]; simple "u1" [neg pi_quarter] ["d"]; simple "cx" [] ["a"; "d"]; simple "u1" [pi_quarter] ["d"]; simple "cx" [] ["b"; "d"]; simple "u1" [neg pi_quarter] ["d"];
   h2 "d"; simple "u1" [pi_quarter] ["d"]; simple "cx" [] ["c"; "d"]; simple "u1" [neg pi_quarter] ["d"]; h2 "d"].
Definition library (v3 : bool) : gates := (standard_gates ++ [("cu", cu_gate)] ++ (if v3 then [] else [("rccx", rccx_gate); ("rc3x", rc3x_gate)]))%list.
(* Importer.cpp:75-98 *)
Definition constants : env R := [[("pi", PI); ("tau", (2 * PI)%R); ("euler", exp 1)]].

(* ---- Importer.cpp:301-362 (declarations), 836-949; TypeCheckPass.cpp:104-190, 355-393 ---------------------------------------------- *)
Fixpoint declare (first : nat) (l : list decl) : cregs := match l with [] => [] | (n, k) :: l' => (n, (first, k)) :: declare (first + k) l' end.
Definition translateQubits (regs : cregs) (o : operand) : res (list nat) := bind (translateGateOperand regs o) (fun r => ROk (seq (fst r) (snd r))).
Definition idx_text (o : operand) : list expr := match op_index o with Some i => [EInt false (Z.of_nat i)] | None => [] end.
Record istate := { i_ws : widths; i_ops : list cop }.
Section Import.
Variables (v3 asserts : bool) (qregs bregs : cregs).
Definition importCall (c : call) : res cop := evaluateGateCall 9 (negb v3) (library v3) constants qregs c.
(* 836-874: with the type check of the assignment *)
Definition importMeasure (ws : widths) (bo qo : operand) : res cop :=
  match width_find (op_name bo) ws, reg_find (op_name qo) qregs with
  | Some w, Some (_, n) =>
      if Z.ltb w (match op_index qo with Some _ => 1%Z | None => Z.of_nat n end) then RError
      else bind (translateQubits qregs qo) (fun qs => bind (translateBitOperand bregs (op_name bo) (idx_text bo)) (fun bits =>
             if Nat.eqb (List.length qs) (List.length bits) then ROk (OMeas qs bits) else RError))
  | _, _ => RError
  end.
Definition importStatement (s : xstmt) (st : istate) : res istate :=
  let emit (r : res cop) := bind r (fun o => ROk {| i_ws := i_ws st; i_ops := i_ops st ++ [o] |}%list) in
  match s with
  | XCall c => emit (importCall c)
  | XBarrier l => emit (bind (mapr (translateQubits qregs) l) (fun qs => ROk (OStd {| o_type := gBarrier; o_par := []; o_ctl := []; o_tgt := List.concat qs |})))
  | XReset o => emit (bind (translateQubits qregs o) (fun qs => ROk (OReset qs)))
  | XMeasure bo qo => emit (importMeasure (i_ws st) bo qo)
  | XIf c body =>
      match check_condition (i_ws st) c with
      | None => RError
      | Some ws =>
          (* 931-949 *)
          bind (mapr (fun s => match s with XCall c => importCall c | _ => RError end) body) (fun ops =>
          bind (visitIfStatement asserts bregs c ops []) (fun r => ROk {| i_ws := ws; i_ops := i_ops st ++ r |}%list))
      end
  end.
Fixpoint importStatements (l : list xstmt) (st : istate) : res istate :=
  match l with [] => ROk st | s :: l' => bind (importStatement s st) (importStatements l') end.
End Import.
Record circuit := { ci_qregs : cregs; ci_bregs : cregs; ci_ops : list cop }.
Definition import (asserts : bool) (p : program) : res circuit :=
  let qregs := declare 0 (pr_qubits p) in let bregs := declare 0 (pr_bits p) in
  if nodup_names (map fst (pr_qubits p) ++ map fst (pr_bits p)) then
    match parseProgram (List.length (pr_items p)) (pr_items p) with
    | None => RError
    | Some l => bind (importStatements (pr_v3 p) asserts qregs bregs l {| i_ws := map (fun d => (fst d, Z.of_nat (snd d))) (pr_bits p); i_ops := [] |})
                  (fun st => ROk {| ci_qregs := qregs; ci_bregs := bregs; ci_ops := i_ops st |})
    end
  else RError.
