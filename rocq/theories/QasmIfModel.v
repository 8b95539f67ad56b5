(* If statements: src/qasm3/Importer.cpp:193-264, 892-929 and the type check of conditions,
   src/qasm3/passes/TypeCheckPass.cpp:192-393. The blocks are given translated (translateBlockOperations). Conditions are
   not folded: the constant evaluation does not visit if statements (InstVisitor.hpp:67). *)
From Coq Require Import ZArith NArith QArith Bool List String.
From Verif Require Import QasmConstModel IRModel.
Import ListNotations.
Local Close Scope Q_scope.
Local Open Scope nat_scope.

(* the classical registers: name, start and size *)
Definition cregs := list (string * (nat * nat)).
Fixpoint reg_find (k : string) (l : cregs) : option (nat * nat) := match l with (k', r) :: l' => if String.eqb k' k then Some r else reg_find k l' | [] => None end.
Inductive res (A : Type) := ROk (a : A) | RError | RUndef.     (* RError: any exception; RUndef: undefined behaviour *)
Arguments ROk {A}. Arguments RError {A}. Arguments RUndef {A}.

(* 266-278 with Constant::getUInt (Statement.hpp:88-90): std::get fails for other constants *)
Definition evaluatePositiveConstant (e : expr) : res N := match e with EInt _ z => ROk (Z.to_N (z mod 2 ^ 64)) | _ => RError end.
(* 154-191; an index operator holds one expression *)
Definition translateBitOperand (regs : cregs) (id : string) (idx : list expr) : res (list nat) :=
  match reg_find id regs with
  | None => RError
  | Some (s, n) =>
      match idx with
      | [] => ROk (seq s n)
      | [i] => match evaluatePositiveConstant i with
               | ROk v => if N.leb (N.of_nat n) v then RError else ROk [s + N.to_nat v]
               | RError => RError | RUndef => RUndef end
      | _ => RError
      end
  end.
(* Statement.cpp:25-44 *)
Definition getComparisonKind (op : bop) : option cmpk :=
  match op with LessThan => Some kLt | LessThanOrEqual => Some kLeq | GreaterThan => Some kGt | GreaterThanOrEqual => Some kGeq
  | Equal => Some kEq | NotEqual => Some kNeq | _ => None end.
Inductive condition := OnBit (bit : nat) (val : bool) | OnReg (start len : nat) (k : cmpk) (val : N).
Definition on_reg (regs : cregs) (id : string) (k : cmpk) (c : expr) : res condition :=
  match evaluatePositiveConstant c with
  | ROk v => match reg_find id regs with Some (s, n) => ROk (OnReg s n k v) | None => RError end
  | RError => RError | RUndef => RUndef
  end.
Definition is_constant (e : expr) : bool := match e with EInt _ _ | EFloat _ | EBool _ => true | _ => false end.
(* the first of the bits; with assertions there must be exactly one *)
Definition single (asserts : bool) (r : res (list nat)) (val : bool) : res condition :=
  match r with
  | ROk [b] => ROk (OnBit b val)
  | ROk (b :: _) => if asserts then RUndef else ROk (OnBit b val)
  | ROk [] => RUndef | RError => RError | RUndef => RUndef
  end.
Definition translateCondition (asserts : bool) (regs : cregs) (c : expr) : res condition :=
  match c with
  | EBin op l r =>
      match getComparisonKind op with
      | None => RError
      | Some k =>
          match l, r with
          | EId id _, _ => if is_constant r then on_reg regs id k r else RError
          | _, EId id _ => if is_constant l then on_reg regs id k l else RError
          | _, _ => RError
          end
      end
  | EUn op (EId id idx) =>
      match op with
      | LogicalNot | BitwiseNot => single asserts (translateBitOperand regs id idx) false
      | _ => if asserts then RUndef else single asserts (translateBitOperand regs id idx) false
      end
  | EId id idx => single asserts (translateBitOperand regs id idx) true
  | _ => RUndef                                  (* a null pointer is dereferenced *)
  end.
(* 892-929 *)
Definition visitIfStatement (asserts : bool) (regs : cregs) (c : expr) (thenOps elseOps : list cop) : res (list cop) :=
  match translateCondition asserts regs c with
  | ROk (OnBit b val) =>
      let mk v ops := match ops with [] => Some [] | _ => match mk_bit_op (OComp false ops) b v kEq with Some o => Some [o] | None => None end end in
      match mk (if val then 1 else 0)%N thenOps, mk (if val then 0 else 1)%N elseOps with Some a, Some b => ROk (a ++ b) | _, _ => RError end
  | ROk (OnReg s n k v) =>
      ROk ((match thenOps with [] => [] | _ => [OClass (CReg s n v k) (OComp false thenOps)] end) ++
           (match elseOps with [] => [] | _ => [OClass (CReg s n v (inv_kind k)) (OComp false elseOps)] end))
  | RError => RError | RUndef => RUndef
  end.

(* The type check of a condition. The type of a name is shared by all its uses (a shared_ptr): widths holds the current
   designator of each bit register; other names are left out. *)
Definition widths := list (string * Z).
Fixpoint width_find (k : string) (l : widths) : option Z := match l with (k', w) :: l' => if String.eqb k' k then Some w else width_find k l' | [] => None end.
Definition width_set (k : string) (w : Z) (l : widths) : widths := map (fun p => if String.eqb (fst p) k then (fst p, w) else p) l.
Inductive qty := QBit (id : string) | QInt (w : Z) | QUint (w : Z) | QFloat | QBool.
Definition ty_width (ws : widths) (t : qty) : option Z := match t with QBit id => width_find id ws | QInt w | QUint w => Some w | QFloat => Some 64%Z | QBool => None end.
Definition convertible (ws : widths) (t : qty) : bool := match t with QBool => true | QBit id => match width_find id ws with Some w => Z.eqb w 1 | None => false end | _ => false end.
Definition number (t : qty) : bool := match t with QBool => false | _ => true end.
Definition set_designator (t : qty) (w : Z) (ws : widths) : widths := match t with QBit id => width_set id w ws | _ => ws end.
(* 298-323, 346-357: an index sets the designator of the shared type; 192-264 and 266-296, for comparisons and negations *)
Definition const_ty (e : expr) : option qty :=
  match e with
  | EFloat _ => Some QFloat | EBool _ => Some QBool
  | EInt true z => Some (QInt (if Z.ltb 2147483647 z then 64 else 32)%Z) | EInt false z => Some (QUint (if Z.ltb 4294967295 (z mod 2 ^ 64) then 64 else 32)%Z)
  | _ => None
  end.
Definition check_operand (ws : widths) (e : expr) : option (qty * widths) :=
  match e with
  | EId id idx => match width_find id ws with
                  | Some _ => Some (QBit id, match idx with [] => ws | _ => width_set id 1 ws end)
                  | None => None end
  | _ => match const_ty e with Some t => Some (t, ws) | None => None end
  end.
Definition is_order (op : bop) : bool := match op with LessThan | LessThanOrEqual | GreaterThan | GreaterThanOrEqual => true | _ => false end.
Definition check_condition (ws : widths) (c : expr) : option widths :=
  match c with
  | EBin op l r =>
      match getComparisonKind op, check_operand ws l with
      | Some _, Some (tl, ws1) =>
          match check_operand ws1 r with
          | Some (tr, ws2) =>
              if convertible ws2 tl && convertible ws2 tr then if is_order op then None else Some ws2
              else if number tl && number tr then
                let t := match tr, tl with QFloat, _ | _, QUint _ => tr | _, _ => tl end in
                match ty_width ws2 tl, ty_width ws2 tr with Some a, Some b => Some (set_designator t (Z.max a b) ws2) | _, _ => None end
              else None
          | None => None
          end
      | _, _ => None
      end
  | EUn LogicalNot e | EUn BitwiseNot e =>
      match check_operand ws e with Some (t, ws1) => if convertible ws1 t then Some ws1 else None | None => None end
  | _ => match check_operand ws c with Some (t, ws1) => if convertible ws1 t then Some ws1 else None | None => None end
  end.
