(** The type checker: src/qasm3/passes/TypeCheckPass.cpp with include/mqt-core/qasm3/Types.hpp and src/qasm3/Types.cpp.

    A type is an object on the heap that names and expressions share (shared_ptr), so that setDesignator changes the type
    of everything that points to it. Messages are left out. Arrays are left out: the parser never makes them. *)
From Coq Require Import ZArith QArith Bool List String.
From Verif Require Import QasmScanModel QasmEnvModel QasmConstModel.
Import ListNotations.
Local Close Scope Q_scope.
Local Open Scope Z_scope.

(** Types.hpp:51-58, 172; a designator is an uint64_t *)
Inductive dkind := KQubit | KBit | KInt | KUint | KFloat | KAngle.
Inductive ty := TD (k : dkind) (w : Z) | TBool | TDuration.
(** the heap, env and hasError *)
Record tst := mkT { heap : list ty; names : list (string * nat); bad : bool }.
(** TThrow: an exception; TUndef: a null pointer is dereferenced *)
Inductive tres (A : Type) := TOk (a : A) (s : tst) | TThrow | TUndef.
Arguments TOk {A}. Arguments TThrow {A}. Arguments TUndef {A}.
Definition tbind {A B} (r : tres A) (f : A -> tst -> tres B) : tres B := match r with TOk a s => f a s | TThrow => TThrow | TUndef => TUndef end.

(** std::make_shared *)
Definition alloc (t : ty) (s : tst) : nat * tst := (List.length (heap s), mkT (heap s ++ [t]) (names s) (bad s)).
Definition new (t : ty) (s : tst) : tres (option nat) := let '(a, s') := alloc t s in TOk (Some a) s'.
Definition deref (a : nat) (s : tst) : ty := nth a (heap s) TBool.
Fixpoint put (l : list ty) (a : nat) (t : ty) : list ty := match l, a with x :: l', O => t :: l' | x :: l', S a' => x :: put l' a' t | [], _ => [] end.
(** TypeCheckPass.cpp:28-37; None: InferredType::error(), with a null pointer *)
Definition fail (s : tst) : tres (option nat) := TOk None (mkT (heap s) (names s) true).
Definition failed (s : tst) : tres unit := TOk tt (mkT (heap s) (names s) true).

(** Types.hpp:109-130, 194; Bit counts as a number, Angle does not *)
Definition isNumber (t : ty) : bool := match t with TD (KInt | KUint | KBit | KFloat) _ => true | _ => false end.
Definition isUint (t : ty) : bool := match t with TD KUint _ => true | _ => false end.
Definition isFP (t : ty) : bool := match t with TD KFloat _ => true | _ => false end.
Definition isBool (t : ty) : bool := match t with TBool => true | _ => false end.
Definition isConvertibleToBool (t : ty) : bool := match t with TBool => true | TD KBit w => Z.eqb w 1 | _ => false end.
Definition width (t : ty) : Z := match t with TD _ w => w | _ => 0 end.
(** Types.hpp:36-38, 103: None: std::runtime_error *)
Definition setDesignator (a : nat) (w : Z) (s : tst) : option tst :=
  match deref a s with TD k _ => Some (mkT (put (heap s) a (TD k w)) (names s) (bad s)) | _ => None end.
Definition dkind_eqb (a b : dkind) : bool := match a, b with KQubit, KQubit | KBit, KBit | KInt, KInt | KUint, KUint | KFloat, KFloat | KAngle, KAngle => true | _, _ => false end.
(** Types.cpp:38-52, Types.hpp:51 and 182-187 *)
Definition fits (t o : ty) : bool :=
  match t, o with
  | TD k w, TD k' w' =>
      (dkind_eqb k k' || (match k, k' with KInt, KUint | KFloat, KInt | KFloat, KUint => true | _, _ => false end)) && (w' <=? w)
  | TBool, TBool | TDuration, TDuration => true
  | _, _ => false
  end.
(** 298-323 *)
Definition int_width (sg : bool) (z : Z) : Z := if sg then if 2147483647 <? z then 64 else 32 else if 4294967295 <? u64 z then 64 else 32.
(** 192-264 behind the visits of the operands *)
Definition arith (op : bop) : bool := match op with Power | Add | Subtract | Multiply | Divide | Modulo | LeftShift | RightShift => true | _ => false end.
Definition order (op : bop) : bool := match op with LessThan | LessThanOrEqual | GreaterThan | GreaterThanOrEqual => true | _ => false end.
Definition bitop (op : bop) : bool := match op with BitwiseAnd | BitwiseXor | BitwiseOr => true | _ => false end.
Definition logic (op : bop) : bool := match op with LogicalAnd | LogicalOr => true | _ => false end.
Definition check_op (op : bop) (a : nat) (s : tst) : tres (option nat) :=
  let t := deref a s in
  if arith op || bitop op then if isNumber t then TOk (Some a) s else fail s
  else if order op then if isBool t then fail s else new TBool s
  else if logic op then if isBool t then TOk (Some a) s else fail s
  else new TBool s.
Definition check_binary (op : bop) (l r : nat) (s : tst) : tres (option nat) :=
  let tl := deref l s in let tr := deref r s in
  if isConvertibleToBool tl && isConvertibleToBool tr then let '(a, s') := alloc TBool s in check_op op a s'
  else if isNumber tl && isNumber tr then
    let a := if isFP tr || isUint tl then r else l in
    match setDesignator a (Z.max (width tl) (width tr)) s with Some s' => check_op op a s' | None => TThrow end
  else if Nat.eqb l r then check_op op l s                 (* 213: pointers are compared *)
  else fail s.
(** 192-357; an index is not looked at *)
Fixpoint check_expr (e : expr) (s : tst) : tres (option nat) :=
  match e with
  | EInt sg z => new (TD (if sg then KInt else KUint) (int_width sg z)) s
  | EFloat _ => new (TD KFloat 64) s
  | EBool _ => new TBool s
  | EId id idx =>
      match map_find id (names s) with
      | None => match idx with [] => fail s | _ => TUndef end
      | Some a => match idx with [] => TOk (Some a) s | _ => match setDesignator a 1 s with Some s' => TOk (Some a) s' | None => TThrow end end
      end
  | EBin op l r =>
      tbind (check_expr l s) (fun tl s1 => tbind (check_expr r s1) (fun tr s2 =>
        match tl, tr with Some a, Some b => check_binary op a b s2 | _, _ => TOk None s2 end))
  | EUn op x =>
      tbind (check_expr x s) (fun t s1 =>
        match op with
        | BitwiseNot => match t with Some a => if isNumber (deref a s1) then TOk t s1 else fail s1 | None => TUndef end
        | LogicalNot => match t with Some a => if isConvertibleToBool (deref a s1) then TOk t s1 else fail s1 | None => TUndef end
        | Negate => TOk t s1
        | DurationOf => new TDuration s1
        | Sin | Cos | Tan | Exp | Ln | Sqrt => new (TD KFloat 64) s1
        end)
  end.

(** ** Statements *)
(** Statement.hpp: GateOperand, the expression of an assignment *)
Inductive operand := Hardware (n : nat) | Named (id : string) (idx : list expr).
Inductive rhs := RExpr (e : expr) | RMeasure (o : operand).
Inductive typed := Sized (k : dkind) (designator : option expr) | UBool | UDuration.
Inductive stmt :=
| SDecl (isConst : bool) (t : typed) (id : string) (init : option rhs)
| SAssign (id : string) (idx : list expr) (r : rhs)
| SGate (params qubits : list string) (body : list stmt)
| SCall (args : list expr)
| SBarrier (os : list operand)
| SReset (o : operand)
| SIf (c : expr) (thens elses : list stmt)
| SOther.                                        (* version, layout, output permutation *)
(** 52-58 *)
Fixpoint check_indices (l : list expr) (s : tst) : tres unit :=
  match l with
  | [] => TOk tt s
  | e :: l' => tbind (check_expr e s) (fun t s1 => check_indices l' (match t with Some a => if isUint (deref a s1) then s1 else mkT (heap s1) (names s1) true | None => s1 end))
  end.
(** 60-68 *)
Definition checkIndexedIdentifier (id : string) (idx : list expr) (s : tst) : tres unit :=
  check_indices idx (match map_find id (names s) with Some _ => s | None => mkT (heap s) (names s) true end).
(** 70-75 *)
Definition checkGateOperand (o : operand) (s : tst) : tres unit := match o with Hardware _ => TOk tt s | Named id idx => checkIndexedIdentifier id idx s end.
(** 359-382; Types.hpp:196: unsized types have no designator *)
Definition check_measure (o : operand) (s : tst) : tres (option nat) :=
  match o with
  | Hardware _ => new (TD KBit 1) s
  | Named id idx =>
      tbind (checkIndexedIdentifier id idx s) (fun _ s1 =>
        match idx with
        | [] => match map_find id (names s1) with
                | Some a => match deref a s1 with TD _ w => new (TD KBit w) s1 | _ => TThrow end
                | None => fail s1 end
        | _ => new (TD KBit 1) s1
        end)
  end.
Definition check_rhs (r : rhs) (s : tst) : tres (option nat) := match r with RExpr e => check_expr e s | RMeasure o => check_measure o s end.
(** std::map::emplace *)
Definition emplace (id : string) (a : nat) (s : tst) : tst := match map_find id (names s) with Some _ => s | None => mkT (heap s) (names s ++ [(id, a)]) (bad s) end.
(** Types.cpp:55-71 *)
Definition default_width (k : dkind) : Z := match k with KQubit | KBit => 1 | KInt | KUint => 32 | KFloat | KAngle => 64 end.
(** ConstEvalPass.cpp:594-620; None: an exception *)
Definition resolve (consts : env cvalue) (t : typed) : option ty :=
  match t with
  | Sized k None => Some (TD k (default_width k))
  | Sized k (Some d) => match ceval consts d with Ok (VInt false z _) => Some (TD k (u64 z)) | Ok (VInt true z _) => if 0 <=? z then Some (TD k z) else None | _ => None end
  | UBool => Some TBool | UDuration => Some TDuration
  end.
(** 104-141 *)
Definition check_decl (consts : env cvalue) (t : typed) (id : string) (init : option rhs) (s : tst) : tres unit :=
  let rest s :=
    match resolve consts t with
    | None => TThrow
    | Some rt =>
        let '(a, s1) := alloc rt s in
        match init with
        | None => TOk tt (emplace id a s1)
        | Some r => tbind (check_rhs r s1) (fun x s2 =>
            TOk tt (emplace id a (match x with Some b => if fits (deref a s2) (deref b s2) then s2 else mkT (heap s2) (names s2) true | None => s2 end)))
        end
    end in
  match t with
  | Sized _ (Some d) => tbind (check_expr d s) (fun x s1 => match x with Some a => if isUint (deref a s1) then rest s1 else failed s1 | None => failed s1 end)
  | _ => rest s
  end.
(** 156-181 *)
Definition check_assign (id : string) (idx : list expr) (r : rhs) (s : tst) : tres unit :=
  tbind (checkIndexedIdentifier id idx s) (fun _ s1 => tbind (check_rhs r s1) (fun x s2 =>
    match map_find id (names s2) with
    | None => failed s2
    | Some a => match x with Some b => if fits (deref a s2) (deref b s2) then TOk tt s2 else failed s2 | None => TUndef end
    end)).
Fixpoint check_args (l : list expr) (s : tst) : tres unit := match l with [] => TOk tt s | e :: l' => tbind (check_expr e s) (fun _ s1 => check_args l' s1) end.
Fixpoint check_operands (l : list operand) (s : tst) : tres unit := match l with [] => TOk tt s | o :: l' => tbind (checkGateOperand o s) (fun _ s1 => check_operands l' s1) end.
(** 83-92: names that are taken keep their types *)
Fixpoint declare_all (t : ty) (l : list string) (s : tst) : tst := match l with [] => s | x :: l' => let '(a, s1) := alloc t s in declare_all t l' (emplace x a s1) end.
Fixpoint check_stmt (consts : env cvalue) (x : stmt) (s : tst) : tres unit :=
  let block := fix block (l : list stmt) (s : tst) : tres unit := match l with [] => TOk tt s | x :: l' => tbind (check_stmt consts x s) (fun _ s1 => block l' s1) end in
  match x with
  | SDecl _ t id init => check_decl consts t id init s
  | SAssign id idx r => check_assign id idx r s
  | SGate ps qs body =>                             (* 77-99 *)
      tbind (block body (declare_all (TD KQubit 1) qs (declare_all (TD KFloat 64) ps s))) (fun _ s1 => TOk tt (mkT (heap s1) (names s) (bad s1)))
  | SCall args => check_args args s                 (* 149-154 *)
  | SBarrier os => check_operands os s              (* 183-188 *)
  | SReset o => checkGateOperand o s                (* 190-193 *)
  | SIf c a b =>                                    (* 384-399 *)
      tbind (check_expr c s) (fun t s1 =>
        tbind (block a (match t with Some p => if isConvertibleToBool (deref p s1) then s1 else mkT (heap s1) (names s1) true | None => s1 end)) (fun _ s2 => block b s2))
  | SOther => TOk tt s
  end.
(** 39-50: processStatement *)
Definition accept (consts : env cvalue) (x : stmt) (s : tst) : tres unit := tbind (check_stmt consts x s) (fun _ s1 => if bad s1 then TThrow else TOk tt s1).

(** ** Both passes: Importer.cpp:298-302, ConstEvalPass.cpp:46-111 *)
(** ConstEvalPass.cpp:113-127 *)
Definition toExpr (v : cvalue) : expr := match v with VInt sg z _ => EInt sg z | VFloat q => EFloat q | VBool b => EBool b end.
Inductive pres := POk (consts : env cvalue) (s : tst) | PThrow | PUndef | PUnmodelled.
Fixpoint fold_args (consts : env cvalue) (l : list expr) : option (list expr) :=       (* None: an exception or worse *)
  match l with
  | [] => Some []
  | e :: l' => match ceval consts e, fold_args consts l' with Ok v, Some r => Some (toExpr v :: r) | NotConst, Some r => Some (e :: r) | _, _ => None end
  end.
Definition process (x : stmt) (consts : env cvalue) (s : tst) : pres :=
  let run consts x := match accept consts x s with TOk _ s' => POk consts s' | TThrow => PThrow | TUndef => PUndef end in
  match x with
  | SDecl true t id (Some (RExpr e)) =>
      match ceval consts e with
      | Ok v => match env_emplace id v consts with Some consts' => run consts' (SDecl true t id (Some (RExpr (toExpr v)))) | None => PUndef end
      | NotConst | Error => PThrow | Undef => PUndef | Unmodelled => PUnmodelled
      end
  | SDecl true _ _ _ => PThrow
  | SCall args => match fold_args consts args with Some l => run consts (SCall l) | None => PThrow end
  | _ => run consts x
  end.
Fixpoint process_all (l : list stmt) (consts : env cvalue) (s : tst) : pres :=
  match l with [] => POk consts s | x :: l' => match process x consts s with POk c s' => process_all l' c s' | r => r end end.
(** Importer.cpp:78-99, 283-288: the builtin constants share one type. Their values are real numbers: not modelled; here 0 *)
Definition builtins : list string := ["pi"; "tau"; "euler"]%string.
Definition start : env cvalue * tst := ([map (fun x => (x, VFloat 0)) builtins], mkT [TD KFloat 64] (map (fun x => (x, O)) builtins) false).
