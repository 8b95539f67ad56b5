(** Names and kinds of QASM programs, without reference to the checker's heap. *)
From Coq Require Import ZArith QArith Bool List String.
From Verif Require Import QasmScanModel QasmEnvModel QasmConstModel QasmTypeModel.
Import ListNotations.
Local Close Scope Q_scope.
Local Open Scope list_scope.

(** ** Scopes: names in expressions, except in indices *)
Fixpoint names_of (e : expr) : list string :=
  match e with EId id _ => [id] | EBin _ a b => names_of a ++ names_of b | EUn _ a => names_of a | _ => [] end.
Definition names_op (o : operand) : list string := match o with Hardware _ => [] | Named id idx => id :: flat_map names_of idx end.
Definition names_rhs (r : rhs) : list string := match r with RExpr e => names_of e | RMeasure o => names_op o end.
Definition names_typed (t : typed) : list string := match t with Sized _ (Some d) => names_of d | _ => [] end.
(** [scoped G x G']: all names of x are in G where they occur; G' are the names behind x. Blocks of if statements are no
    scopes of their own. *)
Inductive scoped : list string -> stmt -> list string -> Prop :=
| sc_decl G b t id init : incl (names_typed t) G -> (forall r, init = Some r -> incl (names_rhs r) G) -> scoped G (SDecl b t id init) (id :: G)
| sc_assign G id idx r : In id G -> incl (flat_map names_of idx) G -> incl (names_rhs r) G -> scoped G (SAssign id idx r) G
| sc_gate G ps qs body G' : scoped_all (ps ++ qs ++ G) body G' -> scoped G (SGate ps qs body) G
| sc_call G args : incl (flat_map names_of args) G -> scoped G (SCall args) G
| sc_barrier G os : incl (flat_map names_op os) G -> scoped G (SBarrier os) G
| sc_reset G o : incl (names_op o) G -> scoped G (SReset o) G
| sc_if G c a b G1 G2 : incl (names_of c) G -> scoped_all G a G1 -> scoped_all G1 b G2 -> scoped G (SIf c a b) G2
| sc_other G : scoped G SOther G
with scoped_all : list string -> list stmt -> list string -> Prop :=
| sa_nil G : scoped_all G [] G
| sa_cons G x l G1 G2 : scoped G x G1 -> scoped_all G1 l G2 -> scoped_all G (x :: l) G2.
Definition dom (s : tst) : list string := map fst (names s).
Definition same_names (G H : list string) : Prop := forall x, In x G <-> In x H.

(** Expressions that cannot crash the checker: no [~] and no [!], and every name that is indexed is declared. *)
Fixpoint calm (G : list string) (e : expr) : Prop :=
  match e with
  | EId id (_ :: _) => In id G
  | EBin _ a b => calm G a /\ calm G b
  | EUn (BitwiseNot | LogicalNot) _ => False
  | EUn _ a => calm G a
  | _ => True
  end.

(** ** Kinds *)
Inductive kind := kUint | kInt | kFloat | kBool.
Definition val_kind (v : cvalue) : kind := match v with VInt false _ _ => kUint | VInt true _ _ => kInt | VFloat _ => kFloat | VBool _ => kBool end.
Definition ty_kind (t : ty) : option kind := match t with TD KUint _ => Some kUint | TD KInt _ => Some kInt | TD KFloat _ => Some kFloat | TBool => Some kBool | _ => None end.
(** An unsigned number may stand for a signed one, an integer for a floating-point number. *)
Inductive below : kind -> kind -> Prop :=
| b_same k : below k k | b_ui : below kUint kInt | b_uf : below kUint kFloat | b_if : below kInt kFloat.
Definition of_kind (v : cvalue) (t : ty) : Prop := exists k, ty_kind t = Some k /\ below (val_kind v) k.
(** The type of a name. *)
Definition type_of (s : tst) (id : string) : option ty := match map_find id (names s) with Some a => nth_error (heap s) a | None => None end.
(** The constants have the kinds of their declarations. *)
Definition consistent (consts : env cvalue) (s : tst) : Prop :=
  forall id v, env_find id consts = Some v -> exists t, type_of s id = Some t /\ of_kind v t.
(** 64-bit values *)
Definition wide (v : cvalue) : Prop := match v with VInt _ _ w => w = 64%Z | _ => True end.
Definition all_wide (consts : env cvalue) : Prop := forall id v, env_find id consts = Some v -> wide v.
(** No pointer into the void. *)
Definition sane (s : tst) : Prop := forall id a, map_find id (names s) = Some a -> a < List.length (heap s).
(** Types that differ in the designator only. *)
Definition same_kind (t u : ty) : Prop := match t, u with TD k _, TD k' _ => k = k' | TBool, TBool | TDuration, TDuration => True | _, _ => False end.

(** Subexpressions, and the reasons for an evaluation to fail although the types are right. *)
Inductive part : expr -> expr -> Prop :=
| p_self e : part e e
| p_left op a b e : part e a -> part e (EBin op a b)
| p_right op a b e : part e b -> part e (EBin op a b)
| p_arg op a e : part e a -> part e (EUn op a).
Definition is_float (v : cvalue) : bool := match v with VFloat _ => true | _ => false end.
Definition is_int (v : cvalue) : bool := match v with VInt _ _ _ => true | _ => false end.
Definition bits_of_float (op : bop) (v w : cvalue) : Prop := In op [LeftShift; RightShift; BitwiseAnd; BitwiseXor; BitwiseOr] /\ (is_float v = true \/ is_float w = true).
Definition int_power (op : bop) (v w : cvalue) : Prop := op = Power /\ is_int v = true /\ is_int w = true.
Definition excuse (consts : env cvalue) (e : expr) : Prop :=
  exists op a b v w, part (EBin op a b) e /\ ceval consts a = Ok v /\ ceval consts b = Ok w /\ (bits_of_float op v w \/ int_power op v w).

(** The names that a program declares; blocks declare none. *)
Fixpoint declared (l : list stmt) : list string := match l with [] => [] | SDecl _ _ id _ :: l' => id :: declared l' | _ :: l' => declared l' end.
Fixpoint no_decl (x : stmt) : Prop :=
  match x with
  | SDecl _ _ _ _ => False
  | SIf _ a b => (fix all l := match l with [] => True | x :: l' => no_decl x /\ all l' end) a /\ (fix all l := match l with [] => True | x :: l' => no_decl x /\ all l' end) b
  | _ => True
  end.
Definition top_only (x : stmt) : Prop := match x with SDecl _ _ _ _ => True | _ => no_decl x end.

(** The typing rules for variables of number types and bool. *)
Definition join (a b : kind) : kind := match a, b with kFloat, _ | _, kFloat => kFloat | kInt, _ | _, kInt => kInt | _, _ => kUint end.
Inductive types (G : string -> option kind) : expr -> kind -> Prop :=
| t_uint z : types G (EInt false z) kUint
| t_int z : types G (EInt true z) kInt
| t_float q : types G (EFloat q) kFloat
| t_bool b : types G (EBool b) kBool
| t_var id k : G id = Some k -> types G (EId id []) k
| t_arith op a b k l : types G a k -> types G b l -> k <> kBool -> l <> kBool ->
    In op [Power; Add; Subtract; Multiply; Divide; Modulo; LeftShift; RightShift; BitwiseAnd; BitwiseXor; BitwiseOr] -> types G (EBin op a b) (join k l)
| t_compare op a b k l : types G a k -> types G b l -> k <> kBool -> l <> kBool ->
    In op [LessThan; LessThanOrEqual; GreaterThan; GreaterThanOrEqual; Equal; NotEqual] -> types G (EBin op a b) kBool
| t_logic op a b : types G a kBool -> types G b kBool -> In op [LogicalAnd; LogicalOr; Equal; NotEqual] -> types G (EBin op a b) kBool
| t_negate a k : types G a k -> types G (EUn Negate a) k
| t_complement a k : types G a k -> k <> kBool -> types G (EUn BitwiseNot a) k
| t_not a : types G a kBool -> types G (EUn LogicalNot a) kBool
| t_function f a k : types G a k -> In f [Sin; Cos; Tan; Exp; Ln; Sqrt] -> types G (EUn f a) kFloat.
Definition kinds (s : tst) (id : string) : option kind := match type_of s id with Some t => ty_kind t | None => None end.
(** No indices, no durations, no variables of other types. *)
Fixpoint plain (s : tst) (e : expr) : Prop :=
  match e with
  | EId id idx => idx = [] /\ (In id (dom s) -> kinds s id <> None)
  | EBin _ a b => plain s a /\ plain s b
  | EUn op a => op <> DurationOf /\ plain s a
  | _ => True
  end.
