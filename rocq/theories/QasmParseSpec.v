(* The usual grammar of expressions: written expressions with their parentheses, the precedence of the operators and
   the tree an expression stands for. *)
From Coq Require Import ZArith QArith Bool List String.
From Verif Require Import QasmConstModel QasmParseModel.
Import ListNotations.
Local Close Scope Q_scope.
Local Open Scope nat_scope.

Inductive written :=
| WInt (sgn : bool) (z : Z) | WFloat (q : Q) | WBool (b : bool) | WId (id : string) (idx : list written)
| WParen (w : written) | WFun (f : uop) (w : written) | WUn (op : uop) (w : written) | WBin (op : bop) (a b : written).

Definition op_token (op : bop) : token :=
  match op with Add => KPlus | Subtract => KMinus | Multiply => KAsterisk | Divide => KSlash | Power => KCaret
  | Equal | NotEqual | LessThan | GreaterThan | LessThanOrEqual | GreaterThanOrEqual => KCmp op | _ => KOther end.
Definition un_token (op : uop) : token := match op with Negate => KMinus | LogicalNot => KBang | BitwiseNot => KTilde | _ => KOther end.
Fixpoint text (w : written) : list token :=
  match w with
  | WInt s z => [KInt s z] | WFloat q => [KFloat q] | WBool b => [if b then KTrue else KFalse]
  | WId id idx => KId id :: flat_map (fun i => KLBracket :: text i ++ [KRBracket]) idx
  | WParen w => KLParen :: text w ++ [KRParen]
  | WFun f w => KFun f :: KLParen :: text w ++ [KRParen]
  | WUn op w => un_token op :: text w
  | WBin op a b => text a ++ op_token op :: text b
  end.
Fixpoint tree (w : written) : expr :=
  match w with
  | WInt s z => EInt s z | WFloat q => EFloat q | WBool b => EBool b | WId id idx => EId id (map tree idx)
  | WParen w => tree w | WFun f w => EUn f (tree w) | WUn op w => EUn op (tree w) | WBin op a b => EBin op (tree a) (tree b)
  end.
(* binding strength: equality < order < additive < multiplicative < sign and negation < power < atoms *)
Definition strength (op : bop) : nat :=
  match op with Equal | NotEqual => 1 | LessThan | GreaterThan | LessThanOrEqual | GreaterThanOrEqual => 2 | Add | Subtract => 3 | Multiply | Divide => 4 | Power => 6 | _ => 0 end.
Definition level (w : written) : nat := match w with WBin op _ _ => strength op | WUn _ _ => 5 | _ => 7 end.
(* The parentheses are where precedence and associativity (left, but right for powers) require them. *)
Fixpoint standard (w : written) : Prop :=
  match w with
  | WInt _ _ | WFloat _ | WBool _ => True
  | WId _ idx => fold_right (fun i P => standard i /\ P) True idx
  | WParen w => standard w
  | WFun f w => (f = Sin \/ f = Cos \/ f = Tan \/ f = Exp \/ f = Ln \/ f = Sqrt) /\ standard w
  | WUn op w => (op = Negate \/ op = LogicalNot \/ op = BitwiseNot) /\ 5 <= level w /\ standard w
  | WBin Power a b => 6 < level a /\ 5 <= level b /\ standard a /\ standard b
  | WBin op a b => 0 < strength op /\ strength op <= level a /\ strength op < level b /\ standard a /\ standard b
  end.
(* Where the parser follows this grammar. lead: at the beginning of an expression (of a parenthesis, an index or an
   argument). No sign or negation stands before a product or a comparison at the beginning of an expression, none but
   minus signs anywhere else and none before a power there; no power is an exponent; no sums in comparisons; orders on
   the right of an equality are in parentheses. *)
Fixpoint signed (w : written) : bool := match w with WUn _ _ => true | WBin _ a _ => signed a | _ => false end.
Fixpoint followed (lead : bool) (w : written) : Prop :=
  match w with
  | WInt _ _ | WFloat _ | WBool _ => True
  | WId _ idx => fold_right (fun i P => followed true i /\ P) True idx
  | WParen w => followed true w
  | WFun _ w => followed true w
  | WUn op w => followed false w /\ (lead = true \/ op = Negate /\ level w <> 6)
  | WBin op a b =>
      followed false b /\
      match strength op with
      | 6 => followed false a /\ level b <> 6
      | 4 => followed false a /\ (lead = true -> signed a = false)
      | 3 => followed lead a
      | _ => followed false a /\ (lead = true -> signed a = false) /\ level a <> 3 /\ 4 <= level b
      end
  end.
