(* Constant evaluation: src/qasm3/passes/ConstEvalPass.cpp. 64-bit values are kept as integers in [-2^63, 2^63) (the
   member of type int64_t). Floating-point values are rational numbers: rounding, infinities, std::pow, fmod and the
   elementary functions are not modelled (outcome Unmodelled). *)
From Coq Require Import ZArith QArith Bool List String.
From Verif Require Import QasmScanModel QasmEnvModel.
Import ListNotations.
Local Close Scope Q_scope.
Local Open Scope Z_scope.

(* Statement.hpp:111-131 and the unary operators *)
Inductive bop := Power | Add | Subtract | Multiply | Divide | Modulo | LeftShift | RightShift | LessThan | LessThanOrEqual
  | GreaterThan | GreaterThanOrEqual | Equal | NotEqual | BitwiseAnd | BitwiseXor | BitwiseOr | LogicalAnd | LogicalOr.
Inductive uop := BitwiseNot | LogicalNot | Negate | DurationOf | Sin | Cos | Tan | Exp | Ln | Sqrt.
(* ConstEvalPass.hpp:27-50; the width of a boolean is 1, of a floating-point number 64 *)
Inductive cvalue := VInt (sgn : bool) (z : Z) (width : Z) | VFloat (q : Q) | VBool (b : bool).
Inductive outcome := Ok (v : cvalue) | NotConst | Error | Undef | Unmodelled.
Inductive expr :=
| EInt (sgn : bool) (z : Z) | EFloat (q : Q) | EBool (b : bool)
| EId (id : string) (idx : list expr)            (* IndexedIdentifier with its indices *)
| EBin (op : bop) (a b : expr) | EUn (op : uop) (a : expr).

Definition max64 : Z := 2 ^ 63 - 1.
Definition maxu64 : Z := 2 ^ 64 - 1.
Definition in_s64 (z : Z) : bool := (- 2 ^ 63 <=? z) && (z <=? max64).
(* 31-44: the loop, n rounds left; division is truncated *)
Inductive pow_out := PVal (z : Z) | POverflow | PUndef.
Fixpoint pow_loop (mx base : Z) (n : nat) (result : Z) : pow_out :=
  match n with
  | O => PVal result
  | S n' => if base =? 0 then PUndef else if Z.quot mx base <? result then POverflow else pow_loop mx base n' (result * base)
  end.
Definition power (mx base exponent : Z) : pow_out := if exponent =? 0 then PVal 1 else pow_loop mx base (Z.to_nat exponent) 1.

(* 163-165 *)
Definition castToWidth (w z : Z) : Z := (z + 2 ^ (w - 1)) mod 2 ^ w - 2 ^ (w - 1).
(* 289-311 *)
Definition narrow (sgn : bool) (w z : Z) : outcome :=
  if (w =? 8) || (w =? 16) || (w =? 32) || (w =? 64) then Ok (VInt sgn (castToWidth w z) w) else Error.
(* 167-314. Undefined: overflow of signed multiplication, division by zero and of the least number by -1, shifts by a
   negative amount or 64 and more, left shifts of negative numbers and of positive ones beyond 2^64 (C++17). *)
Definition evalIntExpression (op : bop) (lhs rhs width : Z) (sgn : bool) : outcome :=
  let lu := u64 lhs in let ru := u64 rhs in
  let num z := narrow sgn width z in
  let cmp (f : Z -> Z -> bool) := Ok (VBool (if sgn then f lhs rhs else f lu ru)) in
  match op with
  | Power =>
      match (if sgn then power max64 lhs rhs else power maxu64 lu ru) with
      | PVal z => num (s64 z) | POverflow => Error | PUndef => Undef
      end
  | Add => num (s64 (u64 (lu + ru)))
  | Subtract => num (s64 (u64 (lu - ru)))
  | Multiply => if sgn then if in_s64 (lhs * rhs) then num (lhs * rhs) else Undef else num (s64 (u64 (lu * ru)))
  | Divide =>
      if sgn then if (rhs =? 0) || negb (in_s64 (Z.quot lhs rhs)) then Undef else num (Z.quot lhs rhs)
      else if ru =? 0 then Undef else num (s64 (lu / ru))
  | Modulo =>
      if sgn then if (rhs =? 0) || negb (in_s64 (Z.quot lhs rhs)) then Undef else num (Z.rem lhs rhs)
      else if ru =? 0 then Undef else num (s64 (lu mod ru))
  | LeftShift =>
      if sgn then if (rhs <? 0) || (64 <=? rhs) || (lhs <? 0) || (maxu64 <? lhs * 2 ^ rhs) then Undef else num (s64 (lhs * 2 ^ rhs))
      else if 64 <=? ru then Undef else num (s64 (u64 (lu * 2 ^ ru)))
  | RightShift =>
      if sgn then if (rhs <? 0) || (64 <=? rhs) then Undef else num (lhs / 2 ^ rhs)
      else if 64 <=? ru then Undef else num (s64 (lu / 2 ^ ru))
  | LessThan => cmp Z.ltb
  | LessThanOrEqual => cmp Z.leb
  | GreaterThan => cmp Z.gtb
  | GreaterThanOrEqual => cmp Z.geb
  | Equal => cmp Z.eqb
  | NotEqual => cmp (fun a b => negb (a =? b))
  | BitwiseAnd => num (s64 (Z.land lu ru))
  | BitwiseXor => num (s64 (Z.lxor lu ru))
  | BitwiseOr => num (s64 (Z.lor lu ru))
  | LogicalAnd | LogicalOr => Error
  end.
(* 316-368 *)
Definition evalFloatExpression (op : bop) (l r : Q) : outcome :=
  match op with
  | Add => Ok (VFloat (l + r)) | Subtract => Ok (VFloat (l - r)) | Multiply => Ok (VFloat (l * r))
  | Divide => if Qeq_bool r 0 then Unmodelled else Ok (VFloat (l / r))
  | Power | Modulo => Unmodelled
  | LessThan => Ok (VBool (negb (Qle_bool r l))) | LessThanOrEqual => Ok (VBool (Qle_bool l r))
  | GreaterThan => Ok (VBool (negb (Qle_bool l r))) | GreaterThanOrEqual => Ok (VBool (Qle_bool r l))
  | Equal => Ok (VBool (Qeq_bool l r)) | NotEqual => Ok (VBool (negb (Qeq_bool l r)))
  | _ => Error
  end%Q.
(* 370-402 *)
Definition evalBoolExpression (op : bop) (l r : bool) : outcome :=
  match op with
  | Equal => Ok (VBool (Bool.eqb l r)) | NotEqual => Ok (VBool (xorb l r))
  | BitwiseAnd | LogicalAnd => Ok (VBool (l && r)) | BitwiseXor => Ok (VBool (xorb l r))
  | BitwiseOr | LogicalOr => Ok (VBool (l || r))
  | _ => Error
  end.
(* 405-475; the unsigned left operand of a floating-point operation is converted as if it were signed (430) *)
Definition eval_binary (op : bop) (a b : cvalue) : outcome :=
  match a, b with
  | VInt sa x wa, VInt sb y wb => evalIntExpression op x y (Z.max wa wb) (sa || sb)
  | VInt _ x _, VFloat r => evalFloatExpression op (inject_Z x) r
  | VFloat l, VInt false y _ => evalFloatExpression op l (inject_Z (u64 y))
  | VFloat l, VInt true y _ => evalFloatExpression op l (inject_Z y)
  | VFloat l, VFloat r => evalFloatExpression op l r
  | VBool l, VBool r => evalBoolExpression op l r
  | _, _ => Error
  end.
(* 477-566 *)
Definition eval_unary (op : uop) (a : cvalue) : outcome :=
  match op, a with
  | BitwiseNot, VInt sg z w => Ok (VInt sg (Z.lnot z) w)
  | LogicalNot, VBool b => Ok (VBool (negb b))
  | Negate, VInt true z w => if z =? - 2 ^ 63 then Undef else Ok (VInt true (- z) w)
  | Negate, VFloat q => Ok (VFloat (- q))
  | (Sin | Cos | Tan | Exp | Ln | Sqrt), VFloat _ => Unmodelled
  | _, _ => NotConst
  end.
(* the visitor; 568-609 *)
Fixpoint ceval (e : env cvalue) (x : expr) : outcome :=
  match x with
  | EInt sg z => Ok (VInt sg z 64)
  | EFloat q => Ok (VFloat q)
  | EBool b => Ok (VBool b)
  | EId id [] => match env_find id e with Some v => Ok v | None => NotConst end
  | EId _ (_ :: _) => NotConst
  | EBin op a b =>
      match ceval e a with
      | Ok va => match ceval e b with Ok vb => eval_binary op va vb | o => o end
      | o => o
      end
  | EUn op a => match ceval e a with Ok va => eval_unary op va | o => o end
  end.
(* 55-75: a constant declaration; the declared type is not looked at. None: an error or worse *)
Definition declare (id : string) (x : expr) (e : env cvalue) : option (env cvalue) :=
  match ceval e x with Ok v => env_emplace id v e | _ => None end.
