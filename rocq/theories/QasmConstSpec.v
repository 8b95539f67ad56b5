(* Exact integer arithmetic, stated on mathematical integers. *)
From Coq Require Import ZArith QArith Bool List String.
From Verif Require Import QasmConstModel.
Import ListNotations.
Local Close Scope Q_scope.
Local Open Scope Z_scope.

(* the 64-bit number congruent to z, signed or not *)
Definition wrap (sgn : bool) (z : Z) : Z := if sgn then (if z mod 2 ^ 64 <? 2 ^ 63 then z mod 2 ^ 64 else z mod 2 ^ 64 - 2 ^ 64) else z mod 2 ^ 64.
Inductive xval := XNum (sgn : bool) (z : Z) | XBool (b : bool).
(* the value of an operator on integers; None: there is none *)
Definition exact (op : bop) (x y : Z) : option (Z + bool) :=
  match op with
  | Power => if y <? 0 then None else Some (inl (x ^ y))
  | Add => Some (inl (x + y)) | Subtract => Some (inl (x - y)) | Multiply => Some (inl (x * y))
  | Divide => if y =? 0 then None else Some (inl (Z.quot x y))
  | Modulo => if y =? 0 then None else Some (inl (Z.rem x y))
  | LeftShift => if y <? 0 then None else Some (inl (Z.shiftl x y))
  | RightShift => if y <? 0 then None else Some (inl (Z.shiftr x y))
  | LessThan => Some (inr (x <? y)) | LessThanOrEqual => Some (inr (x <=? y))
  | GreaterThan => Some (inr (y <? x)) | GreaterThanOrEqual => Some (inr (y <=? x))
  | Equal => Some (inr (x =? y)) | NotEqual => Some (inr (negb (x =? y)))
  | BitwiseAnd => Some (inl (Z.land x y)) | BitwiseXor => Some (inl (Z.lxor x y)) | BitwiseOr => Some (inl (Z.lor x y))
  | LogicalAnd | LogicalOr => None
  end.
(* operands of different signedness are converted to signed numbers; the result has the type of the operands *)
Definition exact_binary (op : bop) (a b : xval) : option xval :=
  match a, b with
  | XNum sa x, XNum sb y =>
      let sgn := sa || sb in
      match exact op (wrap sgn x) (wrap sgn y) with Some (inl z) => Some (XNum sgn (wrap sgn z)) | Some (inr c) => Some (XBool c) | None => None end
  | XBool x, XBool y =>
      match op with
      | Equal => Some (XBool (Bool.eqb x y)) | NotEqual | BitwiseXor => Some (XBool (negb (Bool.eqb x y)))
      | BitwiseAnd | LogicalAnd => Some (XBool (x && y)) | BitwiseOr | LogicalOr => Some (XBool (x || y))
      | _ => None
      end
  | _, _ => None
  end.
Definition exact_unary (op : uop) (a : xval) : option xval :=
  match op, a with
  | BitwiseNot, XNum sgn z => Some (XNum sgn (wrap sgn (- z - 1)))
  | Negate, XNum sgn z => Some (XNum sgn (wrap sgn (- z)))
  | LogicalNot, XBool b => Some (XBool (negb b))
  | _, _ => None
  end.
(* expressions over integer and boolean constants; r gives the named constants *)
Fixpoint exact_eval (r : string -> option xval) (x : expr) : option xval :=
  match x with
  | EInt sgn z => Some (XNum sgn (wrap sgn z))
  | EBool b => Some (XBool b)
  | EId id [] => r id
  | EBin op a b => match exact_eval r a, exact_eval r b with Some va, Some vb => exact_binary op va vb | _, _ => None end
  | EUn op a => match exact_eval r a with Some va => exact_unary op va | None => None end
  | _ => None
  end.
