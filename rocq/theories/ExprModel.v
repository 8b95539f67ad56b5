(** Symbolic expressions: include/mqt-core/ir/operations/Expression.hpp.
    Coefficients and constants are exact reals (T = U = double in
    qc::Symbolic); a variable is its id. *)
From Coq Require Import Reals List Arith Bool.
Import ListNotations.
Local Open Scope R_scope.

Definition term := (nat * R)%type.            (* var, coeff *)
Record expr := { e_terms : list term; e_const : R }.

Section Tol.
(** TOLERANCE, line 32 *)
Variable tol : R.

Definition small (x : R) : bool := if Rlt_dec (Rabs x) tol then true else false.
Definition iszero_b (x : R) : bool := if Req_EM_T x 0 then true else false.

(** 381-383 (isZero) *)
Definition is_zero (e : expr) : bool :=
  match e_terms e with [] => iszero_b (e_const e) | _ => false end.

(** 410-427: one round of the loop of operator+=. std::lower_bound finds the
    first term whose variable is not smaller (the terms are sorted). *)
Fixpoint add_term (l : list term) (t : term) : list term :=
  match l with
  | [] => [t]
  | u :: r =>
      if Nat.ltb (fst u) (fst t) then u :: add_term r t
      else if Nat.eqb (fst u) (fst t) then
        (if small (snd u + snd t) then r else (fst u, snd u + snd t) :: r)
      else t :: l
  end.

(** 400-432 (operator+=) *)
Definition add_expr (e f : expr) : expr :=
  if is_zero e then f
  else if is_zero f then e
  else {| e_terms := fold_left add_term (e_terms f) (e_terms e); e_const := e_const e + e_const f |}.

(** 644-649 (sortTerms); the order of terms with equal variables is not fixed
    by std::sort, their coefficients are added up anyway. *)
Fixpoint ins_term (t : term) (l : list term) : list term :=
  match l with
  | [] => [t]
  | u :: r => if Nat.ltb (fst u) (fst t) then u :: ins_term t r else t :: l
  end.
Definition sort_terms (l : list term) : list term := fold_right ins_term [] l.

(** 651-664 (aggregateEqualTerms) *)
Fixpoint aggregate_from (t : term) (l : list term) : list term :=
  match l with
  | [] => if small (snd t) then [] else [t]
  | u :: r =>
      if Nat.eqb (fst t) (fst u) then aggregate_from (fst t, snd t + snd u) r
      else if small (snd t) then aggregate_from u r else t :: aggregate_from u r
  end.
Definition aggregate (l : list term) : list term :=
  match l with [] => [] | t :: r => aggregate_from t r end.

(** 329-348 (constructors from terms) *)
Definition mk_expr (l : list term) : expr := {| e_terms := aggregate (sort_terms l); e_const := 0 |}.

(** 441-453 *)
Definition add_one (e : expr) (t : term) : expr := add_expr e (mk_expr [t]).
Definition add_const (e : expr) (c : R) : expr := {| e_terms := e_terms e; e_const := e_const e + c |}.

(** 563-571 (unary minus), 464-484 (operator-=) *)
Definition neg_term (t : term) : term := (fst t, - snd t).
Definition neg_expr (e : expr) : expr := {| e_terms := map neg_term (e_terms e); e_const := - e_const e |}.
Definition sub_expr (e f : expr) : expr := add_expr e (neg_expr f).
Definition sub_one (e : expr) (t : term) : expr := add_one e (neg_term t).
Definition sub_const (e : expr) (c : R) : expr := add_const e (- c).

(** 493-502 (operator*=) *)
Definition mul_expr (e : expr) (k : R) : expr :=
  if small k then {| e_terms := []; e_const := 0 |}
  else {| e_terms := map (fun t => (fst t, snd t * k)) (e_terms e); e_const := e_const e * k |}.

(** 526-533 (operator/=); [None]: exception *)
Definition div_expr (e : expr) (k : R) : option expr :=
  if small k then None
  else Some {| e_terms := map (fun t => (fst t, snd t / k)) (e_terms e); e_const := e_const e / k |}.
(** 546-554 (operator/= with an integer) *)
Definition div_int (e : expr) (k : Z) : option expr :=
  if Z.eqb k 0 then None
  else Some {| e_terms := map (fun t => (fst t, snd t / IZR k)) (e_terms e); e_const := e_const e / IZR k |}.

(** 674-777: the binary operators. *)
Definition op_expr_plus_expr := add_expr.
Definition op_expr_minus_expr := sub_expr.
Definition op_term_plus_expr (t : term) (e : expr) : expr := add_one e t.
Definition op_const_plus_expr (c : R) (e : expr) : expr := add_const e c.
(** 704-709: the constant is ignored. *)
Definition op_coeff_plus_expr (c : R) (e : expr) : expr := add_expr e e.
(** 721-730 *)
Definition op_term_minus_expr (t : term) (e : expr) : expr := sub_one e t.
Definition op_const_minus_expr (c : R) (e : expr) : expr := sub_const e c.
(** 258-262: double / Term *)
Definition op_const_div_term (c : R) (t : term) : term := (fst t, snd t / c).

(** 632-638 (evaluate); 221-227 (Term::evaluate). [None]: SymbolicException. *)
Definition eval_term (a : nat -> option R) (t : term) : option R :=
  match a (fst t) with Some v => Some (v * snd t) | None => None end.
Definition evaluate (a : nat -> option R) (e : expr) : option R :=
  fold_left (fun s t => match s, eval_term a t with Some s, Some v => Some (v + s) | _, _ => None end)
    (e_terms e) (Some (e_const e)).

(** 789-802 (operator==) *)
Fixpoint terms_eqb (l m : list term) : bool :=
  match l, m with
  | [], [] => true
  | t :: l', u :: m' => small (snd t - snd u) && terms_eqb l' m'
  | _, _ => false
  end.
Definition expr_eqb (e f : expr) : bool :=
  Nat.eqb (length (e_terms e)) (length (e_terms f)) && iszero_b (e_const e - e_const f)
  && terms_eqb (e_terms e) (e_terms f).
End Tol.
