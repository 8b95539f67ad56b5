(** Reading a polar label: a magnitude and an angle. A label is a number on one of the axes, or an optional magnitude and an
    exponential. In an exponent, a factor behind a space is multiplied. *)
From Coq Require Import ZArith QArith Qabs List Bool.
From Verif Require Import PrintModel PrintSpec PolarModel.
Import ListNotations.
Local Open Scope Q_scope.

Section Read.
Variables (root pi : Q).
Fixpoint plain (l : list token) : option (list piece) :=
  match l with
  | [] => Some []
  | P t :: r => match plain r with Some r' => Some (t :: r') | None => None end
  | _ :: _ => None
  end.
(** A factor behind a space; not behind a divisor *)
Definition spaced (c : state * list state) (f : K) : option (state * list state) :=
  match prod (fst c), slash (fst c) with Some _, false => lift (snd c) (letter (fst c) f) | _, _ => None end.
Fixpoint exponent (c : state * list state) (l : list token) : option (state * list state) :=
  match l with
  | [] => Some c
  | Space :: P (TNum n) :: r => match spaced c (inject_Z n, 0) with Some c' => exponent c' r | None => None end
  | Space :: P (TDec q) :: r => match spaced c (q, 0) with Some c' => exponent c' r | None => None end
  | Space :: P TPi :: r => match spaced c (pi, 0) with Some c' => exponent c' r | None => None end
  | P t :: r => match feed root pi c t with Some c' => exponent c' r | None => None end
  | _ => None
  end.
(** The bracket of the exponential is the outermost one; the exponent has to be imaginary *)
Definition angle (l : list token) : option Q :=
  match exponent (start, [start]) l with
  | Some (St (a, b) false false (Some (x, y)) false false, []) => if Qeq_bool (a + x) 0 then Some (b + y) else None
  | _ => None
  end.
(** A number on one of the axes *)
Definition axis (v : K) : option (Q * Q) :=
  if Qeq_bool (snd v) 0 then Some (if Qle_bool 0 (fst v) then (fst v, 0) else (- fst v, pi))
  else if Qeq_bool (fst v) 0 then Some (if Qle_bool 0 (snd v) then (snd v, pi / 2) else (- snd v, - (pi / 2)))
  else None.
Fixpoint split (l : list token) : option (list token * list token) :=
  match l with
  | [] => None
  | Exp :: r => Some ([], r)
  | t :: r => match split r with Some (a, b) => Some (t :: a, b) | None => None end
  end.
Definition readAxis (l : list token) : option (Q * Q) :=
  match plain l with
  | Some l' => match reads root pi l' with Some v => axis v | None => None end
  | None => None
  end.
Definition readPolar (l : list token) : option (Q * Q) :=
  match split l with
  | None => readAxis l
  | Some ([], r) => match angle r with Some a => Some (1, a) | None => None end
  | Some (m, r) =>
      match rev m with
      | Space :: m' =>
          match readAxis (rev m'), angle r with
          | Some (x, b), Some a => Some (x, b + a)
          | _, _ => None
          end
      | _ => None
      end
  end.
End Read.
