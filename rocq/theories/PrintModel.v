(** Pretty printing of complex numbers: ComplexValue::printFormatted and ComplexValue::toString,
    src/dd/ComplexValue.cpp:104-228.

    The text is a list of pieces. Decimal output of a number is one piece which holds the number, so precision and
    rounding of decimals are not modelled. Floating-point numbers are rationals with exact arithmetic, and there is no
    negative zero. The constants SQRT2_2 and PI (include/mqt-core/dd/DDDefinitions.hpp) are parameters. *)
From Coq Require Import ZArith QArith Qabs List Bool.
From Verif Require Import FracModel.
Import ListNotations.
Local Open Scope Z_scope.

Inductive piece :=
| TNum (n : Z)       (* a whole number *)
| TDec (q : Q)       (* a non-negative decimal number *)
| TI                 (* i *)
| TPi                (* the letter pi *)
| TSqrt2             (* the root sign and 2 *)
| TPlus | TMinus | TSlash | TOpen | TClose.

Section Print.
(** eps, SQRT2_2, PI and the bound on the rounds of the searches *)
Variables (eps SQRT2_2 PI : Q) (fuel : nat).

Definition approximatelyZero (e : Q) : bool := Qle_bool (Qabs e) eps.
Definition approximatelyEquals (a b : Q) : bool := Qle_bool (Qabs (a - b)) eps.
(** std::signbit *)
Definition negative (q : Q) : bool := negb (Qle_bool 0 q).
(** os << q *)
Definition printDec (q : Q) : list piece := if negative q then [TMinus; TDec (- q)] else [TDec q].
Definition unit (imaginary : bool) (other : list piece) : list piece := if imaginary then [TI] else other.

(** a/b, 125-133 *)
Definition printFraction (im : bool) (n d : Z) : list piece :=
  if (n =? 1) && (d =? 1) then unit im [TNum 1]
  else if d =? 1 then TNum n :: unit im []
  else if n =? 1 then unit im [TNum 1] ++ [TSlash; TNum d]
  else TNum n :: unit im [] ++ [TSlash; TNum d].
(** a/(b sqrt2), 145-154 *)
Definition printSqrt (im : bool) (n d : Z) : list piece :=
  if (n =? 1) && (d =? 1) then unit im [TNum 1] ++ [TSlash; TSqrt2]
  else if d =? 1 then TNum n :: unit im [] ++ [TSlash; TSqrt2]
  else if n =? 1 then unit im [TNum 1] ++ [TSlash; TOpen; TNum d; TSqrt2; TClose]
  else TNum n :: unit im [] ++ [TSlash; TOpen; TNum d; TSqrt2; TClose].
(** a pi/b, 165-173 *)
Definition printPi (im : bool) (n d : Z) : list piece :=
  if (n =? 1) && (d =? 1) then TPi :: unit im []
  else if d =? 1 then TNum n :: TPi :: unit im []
  else if n =? 1 then TPi :: unit im [] ++ [TSlash; TNum d]
  else TNum n :: TPi :: unit im [] ++ [TSlash; TNum d].

(** One attempt: the search and the test of its result, e.g. 117-124; None: the search does not end *)
Definition attempt (x : Q) (found : Z -> Z -> list piece) (otherwise : option (list piece)) : option (list piece) :=
  match getLowestFraction fuel eps x 1024 with
  | None => None
  | Some (n, d) => if approximatelyZero (x - ratio n d) then Some (found n d) else otherwise
  end.
(** printFormatted behind the sign, 112-181, for num >= 0 *)
Definition printBody (num : Q) (im : bool) : option (list piece) :=
  if approximatelyZero num then Some (TNum 0 :: unit im [])
  else
    attempt (Qabs num) (printFraction im)
      (attempt (Qabs num / SQRT2_2) (printSqrt im)
        (attempt (Qabs num / PI) (printPi im)
          (Some (printDec num ++ unit im [])))).
(** printFormatted, 104-182 *)
Definition printFormatted (num : Q) (im : bool) : option (list piece) :=
  let sign := if negative num then [TMinus] else if im then [TPlus] else [] in
  match printBody (if negative num then - num else num) im with
  | None => None
  | Some out => Some (sign ++ out)
  end.

(** toString, 184-228 *)
Definition toString (real imag : Q) (formatted : bool) : option (list piece) :=
  if approximatelyZero real && approximatelyZero imag then Some [TNum 0]
  else
    match
      (if negb (approximatelyZero real) then if formatted then printFormatted real false else Some (printDec real) else Some [])
    with
    | None => None
    | Some ss =>
        if negb (approximatelyZero imag) then
          if formatted then
            if approximatelyEquals real imag then Some (ss ++ [TOpen; TNum 1; TPlus; TI; TClose])
            else if approximatelyEquals real (- imag) then Some (ss ++ [TOpen; TNum 1; TMinus; TI; TClose])
            else match printFormatted imag true with Some out => Some (ss ++ out) | None => None end
          else
            Some (ss ++ (if approximatelyZero real then printDec imag
                         else (if negb (Qle_bool imag 0) then [TPlus] else []) ++ printDec imag) ++ [TI])
        else Some ss
    end.
End Print.
