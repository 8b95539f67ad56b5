(** Polar labels of edges: conditionalFormat and printPhaseFormatted, src/dd/Export.cpp:48-152.

    As in PrintModel, decimals are exact and floating-point numbers are rationals. Magnitude and phase are the inputs
    (ComplexNumbers::mag and arg are not modelled); without formatAsPolar the label is that of PrintModel.toString. *)
From Coq Require Import ZArith QArith Qabs List Bool.
From Verif Require Import FracModel PrintModel.
Import ListNotations.
Local Open Scope Z_scope.

Inductive token :=
| P (t : piece)
| Space
| Exp.              (* the letter e and an opening bracket *)

Section Polar.
Variables (eps SQRT2_2 PI : Q) (fuel : nat).

(** a/b, 62-70 *)
Definition phaseFraction (n d : Z) : list token :=
  if (n =? 1) && (d =? 1) then []
  else if d =? 1 then [Space; P (TNum n)]
  else if n =? 1 then [P TSlash; P (TNum d)]
  else [Space; P (TNum n); P TSlash; P (TNum d)].
(** a/(b sqrt2), 80-88 *)
Definition phaseSqrt (n d : Z) : list token :=
  if (n =? 1) && (d =? 1) then [P TSlash; P TSqrt2]
  else if d =? 1 then [Space; P (TNum n); P TSlash; P TSqrt2]
  else if n =? 1 then [P TSlash; P TOpen; P (TNum d); P TSqrt2; P TClose]
  else [Space; P (TNum n); P TSlash; P TOpen; P (TNum d); P TSqrt2; P TClose].
(** a pi/b, 98-106 *)
Definition phasePi (n d : Z) : list token :=
  if (n =? 1) && (d =? 1) then [Space; P TPi]
  else if d =? 1 then [Space; P (TNum n); P TPi]
  else if n =? 1 then [Space; P TPi; P TSlash; P (TNum d)]
  else [Space; P (TNum n); P TPi; P TSlash; P (TNum d)].
(** One attempt with its strict test, e.g. 55-61 *)
Definition phaseAttempt (x : Q) (found : Z -> Z -> list token) (otherwise : option (list token)) : option (list token) :=
  match getLowestFraction fuel eps x 1024 with
  | None => None
  | Some (n, d) => if negb (Qle_bool eps (Qabs (x - ratio n d))) then Some (found n d) else otherwise
  end.
(** printPhaseFormatted, 48-112 *)
Definition printPhaseFormatted (phase : Q) : option (list token) :=
  let r := (phase / PI)%Q in
  let absr := Qabs r in
  match
    phaseAttempt absr phaseFraction
      (phaseAttempt (absr / SQRT2_2) phaseSqrt
        (phaseAttempt (absr / PI) phasePi
          (Some [Space; P (TDec absr)])))
  with
  | None => None
  | Some out => Some (Exp :: (if negative r then [P TMinus] else []) ++ P TI :: P TPi :: out ++ [P TClose])
  end.
(** conditionalFormat with formatAsPolar, 118-151 *)
Definition conditionalFormat (mag phase : Q) : option (list token) :=
  let printMag := match printFormatted eps SQRT2_2 PI fuel mag false with Some out => Some (map P out) | None => None end in
  if approximatelyZero eps mag then Some [P (TNum 0)]
  else if approximatelyEquals eps mag 1 then
    if approximatelyZero eps phase then Some [P (TNum 1)]
    else if approximatelyEquals eps phase (PI / 2) then Some [P TI]
    else if approximatelyEquals eps phase (- (PI / 2)) then Some [P TMinus; P TI]
    else if approximatelyEquals eps phase PI then Some [P TMinus; P (TNum 1)]
    else printPhaseFormatted phase
  else if approximatelyEquals eps (Qabs phase) PI then
    match printMag with Some out => Some (P TMinus :: out) | None => None end
  else if approximatelyZero eps phase then printMag
  else
    match printMag, printPhaseFormatted phase with
    | Some out, Some out' => Some (out ++ Space :: out')
    | _, _ => None
    end.
End Polar.
