(** The fraction search of the pretty printer: ComplexValue::getLowestFraction, src/dd/ComplexValue.cpp:70-102
    (declared in include/mqt-core/dd/ComplexValue.hpp:102-110).

    Floating-point numbers are rationals and their arithmetic is exact; integers are 64-bit words, whose sums wrap around.
    The loop takes a bound on the number of rounds; None says that it was not enough. *)
From Coq Require Import ZArith QArith Qabs List Bool.
Import ListNotations.
Local Open Scope Z_scope.

Definition word (z : Z) : Z := z mod 2 ^ 64.
(** static_cast<fp>(num) / static_cast<fp>(den) *)
Definition ratio (num den : Z) : Q := (inject_Z num / inject_Z den)%Q.

(** The loop, 78-97, and what follows it, 98-101 *)
Fixpoint search (fuel : nat) (eps x : Q) (maxDen : Z) (lower upper : Z * Z) : option (Z * Z) :=
  if (snd lower <=? maxDen) && (snd upper <=? maxDen) then
    match fuel with
    | O => None
    | S fuel' =>
        let num := word (fst lower + fst upper) in
        let den := word (snd lower + snd upper) in
        let median := ratio num den in
        if Qle_bool (Qabs (x - median)) eps then
          if den <=? maxDen then Some (num, den)
          else if snd lower <? snd upper then Some upper else Some lower
        else if negb (Qle_bool x median) then search fuel' eps x maxDen (num, den) upper
        else search fuel' eps x maxDen lower (num, den)
    end
  else if maxDen <? snd lower then Some upper else Some lower.
(** getLowestFraction, 70-102 *)
Definition getLowestFraction (fuel : nat) (eps x : Q) (maxDen : Z) : option (Z * Z) :=
  search fuel eps x maxDen (0, 1) (1, 0).
