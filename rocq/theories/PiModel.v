(* zx::PiRational, include/mqt-core/zx/Rational.hpp and src/zx/Rational.cpp: rational multiples of pi. The
   arbitrary-precision rationals of boost are Coq's reduced rationals Q. The constructor from a double
   (Rational.cpp:21-44) is not modelled. *)
From Coq Require Import QArith ZArith Bool List.
Local Open Scope Q_scope.

Definition pirat := Q.
Definition qltb (x y : Q) : bool := negb (Qle_bool y x).
(* modPi, Rational.cpp:94-104: one correction by 2; setting the denominator of 0 to 1 is part of Qred *)
Definition modPi (x : Q) : pirat :=
  if qltb 1 x then Qred (x - 2) else if Qle_bool x (- (1)) then Qred (x + 2) else Qred x.

(* the constructors, Rational.hpp:46-68; a denominator 0 throws in boost *)
Definition mkPi (num den : Z) : option pirat :=
  match den with
  | Z0 => None
  | Zpos d => Some (modPi (num # d))
  | Zneg d => Some (modPi ((- num) # d))
  end.
Definition mkPiInt (num : Z) : pirat := modPi (inject_Z num).

(* the compound assignments, Rational.cpp:46-92 *)
Definition pi_add (x y : pirat) : pirat := modPi (x + y).
Definition pi_addz (x : pirat) (n : Z) : pirat := modPi (x + inject_Z n).
Definition pi_sub (x y : pirat) : pirat := modPi (x - y).
Definition pi_subz (x : pirat) (n : Z) : pirat := modPi (x - inject_Z n).
Definition pi_mul (x y : pirat) : pirat := modPi (x * y).
Definition pi_mulz (x : pirat) (n : Z) : pirat := modPi (x * inject_Z n).
Definition pi_div (x y : pirat) : option pirat := if Qeq_bool y 0 then None else Some (modPi (x / y)).
Definition pi_divz (x : pirat) (n : Z) : option pirat := if Z.eqb n 0 then None else Some (modPi (x / inject_Z n)).
(* Rational.hpp:182-184; 186-239: with an integer on the left *)
Definition pi_neg (x : pirat) : pirat := modPi (- Qred x).
Definition z_add_pi (n : Z) (x : pirat) : pirat := pi_addz x n.
Definition z_sub_pi (n : Z) (x : pirat) : pirat := pi_subz x n.
Definition z_mul_pi (n : Z) (x : pirat) : pirat := pi_mulz x n.
Definition z_div_pi (n : Z) (x : pirat) : option pirat := pi_divz x n.

(* comparisons, Rational.hpp:241-310; isInteger, isZero 95-110 *)
Definition pi_ltb (x y : pirat) : bool := Z.ltb (Qnum x * Zpos (Qden y)) (Qnum y * Zpos (Qden x)).
Definition pi_leb (x y : pirat) : bool := Z.leb (Qnum x * Zpos (Qden y)) (Qnum y * Zpos (Qden x)).
Definition pi_eqb (x y : pirat) : bool := Z.eqb (Qnum x) (Qnum y) && Pos.eqb (Qden x) (Qden y).
Definition pi_isInteger (x : pirat) : bool := Pos.eqb (Qden x) 1.
Definition pi_isZero (x : pirat) : bool := Z.eqb (Qnum x) 0.
