(** Rounding of phases to multiples of pi/2: src/zx/Utils.cpp:149-175 and ZXDiagram::approximateCliffords, src/zx/ZXDiagram.cpp:344-350.
    Constants and tolerances are exact; the conversion of a fraction to a double is left out. *)
From Coq Require Import QArith Qabs ZArith Bool List Arith.
From Verif Require Import PiModel ZXModel.
Import ListNotations.

(** isClifford, Utils.cpp:152-155 *)
Definition p_isClifford (p : phase) : bool := p_isConstant p && (pi_isInteger (Qred (fst p)) || Pos.eqb (Qden (Qred (fst p))) 2).
(** PiRational::isCloseDivPi, Rational.hpp:160-163 *)
Definition isCloseDivPi (q : Q) (x tolerance : Q) : bool := negb (Qle_bool tolerance (Qabs (q - x))).
(** roundToClifford, Utils.cpp:160-175; PiRational(n, d) reduces modulo two *)
Definition roundToClifford (p : phase) (tolerance : Q) : phase :=
  if negb (p_isConstant p) then p
  else if isCloseDivPi (fst p) 0 tolerance then (modPi 0, snd p)
  else if isCloseDivPi (fst p) (1 # 2) tolerance then (modPi (1 # 2), snd p)
  else if isCloseDivPi (fst p) (- (1 # 2)) tolerance then (modPi (- (1 # 2)), snd p)
  else if isCloseDivPi (fst p) 1 tolerance then (modPi 1, snd p)
  else p.
(** approximateCliffords *)
Definition approximateCliffords (d : diag) (tolerance : Q) : diag :=
  set_verts d (fun v => option_map (fun a => mkV (v_qubit a) (roundToClifford (v_phase a) tolerance) (v_type a)) (d_verts d v)).
