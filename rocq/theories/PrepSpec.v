(** State preparation: what it should do. *)
From Coq Require Import Reals List Arith Bool.
From Verif Require Import Cplx Qsem IRModel IRSpec OutcomeSpec AlgoSpec.
Import ListNotations.

(** The state of [n] qubits with the given amplitudes; qubit 0 is the least
    significant one. *)
Definition vec_state (n : nat) (amps : list C) : state := fun b => nth (outcome n b) amps C0.
(** Euclidean distance of two states of [n] qubits. *)
Definition distance (n : nat) (psi phi : state) : R := sqrt (weight n (fun b => psi b - phi b)%C).
(** Euclidean norm of a vector. *)
Fixpoint sqnorm (v : list C) : R :=
  match v with [] => 0%R | z :: r => (Cnorm2 z + sqnorm r)%R end.
