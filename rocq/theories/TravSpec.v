(** Entries, thresholds and density matrices. *)
From Coq Require Import Reals List Bool Arith.
From Verif Require Import Cplx Qsem DDModel DDSpec.
Local Open Scope R_scope.

(** The entry of a vector and of a matrix with the given indices. *)
Definition ventry (e : vedge) (i : nat) : C := veden e (Nat.testbit i).
Definition mentry (n : nat) (e : medge) (i j : nat) : C := meden n e (Nat.testbit i) (Nat.testbit j).
(** The 2x2 minors of a density matrix (or of any positive semidefinite matrix): a non-negative diagonal that bounds all entries. *)
Definition minors (n : nat) (e : medge) : Prop :=
  (forall r, snd (meden n e r r) = 0 /\ 0 <= fst (meden n e r r)) /\
  forall r c, Cnorm2 (meden n e r c) <= fst (meden n e r r) * fst (meden n e c c).
