(* What reducing ancillary and garbage qubits should do, stated on the entries of vectors and matrices. *)
From Coq Require Import Reals List Bool Arith.
From Verif Require Import Cplx Qsem DDModel DDSpec.
Import ListNotations.
Local Open Scope R_scope.

(* a flagged qubit below n is one in b *)
Definition touches (flags : list bool) (n : nat) (b : bits) : Prop :=
  exists q, (q < n)%nat /\ nth_error flags q = Some true /\ b q = true.

(* the sum of f over all values of the flagged qubits below n, the others as in b *)
Fixpoint fsum (flags : list bool) (n : nat) (f : bits -> R) (b : bits) : R :=
  match n with
  | O => f b
  | S k => if nth k flags false then fsum flags k f (setb b k false) + fsum flags k f (setb b k true)
           else fsum flags k f b
  end.

(* entry (s, k) of a matrix read by rows or, transposed, by columns *)
Definition entry (regular : bool) (n : nat) (e : medge) (s k : bits) : C :=
  if regular then meden n e s k else meden n e k s.

(* non-negative real numbers *)
Definition nonneg (z : C) : Prop := exists x, 0 <= x /\ z = RtoC x.

(* two assignments agree below n; they differ on a qubit that is not flagged *)
Definition agree (n : nat) (r c : bits) : Prop := forall q, (q < n)%nat -> r q = c q.
Definition differ (flags : list bool) (n : nat) (r c : bits) : Prop :=
  exists q, (q < n)%nat /\ nth_error flags q <> Some true /\ r q <> c q.

(* a number of magnitude between sqrt (1 - tol)^n and 1 and phase at most n * tol *)
Definition nearly_one (n : nat) (tol : R) (z : C) : Prop :=
  exists rho theta, 0 <= rho /\ (1 - tol) ^ n <= rho * rho <= 1 /\ Rabs theta <= INR n * tol /\
    z = (RtoC rho * Cexp theta)%C.
