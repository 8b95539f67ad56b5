(** Random Clifford circuits: src/algorithms/RandomCliffordCircuit.cpp.

    The random numbers are a parameter: [draw k] is the k-th number that the
    generator returns. As in AlgoModel, qubit numbers do not wrap around at 2^32;
    the loops for nq = 0, where nq - 1 wraps, are left out ([None]). *)
From Coq Require Import Reals List Arith Bool NArith.
From Verif Require Import Cplx Qsem GateModel IRModel AlgoModel.
Import ListNotations.
Local Open Scope N_scope.

(** 28-30, 62-67 and the like: a Hadamard gate if the digit is not 0 *)
Definition had (b : N) (q : nat) : list cop := if N.eqb b 0 then [] else [g1 gH q].
(** 33-39, 69-75 and the like *)
Definition rot (k : N) (q : nat) : list cop :=
  if N.eqb k 1 then [g1 gH q; g1 gS q] else if N.eqb k 2 then [g1 gSdg q; g1 gH q] else [].
(** 42-48, 185-201 *)
Definition pauli (k : N) (q : nat) : list cop :=
  if N.eqb k 1 then [g1 gZ q] else if N.eqb k 2 then [g1 gX q] else if N.eqb k 3 then [g1 gY q] else [].
(** 24-51: the operations of the compound operation that is appended *)
Definition clifford1 (idx : N) : list cop :=
  let id := idx mod 24 in
  had (id / 12 mod 2) 0 ++ rot (id / 4 mod 3) 0 ++ pauli (id mod 4) 0.
(** 53-204 *)
Definition clifford2 (idx : N) (control target : nat) : list cop :=
  let id := idx mod 11520 in
  let pauliIdx := id mod 16 in
  let id := id / 16 in
  (if id <? 36 then
     had (id / 9 mod 2) control ++ had (id / 18 mod 2) target ++
     rot (id mod 3) control ++ rot (id / 3 mod 3) target
   else if id <? 360 then
     let id := id - 36 in
     had (id / 81 mod 2) control ++ had (id / 162 mod 2) target ++
     rot (id mod 3) control ++ rot (id / 3 mod 3) target ++
     [cg1 gX control target] ++
     rot (id / 9 mod 3) control ++ rot (id / 27 mod 3) target
   else if id <? 684 then
     let id := id - 360 in
     had (id / 81 mod 2) control ++ had (id / 162 mod 2) target ++
     rot (id mod 3) control ++ rot (id / 3 mod 3) target ++
     [cg1 gX control target; cg1 gX target control] ++
     rot (id / 9 mod 3) control
   else
     let id := id - 684 in
     had (id / 9 mod 2) control ++ had (id / 18 mod 2) target ++
     rot (id mod 3) control ++
     [cg1 gX control target; cg1 gX target control; cg1 gX control target]) ++
  pauli (pauliIdx mod 4) control ++ pauli (pauliIdx / 4) target.

(** 222-230: the pairs (i, i + 1) of a layer; for (i = start; i < nq - 1; i += 2) *)
Definition pairs (nq start : nat) : list nat := map (fun j => start + 2 * j)%nat (seq 0 ((nq - start) / 2)).
(** one layer; [k]: the number of draws so far *)
Definition layer (nq l : nat) (draw : nat -> N) (k : nat) : list cop :=
  if Nat.eqb nq 1 then [OComp false (clifford1 (draw k))]
  else if Nat.eqb nq 2 then [OComp false (clifford2 (draw k) 0 1)]
  else
    let ps := pairs nq (if Nat.eqb (l mod 2) 0 then 0 else 1) in
    map (fun p => OComp false (clifford2 (draw (k + fst p)%nat) (snd p) (S (snd p)))) (combine (seq 0 (length ps)) ps).
(** 216-232, the layers [l .. l + n - 1] *)
Fixpoint layers (nq n l : nat) (draw : nat -> N) (k : nat) : list cop :=
  match n with
  | O => []
  | S n => let ops := layer nq l draw k in ops ++ layers nq n (S l) draw (k + length ops)
  end.
(** 207-234; 213: the generator draws from 0 .. 11520 *)
Definition createRandomCliffordCircuit (nq depth : nat) (draw : nat -> N) : option qcirc :=
  if Nat.eqb nq 0 then None else Some (plain_qc nq (layers nq depth 0 draw 0)).
Definition drawn (n : N) : Prop := n <= 11520.
