(** Measuring a qubit of a density matrix: Package::measureOneCollapsing on density edges, src/dd/Package.cpp:786-822, and
    the trace of density matrices, include/mqt-core/dd/Package.hpp:1534-1651.

    Density edges are matrix edges (their tags are the subject of TagModel); nodes that look like the identity are skipped for
    them as for matrices, Package.hpp:490-503. Numbers are exact, and the draw is an argument. *)
From Coq Require Import Reals List Bool Arith.
From Verif Require Import Cplx Qsem DDModel.
Import ListNotations.
Local Open Scope R_scope.

(** trace with every qubit eliminated, so that add2 adds two numbers; nothing is divided by two for density matrices.
    eliminate[v] beyond its end is undefined *)
Fixpoint dtrace (nrQubits : nat) (w : C) (t : mtree) : dres C :=
  if ezero w then DOk C0
  else match t with
  | MT => DOk w
  | MNode v ws s =>
      if Nat.leb nrQubits v then DUb
      else
        let* a := dtrace nrQubits (ws false false) (s false false) in
        let* b := dtrace nrQubits (ws true true) (s true true) in
        DOk ((a + b) * w)%C
  end.
(** MEAS_ZERO_MAT and MEAS_ONE_MAT *)
Definition measMat (one i j : bool) : C := if Bool.eqb i j && Bool.eqb i one then C1 else C0.
(** 794-797 and 802-804: the projected matrix *)
Definition projectDensity (nq : nat) (e : medge) (index : nat) (one : bool) : dres medge :=
  let* m := makeGateDD nq (measMat one) [] index in
  let* tmp1 := multiplyMM e (conjugateTranspose m) in
  multiplyMM m tmp1.
(** measureOneCollapsing, 786-822: the outcome and the new matrix; None: its weight is not a number. The terminal has no
    level, so asking for it is undefined. *)
Definition measureDensity (nq : nat) (e : medge) (index : nat) (threshold : R) : dres (bool * option medge) :=
  match snd e with
  | MT => DUb
  | MNode v _ _ =>
      let nrQubits := S v in
      let* zero := projectDensity nq e index false in
      let* p := dtrace nrQubits (fst zero) (snd zero) in
      let* out :=
        (if Rlt_dec (fst p) threshold then
           let* one := projectDensity nq e index true in
           let* q := dtrace nrQubits (fst one) (snd one) in
           DOk (true, one, q)
         else DOk (false, zero, p)) in
      let '(bit, tmp2, tr) := out in
      DOk (bit, if ezero tr then None else Some ((fst tmp2 / tr)%C, snd tmp2))
  end.
