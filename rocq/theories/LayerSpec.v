(** Specification of layers, written without the model's counters.

    A dependency graph with enabling (+1) and disabling (-1) edges; an edge is
    pending until its source is executed. A vertex may be executed if it has
    not been executed and its pending edges cancel out. *)
From Coq Require Import List Arith ZArith Bool.
From Verif Require Import LayerModel.
Import ListNotations.

Record lspec := mkSpec {
  size : nat;
  pending : list (nat * nat * Z);     (* source, destination, sign *)
  done : list nat
}.

Definition balance (p : list (nat * nat * Z)) (v : nat) : Z :=
  fold_right (fun e z => if Nat.eqb (snd (fst e)) v then snd e + z else z)%Z 0%Z p.

Definition may_execute (s : lspec) (v : nat) : Prop :=
  v < size s /\ ~ In v (done s) /\ balance (pending s) v = 0%Z.

Definition fire (s : lspec) (v : nat) : lspec :=
  mkSpec (size s) (filter (fun e => negb (Nat.eqb (fst (fst e)) v)) (pending s)) (v :: done s).

(** The transitions; a vertex that may not be executed is refused and nothing
    changes. *)
Inductive lstep : lspec -> lop -> lspec -> Prop :=
| st_create s : lstep s LCreate (mkSpec (S (size s)) (pending s) (done s))
| st_enable s u v : u < size s -> v < size s ->
    lstep s (LEnable u v) (mkSpec (size s) ((u, v, 1%Z) :: pending s) (done s))
| st_disable s u v : u < size s -> v < size s ->
    lstep s (LDisable u v) (mkSpec (size s) ((u, v, (-1)%Z) :: pending s) (done s))
| st_execute s v : may_execute s v -> lstep s (LExecute v) (fire s v)
| st_refuse s v : v < size s -> ~ may_execute s v -> lstep s (LExecute v) s.

Inductive lsteps : lspec -> list lop -> lspec -> Prop :=
| sts_nil s : lsteps s [] s
| sts_cons s o s1 r s2 : lstep s o s1 -> lsteps s1 r s2 -> lsteps s (o :: r) s2.

Definition lspec_empty : lspec := mkSpec 0 [] [].

(** The calls only name existing vertices. *)
Fixpoint well_named (n : nat) (ops : list lop) : Prop :=
  match ops with
  | [] => True
  | LCreate :: r => well_named (S n) r
  | LEnable u v :: r => u < n /\ v < n /\ well_named n r
  | LDisable u v :: r => u < n /\ v < n /\ well_named n r
  | LExecute v :: r => v < n /\ well_named n r
  end.

(** ** Circuits *)
Section Circuit.
Context {Op : Type}.
Variable used : Op -> list nat.
Variable isInverseOf : Op -> Op -> bool.
Variable commutesAtQubit : Op -> Op -> nat -> bool.
Variable commutable : bool.
Variable ops : list Op.

Definition acts (i q : nat) : Prop := exists o, nth_error ops i = Some o /\ In q (used o).

(** Operations [i] and [j] must keep their order: they meet at a qubit where
    they do not commute (or commutation is switched off). *)
Definition dependent (i j : nat) : Prop :=
  exists a b q, nth_error ops i = Some a /\ nth_error ops j = Some b
    /\ In q (used a) /\ In q (used b)
    /\ (commutable = true -> commutesAtQubit a b q = false).

(** No two neighbouring operations on a qubit are inverse to each other. *)
Definition no_inverse_neighbours : Prop :=
  forall i j q a b, i < j -> nth_error ops i = Some a -> nth_error ops j = Some b ->
    In q (used a) -> In q (used b) ->
    (forall k, i < k < j -> ~ acts k q) ->
    isInverseOf a b = false.

(** [i] occurs before [j] in [vs]. *)
Definition before (vs : list nat) (i j : nat) : Prop :=
  exists p r, vs = p ++ j :: r /\ In i p.
End Circuit.
