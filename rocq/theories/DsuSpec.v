(** What a client expects of disjoint sets. *)
From Coq Require Import List Relations.
From Verif Require Import DsuModel.
Import ListNotations.

(** All calls refer to elements the set was built from. *)
Definition known (els : list nat) (o : dop) : Prop :=
  match o with
  | Find v => In v els
  | Union x y => In x els /\ In y els
  end.

(** [x] and [y] are connected by the unions of the history. *)
Definition connected (ops : list dop) : nat -> nat -> Prop :=
  clos_refl_sym_trans nat (fun x y => In (Union x y) ops).
