(** What the comments should carry. *)
From Coq Require Import List Arith Bool Ascii Sorting.Sorted Permutation.
From Verif Require Import IRModel QasmIfModel CircModel LayoutModel.
Import ListNotations.
Local Open Scope list_scope.

(** A std::map lists its keys in order. *)
Definition ordered (m : perm) : Prop := StronglySorted lt (map fst m).
(** [lay'] and [out'] are the layout [lay] and outputs [out] with the physical
    qubits numbered consecutively. *)
Definition renumbered (lay out lay' out' : perm) : Prop :=
  ordered lay' /\ ordered out' /\
  (forall i l, In (i, l) lay' <-> exists p, nth_error lay i = Some (p, l)) /\
  (forall i x, In (i, x) out' <-> exists p l, nth_error lay i = Some (p, l) /\ In (p, x) out).
(** A letter, a space and a digit in a row. *)
Definition digit (d : ascii) : Prop := exists k, k < 10 /\ d = ascii_of_nat (48 + k).
Definition contains (c : ascii) (s : text) : Prop := exists a d b, digit d /\ s = a ++ [c; " "%char; d] ++ b.
