(** Specification: no compute table mentions a collected node or number. *)
From Coq Require Import List Arith Bool.
From Verif Require Import MemModel HeapModel PkgCacheModel.
Import ListNotations.

(** No entry of table [t] mentions something that is not stored any more. *)
Definition fresh_table (s : pst) (t : table) : Prop :=
  forall c, In c (cache s t) ->
    (forall k a, In (k, a) (e_nodes c) -> In a (live (htab (hs (heapOf s k)))))
    /\ (forall n, In n (e_nums c) -> In n (n_live (nums s))).

(** The three tables Package::garbageCollect never clears. *)
Definition forgotten (t : table) : bool :=
  match t with
  | conjugateVector | vectorAddMagnitudes | matrixAddMagnitudes => true
  | _ => false
  end.

