(** C01: the memory manager never hands out a live entry. *)
From Coq Require Import List Arith Bool Lia.
From Verif Require Import MemModel MemProofs MemPropsAux.
Import ListNotations.

(** After every history of get/return/reset starting from a manager with a
    positive initial size, [get] succeeds and the entry it hands out is none
    of the entries that are outstanding at that moment. *)
Theorem C01_get_never_aliases :
  forall n ops, 0 < n ->
  exists m out a m',
    mrun ops (mm_init n, []) = Some (m, out)
    /\ mm_get m = Some (a, m') /\ ~ In a out.
Proof. exact c01_get_never_aliases. Qed.
Print Assumptions C01_get_never_aliases.

(** The statistics agree with the outstanding entries: used = number of
    outstanding entries, the entries that can still be handed out without a new
    allocation are exactly free list + rest of the chunk, and no counter ever
    wraps around. Outstanding entries are pairwise different. *)
Theorem C01_statistics_exact :
  forall n ops m out, 0 < n ->
  mrun ops (mm_init n, []) = Some (m, out) ->
  NoDup out
  /\ numUsed (stats m) = length out
  /\ numAvailableForReuse (stats m) = length (available m)
  /\ numUsed (stats m) + numAvailableForReuse (stats m)
     + getNumAvailableFromChunks (stats m) = numAllocated (stats m)
  /\ getNumAvailableFromChunks (stats m) = last (chunks m) 0 - chunkIt m
  /\ numUsed (stats m) <= peakNumUsed (stats m).
Proof. exact c01_statistics_exact. Qed.
Print Assumptions C01_statistics_exact.

(** Every entry lies inside the memory the manager owns. *)
Theorem C01_entries_in_bounds :
  forall n ops m out a, 0 < n ->
  mrun ops (mm_init n, []) = Some (m, out) -> In a out ->
  fst a < length (chunks m) /\ snd a < nth (fst a) (chunks m) 0.
Proof. exact c01_entries_in_bounds. Qed.
Print Assumptions C01_entries_in_bounds.

(** Without the guard on the initial size the code dereferences the end of an
    empty chunk. *)
Theorem C01_zero_initial_size_refuted :
  exists n, mrun [Get] (mm_init n, []) = None.
Proof. exact c01_zero_initial_size. Qed.
Print Assumptions C01_zero_initial_size_refuted.

(** Non-vacuity: a history with growth, reuse and three outstanding entries. *)
Example C01_example :
  match mrun [Get; Get; Ret (0,0); Get; Get; Get; Ret (1,1)] (mm_init 2, []) with
  | Some (m, out) => out = [(1,0); (0,0); (0,1)] /\ available m = [(1,1)]
                     /\ chunks m = [2; 4]
  | None => False
  end.
Proof. vm_compute. auto. Qed.
