(** C07: cached results and garbage collection. *)
From Coq Require Import List Arith Bool.
From Verif Require Import MemModel HeapModel HeapSpec PkgCacheModel PkgCacheSpec PkgCacheProofs.
Import ListNotations.

(** For all tables except conjugateVector, vectorAddMagnitudes and
    matrixAddMagnitudes: after every history no entry mentions a node or number
    that has been collected. Missing for the full property: the three tables. *)
Theorem C07_no_stale_entries_partial :
  forall cfg, (forall k, cfg_ok (cfg k)) ->
  forall evs s t,
  prun cfg evs (pinit cfg) = Some s -> forgotten t = false -> fresh_table s t.
Proof. exact c07_fresh. Qed.
Print Assumptions C07_no_stale_entries_partial.

(** The three tables keep entries across a collection: there is a history after
    which the table has an entry for a freed node, and one in which a different
    node later lives at the address recorded in the entry, so that a lookup for
    this node hits the stale entry. *)
Theorem C07_refuted :
  forall t, forgotten t = true ->
  (exists s c k a, prun pc_cfg (firstn 3 (stale_history t)) (pinit pc_cfg) = Some s
     /\ In c (cache s t) /\ In (k, a) (e_nodes c) /\ ~ In a (live (htab (hs (heapOf s k)))))
  /\ (exists s1 s2 c k a,
        prun pc_cfg (firstn 2 (stale_history t)) (pinit pc_cfg) = Some s1
        /\ prun pc_cfg (stale_history t) (pinit pc_cfg) = Some s2
        /\ In c (cache s1 t) /\ In c (cache s2 t) /\ In (k, a) (e_nodes c)
        /\ In a (live (htab (hs (heapOf s1 k)))) /\ In a (live (htab (hs (heapOf s2 k))))
        /\ ne (hheap (hs (heapOf s1 k)) a) <> ne (hheap (hs (heapOf s2 k)) a)).
Proof. exact c07_refuted. Qed.
Print Assumptions C07_refuted.

(** Non-vacuity: a history with a cached product that survives a collection of
    something else and one that is cleared. *)
Example C07_example :
  let evs := [PHeap KV (EMake 0 [(1, None); (2, None)] 0);
              PHeap KM (EMake 0 [(1, None); (2, None); (3, None); (4, None)] 0);
              PHeap KV (EInc (Some (0,0))); PHeap KM (EInc (Some (0,0)));
              PInsert matrixVectorMultiplication {| e_nodes := [(KM, (0,0)); (KV, (0,0))]; e_nums := [] |};
              PHeap KD (EMake 0 [(1, None); (2, None); (3, None); (4, None)] 0);
              PInsert densityTrace {| e_nodes := [(KD, (0,0))]; e_nums := [] |};
              PGC true] in
  match prun pc_cfg evs (pinit pc_cfg) with
  | Some s => length (cache s matrixVectorMultiplication) = 1 /\ cache s densityTrace = []
  | None => False
  end.
Proof. vm_compute. auto. Qed.
