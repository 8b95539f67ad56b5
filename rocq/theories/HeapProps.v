(** C02-C05: reference counts after reset, unique table, protection and
    precision of garbage collection. *)
From Coq Require Import List Arith Bool.
From Verif Require Import MemModel HeapModel HeapSpec HeapPropsAux.
Import ListNotations.

(** C02 is false of the code: after Package::reset() an entry can be handed out
    with a stale positive count, and then a collection frees (puts on the free
    list) a node that is reachable from a held root. *)
Theorem C02_refuted :
  exists cfg evs st r a,
    cfg_ok cfg /\ hrun cfg evs (hinit cfg) = Some st
    /\ In r (holds st) /\ reach (hheap (hs st)) r a
    /\ ~ In a (live (htab (hs st))) /\ In a (available (hmm (hs st))).
Proof. exact c02_refuted. Qed.
Print Assumptions C02_refuted.

(** What holds: if resets only happen while all counts are zero, every entry
    handed out for a new node carries count zero. *)
Theorem C02_fresh_count_zero_partial :
  forall cfg evs st v es fl p s1,
  cfg_ok cfg -> clean cfg evs (hinit cfg) -> hrun cfg evs (hinit cfg) = Some st ->
  allocNode v es fl (hs st) = Some (p, s1) -> nref (hheap s1 p) = 0.
Proof. exact c02_partial. Qed.
Print Assumptions C02_fresh_count_zero_partial.

Example C02_partial_example :
  let evs := [EMake 0 [(1, None); (2, None)] 0; EInc (Some (0,0));
              EDec (Some (0,0)); EReset; EMake 0 [(5, None); (6, None)] 0] in
  cfg_ok ex_cfg /\ clean ex_cfg evs (hinit ex_cfg)
  /\ exists st, hrun ex_cfg evs (hinit ex_cfg) = Some st /\ live (htab (hs st)) = [(0,0)].
Proof.
  split; [exact ex_cfg_ok|]. split.
  - cbn. unfold clean_at. repeat split; try discriminate; try exact I.
    cbn. intros _ a [<-|[]]; reflexivity.
  - eexists. split; [reflexivity|reflexivity].
Qed.

(** C03: no two stored nodes are equal. *)
Theorem C03_one_node_per_content :
  forall cfg evs st a b,
  cfg_ok cfg -> no_reset evs -> hrun cfg evs (hinit cfg) = Some st ->
  In a (live (htab (hs st))) -> In b (live (htab (hs st))) ->
  same_node cfg (hheap (hs st) a) (hheap (hs st) b) -> a = b.
Proof. exact c03_unique. Qed.
Print Assumptions C03_one_node_per_content.

(** C03: creating a node succeeds and returns a stored node with the requested
    content, leaves all stored nodes as they are, returns the stored equal node
    if there is one (then nothing is inserted and the spare entry is put on the
    free list), and free list and stored nodes never overlap or repeat. *)
Theorem C03_lookup :
  forall cfg evs st v es fl,
  cfg_ok cfg -> no_reset evs -> hrun cfg evs (hinit cfg) = Some st ->
  v < c_nvars cfg ->
  (forall w c, In (w, Some c) es ->
      In c (live (htab (hs st))) /\ nv (hheap (hs st) c) < v) ->
  exists a s', makeNode cfg v es fl (hs st) = Some (a, s')
    /\ In a (live (htab s'))
    /\ same_node cfg (hheap s' a) (mkNode v es fl 0)
    /\ (forall b, In b (live (htab (hs st))) ->
          In b (live (htab s')) /\ hheap s' b = hheap (hs st) b)
    /\ (forall b, In b (live (htab (hs st))) ->
          same_node cfg (hheap (hs st) b) (mkNode v es fl 0) ->
          a = b /\ htab s' = htab (hs st)
          /\ exists p, ~ In p (live (htab (hs st))) /\ hd_error (available (hmm s')) = Some p)
    /\ NoDup (available (hmm s') ++ live (htab s')).
Proof. exact c03_make. Qed.
Print Assumptions C03_lookup.

(** The history used as a non-trivial instance for C03-C05: two nodes share a
    successor, one of them is held, one duplicate is requested, then a forced
    collection removes exactly the unheld node. *)
Definition ex_history : list hev :=
  [EMake 0 [(1, None); (2, None)] 0;
   EMake 1 [(3, Some (0,0)); (4, None)] 0;
   EMake 1 [(5, Some (0,0)); (6, Some (0,0))] 0;
   EMake 1 [(3, Some (0,0)); (4, None)] 0;
   EInc (Some (0,1)); EInc (Some (0,2)); EDec (Some (0,2)); EGC true].

Example C03_C05_example :
  cfg_ok ex_cfg /\ no_reset ex_history
  /\ match hrun ex_cfg ex_history (hinit ex_cfg) with
     | Some st => live (htab (hs st)) = [(0,0); (0,1)] /\ holds st = [(0,1)]
                  /\ nref (hheap (hs st) (0,0)) = 1
                  /\ available (hmm (hs st)) = [(0,2); (0,3)]
                  /\ forallb (fun a => Nat.ltb (nref (hheap (hs st) a)) 100) (live (htab (hs st))) = true
     | None => False
     end.
Proof.
  split; [exact ex_cfg_ok|]. split.
  - unfold no_reset, ex_history. cbn. intuition discriminate.
  - vm_compute. auto.
Qed.

(** C04: from any reachable state, through any further history during which [r]
    stays held, every node reachable from [r] stays stored with unchanged
    content, hence the represented tree is unchanged; and no history leads to
    an internal error such as a counter underflow. *)
Theorem C04_held_roots_protected :
  forall cfg evs1 evs2 st1 r,
  cfg_ok cfg -> no_reset evs1 -> no_reset evs2 ->
  hrun cfg evs1 (hinit cfg) = Some st1 ->
  held_throughout cfg r evs2 st1 ->
  exists st2, hrun cfg evs2 st1 = Some st2
   /\ (forall a, reach (hheap (hs st1)) r a ->
        In a (live (htab (hs st2)))
        /\ content (hheap (hs st2) a) = content (hheap (hs st1) a))
   /\ (forall d, unfold_dd d (hheap (hs st2)) (Some r) = unfold_dd d (hheap (hs st1)) (Some r)).
Proof. exact c04_protected. Qed.
Print Assumptions C04_held_roots_protected.

Theorem C04_no_internal_error :
  forall cfg evs, cfg_ok cfg -> no_reset evs ->
  exists st, hrun cfg evs (hinit cfg) = Some st.
Proof. exact c04_total. Qed.
Print Assumptions C04_no_internal_error.

Example C04_example :
  let evs1 := firstn 5 ex_history in
  let evs2 := skipn 5 ex_history in
  match hrun ex_cfg evs1 (hinit ex_cfg) with
  | Some st1 => held_throughout ex_cfg (0,1) evs2 st1
                /\ reach (hheap (hs st1)) (0,1) (0,0)
  | None => False
  end.
Proof.
  intros evs1 evs2. set (o := hrun ex_cfg _ (hinit ex_cfg)).
  assert (E : match o with
              | Some st1 => held_throughout ex_cfg (0,1) evs2 st1
                            /\ ne (hheap (hs st1) (0,1)) = [(3, Some (0,0)); (4, None)]
              | None => False end) by (vm_compute; tauto).
  destruct o as [st1|]; [|exact E]. destruct E as [E1 E2]. split; [exact E1|].
  econstructor; [exists 3; rewrite E2; simpl; auto|constructor].
Qed.

(** C05: as long as no counter is saturated, a forced collection keeps exactly
    the nodes reachable from held roots. *)
Theorem C05_collection_precise :
  forall cfg evs st,
  cfg_ok cfg -> no_reset evs -> hrun cfg evs (hinit cfg) = Some st ->
  unsaturated cfg st ->
  forall a, In a (live (htab (snd (garbageCollect cfg true (hs st)))))
       <-> exists r, In r (holds st) /\ reach (hheap (hs st)) r a.
Proof. exact c05_precise. Qed.
Print Assumptions C05_collection_precise.

Theorem C05_balanced_collects_all :
  forall cfg evs st,
  cfg_ok cfg -> no_reset evs -> hrun cfg evs (hinit cfg) = Some st ->
  unsaturated cfg st -> holds st = [] ->
  live (htab (snd (garbageCollect cfg true (hs st)))) = [].
Proof. exact c05_balanced. Qed.
Print Assumptions C05_balanced_collects_all.
