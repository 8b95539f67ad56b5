(** C06: compute tables. *)
From Coq Require Import List Arith Bool.
From Verif Require Import CacheModel CacheSpec CacheProofs.
Import ListNotations.

(** Whatever the hash values, table size and history: a hit returns a result
    that was inserted for the same operands after the last clear. [acc] is the
    density-matrix filter. *)
Theorem C06_hits_are_sound :
  forall (K R : Type) (Keqb : K -> K -> bool),
  (forall a b, Keqb a b = true <-> a = b) ->
  forall size cs ops t h key acc r,
  ct_run K R Keqb size cs ops (ct_init K R size) = Some t ->
  ct_lookup K R Keqb (h mod size) key acc t = Some (Some r) ->
  inserted_since_clear key r ops.
Proof. exact @c06_sound. Qed.
Print Assumptions C06_hits_are_sound.

(** If the hash is a function of the operands, the hit returns the result of the
    most recent insertion. *)
Theorem C06_hits_are_latest :
  forall (K R : Type) (Keqb : K -> K -> bool),
  (forall a b, Keqb a b = true <-> a = b) ->
  forall size cs f ops t key acc r,
  hashed_by f ops ->
  ct_run K R Keqb size cs ops (ct_init K R size) = Some t ->
  ct_lookup K R Keqb (f key mod size) key acc t = Some (Some r) ->
  latest_insertion key r ops.
Proof. exact @c06_latest. Qed.
Print Assumptions C06_hits_are_latest.

(** An insertion is found by an immediately following lookup. *)
Theorem C06_insert_then_hit :
  forall (K R : Type) (Keqb : K -> K -> bool),
  (forall a b, Keqb a b = true <-> a = b) ->
  forall size cs ops t h key r, 0 < size -> size <= cs ->
  ct_run K R Keqb size cs (ops ++ [CInsert h key r]) (ct_init K R size) = Some t ->
  ct_lookup K R Keqb (h mod size) key (fun _ => true) t = Some (Some r).
Proof. exact @c06_hit. Qed.
Print Assumptions C06_insert_then_hit.

(** No index is ever out of range as long as clear() restores at least the
    table size (binary and noise tables: exactly the table size; unary table:
    the template constant). *)
Theorem C06_memory_safe :
  forall (K R : Type) (Keqb : K -> K -> bool),
  forall size cs ops, 0 < size -> size <= cs ->
  exists t, ct_run K R Keqb size cs ops (ct_init K R size) = Some t
            /\ (size <= length (cvalid t) /\ length (ctab t) = size).
Proof. exact @c06_total. Qed.
Print Assumptions C06_memory_safe.

(** UnaryComputeTable::clear() shrinks the valid bits to the template constant
    NBUCKET: a table constructed with more buckets is accessed out of range
    after a clear. *)
Theorem C06_unary_clear_refuted :
  forall NB : nat, 0 < NB ->
  exists size, 2 * NB = size
  /\ ct_run nat nat Nat.eqb size NB [CClear; CLookup NB 0] (ct_init nat nat size) = None.
Proof. exact c06_unary_refuted. Qed.
Print Assumptions C06_unary_clear_refuted.

Example C06_example :
  let ops := [CInsert 5 10 100; CInsert 9 20 200; CClear; CInsert 5 10 101; CInsert 6 7 77] in
  exists t, ct_run nat nat Nat.eqb 4 4 ops (ct_init nat nat 4) = Some t
  /\ ct_lookup nat nat Nat.eqb (5 mod 4) 10 (fun _ => true) t = Some (Some 101)
  /\ ct_lookup nat nat Nat.eqb (9 mod 4) 20 (fun _ => true) t = Some None.
Proof. eexists. split; [reflexivity|]. split; reflexivity. Qed.
