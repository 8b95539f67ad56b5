(** Specification vocabulary for the heap properties. *)
From Coq Require Import List Arith Bool.
From Verif Require Import MemModel HeapModel.
Import ListNotations.

(** [c] is a successor of [a]. *)
Definition child (h : heap) (a c : addr) : Prop := exists w, In (w, Some c) (ne (h a)).

(** [a] can be reached from [r] along edges. *)
Inductive reach (h : heap) : addr -> addr -> Prop :=
| reach_refl a : reach h a a
| reach_step a c b : child h a c -> reach h c b -> reach h a b.

(** The part of a node the client can observe. *)
Definition content (n : node) : nat * list edge * nat := (nv n, ne n, nflags n).

(** Tree represented by an edge (unfolded up to depth [d]). *)
Inductive tree := TLeaf | TCut | TNode (v : nat) (fl : nat) (sub : list (nat * tree)).
Fixpoint unfold_dd (d : nat) (h : heap) (p : option addr) : tree :=
  match p with
  | None => TLeaf
  | Some a =>
    match d with
    | 0 => TCut
    | S d' => TNode (nv (h a)) (nflags (h a))
                (map (fun e : edge => (fst e, unfold_dd d' h (snd e))) (ne (h a)))
    end
  end.

(** No reset occurs in the history. *)
Definition no_reset (evs : list hev) : Prop := ~ In EReset evs.

(** [r] is held in every state of the run (including first and last). *)
Fixpoint held_throughout (cfg : config) (r : addr) (evs : list hev) (st : hst) : Prop :=
  In r (holds st) /\
  match evs with
  | [] => True
  | e :: rest => match hstep cfg st e with
                 | Some st' => held_throughout cfg r rest st'
                 | None => False
                 end
  end.

(** Sane configuration: at least one bucket, counter of at least one value, a
    memory manager with a positive initial chunk. *)
Definition cfg_ok (cfg : config) : Prop :=
  0 < c_nbuckets cfg /\ 0 < c_maxref cfg /\ 0 < c_initalloc cfg.

(** No counter has reached its saturation value. *)
Definition unsaturated (cfg : config) (st : hst) : Prop :=
  forall a, In a (live (htab (hs st))) -> nref (hheap (hs st) a) < c_maxref cfg.

(** Resets happen only while every stored node has count zero (for example
    because every incRef was matched by a decRef). *)
Definition clean_at (st : hst) (e : hev) : Prop :=
  e = EReset -> forall a, In a (live (htab (hs st))) -> nref (hheap (hs st) a) = 0.

Fixpoint clean (cfg : config) (evs : list hev) (st : hst) : Prop :=
  match evs with
  | [] => True
  | e :: rest => clean_at st e /\
                 match hstep cfg st e with Some st' => clean cfg rest st' | None => True end
  end.

(** Two nodes are equal in the sense of the unique table: same level, same
    successors (weights and nodes) and, for density-matrix nodes, same flags. *)
Definition same_node (cfg : config) (n m : node) : Prop :=
  nv n = nv m /\ ne n = ne m /\ (c_cmpflags cfg = true -> nflags n = nflags m).
