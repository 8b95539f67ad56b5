(* Histories of diagram updates: the public operations of include/mqt-core/zx/ZXDiagram.hpp, with what a caller has
   to guarantee for each of them. *)
From Coq Require Import QArith ZArith Bool List Arith.
From Verif Require Import PiModel ZXModel ZXSpec.
Import ListNotations.
Local Close Scope Q_scope.
Local Open Scope nat_scope.

Inductive upd :=
| UVertex (a : vdata)              (* addVertex, ZXDiagram.cpp:104-122 *)
| UEdge (u v : nat) (h : bool)     (* addEdge, 33-38 *)
| UParallel (u v : nat) (h : bool) (* addEdgeParallelAware, 40-89 *)
| UCut (u v : nat)                 (* removeEdge, 91-95 *)
| URemove (v : nat)                (* removeVertex, 138-147 *)
| UPhase (v : nat) (p : phase)     (* addPhase, ZXDiagram.hpp:205-218 *)
| USetPhase (v : nat) (p : phase)  (* setPhase *)
| UType (v : nat) (t : vtype)      (* setType *)
| UGlobal (p : phase)              (* addGlobalPhase *)
| UInvert                          (* invert, 219-236 *)
| UGraphlike                       (* toGraphlike, 200-217 *)
| UQubit                           (* addQubit, 124-136 *)
| UAncilla (i o : nat)             (* makeAncilla, 334-342 *)
| UDisconnected (fuel : nat).      (* removeDisconnectedSpiders, 352-385 *)
Definition u_apply (d : diag) (u : upd) : option diag :=
  match u with
  | UVertex a => Some (fst (addVertex d a))
  | UEdge u v h => Some (addEdge d u v h)
  | UParallel u v h => Some (addEdgeParallelAware d u v h)
  | UCut u v => Some (removeEdge d u v)
  | URemove v => Some (removeVertex d v)
  | UPhase v p => Some (addPhase d v p)
  | USetPhase v p => Some (setPhase d v p)
  | UType v t => Some (setType d v t)
  | UGlobal p => Some (addGlobalPhase d p)
  | UInvert => Some (invert d)
  | UGraphlike => Some (toGraphlike d)
  | UQubit => Some (addQubit d)
  | UAncilla i o => Some (makeAncilla d i o)
  | UDisconnected fuel => removeDisconnectedSpiders fuel d
  end.
(* vertices named by the caller exist; addEdge joins two vertices that are not joined yet; removeEdge is called for
   an existing edge *)
Definition u_pre (d : diag) (u : upd) : bool :=
  match u with
  | UEdge u v _ => negb (u =? v) && live d u && live d v && negb (connected d u v)
  | UParallel u v _ => live d u && live d v
  | UCut u v => connected d u v
  | URemove v | UPhase v _ | USetPhase v _ | UType v _ => live d v
  | _ => true
  end.
Fixpoint u_run (d : diag) (us : list upd) : option diag :=
  match us with
  | [] => Some d
  | u :: us' => if u_pre d u then match u_apply d u with Some d' => u_run d' us' | None => None end else None
  end.
(* without the preconditions *)
Fixpoint u_free (d : diag) (us : list upd) : option diag :=
  match us with [] => Some d | u :: us' => match u_apply d u with Some d' => u_free d' us' | None => None end end.

(* the remaining conditions of well-formedness, executable *)
Definition ph_okb (p : phase) : bool := negb (Qle_bool (fst p) (- (1))) && Qle_bool (fst p) 1.
Definition wfb (d : diag) : bool :=
  forallb (fun v => negb (live d v) || ((negb (isBoundary d v) || (degree d v <=? 1)) && ph_okb (vphase d v))) (seq 0 (d_size d)) &&
  forallb (fun v => live d v && isBoundary d v) (d_in d ++ d_out d).

