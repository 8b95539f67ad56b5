(** Writing decision diagrams to a stream and reading them back:
    src/dd/Export.cpp:470-636 (serialize, serializeMatrix) and
    include/mqt-core/dd/Package.hpp:1865-2015 (deserialize, deserializeNode).

    A file is its root weight and a list of lines, one per node; the version
    header is left out. Text and binary format differ in the treatment of zero
    edges, which is modelled ([bin]). Simplifications: numbers are written and
    read exactly (the text format writes 16 significant digits), indices do not
    overflow. Node pointers are trees and the tolerance is zero, as in DDModel. *)
From Coq Require Import Reals List Bool ZArith.
From Verif Require Import Cplx Qsem DDModel.
Import ListNotations.
Local Open Scope Z_scope.

(** ** Vectors *)
(** One line: index, qubit, and for each successor nothing ("()") or index and
    weight. *)
Record vline := { vl_idx : Z; vl_v : nat; vl_e : bool -> option (Z * C) }.
(** nodeIndex *)
Definition vindex := list (vtree * Z).
Fixpoint vfindi (m : vindex) (t : vtree) : option Z :=
  match m with [] => None | (a, k) :: r => if vtree_eq_dec t a then Some k else vfindi r t end.
Definition vmemi (m : vindex) (t : vtree) : bool := match vfindi m t with Some _ => true | None => false end.
(** Export.cpp:546, 560: -1 for a terminal, otherwise nodeIndex[edge.p], where
    operator[] inserts 0 for an unknown node *)
Definition vref (m : vindex) (t : vtree) : Z * vindex :=
  match t with
  | VT => (-1, m)
  | _ => match vfindi m t with Some k => (k, m) | None => (0, (t, 0) :: m) end
  end.
(** 544-550 (binary), 557-565 (text) *)
Definition vwrite (bin : bool) (m : vindex) (e : vedge) : option (Z * C) * vindex :=
  if (bin || negb (ezero (fst e)))%bool
  then let '(k, m') := vref m (snd e) in (Some (k, fst e), m')
  else (None, m).

(** The traversal with one stack, 484-571. [VDown]: the inner while loop at
    [node]; [VUp]: after it. *)
Inductive vsstate :=
| VDown (node : vtree) (stack : list vtree) (m : vindex) (next : Z) (out : list vline)
| VUp (stack : list vtree) (m : vindex) (next : Z) (out : list vline)
| VDone (out : list vline)
| VStuck.
(** while (!stack.empty()) *)
Definition vfinish (stack : list vtree) (m : vindex) (next : Z) (out : list vline) : vsstate :=
  match stack with [] => VDone out | _ => VUp stack m next out end.
Definition vsstep (bin : bool) (s : vsstate) : vsstate :=
  match s with
  | VDown VT stack m next out => VUp stack m next out
  | VDown (VNode v w t) stack m next out =>
      let push := (negb (match t true with VT => true | _ => false end) && negb (ezero (w true)) && negb (vmemi m (t true)))%bool in
      VDown (t false) (VNode v w t :: (if push then [t true] else []) ++ stack) m next out
  | VUp (VNode v w t :: stack) m next out =>
      let hasChild :=
        if (ezero (w true) || vmemi m (t true))%bool then false
        else match stack with [] => false | p :: _ => if vtree_eq_dec (t true) p then true else false end in
      if hasChild then
        match stack with p :: rest => VDown p (VNode v w t :: rest) m next out | [] => VStuck end
      else if vmemi m (VNode v w t) then vfinish stack m next out
      else
        let m1 := (VNode v w t, next) :: m in
        let '(e0, m2) := vwrite bin m1 (w false, t false) in
        let '(e1, m3) := vwrite bin m2 (w true, t true) in
        vfinish stack m3 (next + 1)
          (out ++ [{| vl_idx := next; vl_v := v; vl_e := fun i => if i then e1 else e0 |}])
  | VUp _ _ _ _ => VStuck
  | VDone out => VDone out
  | VStuck => VStuck
  end.
Fixpoint vsiter (bin : bool) (n : nat) (s : vsstate) : vsstate :=
  match n with O => s | S k => vsiter bin k (vsstep bin s) end.
(** serialize writes the root weight of [e] and these lines *)
Definition vserializes (bin : bool) (e : vedge) (lines : list vline) : Prop :=
  match snd e with
  | VT => lines = []
  | t => exists n, vsiter bin n (VDown t [] [] 0 []) = VDone lines
  end.

(** deserializeNode, Package.hpp:1986-2015: [nodes] and the edge of the node *)
Definition vnodes := Z -> option vtree.
Definition vedge_of (nodes : vnodes) (x : option (Z * C)) : vedge :=
  match x with
  | None => vzero
  | Some (k, w) =>
      if k =? -2 then vzero
      else if k =? -1 then (w, VT)
      else (w, match nodes k with Some t => t | None => VT end)
  end.
Definition vread_line (s : vnodes * vedge) (l : vline) : vnodes * vedge :=
  if vl_idx l =? -1 then (fst s, vzero)
  else
    let r := vmk (vl_v l) (fun i => vedge_of (fst s) (vl_e l i)) in
    (fun k => if k =? vl_idx l then Some (snd r) else fst s k, r).
(** deserialize; the result starts as CachedEdge{}: weight 0, no node *)
Definition vdeserialize (root : C) (lines : list vline) : vedge :=
  let r := snd (fold_left vread_line lines (fun _ => None, (C0, VT))) in
  ((fst r * root)%C, snd r).

(** ** Matrices *)
Record mline := { ml_idx : Z; ml_v : nat; ml_e : bool -> bool -> option (Z * C) }.
Definition mindex := list (mtree * Z).
Fixpoint mfindi (m : mindex) (t : mtree) : option Z :=
  match m with [] => None | (a, k) :: r => if mtree_eq_dec t a then Some k else mfindi r t end.
Definition mref (m : mindex) (t : mtree) : Z * mindex :=
  match t with
  | MT => (-1, m)
  | _ => match mfindi m t with Some k => (k, m) | None => (0, (t, 0) :: m) end
  end.
Definition mwrite (bin : bool) (m : mindex) (e : medge) : option (Z * C) * mindex :=
  if (bin || negb (ezero (fst e)))%bool
  then let '(k, m') := mref m (snd e) in (Some (k, fst e), m')
  else (None, m).
Record msstate := { ms_visited : list mtree; ms_idx : mindex; ms_next : Z; ms_out : list mline }.
Definition mvisited (t : mtree) (s : msstate) : bool :=
  existsb (fun x => if mtree_eq_dec t x then true else false) (ms_visited s).
Definition mmark (t : mtree) (s : msstate) : msstate :=
  {| ms_visited := t :: ms_visited s; ms_idx := ms_idx s; ms_next := ms_next s; ms_out := ms_out s |}.
(** 587-619: index and line of one node *)
Definition memit (bin : bool) (v : nat) (w : bool -> bool -> C) (t : bool -> bool -> mtree) (s : msstate) : msstate :=
  let n := MNode v w t in
  let '(k, m0, next) := match mfindi (ms_idx s) n with
                        | Some k => (k, ms_idx s, ms_next s)
                        | None => (ms_next s, (n, ms_next s) :: ms_idx s, ms_next s + 1)
                        end in
  let '(a, m1) := mwrite bin m0 (w false false, t false false) in
  let '(b, m2) := mwrite bin m1 (w false true, t false true) in
  let '(c, m3) := mwrite bin m2 (w true false, t true false) in
  let '(d, m4) := mwrite bin m3 (w true true, t true true) in
  {| ms_visited := ms_visited s; ms_idx := m4; ms_next := next;
     ms_out := ms_out s ++ [{| ml_idx := k; ml_v := v;
       ml_e := fun i j => if i then (if j then d else c) else (if j then b else a) |}] |}.
(** 575-620 (serializeMatrix) *)
Fixpoint mser (bin : bool) (t : mtree) (s : msstate) : msstate :=
  match t with
  | MT => s
  | MNode v w u =>
      let visit (i j : bool) (s : msstate) :=
        if mvisited (u i j) s then s else mser bin (u i j) (mmark (u i j) s) in
      memit bin v w u (visit true true (visit true false (visit false true (visit false false s))))
  end.
(** 621-635 *)
Definition mserialize (bin : bool) (e : medge) : list mline :=
  ms_out (mser bin (snd e) {| ms_visited := []; ms_idx := []; ms_next := 0; ms_out := [] |}).

Definition mnodes := Z -> option mtree.
Definition medge_of (nodes : mnodes) (x : option (Z * C)) : medge :=
  match x with
  | None => mzero
  | Some (k, w) =>
      if k =? -2 then mzero
      else if k =? -1 then (w, MT)
      else (w, match nodes k with Some t => t | None => MT end)
  end.
Definition mread_line (s : mnodes * medge) (l : mline) : mnodes * medge :=
  if ml_idx l =? -1 then (fst s, mzero)
  else
    let r := mmk (ml_v l) (fun i j => medge_of (fst s) (ml_e l i j)) in
    (fun k => if k =? ml_idx l then Some (snd r) else fst s k, r).
Definition mdeserialize (root : C) (lines : list mline) : medge :=
  let r := snd (fold_left mread_line lines (fun _ => None, (C0, MT))) in
  ((fst r * root)%C, snd r).
