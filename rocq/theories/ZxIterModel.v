(** The iterators over the vertices and edges of ZX diagrams: src/zx/Utils.cpp:19-147, include/mqt-core/zx/Utils.hpp:61-189,
    and the loops over them in ZXDiagram::getVertices and getEdges, src/zx/ZXDiagram.cpp:180-191.

    [verts] says which vertices have a value, [edges] lists the ends of the half edges of each vertex. A position in a
    vector is the list of the elements from there on. [None] is undefined behaviour (an element of an empty vector, a
    vertex beyond the end, a dereferenced end) or a loop that needs more rounds than [fuel]. *)
From Coq Require Import List Bool Arith.
Import ListNotations.

(** VertexIterator: v and the rest from currentPos *)
Record vit := VIt { vv : nat; vrest : list bool }.
(** nextValidVertex, Utils.cpp:56-61 *)
Fixpoint nextValidVertex (v : nat) (rest : list bool) : vit :=
  match rest with
  | false :: rest => nextValidVertex (S v) rest
  | _ => VIt v rest
  end.
(** The constructors, Utils.hpp:73-76 and Utils.cpp:19-29 *)
Definition vbegin (verts : list bool) : vit := nextValidVertex 0 verts.
Definition vfrom (verts : list bool) (v : nat) : vit :=
  if length verts <=? v then VIt (length verts) [] else nextValidVertex v (skipn v verts).
Definition vend (verts : list bool) : vit := vfrom verts (length verts).
(** operator==, 47-50: positions in one vector *)
Definition vit_eqb (a b : vit) : bool := length (vrest a) =? length (vrest b).
(** ++currentPos; ++v; nextValidVertex(); the new iterator, or the value of the expression, 30-45 *)
Definition vincr (i : vit) : option vit := match vrest i with [] => None | _ :: r => Some (nextValidVertex (S (vv i)) r) end.
Definition vprefix (i : vit) : option (vit * vit) := match vincr i with Some j => Some (j, i) | None => None end.
Definition vpostfix (i : vit) : option (vit * vit) := match vincr i with Some j => Some (j, j) | None => None end.
(** operator*, Utils.hpp:80-84 *)
Definition vderef (i : vit) : option nat := match vrest i with true :: _ => Some (vv i) | _ => None end.
(** for (; it != end; ++it) collect *it *)
Fixpoint vcollect (fuel : nat) (i last : vit) : option (list nat) :=
  match fuel with
  | O => None
  | S fuel =>
      if vit_eqb i last then Some []
      else match vderef i, vprefix i with
           | Some x, Some (j, _) => match vcollect fuel j last with Some l => Some (x :: l) | None => None end
           | _, _ => None
           end
  end.

(** EdgeIterator: v, edgesPos and the rest of a row from currentPos *)
Record eit := EIt { ev : nat; epos : nat; erest : list nat }.
Section Edges.
  Variables (edges : list (list nat)) (verts : list bool).
  Let n := length edges.
  Definition row (v : nat) : list nat := nth v edges [].
  Definition valid (v : nat) : bool := nth v verts false.
  (** while (v < edges.size() && !vertices[v].has_value()) ++v *)
  Fixpoint firstValid (fuel v : nat) : nat :=
    match fuel with
    | O => v
    | S fuel => if (v <? n) && negb (valid v) then firstValid fuel (S v) else v
    end.
  (** while (currentPos != edges[v].end() && currentPos->to < v) ++currentPos *)
  Fixpoint skipSmall (v : nat) (rest : list nat) : list nat :=
    match rest with
    | to :: r => if to <? v then skipSmall v r else rest
    | [] => []
    end.
  (** edges.back().end(), edges.end() *)
  Definition atEnd (v : nat) : eit := EIt v n [].
  (** The second loop of checkNextVertex, 115-133 *)
  Fixpoint nextRow (fuel v : nat) (rest : list nat) : option eit :=
    match fuel with
    | O => None
    | S fuel =>
        match rest with
        | _ :: _ => Some (EIt v v rest)
        | [] =>
            if v <? n then
              let v := firstValid n (S v) in
              if v =? n then Some (atEnd (n - 1)) else nextRow fuel v (skipSmall v (row v))
            else Some (EIt v v rest)
        end
    end.
  (** checkNextVertex, 109-134 *)
  Definition checkNextVertex (v : nat) (rest : list nat) : option eit := nextRow (S n) v (skipSmall v rest).
  (** The constructors, 63-99 *)
  Definition ebegin : option eit :=
    if n =? 0 then None else
    match verts with
    | [] => Some (atEnd n)
    | _ => let v := firstValid n 0 in if v <? n then checkNextVertex v (row v) else Some (atEnd v)
    end.
  Definition efrom (v : nat) : option eit :=
    if n <=? v then (if n =? 0 then None else Some (atEnd n)) else Some (EIt v v (row v)).
  Definition eend : option eit := efrom n.
  (** operator==, 142-144: edgesPos, and currentPos if that is in the same row *)
  Definition eit_eqb (a b : eit) : bool := (epos a =? epos b) && (length (erest a) =? length (erest b)).
  (** ++, 101-107, 135-140 *)
  Definition eincr (i : eit) : option eit := match erest i with [] => None | _ :: r => checkNextVertex (ev i) r end.
  Definition eprefix (i : eit) : option (eit * eit) := match eincr i with Some j => Some (j, i) | None => None end.
  Definition epostfix (i : eit) : option (eit * eit) := match eincr i with Some j => Some (j, j) | None => None end.
  (** operator*, Utils.hpp:153 *)
  Definition ederef (i : eit) : option (nat * nat) := match erest i with to :: _ => Some (ev i, to) | [] => None end.
  Fixpoint ecollect (fuel : nat) (i last : eit) : option (list (nat * nat)) :=
    match fuel with
    | O => None
    | S fuel =>
        if eit_eqb i last then Some []
        else match ederef i, eprefix i with
             | Some x, Some (j, _) => match ecollect fuel j last with Some l => Some (x :: l) | None => None end
             | _, _ => None
             end
    end.
  (** getEdges, ZXDiagram.cpp:187-191 *)
  Definition listEdges (fuel : nat) : option (list (nat * nat)) :=
    match ebegin, eend with Some b, Some e => ecollect fuel b e | _, _ => None end.
End Edges.
(** getVertices, ZXDiagram.cpp:180-185 *)
Definition listVertices (verts : list bool) (fuel : nat) : option (list nat) := vcollect fuel (vbegin verts) (vend verts).
