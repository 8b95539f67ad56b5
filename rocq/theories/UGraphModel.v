(** Model of [UndirectedGraph] and [SymmetricMatrix]
    (include/mqt-core/datastructures/UndirectedGraph.hpp and
    SymmetricMatrix.hpp). Vertices and edge labels are [nat]; see
    [GraphModel.v] for the conventions. *)
From Coq Require Import List Arith Bool.
From Verif Require Import GraphModel.
Import ListNotations.

(** UndirectedGraph.hpp:48-60; [adjacencyMatrix] is upper triangular: the entry
    for [i <= j] is stored at [\[i\]\[j - i\]]. *)
Record ug := mkUg {
  uadj : list (list (option nat));
  umapping : list (V * nat);
  uinv : list V;
  unV : nat;
  unE : nat;
  degrees : list nat
}.

Definition ug_empty : ug := mkUg [] [] [] 0 0 [].

Definition ug_find (g : ug) := map_find (umapping g).

Definition uget (m : list (list (option nat))) (i k : nat) : option (option nat) :=
  match nth_error m i with
  | Some row => nth_error row k
  | None => None
  end.

Definition uset (m : list (list (option nat))) (i k : nat) (e : nat)
  : option (list (list (option nat))) :=
  match nth_error m i with
  | Some row =>
      match nth_error row k with
      | Some _ => Some (upd m i (upd row k (Some e)))
      | None => None
      end
  | None => None
  end.

(** UndirectedGraph.hpp:63-81 [addVertex]. *)
Definition ug_addVertex (g : ug) (v : V) : outcome ug ug :=
  match ug_find g v with
  | Some _ => Exn g
  | None =>
      Ret (mkUg (map (fun row => row ++ [None]) (uadj g) ++ [[None]])
                ((v, unV g) :: umapping g) (uinv g ++ [v]) (S (unV g)) (unE g)
                (degrees g ++ [0]))
  end.

(** UndirectedGraph.hpp:91-117 for the two branches: [a] is the row, [k] the
    column. *)
Definition ug_insert (g : ug) (i j a k : nat) (e : nat) : outcome ug ug :=
  match uget (uadj g) a k with
  | None => Ub
  | Some (Some _) => Exn g
  | Some None =>
      match incr (degrees g) i with
      | None => Ub
      | Some d1 =>
          match (if Nat.eqb i j then Some d1 else incr d1 j) with
          | None => Ub
          | Some d2 =>
              match uset (uadj g) a k e with
              | None => Ub
              | Some m => Ret (mkUg m (umapping g) (uinv g) (unV g) (S (unE g)) d2)
              end
          end
      end
  end.

(** UndirectedGraph.hpp:82-118 [addEdge]. *)
Definition ug_addEdge (g : ug) (u v : V) (e : nat) : outcome ug ug :=
  match ensure ug_find ug_addVertex g u with
  | Ret g1 =>
      match ensure ug_find ug_addVertex g1 v with
      | Ret g2 =>
          match ug_find g2 u, ug_find g2 v with
          | Some i, Some j =>
              if Nat.ltb i j then ug_insert g2 i j i (j - i) e
              else ug_insert g2 i j j (i - j) e
          | _, _ => Exn g2
          end
      | o => o
      end
  | o => o
  end.

(** The entry the queries look at. *)
Definition uentry (g : ug) (i j : nat) : option (option nat) :=
  if Nat.ltb i j then uget (uadj g) i (j - i) else uget (uadj g) j (i - j).

(** UndirectedGraph.hpp:119-120. *)
Definition ug_getNVertices (g : ug) := unV g.
Definition ug_getNEdges (g : ug) := unE g.

(** UndirectedGraph.hpp:121-132 [getEdge]. *)
Definition ug_getEdge (g : ug) (v u : V) : outcome unit nat :=
  match ug_find g v, ug_find g u with
  | Some i, Some j =>
      match uentry g i j with
      | None => Ub
      | Some (Some e) => Ret e
      | Some None => Exn tt
      end
  | _, _ => Exn tt
  end.

(** The loops UndirectedGraph.hpp:142-148 and 159-164 collect the vertices [j]
    with an entry. *)
Fixpoint ug_collect (g : ug) (i : nat) (js : list nat) : outcome unit (list V) :=
  match js with
  | [] => Ret []
  | j :: js' =>
      match uentry g i j with
      | None => Ub
      | Some None => ug_collect g i js'
      | Some (Some _) =>
          match nth_error (uinv g) j with
          | None => Exn tt
          | Some u =>
              match ug_collect g i js' with
              | Ret l => Ret (u :: l)
              | o => o
              end
          end
      end
  end.

(** UndirectedGraph.hpp:151-166 [getNeighbours] (a set). *)
Definition ug_getNeighbours (g : ug) (v : V) : outcome unit (list V) :=
  match ug_find g v with
  | None => Exn tt
  | Some i => ug_collect g i (seq 0 (unV g))
  end.

(** UndirectedGraph.hpp:133-150 [getAdjacentEdges] (a set of pairs). *)
Definition ug_getAdjacentEdges (g : ug) (v : V) : outcome unit (list (V * V)) :=
  match ug_getNeighbours g v with
  | Ret l => Ret (map (fun u => (v, u)) l)
  | Exn t => Exn t
  | Ub => Ub
  end.

(** UndirectedGraph.hpp:167-175 [getDegree]. *)
Definition ug_getDegree (g : ug) (v : V) : outcome unit nat :=
  match ug_find g v with
  | None => Exn tt
  | Some i => vget (degrees g) i
  end.

(** UndirectedGraph.hpp:184-199 [isAdjacent]. *)
Definition ug_isAdjacent (g : ug) (u v : V) : outcome unit bool :=
  match ug_find g u with
  | None => Exn tt
  | Some i =>
      match ug_find g v with
      | None => Exn tt
      | Some j =>
          if Nat.ltb i j then
            match uget (uadj g) i (j - i) with
            | None => Ub
            | Some o => Ret (match o with Some _ => true | None => false end)
            end
          else if Nat.ltb j i then
            match uget (uadj g) j (i - j) with
            | None => Ub
            | Some o => Ret (match o with Some _ => true | None => false end)
            end
          else Ret false
      end
  end.

(** UndirectedGraph.hpp:176-183. *)
Definition ug_getVertices (g : ug) : list V := map fst (umapping g).

Inductive uop := UAddVertex (v : V) | UAddEdge (u v : V) (e : nat).

Definition ug_apply (g : ug) (o : uop) : outcome ug ug :=
  match o with
  | UAddVertex v => ug_addVertex g v
  | UAddEdge u v e => ug_addEdge g u v e
  end.

Fixpoint ug_run (ops : list uop) (g : ug) : option ug :=
  match ops with
  | [] => Some g
  | o :: ops' =>
      match ug_apply g o with
      | Ret g' => ug_run ops' g'
      | Exn g' => ug_run ops' g'
      | Ub => None
      end
  end.

(** ** Symmetric matrices *)

(** SymmetricMatrix.hpp:22 and 27-39: row [i] has [i + 1] entries. The first
    constructor value-initialises, the second copies [value]. *)
Definition sm_init {A} (size : nat) (value : A) : list (list A) :=
  map (fun i => repeat value (S i)) (seq 0 size).

Definition sm_at {A} (m : list (list A)) (i j : nat) : option A :=
  match nth_error m i with Some row => nth_error row j | None => None end.

(** SymmetricMatrix.hpp:41-46, read access. *)
Definition sm_get {A} (m : list (list A)) (row col : nat) : option A :=
  if Nat.ltb row col then sm_at m col row else sm_at m row col.

Definition sm_put {A} (m : list (list A)) (i j : nat) (x : A) : option (list (list A)) :=
  match nth_error m i with
  | Some row =>
      match nth_error row j with
      | Some _ => Some (upd m i (upd row j x))
      | None => None
      end
  | None => None
  end.

(** SymmetricMatrix.hpp:48-53, write access [m(row, col) = x]. *)
Definition sm_set {A} (m : list (list A)) (row col : nat) (x : A) : option (list (list A)) :=
  if Nat.ltb row col then sm_put m col row x else sm_put m row col x.

(** SymmetricMatrix.hpp:55. *)
Definition sm_size {A} (m : list (list A)) : nat := length m.

Fixpoint sm_run {A} (ws : list (nat * nat * A)) (m : list (list A)) : option (list (list A)) :=
  match ws with
  | [] => Some m
  | (i, j, x) :: ws' =>
      match sm_set m i j x with
      | Some m' => sm_run ws' m'
      | None => None
      end
  end.
