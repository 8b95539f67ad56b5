(** Model of [DirectedGraph] and [DirectedAcyclicGraph]
    (include/mqt-core/datastructures/DirectedGraph.hpp,
     include/mqt-core/datastructures/DirectedAcyclicGraph.hpp).

    The vertex type [V] of the templates is instantiated with [nat]: the code
    uses nothing but equality and hashing of vertices. [std::unordered_map] is
    an association list, [std::vector<bool>] a list of booleans. Vector
    accesses through [operator\[\]] yield [Ub] when out of range. *)
From Coq Require Import List Arith Bool.
Import ListNotations.

(** Result of a member function: a value, a C++ exception together with the
    state the object is left in, or undefined behaviour. *)
Inductive outcome (S A : Type) : Type :=
| Ret (a : A)
| Exn (s : S)
| Ub.
Arguments Ret {S A}. Arguments Exn {S A}. Arguments Ub {S A}.

Definition V := nat.

(** DirectedGraph.hpp:37-51, the data members. *)
Record dg := mkDg {
  adjacencyMatrix : list (list bool);
  mapping : list (V * nat);
  invMapping : list V;
  nVertices : nat;
  nEdges : nat;
  inDegrees : list nat;
  outDegrees : list nat
}.

(** DirectedGraph.hpp:54, the default constructor. *)
Definition dg_empty : dg := mkDg [] [] [] 0 0 [] [].

(** [mapping.find(v)]. *)
Fixpoint map_find (m : list (V * nat)) (v : V) : option nat :=
  match m with
  | [] => None
  | (w, i) :: m' => if Nat.eqb w v then Some i else map_find m' v
  end.

(** [matrix\[i\]\[j\]] as a read. *)
Definition mget (m : list (list bool)) (i j : nat) : option bool :=
  match nth_error m i with
  | Some row => nth_error row j
  | None => None
  end.

(** [vector\[i\] = x] on an index that is known to be valid. *)
Fixpoint upd {A} (l : list A) (i : nat) (x : A) : list A :=
  match l, i with
  | [], _ => []
  | _ :: l', 0 => x :: l'
  | a :: l', S i' => a :: upd l' i' x
  end.

(** [matrix\[i\]\[j\] = b] as a write. *)
Definition mset (m : list (list bool)) (i j : nat) (b : bool)
  : option (list (list bool)) :=
  match nth_error m i with
  | Some row =>
      match nth_error row j with
      | Some _ => Some (upd m i (upd row j b))
      | None => None
      end
  | None => None
  end.

(** [++vector\[i\]]. *)
Definition incr (l : list nat) (i : nat) : option (list nat) :=
  match nth_error l i with
  | Some x => Some (upd l i (S x))
  | None => None
  end.

(** DirectedGraph.hpp:70-73 and DirectedAcyclicGraph.hpp:33-36: add one column
    to every row and then a row of [n] entries. *)
Definition mgrow (m : list (list bool)) (n : nat) : list (list bool) :=
  map (fun row => row ++ [false]) m ++ [repeat false n].

(** DirectedGraph.hpp:60-76 [addVertex]. *)
Definition dg_addVertex (g : dg) (v : V) : outcome dg dg :=
  match map_find (mapping g) v with
  | Some _ => Exn g
  | None =>
      Ret (mkDg (mgrow (adjacencyMatrix g) (S (nVertices g)))
                ((v, nVertices g) :: mapping g)
                (invMapping g ++ [v])
                (S (nVertices g))
                (nEdges g)
                (inDegrees g ++ [0])
                (outDegrees g ++ [0]))
  end.

(** DirectedGraph.hpp:78-83: add the end points that are missing. *)
Definition ensure {G} (find : G -> V -> option nat)
    (add : G -> V -> outcome G G) (g : G) (v : V) : outcome G G :=
  match find g v with
  | Some _ => Ret g
  | None => add g v
  end.

Definition dg_find (g : dg) := map_find (mapping g).

(** DirectedGraph.hpp:84-91: insert the edge between known vertices. *)
Definition dg_insert (g : dg) (i j : nat) : outcome dg dg :=
  match mget (adjacencyMatrix g) i j with
  | None => Ub
  | Some true => Ret g
  | Some false =>
      match mset (adjacencyMatrix g) i j true,
            incr (outDegrees g) i, incr (inDegrees g) j with
      | Some adj, Some od, Some id =>
          Ret (mkDg adj (mapping g) (invMapping g) (nVertices g)
                    (S (nEdges g)) id od)
      | _, _, _ => Ub
      end
  end.

(** DirectedGraph.hpp:77-92 [addEdge]; [mapping.at] throws on a missing key. *)
Definition dg_addEdge (g : dg) (u v : V) : outcome dg dg :=
  match ensure dg_find dg_addVertex g u with
  | Ret g1 =>
      match ensure dg_find dg_addVertex g1 v with
      | Ret g2 =>
          match dg_find g2 u, dg_find g2 v with
          | Some i, Some j => dg_insert g2 i j
          | _, _ => Exn g2
          end
      | o => o
      end
  | o => o
  end.

(** DirectedGraph.hpp:93-94. *)
Definition dg_getNVertices (g : dg) : nat := nVertices g.
Definition dg_getNEdges (g : dg) : nat := nEdges g.

(** [vector\[i\]] for a degree vector. *)
Definition vget (l : list nat) (i : nat) : outcome unit nat :=
  match nth_error l i with Some d => Ret d | None => Ub end.

(** DirectedGraph.hpp:95-103. *)
Definition dg_getInDegree (g : dg) (v : V) : outcome unit nat :=
  match dg_find g v with
  | None => Exn tt
  | Some i => vget (inDegrees g) i
  end.

(** DirectedGraph.hpp:104-112. *)
Definition dg_getOutDegree (g : dg) (v : V) : outcome unit nat :=
  match dg_find g v with
  | None => Exn tt
  | Some i => vget (outDegrees g) i
  end.

(** DirectedGraph.hpp:113-120 (a set; the order of the list is irrelevant). *)
Definition dg_getVertices (g : dg) : list V := map fst (mapping g).

(** DirectedGraph.hpp:121-135. *)
Definition dg_isEdge (g : dg) (u v : V) : outcome unit bool :=
  match dg_find g u with
  | None => Exn tt
  | Some i =>
      match dg_find g v with
      | None => Exn tt
      | Some j =>
          match mget (adjacencyMatrix g) i j with
          | Some b => Ret b
          | None => Ub
          end
      end
  end.

(** The calls a client can make to change a graph. An exception is caught by
    the client, who keeps using the object. *)
Inductive gop := AddVertex (v : V) | AddEdge (u v : V).

Definition dg_apply (g : dg) (o : gop) : outcome dg dg :=
  match o with
  | AddVertex v => dg_addVertex g v
  | AddEdge u v => dg_addEdge g u v
  end.

(** Run a history; [None] is undefined behaviour. *)
Fixpoint runs {G} (ap : G -> gop -> outcome G G) (ops : list gop) (g : G)
  : option G :=
  match ops with
  | [] => Some g
  | o :: ops' =>
      match ap g o with
      | Ret g' => runs ap ops' g'
      | Exn g' => runs ap ops' g'
      | Ub => None
      end
  end.

Definition dg_run := runs dg_apply.

(** ** Directed acyclic graphs *)

(** DirectedAcyclicGraph.hpp:25-28. *)
Record dag := mkDag { base : dg; closureMatrix : list (list bool) }.

Definition dag_empty : dag := mkDag dg_empty [].

Definition dag_find (g : dag) := dg_find (base g).

(** DirectedAcyclicGraph.hpp:31-39 [addVertex]. *)
Definition dag_addVertex (g : dag) (v : V) : outcome dag dag :=
  match dg_addVertex (base g) v with
  | Ret b =>
      match dg_find b v with
      | Some i =>
          match mset (mgrow (closureMatrix g) (nVertices b)) i i true with
          | Some c => Ret (mkDag b c)
          | None => Ub
          end
      | None => Exn (mkDag b (mgrow (closureMatrix g) (nVertices b)))
      end
  | Exn b => Exn (mkDag b (closureMatrix g))
  | Ub => Ub
  end.

(** One iteration of DirectedAcyclicGraph.hpp:55-62. *)
Definition close_step (i j : nat) (c : option (list (list bool))) (k : nat)
  : option (list (list bool)) :=
  match c with
  | None => None
  | Some m =>
      match mget m k i with
      | None => None
      | Some b1 =>
          match (if b1 then mset m k j true else Some m) with
          | None => None
          | Some m1 =>
              match mget m1 j k with
              | None => None
              | Some b2 => if b2 then mset m1 i k true else Some m1
              end
          end
      end
  end.

(** DirectedAcyclicGraph.hpp:40-63 [addEdge]. *)
Definition dag_addEdge (g : dag) (u v : V) : outcome dag dag :=
  match ensure dag_find dag_addVertex g u with
  | Ret g1 =>
      match ensure dag_find dag_addVertex g1 v with
      | Ret g2 =>
          match dag_find g2 u, dag_find g2 v with
          | Some i, Some j =>
              match mget (closureMatrix g2) j i with
              | None => Ub
              | Some true => Exn g2
              | Some false =>
                  match dg_addEdge (base g2) u v with
                  | Ret b =>
                      match fold_left (close_step i j) (seq 0 (nVertices b))
                                      (Some (closureMatrix g2)) with
                      | Some c => Ret (mkDag b c)
                      | None => Ub
                      end
                  | Exn b => Exn (mkDag b (closureMatrix g2))
                  | Ub => Ub
                  end
              end
          | _, _ => Exn g2
          end
      | o => o
      end
  | o => o
  end.

(** DirectedAcyclicGraph.hpp:64-72 [isReachable]. *)
Definition dag_isReachable (g : dag) (u v : V) : outcome unit bool :=
  match dag_find g u with
  | None => Exn tt
  | Some i =>
      match dag_find g v with
      | None => Exn tt
      | Some j =>
          match mget (closureMatrix g) i j with
          | Some b => Ret b
          | None => Ub
          end
      end
  end.

Definition dag_apply (g : dag) (o : gop) : outcome dag dag :=
  match o with
  | AddVertex v => dag_addVertex g v
  | AddEdge u v => dag_addEdge g u v
  end.

Definition dag_run := runs dag_apply.

(** Local variables of [orderTopologically]; [stack] has its top first,
    [result] is in order. *)
Record topo := mkTopo {
  stack : list nat;
  result : list nat;
  visited : list bool;
  visitedInDegree : list nat
}.

(** DirectedAcyclicGraph.hpp:85-90, one iteration. *)
Definition topo_push (ind : list nat) (t : option topo) (k : nat)
  : option topo :=
  match t with
  | None => None
  | Some t =>
      match nth_error ind k with
      | None => None
      | Some 0 =>
          match nth_error (visited t) k with
          | None => None
          | Some _ =>
              Some (mkTopo (k :: stack t) (result t) (upd (visited t) k true)
                           (visitedInDegree t))
          end
      | Some _ => Some t
      end
  end.

(** DirectedAcyclicGraph.hpp:97-106, one iteration for the popped vertex [u]. *)
Definition topo_relax (adj : list (list bool)) (ind : list nat) (u : nat)
    (t : option topo) (k : nat) : option topo :=
  match t with
  | None => None
  | Some t =>
      match mget adj u k with
      | None => None
      | Some false => Some t
      | Some true =>
          match nth_error (visited t) k with
          | None => None
          | Some true => Some t
          | Some false =>
              match nth_error (visitedInDegree t) k, nth_error ind k with
              | Some d, Some n =>
                  let vid := upd (visitedInDegree t) k (S d) in
                  if Nat.eqb (S d) n
                  then Some (mkTopo (k :: stack t) (result t)
                                    (upd (visited t) k true) vid)
                  else Some (mkTopo (stack t) (result t) (visited t) vid)
              | _, _ => None
              end
          end
      end
  end.

(** DirectedAcyclicGraph.hpp:92-107, the loop. A loop iteration is bounded by
    [fuel]; running out of fuel is reported as [None] and the proofs show that
    it does not happen for [fuel = nVertices + 1]. *)
Fixpoint topo_loop (fuel : nat) (adj : list (list bool)) (ind : list nat)
    (n : nat) (t : topo) : option topo :=
  match fuel with
  | 0 => None
  | S f =>
      match stack t with
      | [] => Some t
      | u :: st =>
          match fold_left (topo_relax adj ind u) (seq 0 n)
                  (Some (mkTopo st (result t ++ [u]) (visited t)
                                (visitedInDegree t))) with
          | None => None
          | Some t' => topo_loop f adj ind n t'
          end
      end
  end.

(** [invMapping.at(i)] for every entry of [result]. *)
Fixpoint map_at (inv : list V) (l : list nat) : option (list V) :=
  match l with
  | [] => Some []
  | i :: l' =>
      match nth_error inv i, map_at inv l' with
      | Some v, Some r => Some (v :: r)
      | _, _ => None
      end
  end.

(** DirectedAcyclicGraph.hpp:75-115 [orderTopologically]. The assertion in line
    109 is not modelled (it is compiled out in release builds); see C52. *)
Definition dag_orderTopologically (g : dag) : option (list V) :=
  let b := base g in
  let n := nVertices b in
  match fold_left (topo_push (inDegrees b)) (seq 0 n)
          (Some (mkTopo [] [] (repeat false n) (repeat 0 n))) with
  | None => None
  | Some t =>
      match topo_loop (S n) (adjacencyMatrix b) (inDegrees b) n t with
      | None => None
      | Some t' => map_at (invMapping b) (result t')
      end
  end.
