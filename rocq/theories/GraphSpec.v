(** What a client expects from directed graphs, phrased over the history of
    calls only. *)
From Coq Require Import List Arith Bool Relations.
From Verif Require Import GraphModel.
Import ListNotations.

(** All vertices a history mentions, and all edges it inserts. *)
Fixpoint mentions (ops : list gop) : list V :=
  match ops with
  | [] => []
  | AddVertex v :: r => v :: mentions r
  | AddEdge u v :: r => u :: v :: mentions r
  end.

Fixpoint inserted (ops : list gop) : list (V * V) :=
  match ops with
  | [] => []
  | AddVertex _ :: r => inserted r
  | AddEdge u v :: r => (u, v) :: inserted r
  end.

Definition pair_dec (a b : V * V) : {a = b} + {a <> b}.
Proof. decide equality; apply Nat.eq_dec. Defined.

Definition distinct_vertices (ops : list gop) : list V :=
  nodup Nat.eq_dec (mentions ops).
Definition distinct_edges (ops : list gop) : list (V * V) :=
  nodup pair_dec (inserted ops).

(** Reachability along a relation. *)
Definition reach (E : V -> V -> Prop) : V -> V -> Prop := clos_refl_trans V E.
Definition acyclic (E : V -> V -> Prop) : Prop :=
  forall v, ~ clos_trans V E v v.

(** The edges of a list. *)
Definition edges_rel (l : list (V * V)) (u v : V) : Prop := In (u, v) l.

(** [l] lists every vertex of [vs] exactly once and no edge points backwards. *)
Definition topological (vs : list V) (E : V -> V -> Prop) (l : list V) : Prop :=
  NoDup l /\ (forall v, In v l <-> In v vs)
  /\ forall u v, E u v ->
       exists l1 l2 l3, l = l1 ++ u :: l2 ++ v :: l3.

(** The edges a history leaves in an acyclic graph: an edge is refused if its
    target reaches its source along the edges accepted earlier. *)
Inductive accepts : list gop -> list (V * V) -> Prop :=
| acc_nil : accepts [] []
| acc_vertex ops E v : accepts ops E -> accepts (ops ++ [AddVertex v]) E
| acc_ok ops E u v :
    accepts ops E -> ~ reach (edges_rel E) v u ->
    accepts (ops ++ [AddEdge u v]) ((u, v) :: E)
| acc_refused ops E u v :
    accepts ops E -> reach (edges_rel E) v u ->
    accepts (ops ++ [AddEdge u v]) E.

(** Histories in which every edge is attached to the rim of the graph: when
    [addEdge u v] is called, [v] has no outgoing edge yet or [u] no incoming
    one. Inserting the edges in a topological order of their sources or
    targets is such a history. *)
Definition rim (ops : list gop) : Prop :=
  forall pre u v post, ops = pre ++ AddEdge u v :: post ->
    (forall w, ~ In (v, w) (inserted pre)) \/ (forall w, ~ In (w, u) (inserted pre)).

(** The edges a client can see in an acyclic graph. *)
Definition dag_edge (g : dag) (u v : V) : Prop := dg_isEdge (base g) u v = Ret true.
