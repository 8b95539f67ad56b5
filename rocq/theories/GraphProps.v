(** C51 and C52: directed and directed acyclic graphs. *)
From Coq Require Import List Arith Bool Relations.
From Verif Require Import GraphModel GraphSpec GraphProofs DagProofs.
Import ListNotations.

(** The counters are the numbers of different vertices and edges the history
    mentions; no history runs into an out-of-range access. *)
Theorem C51_counts :
  forall ops, exists g, dg_run ops dg_empty = Some g
    /\ dg_getNVertices g = length (distinct_vertices ops)
    /\ dg_getNEdges g = length (distinct_edges ops)
    /\ NoDup (dg_getVertices g)
    /\ (forall v, In v (dg_getVertices g) <-> In v (mentions ops)).
Proof. exact c51_counts. Qed.
Print Assumptions C51_counts.

(** Adjacency and degrees are those of the set of inserted edges; queries about
    unknown vertices throw. *)
Theorem C51_queries :
  forall ops g u v,
  dg_run ops dg_empty = Some g ->
  (In u (mentions ops) -> In v (mentions ops) ->
     exists b, dg_isEdge g u v = Ret b /\ (b = true <-> In (u, v) (inserted ops)))
  /\ (~ In u (mentions ops) \/ ~ In v (mentions ops) -> dg_isEdge g u v = Exn tt)
  /\ (In v (mentions ops) ->
       dg_getOutDegree g v
         = Ret (length (filter (fun e => Nat.eqb (fst e) v) (distinct_edges ops)))
       /\ dg_getInDegree g v
         = Ret (length (filter (fun e => Nat.eqb (snd e) v) (distinct_edges ops))))
  /\ (~ In v (mentions ops) ->
       dg_getOutDegree g v = Exn tt /\ dg_getInDegree g v = Exn tt).
Proof. exact c51_queries. Qed.
Print Assumptions C51_queries.

(** [addVertex] throws, without changing the graph, exactly on known vertices;
    [addEdge] never throws. *)
Theorem C51_duplicates :
  forall ops g v,
  dg_run ops dg_empty = Some g ->
  (dg_addVertex g v = Exn g <-> In v (mentions ops))
  /\ forall w, exists g', dg_addEdge g v w = Ret g'.
Proof. exact c51_duplicates. Qed.
Print Assumptions C51_duplicates.

(** Non-vacuity: repeated edges, a self loop and an isolated vertex. *)
Example C51_example :
  match dg_run [AddEdge 7 3; AddVertex 3; AddEdge 7 3; AddEdge 3 3; AddVertex 9; AddEdge 9 3] dg_empty with
  | Some g => dg_getNVertices g = 3 /\ dg_getNEdges g = 3
              /\ dg_getInDegree g 3 = Ret 3 /\ dg_getOutDegree g 3 = Ret 1
              /\ dg_isEdge g 3 7 = Ret false /\ dg_isEdge g 1 7 = Exn tt
  | None => False
  end.
Proof. vm_compute. repeat split. Qed.

(** What holds for every history: [isReachable] never claims a path that does
    not exist, [addEdge] refuses only edges that would close a cycle, and no
    access is out of range. *)
Theorem C52_sound :
  forall ops, exists g, dag_run ops dag_empty = Some g
   /\ (forall u v, dag_edge g u v -> In (u, v) (inserted ops))
   /\ (forall u v, In u (mentions ops) -> In v (mentions ops) ->
        exists b, dag_isReachable g u v = Ret b
          /\ (b = true -> reach (dag_edge g) u v))
   /\ (forall u v g', dag_addEdge g u v = Exn g' -> reach (dag_edge g) v u)
   /\ (forall u v, dag_addEdge g u v <> Ub).
Proof. exact c52_sound. Qed.
Print Assumptions C52_sound.

(** [orderTopologically] is correct for every history whose graph is acyclic. *)
Theorem C52_order_topologically :
  forall ops g,
  dag_run ops dag_empty = Some g -> acyclic (dag_edge g) ->
  exists l, dag_orderTopologically g = Some l
    /\ topological (mentions ops) (dag_edge g) l.
Proof. exact c52_order. Qed.
Print Assumptions C52_order_topologically.

(** The full property for histories that attach every edge to the rim of the
    graph. Missing for the full statement: histories that connect two parts of
    the graph which both already have further edges (see the refutation). *)
Theorem C52_rim_histories_partial :
  forall ops, rim ops ->
  exists g A, dag_run ops dag_empty = Some g /\ accepts ops A
    /\ (forall u v, dag_edge g u v <-> In (u, v) A)
    /\ acyclic (dag_edge g)
    /\ (forall u v, In u (mentions ops) -> In v (mentions ops) ->
          exists b, dag_isReachable g u v = Ret b
            /\ (b = true <-> reach (edges_rel A) u v))
    /\ exists l, dag_orderTopologically g = Some l
         /\ topological (mentions ops) (edges_rel A) l.
Proof. exact c52_rim. Qed.
Print Assumptions C52_rim_histories_partial.

(** The full property is false of the code: the update of the transitive
    closure forgets pairs (predecessor of u, successor of v). After
    0->1, 2->3, 1->2 the edge 3->0 is accepted although it closes a cycle,
    3 is not reported reachable from 0, and the topological order is empty. *)
Theorem C52_refuted :
  exists ops g, dag_run ops dag_empty = Some g
    /\ ~ acyclic (dag_edge g)
    /\ dag_isReachable g 0 3 = Ret false /\ reach (dag_edge g) 0 3
    /\ dag_orderTopologically g = Some [].
Proof. exact (ex_intro _ cyc_ops c52_refuted). Qed.
Print Assumptions C52_refuted.

(** Non-vacuity: a rim history with a refused edge. *)
Definition rim_ops := [AddEdge 0 1; AddEdge 1 2; AddEdge 0 3; AddEdge 3 2].
Example C52_rim_example :
  rim rim_ops /\
  match dag_run rim_ops dag_empty with
  | Some g => dag_isReachable g 0 2 = Ret true /\ dag_isReachable g 1 3 = Ret false
     /\ dag_orderTopologically g = Some [0; 3; 1; 2]
     /\ (exists g', dag_addEdge g 2 0 = Exn g')
  | None => False
  end.
Proof.
  split.
  - intros pre u v post H.
    destruct pre as [|? [|? [|? [|? [|]]]]]; simpl in H; inversion H; subst; simpl.
    + left; intros w; tauto.
    + left; intros w; intros [A|A]; [discriminate|tauto].
    + left; intros w; intros [A|[A|A]]; [discriminate|discriminate|tauto].
    + left; intros w; intros [A|[A|[A|A]]]; [discriminate|discriminate|discriminate|tauto].
  - vm_compute. repeat split. eexists; reflexivity.
Qed.
