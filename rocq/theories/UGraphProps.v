(** C54: undirected graphs and symmetric matrices. *)
From Coq Require Import List Arith Bool.
From Verif Require Import GraphModel UGraphModel UGraphSpec UGraphProofs.
Import ListNotations.

(** Counters after every history. *)
Theorem C54_counts :
  forall ops, exists g, ug_run ops ug_empty = Some g
    /\ ug_getNVertices g = length (nodup Nat.eq_dec (umentions ops))
    /\ ug_getNEdges g = length (upairs ops)
    /\ NoDup (ug_getVertices g)
    /\ (forall v, In v (ug_getVertices g) <-> In v (umentions ops)).
Proof. exact c54_counts. Qed.
Print Assumptions C54_counts.

(** Labels, adjacency, degrees and neighbourhoods are those of the inserted
    unordered pairs. *)
Theorem C54_queries :
  forall ops g u v,
  ug_run ops ug_empty = Some g -> In u (umentions ops) -> In v (umentions ops) ->
  ug_getEdge g u v = (match label ops u v with Some e => Ret e | None => Exn tt end)
  /\ (u <> v -> ug_isAdjacent g u v
        = Ret (match label ops u v with Some _ => true | None => false end))
  /\ ug_getDegree g v = Ret (length (nodup Nat.eq_dec (nbrs ops v)))
  /\ (exists l, ug_getNeighbours g v = Ret l /\ NoDup l
        /\ forall w, In w l <-> In w (nbrs ops v)).
Proof. exact c54_queries. Qed.
Print Assumptions C54_queries.

(** Duplicate vertices and edges (in either orientation) are refused, nothing
    else is, and no access is out of range. *)
Theorem C54_rejects :
  forall ops g u v e,
  ug_run ops ug_empty = Some g ->
  (ug_addVertex g v = Exn g <-> In v (umentions ops))
  /\ ((exists g', ug_addEdge g u v e = Exn g') <-> label ops u v <> None)
  /\ ug_addEdge g u v e <> Ub.
Proof. exact c54_rejects. Qed.
Print Assumptions C54_rejects.

(** Self loops are reported by [getEdge], [getDegree] and [getNeighbours] but
    denied by [isAdjacent]. *)
Theorem C54_self_loop_refuted :
  exists ops g, ug_run ops ug_empty = Some g
    /\ label ops 4 4 = Some 9 /\ ug_getEdge g 4 4 = Ret 9 /\ ug_getDegree g 4 = Ret 1
    /\ ug_getNeighbours g 4 = Ret [4] /\ ug_isAdjacent g 4 4 = Ret false.
Proof. exact c54_self_loop. Qed.
Print Assumptions C54_self_loop_refuted.

(** A symmetric matrix returns the value last written to the position or its
    mirror image, and the initial value before that. *)
Theorem C54_symmetric_matrix :
  forall (A : Type) n (x : A) ws,
  (forall i j y, In (i, j, y) ws -> i < n /\ j < n) ->
  exists m, sm_run ws (sm_init n x) = Some m /\ sm_size m = n
    /\ forall a b, a < n -> b < n ->
        sm_get m a b = sm_get m b a
        /\ sm_get m a b = Some (match last_write ws a b with Some y => y | None => x end).
Proof. intros A. exact c54_matrix. Qed.
Print Assumptions C54_symmetric_matrix.

Example C54_example :
  match ug_run [UAddEdge 5 2 10; UAddEdge 2 5 11; UAddEdge 7 5 12; UAddVertex 2; UAddEdge 5 5 13] ug_empty with
  | Some g => ug_getNEdges g = 3 /\ ug_getEdge g 2 5 = Ret 10 /\ ug_getDegree g 5 = Ret 3
              /\ ug_isAdjacent g 5 7 = Ret true /\ ug_isAdjacent g 2 7 = Ret false
              /\ ug_getNeighbours g 5 = Ret [5; 2; 7]
  | None => False
  end
  /\ match sm_run [(0, 2, 5); (2, 1, 6); (2, 0, 7)] (sm_init 3 1) with
     | Some m => sm_get m 0 2 = Some 7 /\ sm_get m 1 2 = Some 6 /\ sm_get m 1 1 = Some 1
     | None => False
     end.
Proof. vm_compute. repeat split. Qed.
