(** C115: the iterators over the vertices and edges of ZX diagrams. *)
From Coq Require Import List Bool Arith Lia Sorted ZArith.
From Verif Require Import ZXModel ZxIterModel ZxIterProofs.
Import ListNotations.

(** The loop over the vertices ends and visits exactly the vertices that are not deleted, each once, in order *)
Theorem C115_vertices : forall verts, exists l, (forall fuel, length verts < fuel -> listVertices verts fuel = Some l)
  /\ StronglySorted lt l /\ forall v, In v l <-> nth_error verts v = Some true.
Proof.
  intros verts. exists (vlist 0 verts). split; [intros fuel; apply listVertices_list|]. rewrite vlist_valid. split; [apply sorted_filter|].
  intros v. rewrite filter_In, in_seq. split.
  - intros [[_ L] H]. rewrite (nth_error_nth' _ false) by exact L. rewrite H. reflexivity.
  - intros H. assert (L : v < length verts) by (apply nth_error_Some; rewrite H; discriminate).
    rewrite (nth_error_nth' _ false) in H by exact L. split; [lia | congruence].
Qed.
Print Assumptions C115_vertices.

(** The loop over the edges of a diagram with vertices ends and visits each half edge from a smaller to a larger vertex, or to itself, as
    often as it is stored, in the order of the smaller vertex; the half edges of deleted vertices are left out. So an edge between
    two different vertices, stored with both, is visited once, from the smaller one *)
Theorem C115_edges_partial : forall edges verts, edges <> [] -> length verts = length edges ->
  exists l m, (forall fuel, m < fuel -> listEdges edges verts fuel = Some l) /\ StronglySorted le (map fst l)
    /\ (forall a b, In (a, b) l <-> a <= b /\ nth_error verts a = Some true /\ In b (nth a edges []))
    /\ (forall a b, nth_error verts a = Some true -> a <= b -> count_occ pair_dec l (a, b) = count_occ Nat.eq_dec (nth a edges []) b)
    /\ (forall a b, a <> b -> nth_error verts a = Some true -> nth_error verts b = Some true ->
          count_occ Nat.eq_dec (nth a edges []) b = count_occ Nat.eq_dec (nth b edges []) a ->
          count_occ pair_dec l (a, b) + count_occ pair_dec l (b, a) = count_occ Nat.eq_dec (nth a edges []) b).
Proof.
  intros edges verts N Hl. exists (rows edges verts 0), (length (rows edges verts 0)).
  assert (V : forall a, nth_error verts a = Some true <-> (a <? length edges) && valid verts a = true).
  { intros a. rewrite <- Hl, andb_true_iff, Nat.ltb_lt. unfold valid. split.
    - intros H. assert (L : a < length verts) by (apply nth_error_Some; rewrite H; discriminate).
      rewrite (nth_error_nth' _ false) in H by exact L. split; [exact L | congruence].
    - intros [L H]. rewrite (nth_error_nth' _ false) by exact L. rewrite H. reflexivity. }
  assert (C : forall a b, count_occ pair_dec (rows edges verts 0) (a, b)
      = if (a <? length edges) && valid verts a && (a <=? b) then count_occ Nat.eq_dec (nth a edges []) b else 0)
    by (intros a b; rewrite (count_rows edges verts _ 0 eq_refl); reflexivity).
  split; [apply listEdges_rows; assumption|]. split; [apply (sorted_rows edges verts _ 0 eq_refl)|]. split; [|split].
  - intros a b. rewrite (count_occ_In pair_dec), C, V, (count_occ_In Nat.eq_dec).
    destruct ((a <? length edges) && valid verts a); simpl; [|split; [lia | intros (_ & H & _); discriminate]].
    destruct (Nat.leb_spec a b); split; intros H'; try tauto; try lia; repeat split; auto.
  - intros a b H L. rewrite C. apply V in H. rewrite H. simpl. destruct (Nat.leb_spec a b); [reflexivity | lia].
  - intros a b D Ha Hb E. rewrite !C. apply V in Ha. apply V in Hb. rewrite Ha, Hb. simpl.
    destruct (Nat.leb_spec a b), (Nat.leb_spec b a); lia.
Qed.
Print Assumptions C115_edges_partial.

(** The lists of vertices and edges that the theorems on ZX diagrams (C57 to C61) are about are those of the iterators *)
Definition vertsOf (d : diag) : list bool := map (live d) (seq 0 (d_size d)).
Definition edgesOf (d : diag) : list (list nat) := map (fun v => map fst (d_edges d v)) (seq 0 (d_size d)).
Theorem C115_diagrams : forall d, exists m, forall fuel, m < fuel ->
  listVertices (vertsOf d) fuel = Some (ZXModel.getVertices d)
  /\ (d_size d <> 0 -> listEdges (edgesOf d) (vertsOf d) fuel = Some (ZXModel.getEdges d)).
Proof.
  intros d. exists (length (vertsOf d) + length (rows (edgesOf d) (vertsOf d) 0)). intros fuel L.
  assert (NV : forall v, In v (seq 0 (d_size d)) -> nth v (vertsOf d) false = live d v).
  { intros v I. apply in_seq in I. unfold vertsOf. rewrite nth_indep with (d' := live d 0) by (rewrite map_length, seq_length; lia).
    rewrite map_nth, seq_nth by lia. reflexivity. }
  assert (LV : length (vertsOf d) = d_size d) by (unfold vertsOf; rewrite map_length; apply seq_length).
  assert (LE : length (edgesOf d) = d_size d) by (unfold edgesOf; rewrite map_length; apply seq_length).
  split.
  - rewrite listVertices_list by lia. f_equal. rewrite vlist_valid, LV. unfold ZXModel.getVertices. apply filter_ext_in, NV.
  - intros NZ. rewrite listEdges_rows; [|congruence | intros E; rewrite E in LE; simpl in LE; lia | lia].
    f_equal. unfold rows, ZXModel.getEdges, ZXModel.getVertices. rewrite LE, Nat.sub_0_r. clear L LV LE NZ.
    assert (R : forall v, In v (seq 0 (d_size d)) -> row (edgesOf d) v = map fst (d_edges d v)).
    { intros v I. apply in_seq in I. unfold row, edgesOf.
      rewrite nth_indep with (d' := map fst (d_edges d 0)) by (rewrite map_length, seq_length; lia).
      rewrite (map_nth (fun v => map fst (d_edges d v))), seq_nth by lia. reflexivity. }
    unfold valid. induction (seq 0 (d_size d)) as [|v l IH]; [reflexivity|]. simpl.
    rewrite NV, R by (left; reflexivity). rewrite IH by (intros; (apply NV || apply R); right; assumption).
    destruct (live d v); simpl; [|reflexivity]. f_equal. unfold out. clear.
    induction (d_edges d v) as [|[t h] es IHe]; simpl; [reflexivity|]. destruct (v <=? t); simpl; rewrite IHe; reflexivity.
Qed.
Print Assumptions C115_diagrams.

(** Asking the empty diagram for its edges reads the first and the last row of an empty vector *)
Theorem C115_empty_refuted : ebegin (edgesOf d_empty) (vertsOf d_empty) = None /\ eend (edgesOf d_empty) = None
  /\ forall fuel, listEdges (edgesOf d_empty) (vertsOf d_empty) fuel = None.
Proof. repeat split. Qed.
Print Assumptions C115_empty_refuted.

(** A loop at a vertex is one edge, visited twice *)
Theorem C115_loop_refuted : exists d, d_ne (addEdge d 0 0 false) = (d_ne d + 1)%Z
  /\ listEdges (edgesOf d) (vertsOf d) 9 = Some []
  /\ listEdges (edgesOf (addEdge d 0 0 false)) (vertsOf d) 9 = Some [(0, 0); (0, 0)].
Proof. exists (fst (ZXModel.addVertex d_empty (mkV 0%Z p_zero VZ))). repeat split; vm_compute; reflexivity. Qed.
Print Assumptions C115_loop_refuted.

(** The value of ++i is the old position and that of i++ the new one, for both iterators *)
Theorem C115_increment_refuted :
  (forall v r, let i := VIt v (true :: r) in exists j, vincr i = Some j /\ j <> i /\ vprefix i = Some (j, i) /\ vpostfix i = Some (j, j))
  /\ exists edges verts i j, ebegin edges verts = Some i /\ j <> i
       /\ eprefix edges verts i = Some (j, i) /\ epostfix edges verts i = Some (j, j).
Proof.
  split.
  - intros v r i. exists (nextValidVertex (S v) r). repeat split. intros E.
    pose proof (nextValid_list r (S v)) as (_ & L & _). rewrite E in L. simpl in L. lia.
  - exists [[1]; [0; 2]; [1]], [true; true; true], (EIt 0 0 [1]), (EIt 1 1 [2]). repeat split. discriminate.
Qed.
Print Assumptions C115_increment_refuted.

(** Tests: a path 3 - 0 - 2 with a double edge and the deleted vertices 1 and 4, whose rows are stale *)
Example C115_ex : listEdges [[2; 3; 2]; [0]; [0; 0]; [0]; [4; 7]] [true; false; true; true; false] 9 = Some [(0, 2); (0, 3); (0, 2)]
  /\ listVertices [true; false; true; true; false] 9 = Some [0; 2; 3].
Proof. split; reflexivity. Qed.
Example C115_ex_late : listEdges [[9]; [2]; [1; 3]; [2]] [false; true; true; true] 9 = Some [(1, 2); (2, 3)].
Proof. reflexivity. Qed.
