(** Proofs about the graph models. *)
From Coq Require Import List Arith Bool Lia Relations Permutation.
From Verif Require Import GraphModel GraphSpec.
Import ListNotations.

(** ** Vectors and square matrices *)

Lemma upd_length {A} (l : list A) i x : length (upd l i x) = length l.
Proof. revert i; induction l; destruct i; simpl; auto. Qed.

Lemma nth_error_upd {A} (l : list A) i x k :
  i < length l ->
  nth_error (upd l i x) k = if Nat.eqb k i then Some x else nth_error l k.
Proof.
  revert i k; induction l as [|a l IH]; intros i k H; simpl in *; [lia|].
  destruct i, k; simpl; auto. apply IH. lia.
Qed.

Lemma nth_error_snoc {A} (l : list A) x k :
  nth_error (l ++ [x]) k =
  if Nat.ltb k (length l) then nth_error l k
  else if Nat.eqb k (length l) then Some x else None.
Proof.
  destruct (Nat.ltb_spec k (length l)).
  - now rewrite nth_error_app1.
  - rewrite nth_error_app2 by lia.
    destruct (Nat.eqb_spec k (length l)).
    + subst. now rewrite Nat.sub_diag.
    + destruct (k - length l) eqn:E; [lia|]. simpl. now destruct n0.
Qed.

Definition sq (n : nat) (m : list (list bool)) : Prop :=
  length m = n /\ forall i row, nth_error m i = Some row -> length row = n.

Lemma sq_row n m i : sq n m -> i < n -> exists row, nth_error m i = Some row /\ length row = n.
Proof.
  intros [L R] H. destruct (nth_error m i) eqn:E.
  - eauto.
  - apply nth_error_None in E. lia.
Qed.

Lemma sq_get n m i j : sq n m -> i < n -> j < n -> exists b, mget m i j = Some b.
Proof.
  intros S Hi Hj. destruct (sq_row _ _ _ S Hi) as (row & E & L).
  unfold mget. rewrite E. destruct (nth_error row j) eqn:F; eauto.
  apply nth_error_None in F. lia.
Qed.

Lemma sq_set n m i j b :
  sq n m -> i < n -> j < n ->
  exists m', mset m i j b = Some m' /\ sq n m'
    /\ forall k l, mget m' k l =
         if Nat.eqb k i && Nat.eqb l j then Some b else mget m k l.
Proof.
  intros S Hi Hj. destruct (sq_row _ _ _ S Hi) as (row & E & L).
  unfold mset. rewrite E.
  destruct (nth_error row j) eqn:F; [|apply nth_error_None in F; lia].
  destruct S as [SL SR].
  eexists; split; [reflexivity|]. split.
  - split; [now rewrite upd_length|].
    intros k r. rewrite nth_error_upd by lia.
    destruct (Nat.eqb k i); intros H.
    + inversion H. now rewrite upd_length.
    + eauto.
  - intros k l. unfold mget. rewrite nth_error_upd by lia.
    destruct (Nat.eqb_spec k i); simpl; auto. subst.
    rewrite nth_error_upd by lia. rewrite E.
    destruct (Nat.eqb l j); auto.
Qed.

Lemma nth_error_repeat' {A} (x : A) n k :
  nth_error (repeat x n) k = if Nat.ltb k n then Some x else None.
Proof.
  revert k; induction n; destruct k; simpl; auto. rewrite IHn. reflexivity.
Qed.

Lemma sq_grow n m :
  sq n m -> sq (S n) (mgrow m (S n))
  /\ forall i j, i < S n -> j < S n ->
      mget (mgrow m (S n)) i j =
      if Nat.ltb i n && Nat.ltb j n then mget m i j else Some false.
Proof.
  intros [L R]. unfold mgrow. split.
  - split.
    + rewrite app_length, map_length. simpl. lia.
    + intros i row. rewrite nth_error_snoc, map_length, L.
      destruct (Nat.ltb_spec i n).
      * rewrite nth_error_map. destruct (nth_error m i) eqn:E; simpl; [|discriminate].
        intros H0; inversion H0. rewrite app_length. simpl.
        apply R in E. lia.
      * destruct (Nat.eqb i n); [|discriminate].
        intros H0; inversion H0. simpl. now rewrite repeat_length.
  - intros i j Hi Hj. unfold mget.
    rewrite nth_error_snoc, map_length, L.
    destruct (Nat.ltb_spec i n).
    + rewrite nth_error_map. destruct (nth_error m i) eqn:E.
      * simpl. rewrite nth_error_snoc. rewrite (R _ _ E).
        destruct (Nat.ltb_spec j n); auto.
        destruct (Nat.eqb_spec j n); auto. lia.
      * apply nth_error_None in E. lia.
    + destruct (Nat.eqb_spec i n); [|lia].
      rewrite nth_error_repeat'. destruct (Nat.ltb_spec j (S n)); [|lia]. reflexivity.
Qed.

Lemma incr_spec l i :
  i < length l ->
  exists l', incr l i = Some l' /\ length l' = length l
    /\ forall k, nth_error l' k =
        if Nat.eqb k i then option_map S (nth_error l k) else nth_error l k.
Proof.
  intros H. unfold incr. destruct (nth_error l i) eqn:E;
    [|apply nth_error_None in E; lia].
  eexists; split; [reflexivity|]. split; [apply upd_length|].
  intros k. rewrite nth_error_upd by auto.
  destruct (Nat.eqb_spec k i); auto. subst. now rewrite E.
Qed.

(** ** The invariant of a directed graph *)

Definition inb (e : V * V) (E : list (V * V)) : bool :=
  if in_dec pair_dec e E then true else false.

Lemma inb_true e E : inb e E = true <-> In e E.
Proof. unfold inb. destruct in_dec; split; auto; discriminate. Qed.

Lemma inb_false e E : inb e E = false <-> ~ In e E.
Proof. unfold inb. destruct in_dec; split; auto; try discriminate; tauto. Qed.

Lemma inb_cons e f E : inb e (f :: E) = (if pair_dec f e then true else inb e E).
Proof.
  destruct (pair_dec f e).
  - apply inb_true. left; auto.
  - destruct (inb e E) eqn:H.
    + apply inb_true. right. now apply inb_true.
    + apply inb_false. intros [A|A]; auto. apply inb_false in H. auto.
Qed.

Record DInv (g : dg) (E : list (V * V)) : Prop := {
  d_map : forall v i, map_find (mapping g) v = Some i <-> nth_error (invMapping g) i = Some v;
  d_keys : NoDup (map fst (mapping g));
  d_inv : length (invMapping g) = nVertices g;
  d_adj : sq (nVertices g) (adjacencyMatrix g);
  d_in : length (inDegrees g) = nVertices g;
  d_out : length (outDegrees g) = nVertices g;
  d_nodup : NoDup E;
  d_ends : forall u v, In (u, v) E -> In u (invMapping g) /\ In v (invMapping g);
  d_get : forall i j u v, nth_error (invMapping g) i = Some u ->
            nth_error (invMapping g) j = Some v ->
            mget (adjacencyMatrix g) i j = Some (inb (u, v) E);
  d_odeg : forall i u, nth_error (invMapping g) i = Some u ->
            nth_error (outDegrees g) i = Some (length (filter (fun e => Nat.eqb (fst e) u) E));
  d_ideg : forall i u, nth_error (invMapping g) i = Some u ->
            nth_error (inDegrees g) i = Some (length (filter (fun e => Nat.eqb (snd e) u) E));
  d_edges : nEdges g = length E
}.

Lemma dinv_empty : DInv dg_empty [].
Proof.
  constructor; simpl; auto; try constructor; auto; try (intros; destruct i; discriminate);
    try discriminate; try tauto.
Qed.

Lemma map_find_In m v i : map_find m v = Some i -> In (v, i) m.
Proof.
  induction m as [|[w k] m IH]; simpl; [discriminate|].
  destruct (Nat.eqb_spec w v); intros H.
  - inversion H; subst; auto.
  - auto.
Qed.

Lemma map_find_None m v : map_find m v = None <-> ~ In v (map fst m).
Proof.
  induction m as [|[w k] m IH]; simpl; [tauto|].
  destruct (Nat.eqb_spec w v).
  - split; [discriminate|tauto].
  - rewrite IH. tauto.
Qed.

Lemma dinv_found g E v :
  DInv g E -> (In v (invMapping g) <-> exists i, dg_find g v = Some i).
Proof.
  intros D. unfold dg_find. split.
  - intros H. apply In_nth_error in H. destruct H as [i H]. exists i.
    now apply (d_map _ _ D).
  - intros [i H]. apply (d_map _ _ D) in H. eapply nth_error_In; eauto.
Qed.

Lemma dinv_bound g E v i : DInv g E -> dg_find g v = Some i -> i < nVertices g.
Proof.
  intros D H. apply (d_map _ _ D) in H.
  rewrite <- (d_inv _ _ D). apply nth_error_Some. congruence.
Qed.

Lemma dinv_addVertex_new g E v :
  DInv g E -> map_find (mapping g) v = None ->
  exists g', dg_addVertex g v = Ret g' /\ DInv g' E
    /\ invMapping g' = invMapping g ++ [v]
    /\ dg_find g' v = Some (nVertices g)
    /\ nVertices g' = S (nVertices g).
Proof.
  intros D H. unfold dg_addVertex. rewrite H. eexists; split; [reflexivity|].
  destruct D as [dm dk di da din dou dnd den dg_ dod did de].
  assert (NV : forall i, nth_error (invMapping g) i <> Some v).
  { intros i C. apply dm in C. congruence. }
  assert (NI : ~ In v (invMapping g)).
  { intros C. apply In_nth_error in C. destruct C as [i C]. now apply NV in C. }
  split; [|repeat split; simpl; auto].
  2:{ unfold dg_find. simpl. now rewrite Nat.eqb_refl. }
  destruct (sq_grow _ _ da) as [S1 S2].
  assert (NE1 : forall u, inb (u, v) E = false).
  { intros u. apply inb_false. intros C. apply den in C. tauto. }
  assert (NE2 : forall u, inb (v, u) E = false).
  { intros u. apply inb_false. intros C. apply den in C. tauto. }
  assert (F1 : filter (fun e => Nat.eqb (fst e) v) E = []).
  { destruct (filter (fun e => Nat.eqb (fst e) v) E) as [|[a b] r] eqn:Q; auto.
    assert (A : In (a, b) (filter (fun e => Nat.eqb (fst e) v) E)) by (rewrite Q; left; auto).
    apply filter_In in A. destruct A as [A B]. simpl in B. apply Nat.eqb_eq in B; subst.
    apply den in A. tauto. }
  assert (F2 : filter (fun e => Nat.eqb (snd e) v) E = []).
  { destruct (filter (fun e => Nat.eqb (snd e) v) E) as [|[a b] r] eqn:Q; auto.
    assert (A : In (a, b) (filter (fun e => Nat.eqb (snd e) v) E)) by (rewrite Q; left; auto).
    apply filter_In in A. destruct A as [A B]. simpl in B. apply Nat.eqb_eq in B; subst.
    apply den in A. tauto. }
  constructor; simpl.
  - intros w i. rewrite nth_error_snoc, di.
    destruct (Nat.eqb_spec v w).
    + subst. destruct (Nat.ltb_spec i (nVertices g)).
      * split; intros C; [inversion C; lia|now apply NV in C].
      * destruct (Nat.eqb_spec i (nVertices g)); split; intros C; inversion C; subst; auto; lia.
    + rewrite dm. destruct (Nat.ltb_spec i (nVertices g)); [tauto|].
      split; intros C.
      * assert (i < length (invMapping g)) by (apply nth_error_Some; congruence). lia.
      * destruct (Nat.eqb i (nVertices g)); inversion C; congruence.
  - constructor; auto. now apply map_find_None.
  - rewrite app_length; simpl; lia.
  - exact S1.
  - rewrite app_length; simpl; lia.
  - rewrite app_length; simpl; lia.
  - auto.
  - intros a b C. apply den in C. rewrite !in_app_iff. tauto.
  - intros i j a b. rewrite !nth_error_snoc, !di.
    destruct (Nat.ltb_spec i (nVertices g)); intros A B.
    + rewrite S2.
      * destruct (Nat.ltb_spec i (nVertices g)); [|lia].
        destruct (Nat.ltb_spec j (nVertices g)); simpl; auto.
        destruct (Nat.eqb j (nVertices g)); inversion B; subst. now rewrite NE1.
      * lia.
      * destruct (Nat.ltb_spec j (nVertices g)); [lia|].
        destruct (Nat.eqb_spec j (nVertices g)); [lia|discriminate].
    + destruct (Nat.eqb_spec i (nVertices g)); inversion A; subst.
      rewrite S2; [|lia|].
      * destruct (Nat.ltb_spec (nVertices g) (nVertices g)); [lia|]. simpl. now rewrite NE2.
      * destruct (Nat.ltb_spec j (nVertices g)); [lia|].
        destruct (Nat.eqb_spec j (nVertices g)); [lia|discriminate].
  - intros i u. rewrite !nth_error_snoc, di, dou.
    destruct (Nat.ltb_spec i (nVertices g)); auto.
    destruct (Nat.eqb i (nVertices g)); intros A; inversion A; subst. now rewrite F1.
  - intros i u. rewrite !nth_error_snoc, di, din.
    destruct (Nat.ltb_spec i (nVertices g)); auto.
    destruct (Nat.eqb i (nVertices g)); intros A; inversion A; subst. now rewrite F2.
  - auto.
Qed.

Lemma dinv_ensure g E v :
  DInv g E ->
  exists g' ext, ensure dg_find dg_addVertex g v = Ret g' /\ DInv g' E
    /\ invMapping g' = invMapping g ++ ext
    /\ (exists i, dg_find g' v = Some i)
    /\ (forall w, In w ext <-> w = v /\ ~ In v (invMapping g)).
Proof.
  intros D. unfold ensure. destruct (dg_find g v) as [i|] eqn:F.
  - exists g, []. split; [reflexivity|]. split; [auto|].
    split; [now rewrite app_nil_r|]. split; [eauto|].
    intros w. simpl. split; [tauto|].
    intros [_ C]. apply C. apply (dinv_found _ _ _ D); eauto.
  - destruct (dinv_addVertex_new _ _ _ D F) as (g' & A & B & C & G & _).
    exists g', [v]. split; [auto|]. split; [auto|]. split; [auto|]. split; [eauto|].
    intros w. simpl. split.
    + intros [H|[]]; split; auto.
      intros Q. apply (dinv_found _ _ _ D) in Q. destruct Q; congruence.
    + intros [-> _]. left; auto.
Qed.

Lemma dg_find_mono g E g' E' ext v i :
  DInv g E -> DInv g' E' -> invMapping g' = invMapping g ++ ext ->
  dg_find g v = Some i -> dg_find g' v = Some i.
Proof.
  intros D D' H F. apply (d_map _ _ D'). apply (d_map _ _ D) in F.
  rewrite H. rewrite nth_error_app1; auto.
  apply nth_error_Some; congruence.
Qed.

Lemma inv_inj g E i j v : DInv g E ->
  nth_error (invMapping g) i = Some v -> nth_error (invMapping g) j = Some v -> i = j.
Proof.
  intros D A B. apply (d_map _ _ D) in A. apply (d_map _ _ D) in B. congruence.
Qed.

Lemma dinv_nodup g E : DInv g E -> NoDup (invMapping g).
Proof.
  intros D. apply NoDup_nth_error. intros i j Hi H.
  destruct (nth_error (invMapping g) i) eqn:A.
  - symmetry in H. eapply inv_inj; eauto.
  - apply nth_error_None in A. lia.
Qed.

Lemma dinv_insert g E u v i j :
  DInv g E -> dg_find g u = Some i -> dg_find g v = Some j ->
  exists g', dg_insert g i j = Ret g'
    /\ DInv g' (if inb (u, v) E then E else (u, v) :: E)
    /\ invMapping g' = invMapping g /\ mapping g' = mapping g
    /\ nVertices g' = nVertices g.
Proof.
  intros D Fu Fv.
  pose proof (dinv_bound _ _ _ _ D Fu) as Bi.
  pose proof (dinv_bound _ _ _ _ D Fv) as Bj.
  assert (Iu : nth_error (invMapping g) i = Some u) by now apply (d_map _ _ D).
  assert (Iv : nth_error (invMapping g) j = Some v) by now apply (d_map _ _ D).
  unfold dg_insert. rewrite (d_get _ _ D _ _ _ _ Iu Iv).
  destruct (inb (u, v) E) eqn:Q.
  - exists g. split; [reflexivity|]. split; [exact D|]. auto.
  - destruct (sq_set _ _ i j true (d_adj _ _ D) Bi Bj) as (m' & M1 & M2 & M3).
    rewrite M1.
    destruct (incr_spec (outDegrees g) i) as (od & O1 & O2 & O3);
      [now rewrite (d_out _ _ D)|].
    destruct (incr_spec (inDegrees g) j) as (id & I1 & I2 & I3);
      [now rewrite (d_in _ _ D)|].
    rewrite O1, I1. eexists; split; [reflexivity|].
    split; [|simpl; auto].
    pose proof D as D0.
    destruct D as [dm dk di da din dou dnd den dg_ dod did de].
    constructor; simpl; auto; try lia.
    + constructor; auto. now apply inb_false.
    + intros a b [C|C].
      * inversion C; subst. split; eapply nth_error_In; eauto.
      * now apply den.
    + intros k l a b A B. rewrite M3. rewrite inb_cons.
      destruct (pair_dec (u, v) (a, b)) as [e|e].
      * inversion e; subst.
        rewrite (inv_inj _ _ _ _ _ D0 A Iu), (inv_inj _ _ _ _ _ D0 B Iv).
        now rewrite !Nat.eqb_refl.
      * destruct (Nat.eqb_spec k i); simpl; [|now apply dg_].
        destruct (Nat.eqb_spec l j); simpl; [|now apply dg_].
        subst. congruence.
    + intros k a A. rewrite O3. destruct (Nat.eqb_spec u a).
      * subst. rewrite (inv_inj _ _ _ _ _ D0 A Iu). rewrite Nat.eqb_refl.
        rewrite (dod _ _ Iu). reflexivity.
      * destruct (Nat.eqb_spec k i); [subst; congruence|]. now apply dod.
    + intros k a A. rewrite I3. destruct (Nat.eqb_spec v a).
      * subst. rewrite (inv_inj _ _ _ _ _ D0 A Iv). rewrite Nat.eqb_refl.
        rewrite (did _ _ Iv). reflexivity.
      * destruct (Nat.eqb_spec k j); [subst; congruence|]. now apply did.
Qed.

Lemma dinv_addEdge g E u v :
  DInv g E ->
  exists g' ext, dg_addEdge g u v = Ret g'
    /\ DInv g' (if inb (u, v) E then E else (u, v) :: E)
    /\ invMapping g' = invMapping g ++ ext
    /\ (forall w, In w (invMapping g') <-> In w (invMapping g) \/ w = u \/ w = v).
Proof.
  intros D. unfold dg_addEdge.
  destruct (dinv_ensure _ _ u D) as (g1 & e1 & A1 & D1 & X1 & (iu & F1) & Y1).
  rewrite A1.
  destruct (dinv_ensure _ _ v D1) as (g2 & e2 & A2 & D2 & X2 & (iv & F2) & Y2).
  rewrite A2.
  pose proof (dg_find_mono _ _ _ _ _ _ _ D1 D2 X2 F1) as F1'.
  rewrite F1', F2.
  destruct (dinv_insert _ _ _ _ _ _ D2 F1' F2) as (g' & B1 & B2 & B3 & B4 & _).
  exists g', (e1 ++ e2). split; auto. split; auto. split.
  - rewrite B3, X2, X1. now rewrite app_assoc.
  - intros w. rewrite B3, X2, X1, !in_app_iff. rewrite Y2, X1, Y1, !in_app_iff, Y1.
    destruct (in_dec Nat.eq_dec u (invMapping g));
    destruct (in_dec Nat.eq_dec v (invMapping g));
    destruct (Nat.eq_dec v u); subst; intuition (subst; auto).
Qed.

(** ** Histories of the plain graph *)

Lemma runs_app {G} (ap : G -> gop -> outcome G G) o1 o2 g :
  runs ap (o1 ++ o2) g =
  match runs ap o1 g with Some g' => runs ap o2 g' | None => None end.
Proof.
  revert g; induction o1; simpl; intros; auto.
  destruct (ap g a); auto.
Qed.

Lemma mentions_app a b : mentions (a ++ b) = mentions a ++ mentions b.
Proof. induction a as [|[v|u v] a IH]; simpl; auto; now rewrite IH. Qed.

Lemma inserted_app a b : inserted (a ++ b) = inserted a ++ inserted b.
Proof. induction a as [|[v|u v] a IH]; simpl; auto; now rewrite IH. Qed.

Lemma dg_run_inv ops :
  exists g E, dg_run ops dg_empty = Some g /\ DInv g E
    /\ (forall e, In e E <-> In e (inserted ops))
    /\ (forall v, In v (invMapping g) <-> In v (mentions ops)).
Proof.
  induction ops as [|o ops IH] using rev_ind.
  - exists dg_empty, []. repeat split; simpl; auto; apply dinv_empty.
  - destruct IH as (g & E & R & D & HE & HV).
    unfold dg_run in *. rewrite runs_app, R.
    rewrite mentions_app, inserted_app.
    destruct o as [v|u v]; simpl.
    + unfold dg_apply. destruct (map_find (mapping g) v) as [i|] eqn:F.
      * exists g, E. unfold dg_addVertex. rewrite F. rewrite app_nil_r.
        split; [reflexivity|]. split; [auto|]. split; [auto|].
        intros w. rewrite in_app_iff, HV. simpl. split; [auto|].
        intros [C|[C|[]]]; auto. subst. apply HV. apply (dinv_found _ _ _ D). eauto.
      * destruct (dinv_addVertex_new _ _ _ D F) as (g' & A & B & C & _).
        rewrite A. exists g', E. rewrite app_nil_r.
        split; [reflexivity|]. split; auto. split; auto.
        intros w. rewrite C, !in_app_iff, HV. tauto.
    + destruct (dinv_addEdge _ _ u v D) as (g' & ext & A & B & C & F).
      rewrite A. eexists g', _. split; [reflexivity|]. split; [exact B|]. split.
      * intros e. rewrite in_app_iff, <- HE. simpl.
        destruct (inb (u, v) E) eqn:Q.
        -- apply inb_true in Q. split; [auto|]. intros [X|[<-|[]]]; auto.
        -- simpl. tauto.
      * intros w. rewrite F, HV, in_app_iff. simpl. intuition auto.
Qed.

(** Consequences in client terms. *)

Lemma nodup_length_eq {A} (dec : forall a b : A, {a = b} + {a <> b}) l E :
  NoDup E -> (forall e, In e E <-> In e l) -> length E = length (nodup dec l).
Proof.
  intros N H. apply Permutation_length. apply NoDup_Permutation; auto.
  - apply NoDup_nodup.
  - intros x. rewrite nodup_In. auto.
Qed.

Lemma filter_nodup_length {A} (dec : forall a b : A, {a = b} + {a <> b}) f l E :
  NoDup E -> (forall e, In e E <-> In e l) ->
  length (filter f E) = length (filter f (nodup dec l)).
Proof.
  intros N H. apply Permutation_length. apply NoDup_Permutation.
  - now apply NoDup_filter.
  - apply NoDup_filter, NoDup_nodup.
  - intros x. rewrite !filter_In, nodup_In, H. tauto.
Qed.

Lemma c51_counts ops :
  exists g, dg_run ops dg_empty = Some g
    /\ dg_getNVertices g = length (distinct_vertices ops)
    /\ dg_getNEdges g = length (distinct_edges ops)
    /\ NoDup (dg_getVertices g)
    /\ (forall v, In v (dg_getVertices g) <-> In v (mentions ops)).
Proof.
  destruct (dg_run_inv ops) as (g & E & R & D & HE & HV).
  exists g. split; auto. repeat split.
  - unfold dg_getNVertices. rewrite <- (d_inv _ _ D).
    apply nodup_length_eq; auto. eapply dinv_nodup; eauto.
  - unfold dg_getNEdges. rewrite (d_edges _ _ D).
    apply nodup_length_eq; auto. apply D.
  - apply D.
  - intros C. apply HV. apply (dinv_found _ _ _ D). unfold dg_find.
    destruct (map_find (mapping g) v) eqn:F; eauto.
    apply map_find_None in F. tauto.
  - intros C. apply HV in C. apply (dinv_found _ _ _ D) in C. destruct C as [i C].
    apply map_find_In in C. apply in_map_iff. exists (v, i); auto.
Qed.

Lemma c51_queries ops g u v :
  dg_run ops dg_empty = Some g ->
  (In u (mentions ops) -> In v (mentions ops) ->
     exists b, dg_isEdge g u v = Ret b /\ (b = true <-> In (u, v) (inserted ops)))
  /\ (~ In u (mentions ops) \/ ~ In v (mentions ops) -> dg_isEdge g u v = Exn tt)
  /\ (In v (mentions ops) ->
       dg_getOutDegree g v
         = Ret (length (filter (fun e => Nat.eqb (fst e) v) (distinct_edges ops)))
       /\ dg_getInDegree g v
         = Ret (length (filter (fun e => Nat.eqb (snd e) v) (distinct_edges ops))))
  /\ (~ In v (mentions ops) ->
       dg_getOutDegree g v = Exn tt /\ dg_getInDegree g v = Exn tt).
Proof.
  intros R. destruct (dg_run_inv ops) as (g' & E & R' & D & HE & HV).
  rewrite R in R'. inversion R'; subst g'.
  assert (K : forall w, In w (mentions ops) -> exists i, dg_find g w = Some i).
  { intros w H. apply HV in H. now apply (dinv_found _ _ _ D). }
  assert (K' : forall w, ~ In w (mentions ops) -> dg_find g w = None).
  { intros w H. destruct (dg_find g w) eqn:F; auto. destruct H. apply HV.
    apply (dinv_found _ _ _ D). eauto. }
  repeat split.
  - intros A B. destruct (K _ A) as [i Fi], (K _ B) as [j Fj].
    unfold dg_isEdge. rewrite Fi, Fj.
    apply (d_map _ _ D) in Fi. apply (d_map _ _ D) in Fj.
    rewrite (d_get _ _ D _ _ _ _ Fi Fj). eexists; split; [reflexivity|].
    rewrite inb_true. apply HE.
  - intros [A|A]; unfold dg_isEdge.
    + now rewrite (K' _ A).
    + rewrite (K' _ A). now destruct (dg_find g u).
  - destruct (K _ H) as [i Fi]. unfold dg_getOutDegree. rewrite Fi.
    apply (d_map _ _ D) in Fi. unfold vget. rewrite (d_odeg _ _ D _ _ Fi).
    f_equal. apply filter_nodup_length; auto. apply D.
  - destruct (K _ H) as [i Fi]. unfold dg_getInDegree. rewrite Fi.
    apply (d_map _ _ D) in Fi. unfold vget. rewrite (d_ideg _ _ D _ _ Fi).
    f_equal. apply filter_nodup_length; auto. apply D.
  - unfold dg_getOutDegree. now rewrite K'.
  - unfold dg_getInDegree. now rewrite K'.
Qed.

Lemma c51_duplicates ops g v :
  dg_run ops dg_empty = Some g ->
  (dg_addVertex g v = Exn g <-> In v (mentions ops))
  /\ forall w, exists g', dg_addEdge g v w = Ret g'.
Proof.
  intros R. destruct (dg_run_inv ops) as (g' & E & R' & D & HE & HV).
  rewrite R in R'. inversion R'; subst g'. split.
  - rewrite <- HV, (dinv_found _ _ _ D). unfold dg_addVertex, dg_find.
    destruct (map_find (mapping g) v); split; intros H; eauto; try discriminate.
    destruct H; discriminate.
  - intros w. destruct (dinv_addEdge _ _ v w D) as (g' & _ & A & _). eauto.
Qed.
