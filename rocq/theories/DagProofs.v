(** Proofs about directed acyclic graphs. *)
From Coq Require Import List Arith Bool Lia Relations Permutation.
From Verif Require Import GraphModel GraphSpec GraphProofs.
Import ListNotations.

Definition gb (m : list (list bool)) (i j : nat) : bool :=
  match mget m i j with Some true => true | _ => false end.

Lemma gb_get n m i j : sq n m -> i < n -> j < n -> mget m i j = Some (gb m i j).
Proof.
  intros S Hi Hj. destruct (sq_get _ _ _ _ S Hi Hj) as [b Hb].
  unfold gb. rewrite Hb. now destruct b.
Qed.

Lemma sq_set_gb n m i j b :
  sq n m -> i < n -> j < n ->
  exists m', mset m i j b = Some m' /\ sq n m'
    /\ forall k l, gb m' k l = if Nat.eqb k i && Nat.eqb l j then b else gb m k l.
Proof.
  intros S Hi Hj. destruct (sq_set _ _ _ _ b S Hi Hj) as (m' & A & B & C).
  exists m'. repeat split; auto; try apply B.
  intros k l. unfold gb. rewrite C. destruct (_ && _); auto. now destruct b.
Qed.

(** ** The update of the closure matrix *)

Definition memb (k : nat) (l : list nat) : bool := existsb (Nat.eqb k) l.

Lemma memb_seq k n : k < n -> memb k (seq 0 n) = true.
Proof.
  intros H. unfold memb. apply existsb_exists. exists k. split.
  - apply in_seq. lia.
  - apply Nat.eqb_refl.
Qed.

Lemma memb_app k l x : memb k (l ++ [x]) = memb k l || Nat.eqb k x.
Proof. unfold memb. rewrite existsb_app. simpl. now rewrite orb_false_r. Qed.

Lemma close_fold n c i j ks :
  sq n c -> i < n -> j < n -> i <> j -> gb c j i = false ->
  (forall k, In k ks -> k < n) ->
  exists m, fold_left (close_step i j) ks (Some c) = Some m /\ sq n m
    /\ forall k l, gb m k l =
        gb c k l || (Nat.eqb l j && memb k ks && gb c k i)
                 || (Nat.eqb k i && memb l ks && gb c j l).
Proof.
  intros S Hi Hj Hne Hji. induction ks as [|x ks IH] using rev_ind; intros Hks.
  - exists c. repeat split; auto; try apply S. intros k l. simpl.
    now rewrite !andb_false_r, !orb_false_r.
  - destruct IH as (m & F & Sm & G); [intros; apply Hks; apply in_or_app; auto|].
    assert (Hx : x < n) by (apply Hks; apply in_or_app; simpl; auto).
    rewrite fold_left_app, F. simpl.
    rewrite (gb_get _ _ _ _ Sm Hx Hi).
    assert (Gi : forall k, gb m k i = gb c k i).
    { intros k. rewrite G. destruct (Nat.eqb_spec i j); [congruence|].
      rewrite Hji. simpl. now rewrite !andb_false_r, !orb_false_r. }
    assert (Gj : forall l, gb m j l = gb c j l).
    { intros l. rewrite G. destruct (Nat.eqb_spec j i); [congruence|].
      rewrite Hji. simpl. now rewrite !andb_false_r, !orb_false_r. }
    rewrite Gi.
    assert (K1 : exists m1, (if gb c x i then mset m x j true else Some m) = Some m1
             /\ sq n m1 /\ forall k l, gb m1 k l = gb m k l || (Nat.eqb k x && Nat.eqb l j && gb c x i)).
    { destruct (gb c x i) eqn:Q.
      - destruct (sq_set_gb _ _ x j true Sm Hx Hj) as (m1 & A & B & C).
        exists m1. repeat split; auto; try apply B. intros. rewrite C.
        destruct (_ && _); now rewrite ?orb_true_r, ?orb_false_r.
      - exists m. repeat split; auto; try apply Sm. intros.
        now rewrite andb_false_r, orb_false_r. }
    destruct K1 as (m1 & E1 & S1 & G1). rewrite E1.
    rewrite (gb_get _ _ _ _ S1 Hj Hx).
    assert (J1 : gb m1 j x = gb c j x).
    { rewrite G1, Gj. destruct (Nat.eqb_spec j x); simpl; [|now rewrite orb_false_r].
      subst x. rewrite Hji. now rewrite andb_false_r, orb_false_r. }
    rewrite J1.
    assert (K2 : exists m2, (if gb c j x then mset m1 i x true else Some m1) = Some m2
             /\ sq n m2 /\ forall k l, gb m2 k l = gb m1 k l || (Nat.eqb k i && Nat.eqb l x && gb c j x)).
    { destruct (gb c j x) eqn:Q.
      - destruct (sq_set_gb _ _ i x true S1 Hi Hx) as (m2 & A & B & C).
        exists m2. repeat split; auto; try apply B. intros. rewrite C.
        destruct (_ && _); now rewrite ?orb_true_r, ?orb_false_r.
      - exists m1. repeat split; auto; try apply S1. intros.
        now rewrite andb_false_r, orb_false_r. }
    destruct K2 as (m2 & E2 & S2 & G2). exists m2. rewrite E2.
    split; [reflexivity|]. split; [auto|].
    intros k l. rewrite G2, G1, G, !memb_app.
    destruct (Nat.eqb_spec k x); destruct (Nat.eqb_spec l x);
      destruct (Nat.eqb_spec l j); destruct (Nat.eqb_spec k i); subst; simpl;
      rewrite ?andb_true_r, ?andb_false_r, ?orb_true_r, ?orb_false_r, ?orb_true_r; simpl;
      try reflexivity; try congruence;
      repeat match goal with
      | |- context [gb c ?a ?b] => destruct (gb c a b)
      | |- context [memb ?a ?b] => destruct (memb a b)
      end; reflexivity.
Qed.

(** ** The invariant *)

Definition rE (E : list (V * V)) := reach (edges_rel E).

Record GInv (g : dag) (E : list (V * V)) : Prop := {
  g_base : DInv (base g) E;
  g_sq : sq (nVertices (base g)) (closureMatrix g);
  g_refl : forall i, i < nVertices (base g) -> gb (closureMatrix g) i i = true;
  g_sound : forall i j u v, nth_error (invMapping (base g)) i = Some u ->
     nth_error (invMapping (base g)) j = Some v ->
     gb (closureMatrix g) i j = true -> rE E u v
}.

Definition Complete (g : dag) (E : list (V * V)) : Prop :=
  forall i j u v, nth_error (invMapping (base g)) i = Some u ->
     nth_error (invMapping (base g)) j = Some v ->
     rE E u v -> gb (closureMatrix g) i j = true.

Lemma ginv_empty : GInv dag_empty [].
Proof.
  constructor; simpl.
  - apply dinv_empty.
  - split; simpl; auto. intros i row H; destruct i; discriminate.
  - intros; lia.
  - intros i j u v H; destruct i; discriminate.
Qed.

Lemma complete_empty : Complete dag_empty [].
Proof. intros i j u v H; simpl in H; destruct i; discriminate. Qed.

Lemma nth_Some_lt {A} (l : list A) i x : nth_error l i = Some x -> i < length l.
Proof. intros H. apply nth_error_Some. congruence. Qed.

Lemma reach_isolated E v w :
  (forall a b, In (a, b) E -> b <> v) -> rE E w v -> w = v.
Proof.
  intros H R. unfold rE, reach in R. apply clos_rt_rtn1 in R.
  inversion R; subst; auto. exfalso. eapply H; eauto.
Qed.

Lemma reach_dead E v w :
  (forall a b, In (a, b) E -> a <> v) -> rE E v w -> w = v.
Proof.
  intros H R. unfold rE, reach in R. apply clos_rt_rt1n in R.
  inversion R; subst; auto. exfalso. eapply H; eauto.
Qed.

Lemma ginv_addVertex_new g E v :
  GInv g E -> dag_find g v = None ->
  exists g', dag_addVertex g v = Ret g' /\ GInv g' E
    /\ invMapping (base g') = invMapping (base g) ++ [v]
    /\ dg_addVertex (base g) v = Ret (base g')
    /\ dag_find g' v = Some (nVertices (base g))
    /\ (Complete g E -> Complete g' E).
Proof.
  intros [D S Rf So] F.
  destruct (dinv_addVertex_new _ _ _ D F) as (b & A & B & C & G & N).
  unfold dag_addVertex. rewrite A, G.
  destruct (sq_grow _ _ S) as [S1 S2]. rewrite N.
  assert (Hn : nVertices (base g) < Datatypes.S (nVertices (base g))) by lia.
  destruct (sq_set_gb _ _ (nVertices (base g)) (nVertices (base g)) true S1 Hn Hn)
    as (c & C1 & C2 & C3).
  rewrite C1. eexists. split; [reflexivity|].
  assert (L : length (invMapping (base g)) = nVertices (base g)) by apply D.
  assert (Dold : forall a b', In (a, b') E -> a <> v /\ b' <> v).
  { intros a b' H. apply (d_ends _ _ D) in H.
    assert (~ In v (invMapping (base g))).
    { rewrite (dinv_found _ _ _ D). intros [i Q]. unfold dag_find in F. congruence. }
    split; intros ->; tauto. }
  assert (GB : forall i j, i < Datatypes.S (nVertices (base g)) -> j < Datatypes.S (nVertices (base g)) ->
     gb c i j = if Nat.ltb i (nVertices (base g)) && Nat.ltb j (nVertices (base g))
                then gb (closureMatrix g) i j
                else Nat.eqb i (nVertices (base g)) && Nat.eqb j (nVertices (base g))).
  { intros i j Hi Hj. rewrite C3. unfold gb. rewrite (S2 _ _ Hi Hj).
    destruct (Nat.eqb_spec i (nVertices (base g)));
    destruct (Nat.eqb_spec j (nVertices (base g)));
    destruct (Nat.ltb_spec i (nVertices (base g)));
    destruct (Nat.ltb_spec j (nVertices (base g))); simpl; auto; try lia. }
  split.
  - constructor; simpl; auto.
    + now rewrite N.
    + intros i Hi. rewrite GB by lia.
      destruct (Nat.ltb_spec i (nVertices (base g))); simpl.
      * now apply Rf.
      * rewrite (proj2 (Nat.eqb_eq _ _)) by lia. reflexivity.
    + intros i j u w Hu Hw. rewrite C in Hu, Hw.
      pose proof (nth_Some_lt _ _ _ Hu) as Li. pose proof (nth_Some_lt _ _ _ Hw) as Lj.
      rewrite app_length in Li, Lj. simpl in Li, Lj.
      rewrite nth_error_snoc, L in Hu, Hw.
      rewrite GB by lia.
      destruct (Nat.ltb_spec i (nVertices (base g))); destruct (Nat.ltb_spec j (nVertices (base g))); simpl.
      * eauto.
      * destruct (Nat.eqb_spec i (nVertices (base g))); [lia|discriminate].
      * destruct (Nat.eqb_spec j (nVertices (base g))); [lia|].
        rewrite andb_false_r. discriminate.
      * destruct (Nat.eqb_spec i (nVertices (base g))); [|lia].
        destruct (Nat.eqb_spec j (nVertices (base g))); [|lia].
        intros _. inversion Hu; inversion Hw; subst. apply rt_refl.
  - split; [auto|]. split; [auto|]. split; [auto|].
    intros Co i j u w. simpl. intros Hu Hw R.
    rewrite C in Hu, Hw.
    pose proof (nth_Some_lt _ _ _ Hu) as Li. pose proof (nth_Some_lt _ _ _ Hw) as Lj.
    rewrite app_length in Li, Lj. simpl in Li, Lj.
    rewrite nth_error_snoc, L in Hu, Hw.
    rewrite GB by lia.
    destruct (Nat.ltb_spec i (nVertices (base g))); destruct (Nat.ltb_spec j (nVertices (base g))); simpl.
    + eauto.
    + destruct (Nat.eqb_spec j (nVertices (base g))); [|lia].
      inversion Hw; subst w.
      assert (u = v) by (eapply reach_isolated; [|exact R]; intros a b' X; apply Dold in X; tauto).
      subst u. apply nth_error_In in Hu.
      apply (dinv_found _ _ _ D) in Hu. destruct Hu. unfold dag_find in F. congruence.
    + destruct (Nat.eqb_spec i (nVertices (base g))); [|lia].
      inversion Hu; subst u.
      assert (w = v) by (eapply reach_dead; [|exact R]; intros a b' X; apply Dold in X; tauto).
      subst w. apply nth_error_In in Hw.
      apply (dinv_found _ _ _ D) in Hw. destruct Hw. unfold dag_find in F. congruence.
    + rewrite !(proj2 (Nat.eqb_eq _ _)) by lia. reflexivity.
Qed.

Lemma ginv_ensure g E v :
  GInv g E ->
  exists g' ext, ensure dag_find dag_addVertex g v = Ret g' /\ GInv g' E
    /\ invMapping (base g') = invMapping (base g) ++ ext
    /\ (exists i, dag_find g' v = Some i)
    /\ (forall w, In w ext <-> w = v /\ ~ In v (invMapping (base g)))
    /\ (Complete g E -> Complete g' E).
Proof.
  intros D. unfold ensure. destruct (dag_find g v) as [i|] eqn:F.
  - exists g, []. split; [reflexivity|]. split; [auto|].
    split; [now rewrite app_nil_r|]. split; [eauto|]. split; [|auto].
    intros w. simpl. split; [tauto|].
    intros [_ C]. apply C. apply (dinv_found _ _ _ (g_base _ _ D)); eauto.
  - destruct (ginv_addVertex_new _ _ _ D F) as (g' & A & B & C & _ & G & K).
    exists g', [v]. split; [auto|]. split; [auto|]. split; [auto|]. split; [eauto|].
    split; [|auto]. intros w. simpl. split.
    + intros [H|[]]; split; auto.
      intros Q. apply (dinv_found _ _ _ (g_base _ _ D)) in Q. destruct Q.
      unfold dag_find in F. congruence.
    + intros [-> _]. left; auto.
Qed.

Lemma reach_mono E e a b : rE E a b -> rE (e :: E) a b.
Proof.
  intros R. induction R.
  - apply rt_step. right; auto.
  - apply rt_refl.
  - eapply rt_trans; eauto.
Qed.

Lemma reach_add E u v a b :
  rE ((u, v) :: E) a b <-> rE E a b \/ (rE E a u /\ rE E v b).
Proof.
  split.
  - intros R. apply clos_rt_rtn1 in R. induction R as [|y z H R IH].
    + left. apply rt_refl.
    + destruct H as [H|H].
      * inversion H; subst. destruct IH as [IH|[A B]].
        -- right. split; auto. apply rt_refl.
        -- right. split; auto. apply rt_refl.
      * destruct IH as [IH|[A B]].
        -- left. eapply rt_trans; [exact IH|]. now apply rt_step.
        -- right. split; auto. eapply rt_trans; [exact B|]. now apply rt_step.
  - intros [R|[A B]].
    + now apply reach_mono.
    + eapply rt_trans; [apply reach_mono; exact A|].
      eapply rt_trans; [|apply reach_mono; exact B].
      apply rt_step. left; auto.
Qed.

Lemma dg_addEdge_known g E u v i j :
  DInv g E -> dg_find g u = Some i -> dg_find g v = Some j ->
  exists b, dg_addEdge g u v = Ret b
    /\ DInv b (if inb (u, v) E then E else (u, v) :: E)
    /\ invMapping b = invMapping g /\ nVertices b = nVertices g.
Proof.
  intros D Fu Fv. unfold dg_addEdge, ensure. rewrite Fu, Fv, Fu, ?Fv.
  destruct (dinv_insert _ _ _ _ _ _ D Fu Fv) as (b & A & B & C & _ & N).
  exists b. split; [exact A|]. split; [exact B|]. auto.
Qed.

(** What [addEdge] does, in one statement. *)
Lemma ginv_addEdge g E u v :
  GInv g E ->
  exists g2, invMapping (base g2) = invMapping (base g2)
   /\ GInv g2 E
   /\ (forall w, In w (invMapping (base g2)) <-> In w (invMapping (base g)) \/ w = u \/ w = v)
   /\ (Complete g E -> Complete g2 E)
   /\ ((dag_addEdge g u v = Exn g2 /\ rE E v u)
       \/ (exists g3 E', dag_addEdge g u v = Ret g3 /\ GInv g3 E'
            /\ E' = (if inb (u, v) E then E else (u, v) :: E)
            /\ invMapping (base g3) = invMapping (base g2)
            /\ (Complete g E -> ~ rE E v u)
            /\ (Complete g E ->
                (forall w, ~ In (v, w) E) \/ (forall w, ~ In (w, u) E) ->
                Complete g3 E'))).
Proof.
  intros D.
  destruct (ginv_ensure _ _ u D) as (g1 & e1 & A1 & D1 & X1 & (iu & F1) & Y1 & C1).
  destruct (ginv_ensure _ _ v D1) as (g2 & e2 & A2 & D2 & X2 & (iv & F2) & Y2 & C2).
  pose proof (dg_find_mono _ _ _ _ _ _ _ (g_base _ _ D1) (g_base _ _ D2) X2 F1) as F1'.
  exists g2. split; auto. split; auto. split.
  { intros w. rewrite X2, X1, !in_app_iff. rewrite Y2, X1, Y1, !in_app_iff, Y1.
    destruct (in_dec Nat.eq_dec u (invMapping (base g)));
    destruct (in_dec Nat.eq_dec v (invMapping (base g)));
    destruct (Nat.eq_dec v u); subst; intuition (subst; auto). }
  split; [auto|].
  unfold dag_addEdge. rewrite A1, A2. change (dag_find g2 u = Some iu) in F1'. rewrite F1', F2.
  pose proof (dinv_bound _ _ _ _ (g_base _ _ D2) F1') as Bi.
  pose proof (dinv_bound _ _ _ _ (g_base _ _ D2) F2) as Bj.
  assert (Iu : nth_error (invMapping (base g2)) iu = Some u) by now apply (d_map _ _ (g_base _ _ D2)).
  assert (Iv : nth_error (invMapping (base g2)) iv = Some v) by now apply (d_map _ _ (g_base _ _ D2)).
  rewrite (gb_get _ _ _ _ (g_sq _ _ D2) Bj Bi).
  destruct (gb (closureMatrix g2) iv iu) eqn:Q.
  { left. split; [reflexivity|]. eapply (g_sound _ _ D2); eauto. }
  right.
  assert (Hne : iu <> iv).
  { intros ->. rewrite (g_refl _ _ D2) in Q; [discriminate|auto]. }
  destruct (dg_addEdge_known _ _ _ _ _ _ (g_base _ _ D2) F1' F2) as (b & B1 & B2 & B3 & B4).
  rewrite B1, B4.
  destruct (close_fold _ (closureMatrix g2) iu iv (seq 0 (nVertices (base g2)))
              (g_sq _ _ D2) Bi Bj Hne Q) as (m & M1 & M2 & M3).
  { intros k Hk. apply in_seq in Hk. lia. }
  rewrite M1. eexists _, _. split; [reflexivity|].
  assert (M4 : forall k l, k < nVertices (base g2) -> l < nVertices (base g2) ->
     gb m k l = gb (closureMatrix g2) k l
        || (Nat.eqb l iv && gb (closureMatrix g2) k iu)
        || (Nat.eqb k iu && gb (closureMatrix g2) iv l)).
  { intros k l Hk Hl. rewrite M3, !memb_seq by auto. now rewrite !andb_true_r. }
  assert (LT : forall i w, nth_error (invMapping (base g2)) i = Some w -> i < nVertices (base g2)).
  { intros i w H. rewrite <- (d_inv _ _ (g_base _ _ D2)). eapply nth_Some_lt; eauto. }
  set (E' := if inb (u, v) E then E else (u, v) :: E) in *.
  assert (RE' : forall a b', rE E' a b' <-> rE E a b' \/ (rE E a u /\ rE E v b')).
  { intros a b'. unfold E'. destruct (inb (u, v) E) eqn:W.
    - split; auto. intros [H|[H1 H2]]; auto.
      eapply rt_trans; [exact H1|]. eapply rt_trans; [|exact H2].
      apply rt_step. now apply inb_true.
    - apply reach_add. }
  split; [|split; [reflexivity|split; [simpl; auto|split]]].
  - constructor; simpl.
    + exact B2.
    + now rewrite B4.
    + rewrite B4. intros i Hi. rewrite M4 by auto. now rewrite (g_refl _ _ D2).
    + rewrite B3. intros i j a b' Ha Hb H.
      rewrite M4 in H by eauto.
      apply RE'. apply orb_true_iff in H. destruct H as [H|H].
      apply orb_true_iff in H. destruct H as [H|H].
      * left. eapply (g_sound _ _ D2); eauto.
      * apply andb_true_iff in H. destruct H as [H1 H2]. apply Nat.eqb_eq in H1. subst j.
        right. split.
        -- eapply (g_sound _ _ D2); eauto.
        -- replace b' with v by congruence. apply rt_refl.
      * apply andb_true_iff in H. destruct H as [H1 H2]. apply Nat.eqb_eq in H1. subst i.
        right. split.
        -- replace a with u by congruence. apply rt_refl.
        -- eapply (g_sound _ _ D2); eauto.
  - intros Co R. apply C1, C2 in Co. rewrite (Co _ _ _ _ Iv Iu R) in Q. discriminate.
  - intros Co G. apply C1, C2 in Co.
    intros i j a b'. simpl. rewrite B3. intros Ha Hb R.
    rewrite M4 by eauto. apply RE' in R. destruct R as [R|[R1 R2]].
    + now rewrite (Co _ _ _ _ Ha Hb R).
    + destruct G as [G|G].
      * assert (b' = v) by (eapply reach_dead; [|exact R2]; intros x y X ->; eapply G; eauto).
        subst b'. rewrite (inv_inj _ _ _ _ _ (g_base _ _ D2) Hb Iv).
        rewrite Nat.eqb_refl, (Co _ _ _ _ Ha Iu R1). simpl. now rewrite orb_true_r.
      * assert (a = u) by (eapply reach_isolated; [|exact R1]; intros x y X ->; eapply G; eauto).
        subst a. rewrite (inv_inj _ _ _ _ _ (g_base _ _ D2) Ha Iu).
        rewrite Nat.eqb_refl, (Co _ _ _ _ Iv Hb R2). simpl. now rewrite orb_true_r.
Qed.

(** ** Histories *)

Lemma dag_run_inv ops :
  exists g E, dag_run ops dag_empty = Some g /\ GInv g E
    /\ (forall e, In e E -> In e (inserted ops))
    /\ (forall v, In v (invMapping (base g)) <-> In v (mentions ops))
    /\ (rim ops -> Complete g E
         /\ exists A, accepts ops A /\ (forall e, In e A <-> In e E)
         /\ acyclic (edges_rel E)).
Proof.
  induction ops as [|o ops IH] using rev_ind.
  - exists dag_empty, []. split; [reflexivity|]. split; [apply ginv_empty|].
    split; [simpl; auto|]. split; [simpl; tauto|]. intros _.
    split; [apply complete_empty|]. exists []. split; [constructor|]. split; [tauto|].
    intros v C. apply clos_trans_t1n in C. inversion C as [? H|? ? H]; inversion H.
  - destruct IH as (g & E & R & D & HE & HV & HR).
    assert (RIM : rim (ops ++ [o]) -> rim ops).
    { intros H pre u v post EQ. eapply (H pre u v (post ++ [o])). rewrite EQ.
      rewrite <- app_assoc. reflexivity. }
    unfold dag_run in *. rewrite runs_app, R.
    rewrite mentions_app, inserted_app.
    destruct o as [v|u v]; simpl.
    + rewrite app_nil_r. destruct (dag_find g v) as [i|] eqn:F.
      * exists g, E.
        assert (X : dag_addVertex g v = Exn g).
        { unfold dag_addVertex, dg_addVertex. unfold dag_find, dg_find in F. rewrite F.
          now destruct g. }
        rewrite X. split; [reflexivity|]. split; [auto|]. split; [auto|]. split.
        -- intros w. rewrite in_app_iff, HV. simpl. split; [auto|].
           intros [C|[C|[]]]; auto. subst. apply HV.
           apply (dinv_found _ _ _ (g_base _ _ D)). eauto.
        -- intros Hr. destruct (HR (RIM Hr)) as (Co & A & Ac & Q).
           split; auto. exists A. split; auto. now constructor.
      * destruct (ginv_addVertex_new _ _ _ D F) as (g' & A & B & C & _ & _ & K).
        rewrite A. exists g', E.
        split; [reflexivity|]. split; auto. split; auto. split.
        -- intros w. rewrite C, !in_app_iff, HV. tauto.
        -- intros Hr. destruct (HR (RIM Hr)) as (Co & A' & Ac & Q).
           split; auto. exists A'. split; auto. now constructor.
    + destruct (ginv_addEdge _ _ u v D) as (g2 & _ & D2 & HV2 & K2 & [[X RX]|X]).
      * rewrite X. exists g2, E. split; [reflexivity|]. split; [auto|]. split.
        { intros e He. apply in_or_app. auto. }
        split.
        { intros w. rewrite HV2, HV, in_app_iff. simpl. intuition auto. }
        intros Hr. destruct (HR (RIM Hr)) as (Co & A' & Ac & EQ & Q).
        split; auto. exists A'. split; auto. apply acc_refused; auto.
        clear - RX EQ. unfold rE in RX. induction RX.
        -- apply rt_step. now apply EQ.
        -- apply rt_refl.
        -- eapply rt_trans; eauto.
      * destruct X as (g3 & E' & X & D3 & EQ' & I3 & N & K3).
        rewrite X. exists g3, E'. split; [reflexivity|]. split; [auto|]. split.
        { intros e He. apply in_or_app. rewrite EQ' in He.
          destruct (inb (u, v) E); [auto|]. destruct He as [<-|He]; simpl; auto. }
        split.
        { intros w. rewrite I3, HV2, HV, in_app_iff. simpl. intuition auto. }
        intros Hr. destruct (HR (RIM Hr)) as (Co & A' & Ac & EQ & Q).
        assert (G : (forall w, ~ In (v, w) E) \/ (forall w, ~ In (w, u) E)).
        { destruct (Hr ops u v [] eq_refl) as [G|G]; [left|right]; intros w C; eapply G; eauto. }
        split; [now apply K3|].
        assert (EE : forall e, In e ((u, v) :: A') <-> In e E').
        { intros e. rewrite EQ'. simpl. rewrite EQ. destruct (inb (u, v) E) eqn:W; simpl; [|tauto].
          apply inb_true in W. split; [intros [<-|H]; auto|auto]. }
        exists ((u, v) :: A'). split.
        { apply acc_ok; auto. intros C. apply (N Co).
          clear - C EQ. unfold rE. induction C.
          - apply rt_step. now apply EQ.
          - apply rt_refl.
          - eapply rt_trans; eauto. }
        split; [auto|].
        assert (RR : forall a b, rE E' a b -> rE E a b \/ (rE E a u /\ rE E v b)).
        { intros a b H. rewrite EQ' in H. destruct (inb (u, v) E); [auto|].
          now apply reach_add. }
        intros w C.
        (* a cycle uses a first edge; it is old, or it is (u,v) *)
        assert (ST : exists x, edges_rel E' w x /\ rE E' x w).
        { apply clos_trans_t1n in C. inversion C as [? H|x ? H H']; subst.
          - exists w. split; auto. apply rt_refl.
          - exists x. split; auto. apply clos_t1n_trans in H'.
            clear - H'. induction H'; [now apply rt_step|eapply rt_trans; eauto]. }
        destruct ST as (x & H1 & H2). apply RR in H2.
        assert (CT : forall a b, rE E a b -> a = b \/ clos_trans V (edges_rel E) a b).
        { intros a b H. induction H as [a b H|a|a b c H1' IH1 H2' IH2].
          - right. now apply t_step.
          - auto.
          - destruct IH1 as [->|IH1]; auto. destruct IH2 as [->|IH2]; auto.
            right. eapply t_trans; eauto. }
        assert (H1' : (u, v) = (w, x) \/ In (w, x) E).
        { unfold edges_rel in H1. rewrite <- EE in H1. destruct H1 as [H1|H1]; auto.
          right. now apply EQ. }
        destruct H1' as [H1'|H1'].
        { inversion H1'; subst w x. apply (N Co). destruct H2 as [H2|[H2 _]]; auto. }
        destruct H2 as [H2|[H2 H3]].
        { apply CT in H2. destruct H2 as [->|H2].
          - eapply Q. apply t_step. exact H1'.
          - eapply Q. eapply t_trans; [apply t_step; exact H1'|exact H2]. }
        { apply (N Co). eapply rt_trans; [exact H3|]. eapply rt_trans; [|exact H2].
          now apply rt_step. }
Qed.

Lemma NoDup_app_remove_r {A} (l l' : list A) : NoDup (l ++ l') -> NoDup l.
Proof.
  induction l; simpl; intros H; [constructor|]. inversion H; subst.
  constructor; auto. rewrite in_app_iff in H2. tauto.
Qed.

Lemma NoDup_app_remove_l {A} (l l' : list A) : NoDup (l ++ l') -> NoDup l'.
Proof. induction l; simpl; intros H; auto. inversion H; auto. Qed.

(** ** Kahn's algorithm *)
Section Kahn.
Variables (n : nat) (adj : list (list bool)) (ind : list nat).
Hypothesis Sadj : sq n adj.
Hypothesis Lind : length ind = n.

Definition preds (k : nat) : list nat := filter (fun u => gb adj u k) (seq 0 n).
Hypothesis Hind : forall k, k < n -> nth_error ind k = Some (length (preds k)).

Definition cnt (R : list nat) (k : nat) : nat :=
  length (filter (fun u => gb adj u k) R).

Record TI (c : nat -> nat) (R : list nat) (t : topo) : Prop := {
  t_res : result t = R;
  t_lv : length (visited t) = n;
  t_li : length (visitedInDegree t) = n;
  t_vid : forall k, k < n -> nth_error (visitedInDegree t) k = Some (c k);
  t_vis : forall k, k < n -> nth_error (visited t) k = Some (Nat.eqb (c k) (length (preds k)));
  t_set : forall k, In k (stack t) \/ In k R <-> k < n /\ c k = length (preds k);
  t_nd : NoDup (stack t ++ R)
}.

Lemma ti_ext c c' R t : (forall k, k < n -> c k = c' k) -> TI c R t -> TI c' R t.
Proof.
  intros H [a b d e f g h]. constructor; auto.
  - intros k Hk. rewrite <- H; auto.
  - intros k Hk. rewrite <- H; auto.
  - intros k. rewrite g. split; intros [A B]; split; auto; rewrite <- B;
      [symmetry|]; auto.
Qed.

Lemma push_all ks :
  NoDup ks -> (forall k, In k ks -> k < n) ->
  exists t, fold_left (topo_push ind) ks
     (Some (mkTopo [] [] (repeat false n) (repeat 0 n))) = Some t
   /\ result t = [] /\ visitedInDegree t = repeat 0 n /\ length (visited t) = n
   /\ (forall k, k < n -> nth_error (visited t) k
          = Some (memb k ks && Nat.eqb 0 (length (preds k))))
   /\ (forall k, In k (stack t) <-> In k ks /\ length (preds k) = 0)
   /\ NoDup (stack t).
Proof.
  induction ks as [|x ks IH] using rev_ind; intros N B.
  - eexists. split; [reflexivity|]. simpl. split; [auto|]. split; [auto|].
    split; [apply repeat_length|]. split.
    + intros k Hk. rewrite nth_error_repeat'. destruct (Nat.ltb_spec k n); auto; lia.
    + split; [tauto|constructor].
  - assert (N' : NoDup ks) by (eapply NoDup_app_remove_r; eauto).
    assert (Nx : ~ In x ks).
    { apply NoDup_remove_2 with (l' := []) in N. now rewrite app_nil_r in N. }
    destruct IH as (t & F & R & I & L & Vv & St & Nd); auto.
    { intros; apply B. apply in_or_app; auto. }
    assert (Hx : x < n) by (apply B; apply in_or_app; simpl; auto).
    rewrite fold_left_app, F. cbn [fold_left topo_push]. rewrite (Hind _ Hx).
    destruct (length (preds x)) as [|p] eqn:Px.
    + rewrite (Vv _ Hx). eexists. split; [reflexivity|]. simpl.
      split; [auto|]. split; [auto|]. split; [now rewrite upd_length|]. split.
      { intros k Hk. rewrite nth_error_upd by lia. rewrite memb_app.
        destruct (Nat.eqb_spec k x).
        - subst. rewrite Px, orb_true_r. reflexivity.
        - rewrite orb_false_r. rewrite Vv by auto. reflexivity. }
      split.
      { intros k. rewrite in_app_iff, St. simpl. split.
        - intros [<-|H]; tauto.
        - intros [[H|[H|[]]] Z]; auto. }
      { constructor; auto. rewrite St. tauto. }
    + eexists. split; [reflexivity|].
      split; [auto|]. split; [auto|]. split; [auto|]. split.
      { intros k Hk. rewrite memb_app. rewrite Vv by auto.
        destruct (Nat.eqb_spec k x).
        - subst. rewrite Px. simpl. now rewrite !andb_false_r.
        - now rewrite orb_false_r. }
      split; auto.
      intros k. rewrite in_app_iff, St. simpl. split; [tauto|].
      intros [[H|[H|[]]] Z]; auto. subst. lia.
Qed.

Lemma cnt_snoc R u k : cnt (R ++ [u]) k = cnt R k + if gb adj u k then 1 else 0.
Proof.
  unfold cnt. rewrite filter_app, app_length. simpl. destruct (gb adj u k); reflexivity.
Qed.

Lemma cnt_lt R u k :
  NoDup (u :: R) -> (forall x, In x R -> x < n) -> u < n -> gb adj u k = true ->
  cnt R k < length (preds k).
Proof.
  intros N B Hu G. unfold cnt, preds.
  assert (X : length (filter (fun u => gb adj u k) (u :: R))
              <= length (filter (fun u => gb adj u k) (seq 0 n))).
  { apply NoDup_incl_length.
    - now apply NoDup_filter.
    - intros x Hx. apply filter_In in Hx. destruct Hx as [Hx Gx].
      apply filter_In. split; auto. apply in_seq. destruct Hx as [<-|Hx]; [lia|].
      apply B in Hx. lia. }
  simpl in X. rewrite G in X. simpl in X. lia.
Qed.

Lemma cnt_full R k :
  NoDup R -> (forall x, In x R -> x < n) ->
  cnt R k = length (preds k) -> forall x, x < n -> gb adj x k = true -> In x R.
Proof.
  intros N B H x Hx G.
  assert (I : incl (preds k) (filter (fun u => gb adj u k) R)).
  { apply NoDup_length_incl.
    - now apply NoDup_filter.
    - unfold cnt in H. lia.
    - intros y Hy. apply filter_In in Hy. destruct Hy as [Hy Gy].
      apply filter_In. split; auto. apply in_seq. apply B in Hy. lia. }
  assert (Q : In x (preds k)).
  { apply filter_In. split; auto. apply in_seq. lia. }
  apply I in Q. apply filter_In in Q. tauto.
Qed.

Definition mix (R : list nat) (u m k : nat) : nat :=
  if Nat.ltb k m then cnt (R ++ [u]) k else cnt R k.

Lemma relax_all R u t m :
  m <= n -> u < n -> NoDup (u :: R) -> (forall x, In x R -> x < n) ->
  TI (cnt R) (R ++ [u]) t ->
  exists t', fold_left (topo_relax adj ind u) (seq 0 m) (Some t) = Some t'
     /\ TI (mix R u m) (R ++ [u]) t'.
Proof.
  intros Hm Hu N B T. induction m as [|m IH].
  - exists t. split; [reflexivity|]. eapply ti_ext; [|exact T]. intros; reflexivity.
  - destruct IH as (t1 & F & T1); [lia|].
    rewrite seq_S, fold_left_app, F. cbn [fold_left topo_relax Nat.add].
    assert (Hm' : m < n) by lia.
    rewrite (gb_get _ _ _ _ Sadj Hu Hm').
    assert (MIX : forall k, mix R u (S m) k =
       mix R u m k + if Nat.eqb k m && gb adj u m then 1 else 0).
    { intros k. unfold mix. destruct (Nat.ltb_spec k (S m)); destruct (Nat.ltb_spec k m);
        destruct (Nat.eqb_spec k m); try lia; simpl; subst; rewrite ?cnt_snoc; lia. }
    destruct (gb adj u m) eqn:G.
    2:{ exists t1. split; auto. eapply ti_ext; [|exact T1]. intros k Hk.
        rewrite MIX, andb_false_r. lia. }
    pose proof (cnt_lt _ _ _ N B Hu G) as Lt.
    assert (Mm : mix R u m m = cnt R m) by (unfold mix; now rewrite Nat.ltb_irrefl).
    rewrite (t_vis _ _ _ T1 _ Hm').
    destruct (Nat.eqb_spec (mix R u m m) (length (preds m))); [lia|].
    rewrite (t_vid _ _ _ T1 _ Hm'), (Hind _ Hm').
    assert (NS : ~ (In m (stack t1) \/ In m (R ++ [u]))).
    { rewrite (t_set _ _ _ T1). lia. }
    destruct T1 as [ra la lb va vb se nd].
    destruct (Nat.eqb_spec (S (mix R u m m)) (length (preds m))) as [e|ne].
    + eexists. split; [reflexivity|]. constructor; simpl; rewrite ?upd_length; auto.
      * intros k Hk. rewrite nth_error_upd by lia. rewrite MIX.
        destruct (Nat.eqb_spec k m); simpl.
        -- subst. f_equal. lia.
        -- rewrite Nat.add_0_r. auto.
      * intros k Hk. rewrite nth_error_upd by lia. rewrite MIX.
        destruct (Nat.eqb_spec k m); simpl.
        -- subst. f_equal. symmetry. apply Nat.eqb_eq. lia.
        -- rewrite Nat.add_0_r. auto.
      * intros k. rewrite MIX. destruct (Nat.eqb_spec k m); simpl.
        -- subst. split; auto. intros _. split; lia.
        -- rewrite Nat.add_0_r, <- se. intuition congruence.
      * constructor; auto. rewrite in_app_iff. auto.
    + eexists. split; [reflexivity|]. constructor; simpl; rewrite ?upd_length; auto.
      * intros k Hk. rewrite nth_error_upd by lia. rewrite MIX.
        destruct (Nat.eqb_spec k m); simpl.
        -- subst. f_equal. lia.
        -- rewrite Nat.add_0_r. auto.
      * intros k Hk. rewrite MIX.
        destruct (Nat.eqb_spec k m); simpl.
        -- subst. rewrite vb by auto. f_equal.
           rewrite (proj2 (Nat.eqb_neq _ _)) by lia.
           symmetry. apply Nat.eqb_neq. lia.
        -- rewrite Nat.add_0_r. auto.
      * intros k. rewrite MIX. destruct (Nat.eqb_spec k m); simpl.
        -- subst. split; [tauto|]. intros [_ C]. lia.
        -- rewrite Nat.add_0_r, <- se. tauto.
Qed.

Definition ordered (R : list nat) : Prop :=
  forall R1 b R2, R = R1 ++ b :: R2 ->
    forall a, a < n -> gb adj a b = true -> In a R1.

Lemma NoDup_rot (u : nat) st R : NoDup ((u :: st) ++ R) -> NoDup (st ++ R ++ [u]).
Proof.
  intros H. eapply Permutation_NoDup; [|exact H].
  simpl. rewrite app_assoc. apply Permutation_cons_append.
Qed.

Lemma split_snoc {A} (R : list A) u R1 b R2 :
  R ++ [u] = R1 ++ b :: R2 ->
  (R2 = [] /\ R1 = R /\ b = u) \/ exists R2', R2 = R2' ++ [u] /\ R = R1 ++ b :: R2'.
Proof.
  intros H. destruct R2 as [|y R2] using rev_ind.
  - left. apply app_inj_tail in H. destruct H. auto.
  - right. clear IHR2. replace (R1 ++ b :: R2 ++ [y]) with ((R1 ++ b :: R2) ++ [y]) in H
      by (rewrite <- app_assoc; reflexivity).
    apply app_inj_tail in H. destruct H; subst. eauto.
Qed.

Lemma loop_ok fuel R t :
  TI (cnt R) R t -> ordered R -> n < fuel + length R ->
  exists t', topo_loop fuel adj ind n t = Some t'
    /\ TI (cnt (result t')) (result t') t' /\ ordered (result t') /\ stack t' = [].
Proof.
  revert R t. induction fuel as [|f IH]; intros R t T O Hf.
  - exfalso.
    assert (X : length R <= length (seq 0 n)).
    { apply NoDup_incl_length.
      - pose proof (t_nd _ _ _ T) as Q. now apply NoDup_app_remove_l in Q.
      - intros x Hx. apply in_seq. pose proof (proj1 (t_set _ _ _ T x) (or_intror Hx)). lia. }
    rewrite seq_length in X. simpl in Hf. lia.
  - simpl. destruct (stack t) as [|u st] eqn:St.
    + exists t. rewrite (t_res _ _ _ T). auto.
    + pose proof (t_nd _ _ _ T) as Nd. rewrite St in Nd.
      assert (Su : u < n /\ cnt R u = length (preds u)).
      { apply (t_set _ _ _ T). left. rewrite St. left; auto. }
      assert (NR : NoDup R) by (apply NoDup_app_remove_l in Nd; auto).
      assert (NuR : NoDup (u :: R)).
      { constructor; auto. simpl in Nd. inversion Nd; subst. rewrite in_app_iff in H1. tauto. }
      assert (BR : forall x, In x R -> x < n).
      { intros x Hx. apply (t_set _ _ _ T x). auto. }
      set (t1 := {| stack := st; result := result t ++ [u]; visited := visited t;
                    visitedInDegree := visitedInDegree t |}).
      assert (T1 : TI (cnt R) (R ++ [u]) t1).
      { destruct T as [ra la lb va vb se nd]. constructor; simpl; auto.
        - now rewrite ra.
        - intros k. rewrite <- se, St, in_app_iff. simpl. intuition auto.
        - now apply NoDup_rot. }
      destruct (relax_all R u t1 n (le_n n) (proj1 Su) NuR BR T1) as (t2 & F & T2).
      rewrite F.
      assert (T3 : TI (cnt (R ++ [u])) (R ++ [u]) t2).
      { eapply ti_ext; [|exact T2]. intros k Hk. unfold mix.
        destruct (Nat.ltb_spec k n); [reflexivity|lia]. }
      apply (IH _ _ T3).
      * intros R1 b R2 EQ a Ha G. apply split_snoc in EQ. destruct EQ as [(-> & -> & ->)|(R2' & -> & EQ)].
        -- eapply cnt_full; eauto. tauto.
        -- eapply O; eauto.
      * rewrite app_length. simpl. lia.
Qed.

Definition ai (i j : nat) : Prop := i < n /\ j < n /\ gb adj i j = true.

Lemma kahn_complete R :
  NoDup R -> (forall k, In k R <-> k < n /\ cnt R k = length (preds k)) ->
  (forall i, ~ clos_trans nat ai i i) -> forall k, k < n -> In k R.
Proof.
  intros N H AC k0 H0.
  destruct (in_dec Nat.eq_dec k0 R) as [?|NI]; auto. exfalso.
  assert (BR : forall x, In x R -> x < n) by (intros x Hx; apply H in Hx; tauto).
  assert (P : forall k, k < n -> ~ In k R -> exists p, ai p k /\ ~ In p R).
  { intros k Hk Nk.
    destruct (existsb (fun p => gb adj p k && negb (memb p R)) (seq 0 n)) eqn:X.
    - apply existsb_exists in X. destruct X as (p & Hp & X).
      apply in_seq in Hp. apply andb_true_iff in X. destruct X as [X1 X2].
      exists p. split; [repeat split; auto; lia|].
      intros C. apply negb_true_iff in X2. unfold memb in X2.
      assert (existsb (Nat.eqb p) R = true) by (apply existsb_exists; exists p; rewrite Nat.eqb_refl; auto).
      congruence.
    - exfalso. apply Nk. apply H. split; auto.
      unfold cnt. apply Permutation_length. apply NoDup_Permutation.
      + now apply NoDup_filter.
      + apply NoDup_filter, seq_NoDup.
      + intros x. unfold preds. rewrite !filter_In, in_seq. split.
        * intros [A B]. apply BR in A. split; auto; lia.
        * intros [A B]. split; auto.
          destruct (in_dec Nat.eq_dec x R); auto. exfalso.
          assert (existsb (fun p => gb adj p k && negb (memb p R)) (seq 0 n) = true); [|congruence].
          apply existsb_exists. exists x. split; [apply in_seq; lia|]. rewrite B. simpl.
          apply negb_true_iff. unfold memb. destruct (existsb (Nat.eqb x) R) eqn:Y; auto.
          apply existsb_exists in Y. destruct Y as (y & Y1 & Y2). apply Nat.eqb_eq in Y2. subst. tauto. }
  assert (CH : forall m, exists x l, length l = m /\ NoDup (x :: l)
            /\ x < n /\ ~ In x R /\ (forall y, In y l -> y < n /\ clos_trans nat ai x y)).
  { induction m as [|m IHm].
    - exists k0, []. simpl. repeat split; auto; try tauto. constructor; auto. constructor.
    - destruct IHm as (x & l & L & ND & Hx & Nx & Q).
      destruct (P _ Hx Nx) as (p & Hp & Np).
      assert (CT : forall y, In y (x :: l) -> y < n /\ clos_trans nat ai p y).
      { intros y [<-|Hy].
        - split; auto. now apply t_step.
        - apply Q in Hy. split; [tauto|]. eapply t_trans; [apply t_step; exact Hp|]. tauto. }
      exists p, (x :: l). split; [simpl; auto|]. split.
      + constructor; auto. intros C. apply CT in C. eapply AC; apply C.
      + split; [apply Hp|]. split; auto. }
  destruct (CH n) as (x & l & L & ND & Hx & _ & Q).
  assert (length (x :: l) <= length (seq 0 n)).
  { apply NoDup_incl_length; auto. intros y [<-|Hy]; apply in_seq; [lia|].
    apply Q in Hy. lia. }
  rewrite seq_length in H1. simpl in H1. lia.
Qed.

Lemma kahn :
  (forall i, ~ clos_trans nat ai i i) ->
  exists t t', fold_left (topo_push ind) (seq 0 n)
     (Some (mkTopo [] [] (repeat false n) (repeat 0 n))) = Some t
  /\ topo_loop (S n) adj ind n t = Some t'
  /\ NoDup (result t') /\ (forall k, In k (result t') <-> k < n) /\ ordered (result t').
Proof.
  intros AC.
  destruct (push_all (seq 0 n)) as (t & F & R & I & L & Vv & St & Nd).
  { apply seq_NoDup. } { intros k Hk. apply in_seq in Hk. lia. }
  assert (T : TI (cnt []) [] t).
  { constructor; auto.
    - rewrite I. apply repeat_length.
    - intros k Hk. rewrite I, nth_error_repeat'. destruct (Nat.ltb_spec k n); auto; lia.
    - intros k Hk. rewrite Vv by auto. now rewrite memb_seq.
    - intros k. rewrite St, in_seq. simpl. split.
      + intros [[A B]|[]]. split; [lia|unfold cnt; simpl; lia].
      + intros [A B]. left. split; [lia|]. unfold cnt in B. simpl in B. lia.
    - now rewrite app_nil_r. }
  destruct (loop_ok (S n) [] t T) as (t' & F' & T' & O & E).
  { intros R1 b R2 EQ. destruct R1; discriminate. }
  { simpl. lia. }
  exists t, t'. split; auto. split; auto.
  pose proof (t_nd _ _ _ T') as Nd'. rewrite E in Nd'. simpl in Nd'.
  split; auto. split; auto.
  intros k. split.
  - intros H. apply (t_set _ _ _ T' k). auto.
  - apply kahn_complete; auto. intros j. pose proof (t_set _ _ _ T' j) as Q. rewrite E in Q.
    rewrite <- Q. simpl. tauto.
Qed.

End Kahn.

(** ** [orderTopologically] *)

Lemma map_at_ok inv l :
  (forall i, In i l -> i < length inv) ->
  exists r, map_at inv l = Some r /\ Forall2 (fun i v => nth_error inv i = Some v) l r.
Proof.
  induction l as [|i l IH]; intros H; simpl.
  - eexists; split; [reflexivity|constructor].
  - destruct IH as (r & A & B); [intros; apply H; right; auto|].
    destruct (nth_error inv i) eqn:E.
    + rewrite A. eexists; split; [reflexivity|]. constructor; auto.
    + apply nth_error_None in E. specialize (H i (or_introl eq_refl)). lia.
Qed.

Lemma Forall2_split_r {A B} (P : A -> B -> Prop) l r1 b r2 :
  Forall2 P l (r1 ++ b :: r2) ->
  exists l1 a l2, l = l1 ++ a :: l2 /\ P a b /\ Forall2 P l1 r1 /\ Forall2 P l2 r2.
Proof.
  intros H. apply Forall2_app_inv_r in H. destruct H as (l1 & l' & A1 & B0 & ->).
  inversion B0; subst. eexists l1, _, _. repeat split; eauto.
Qed.

Lemma Forall2_In_r {A B} (P : A -> B -> Prop) l r b :
  Forall2 P l r -> In b r -> exists a, In a l /\ P a b.
Proof.
  intros H I. apply in_split in I. destruct I as (r1 & r2 & ->).
  apply Forall2_split_r in H. destruct H as (l1 & a & l2 & -> & Q & _).
  exists a. split; auto. apply in_or_app. simpl; auto.
Qed.

Lemma Forall2_In_l {A B} (P : A -> B -> Prop) l r a :
  Forall2 P l r -> In a l -> exists b, In b r /\ P a b.
Proof.
  intros H. induction H; simpl; [tauto|].
  intros [<-|I]; eauto. destruct (IHForall2 I) as (b & X & Y). eauto.
Qed.

Lemma order_topological g E :
  GInv g E -> acyclic (edges_rel E) ->
  exists l, dag_orderTopologically g = Some l
    /\ topological (invMapping (base g)) (edges_rel E) l.
Proof.
  intros [D _ _ _] AC. set (b := base g) in *.
  pose proof D as [dm dk di da din dou dnd den dg_ dod did de].
  assert (GB : forall i j u v, nth_error (invMapping b) i = Some u ->
            nth_error (invMapping b) j = Some v ->
            (gb (adjacencyMatrix b) i j = true <-> In (u, v) E)).
  { intros i j u v A B. unfold gb. rewrite (dg_ _ _ _ _ A B). rewrite <- inb_true.
    destruct (inb (u, v) E); split; auto; discriminate. }
  assert (AT : forall i, i < nVertices b -> exists u, nth_error (invMapping b) i = Some u).
  { intros i H. destruct (nth_error (invMapping b) i) eqn:X; eauto.
    apply nth_error_None in X. lia. }
  assert (Hind : forall k, k < nVertices b ->
     nth_error (inDegrees b) k = Some (length (preds (nVertices b) (adjacencyMatrix b) k))).
  { intros k Hk. destruct (AT _ Hk) as [w Hw]. rewrite (did _ _ Hw). f_equal.
    unfold preds.
    rewrite <- (map_length fst (filter (fun e => Nat.eqb (snd e) w) E)).
    rewrite <- (map_length (fun i => nth i (invMapping b) 0)
                  (filter (fun u => gb (adjacencyMatrix b) u k) (seq 0 (nVertices b)))).
    apply Permutation_length. apply NoDup_Permutation.
    - assert (X : forall l : list (V * V), NoDup l -> (forall e, In e l -> snd e = w) -> NoDup (map fst l)).
      { induction l as [|[x y] l IHl]; simpl; intros N H; constructor.
        - intros C. apply in_map_iff in C. destruct C as ([x' y'] & C1 & C2). simpl in C1. subst x'.
          inversion N; subst. apply H2.
          pose proof (H (x, y) (or_introl eq_refl)). pose proof (H (x, y') (or_intror C2)).
          simpl in *. subst. auto.
        - inversion N; subst. apply IHl; auto. }
      apply X.
      + now apply NoDup_filter.
      + intros e He. apply filter_In in He. destruct He as [_ He]. now apply Nat.eqb_eq.
    - assert (X : forall l, NoDup l -> (forall i, In i l -> i < nVertices b) ->
                  NoDup (map (fun i => nth i (invMapping b) 0) l)).
      { induction l as [|x l IHl]; simpl; intros N H; constructor.
        - intros C. apply in_map_iff in C. destruct C as (y & C1 & C2).
          inversion N; subst. apply H2.
          assert (y = x); [|subst; auto].
          destruct (AT x (H _ (or_introl eq_refl))) as [ux Ux].
          destruct (AT y (H _ (or_intror C2))) as [uy Uy].
          rewrite (nth_error_nth _ _ _ Ux), (nth_error_nth _ _ _ Uy) in C1. subst.
          eapply inv_inj; eauto.
        - inversion N; subst. apply IHl; auto. }
      apply X.
      + apply NoDup_filter, seq_NoDup.
      + intros i Hi. apply filter_In in Hi. destruct Hi as [Hi _]. apply in_seq in Hi. lia.
    - intros x. split.
      + intros Hx. apply in_map_iff in Hx. destruct Hx as ([a c] & <- & Hx).
        apply filter_In in Hx. destruct Hx as [Hx Q]. simpl in *. apply Nat.eqb_eq in Q. subst c.
        destruct (den _ _ Hx) as [Ha _]. apply In_nth_error in Ha. destruct Ha as [i Hi].
        apply in_map_iff. exists i. split; [now apply nth_error_nth|].
        apply filter_In. split.
        * apply in_seq. pose proof (nth_Some_lt _ _ _ Hi). lia.
        * eapply GB; eauto.
      + intros Hx. apply in_map_iff in Hx. destruct Hx as (i & <- & Hx).
        apply filter_In in Hx. destruct Hx as [Hi Q]. apply in_seq in Hi.
        destruct (AT i) as [u Hu]; [lia|]. rewrite (nth_error_nth _ _ _ Hu).
        apply in_map_iff. exists (u, w). split; auto. apply filter_In. split.
        * eapply GB; eauto.
        * apply Nat.eqb_refl. }
  destruct (kahn (nVertices b) (adjacencyMatrix b) (inDegrees b) da din Hind)
    as (t & t' & F & F' & N & B & O).
  { intros i C.
    assert (i < nVertices b).
    { apply clos_trans_t1n in C. inversion C as [? X|? ? X]; apply X. }
    destruct (AT _ H) as [u Hu]. apply (AC u).
    assert (Q : forall i j, clos_trans nat (ai (nVertices b) (adjacencyMatrix b)) i j ->
       forall u v, nth_error (invMapping b) i = Some u -> nth_error (invMapping b) j = Some v ->
       clos_trans V (edges_rel E) u v).
    { clear - GB AT. intros i j H. induction H as [x y H|x y z H1 IH1 H2 IH2]; intros u v Hu Hv.
      - apply t_step. destruct H as (_ & _ & H). unfold edges_rel. eapply GB; eauto.
      - assert (y < nVertices b).
        { apply clos_trans_t1n in H2. inversion H2 as [? X|? ? X]; apply X. }
        destruct (AT _ H) as [w Hw]. eapply t_trans; eauto. }
    eapply Q; eauto. }
  unfold dag_orderTopologically. fold b. rewrite F, F'.
  destruct (map_at_ok (invMapping b) (result t')) as (l & M & F2).
  { intros i Hi. apply B in Hi. lia. }
  exists l. split; auto.
  assert (NL : NoDup l).
  { clear - F2 N D. revert N. induction F2; intros N; constructor.
    - intros C. inversion N; subst. destruct (Forall2_In_r _ _ _ _ F2 C) as (a & A & Q).
      rewrite (inv_inj _ _ _ _ _ D H Q) in H2. auto.
    - inversion N; subst. auto. }
  split; auto. split.
  - intros v. split.
    + intros H. destruct (Forall2_In_r _ _ _ _ F2 H) as (a & _ & Q). eapply nth_error_In; eauto.
    + intros H. apply In_nth_error in H. destruct H as [i Hi].
      assert (In i (result t')) by (apply B; pose proof (nth_Some_lt _ _ _ Hi); lia).
      destruct (Forall2_In_l _ _ _ _ F2 H) as (v' & A & Q). congruence.
  - intros u v H. pose proof (den _ _ H) as [Hu Hv].
    apply In_nth_error in Hv. destruct Hv as [j Hj].
    apply In_nth_error in Hu. destruct Hu as [i Hi].
    assert (Ij : In j (result t')) by (apply B; pose proof (nth_Some_lt _ _ _ Hj); lia).
    apply in_split in Ij. destruct Ij as (R1 & R2 & EQ).
    assert (I1 : In i R1).
    { eapply O; eauto.
      - pose proof (nth_Some_lt _ _ _ Hi); lia.
      - eapply GB; eauto. }
    apply in_split in I1. destruct I1 as (R3 & R4 & ->).
    rewrite EQ in F2. rewrite <- app_assoc in F2. simpl in F2.
    apply Forall2_app_inv_l in F2. destruct F2 as (l1 & l' & A1 & A2 & ->).
    inversion A2 as [|i' y r1 r2 Py A5]; subst.
    apply Forall2_app_inv_l in A5. destruct A5 as (l2 & l'' & A3 & A4 & ->).
    inversion A4 as [|j' y0 r3 r4 Py0 A6]; subst. exists l1, l2, r4.
    replace y with u by congruence. replace y0 with v by congruence. reflexivity.
Qed.

(** ** Statements in client terms *)

Lemma dag_edge_iff g E u v : GInv g E -> (dag_edge g u v <-> In (u, v) E).
Proof.
  intros [D _ _ _]. unfold dag_edge, dg_isEdge. split.
  - destruct (dg_find (base g) u) as [i|] eqn:Fi; [|discriminate].
    destruct (dg_find (base g) v) as [j|] eqn:Fj; [|discriminate].
    apply (d_map _ _ D) in Fi. apply (d_map _ _ D) in Fj.
    rewrite (d_get _ _ D _ _ _ _ Fi Fj). intros H. inversion H. now apply inb_true.
  - intros H. destruct (d_ends _ _ D _ _ H) as [Hu Hv].
    apply (dinv_found _ _ _ D) in Hu. apply (dinv_found _ _ _ D) in Hv.
    destruct Hu as [i Fi], Hv as [j Fj]. rewrite Fi, Fj.
    apply (d_map _ _ D) in Fi. apply (d_map _ _ D) in Fj.
    rewrite (d_get _ _ D _ _ _ _ Fi Fj). f_equal. now apply inb_true.
Qed.

Lemma reach_ext (E F : V -> V -> Prop) :
  (forall a b, E a b -> F a b) -> forall a b, reach E a b -> reach F a b.
Proof.
  intros H a b R. induction R.
  - apply rt_step. auto.
  - apply rt_refl.
  - eapply rt_trans; eauto.
Qed.

Lemma ct_ext (E F : V -> V -> Prop) :
  (forall a b, E a b -> F a b) -> forall a b, clos_trans V E a b -> clos_trans V F a b.
Proof.
  intros H a b R. induction R.
  - apply t_step. auto.
  - eapply t_trans; eauto.
Qed.

Lemma c52_sound ops :
  exists g, dag_run ops dag_empty = Some g
   /\ (forall u v, dag_edge g u v -> In (u, v) (inserted ops))
   /\ (forall u v, In u (mentions ops) -> In v (mentions ops) ->
        exists b, dag_isReachable g u v = Ret b
          /\ (b = true -> reach (dag_edge g) u v))
   /\ (forall u v g', dag_addEdge g u v = Exn g' -> reach (dag_edge g) v u)
   /\ (forall u v, dag_addEdge g u v <> Ub).
Proof.
  destruct (dag_run_inv ops) as (g & E & R & D & HE & HV & _).
  exists g. split; [auto|]. split.
  { intros u v H. apply HE. now apply (dag_edge_iff _ _ _ _ D). }
  assert (RE : forall u v, rE E u v -> reach (dag_edge g) u v).
  { apply reach_ext. intros a b H. now apply (dag_edge_iff _ _ _ _ D). }
  split; [|split].
  - intros u v Hu Hv. apply HV in Hu. apply HV in Hv.
    apply (dinv_found _ _ _ (g_base _ _ D)) in Hu.
    apply (dinv_found _ _ _ (g_base _ _ D)) in Hv.
    destruct Hu as [i Fi], Hv as [j Fj].
    unfold dag_isReachable, dag_find. rewrite Fi, Fj.
    pose proof (dinv_bound _ _ _ _ (g_base _ _ D) Fi).
    pose proof (dinv_bound _ _ _ _ (g_base _ _ D) Fj).
    apply (d_map _ _ (g_base _ _ D)) in Fi. apply (d_map _ _ (g_base _ _ D)) in Fj.
    rewrite (gb_get _ _ _ _ (g_sq _ _ D)) by auto.
    eexists; split; [reflexivity|]. intros Q. apply RE. eapply (g_sound _ _ D); eauto.
  - intros u v g' H. destruct (ginv_addEdge _ _ u v D) as (g2 & _ & _ & _ & _ & [[X RX]|X]).
    + auto.
    + destruct X as (g3 & E' & X & _). congruence.
  - intros u v H. destruct (ginv_addEdge _ _ u v D) as (g2 & _ & _ & _ & _ & [[X RX]|X]).
    + congruence.
    + destruct X as (g3 & E' & X & _). congruence.
Qed.

Lemma c52_order ops g :
  dag_run ops dag_empty = Some g -> acyclic (dag_edge g) ->
  exists l, dag_orderTopologically g = Some l
    /\ topological (mentions ops) (dag_edge g) l.
Proof.
  intros R AC. destruct (dag_run_inv ops) as (g' & E & R' & D & HE & HV & _).
  rewrite R in R'. inversion R'; subst g'.
  destruct (order_topological _ _ D) as (l & L & T1 & T2 & T3).
  { intros v C. apply (AC v). eapply ct_ext; [|exact C].
    intros a b H. now apply (dag_edge_iff _ _ _ _ D). }
  exists l. split; auto. split; auto. split.
  - intros v. rewrite T2. apply HV.
  - intros u v H. apply T3. now apply (dag_edge_iff _ _ _ _ D).
Qed.

Lemma c52_rim ops :
  rim ops ->
  exists g A, dag_run ops dag_empty = Some g /\ accepts ops A
    /\ (forall u v, dag_edge g u v <-> In (u, v) A)
    /\ acyclic (dag_edge g)
    /\ (forall u v, In u (mentions ops) -> In v (mentions ops) ->
          exists b, dag_isReachable g u v = Ret b
            /\ (b = true <-> reach (edges_rel A) u v))
    /\ exists l, dag_orderTopologically g = Some l
         /\ topological (mentions ops) (edges_rel A) l.
Proof.
  intros Hr. destruct (dag_run_inv ops) as (g & E & R & D & HE & HV & Q).
  destruct (Q Hr) as (Co & A & Ac & EQ & AC).
  assert (ED : forall u v, dag_edge g u v <-> In (u, v) A).
  { intros u v. rewrite (dag_edge_iff _ _ _ _ D). symmetry. apply EQ. }
  assert (AC' : acyclic (dag_edge g)).
  { intros v C. apply (AC v). eapply ct_ext; [|exact C].
    intros a b H. now apply (dag_edge_iff _ _ _ _ D). }
  exists g, A. split; auto. split; auto. split; auto. split; auto. split.
  - intros u v Hu Hv. apply HV in Hu. apply HV in Hv.
    apply (dinv_found _ _ _ (g_base _ _ D)) in Hu.
    apply (dinv_found _ _ _ (g_base _ _ D)) in Hv.
    destruct Hu as [i Fi], Hv as [j Fj].
    unfold dag_isReachable, dag_find. rewrite Fi, Fj.
    pose proof (dinv_bound _ _ _ _ (g_base _ _ D) Fi).
    pose proof (dinv_bound _ _ _ _ (g_base _ _ D) Fj).
    apply (d_map _ _ (g_base _ _ D)) in Fi. apply (d_map _ _ (g_base _ _ D)) in Fj.
    rewrite (gb_get _ _ _ _ (g_sq _ _ D)) by auto.
    eexists; split; [reflexivity|]. split; intros W.
    + eapply reach_ext; [|eapply (g_sound _ _ D); eauto]. intros a b. apply EQ.
    + eapply Co; eauto. eapply reach_ext; [|exact W]. intros a b. apply EQ.
  - destruct (c52_order _ _ R AC') as (l & L & T1 & T2 & T3).
    exists l. split; auto. split; auto. split; auto.
    intros u v H. apply T3. now apply ED.
Qed.

(** The witness: a -> b, c -> d, b -> c and then the closing edge d -> a. *)
Definition cyc_ops : list gop :=
  [AddEdge 0 1; AddEdge 2 3; AddEdge 1 2; AddEdge 3 0].

Lemma c52_refuted :
  exists g, dag_run cyc_ops dag_empty = Some g
    /\ ~ acyclic (dag_edge g)
    /\ dag_isReachable g 0 3 = Ret false /\ reach (dag_edge g) 0 3
    /\ dag_orderTopologically g = Some [].
Proof.
  destruct (dag_run cyc_ops dag_empty) as [g|] eqn:R; [|vm_compute in R; discriminate].
  exists g. split; auto.
  assert (E1 : dag_edge g 0 1) by (vm_compute in R; inversion R; subst; reflexivity).
  assert (E2 : dag_edge g 1 2) by (vm_compute in R; inversion R; subst; reflexivity).
  assert (E3 : dag_edge g 2 3) by (vm_compute in R; inversion R; subst; reflexivity).
  assert (E4 : dag_edge g 3 0) by (vm_compute in R; inversion R; subst; reflexivity).
  split; [|split; [|split]].
  - intros AC. apply (AC 0).
    eapply t_trans; [apply t_step; exact E1|]. eapply t_trans; [apply t_step; exact E2|].
    eapply t_trans; [apply t_step; exact E3|]. now apply t_step.
  - vm_compute in R. inversion R; subst. reflexivity.
  - eapply rt_trans; [apply rt_step; exact E1|]. eapply rt_trans; [apply rt_step; exact E2|].
    now apply rt_step.
  - vm_compute in R. inversion R; subst. reflexivity.
Qed.
