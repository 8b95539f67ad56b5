(** Proofs about undirected graphs and symmetric matrices. *)
From Coq Require Import List Arith Bool Lia Permutation.
From Verif Require Import GraphModel GraphProofs UGraphModel UGraphSpec.
Import ListNotations.

Notation lab := (V * V * nat)%type.

Fixpoint look (L : list lab) (u v : V) : option nat :=
  match L with
  | [] => None
  | (p, e) :: r => if same p (u, v) then Some e else look r u v
  end.

Fixpoint distinct (L : list lab) : Prop :=
  match L with
  | [] => True
  | (p, _) :: r => look r (fst p) (snd p) = None /\ distinct r
  end.

Definition touch (u : V) (l : lab) : bool :=
  Nat.eqb (fst (fst l)) u || Nat.eqb (snd (fst l)) u.

Lemma same_sym p q : same p q = same q p.
Proof.
  unfold same. destruct p as [a b], q as [c d]. simpl.
  rewrite (Nat.eqb_sym a c), (Nat.eqb_sym b d), (Nat.eqb_sym a d), (Nat.eqb_sym b c).
  destruct (Nat.eqb c a), (Nat.eqb d b), (Nat.eqb d a), (Nat.eqb c b); reflexivity.
Qed.

Lemma same_flip p u v : same p (u, v) = same p (v, u).
Proof. unfold same. destruct p as [a b]. simpl. apply orb_comm. Qed.

Lemma same_norm p q : same p q = true <-> norm p = norm q.
Proof.
  unfold same, norm. destruct p as [a b], q as [c d]. simpl.
  destruct (Nat.eqb_spec a c), (Nat.eqb_spec b d), (Nat.eqb_spec a d), (Nat.eqb_spec b c);
    simpl; split; intros H; try discriminate; auto; subst;
    try (f_equal; lia); inversion H; lia.
Qed.

Lemma look_flip L u v : look L u v = look L v u.
Proof.
  induction L as [|[p e] L IH]; simpl; auto.
  rewrite same_flip, IH. reflexivity.
Qed.

Lemma look_In L u v : look L u v <> None <-> exists p e, In (p, e) L /\ same p (u, v) = true.
Proof.
  induction L as [|[p e] L IH]; simpl.
  - split; [congruence|]. intros (? & ? & [] & _).
  - destruct (same p (u, v)) eqn:S.
    + split; [|congruence]. intros _. exists p, e. auto.
    + rewrite IH. split.
      * intros (q & f & A & B). exists q, f. auto.
      * intros (q & f & [A|A] & B); [inversion A; subst; congruence|eauto].
Qed.

Definition usq (n : nat) (m : list (list (option nat))) : Prop :=
  length m = n /\ forall i row, nth_error m i = Some row -> length row = n - i.

Record UInv (g : ug) (L : list lab) : Prop := {
  u_map : forall v i, map_find (umapping g) v = Some i <-> nth_error (uinv g) i = Some v;
  u_keys : NoDup (map fst (umapping g));
  u_inv : length (uinv g) = unV g;
  u_sq : usq (unV g) (uadj g);
  u_deg : length (degrees g) = unV g;
  u_dist : distinct L;
  u_ends : forall u v e, In ((u, v), e) L -> In u (uinv g) /\ In v (uinv g);
  u_get : forall i j u v, i <= j -> nth_error (uinv g) i = Some u ->
            nth_error (uinv g) j = Some v ->
            uget (uadj g) i (j - i) = Some (look L u v);
  u_degs : forall i u, nth_error (uinv g) i = Some u ->
            nth_error (degrees g) i = Some (length (filter (touch u) L));
  u_edges : unE g = length L
}.

Lemma uinv_empty : UInv ug_empty [].
Proof.
  constructor; simpl; auto; try (intros; destruct i; discriminate).
  - intros v i. split; [discriminate|destruct i; discriminate].
  - constructor.
  - split; simpl; auto. intros i row H; destruct i; discriminate.
Qed.

Lemma uinv_found g L v :
  UInv g L -> (In v (uinv g) <-> exists i, ug_find g v = Some i).
Proof.
  intros D. unfold ug_find. split.
  - intros H. apply In_nth_error in H. destruct H as [i H]. exists i.
    now apply (u_map _ _ D).
  - intros [i H]. apply (u_map _ _ D) in H. eapply nth_error_In; eauto.
Qed.

Lemma uinv_bound g L v i : UInv g L -> ug_find g v = Some i -> i < unV g.
Proof.
  intros D H. apply (u_map _ _ D) in H.
  rewrite <- (u_inv _ _ D). apply nth_error_Some. congruence.
Qed.

Lemma uinv_inj g L i j v : UInv g L ->
  nth_error (uinv g) i = Some v -> nth_error (uinv g) j = Some v -> i = j.
Proof.
  intros D A B. apply (u_map _ _ D) in A. apply (u_map _ _ D) in B. congruence.
Qed.

Lemma uinv_nodup g L : UInv g L -> NoDup (uinv g).
Proof.
  intros D. apply NoDup_nth_error. intros i j Hi H.
  destruct (nth_error (uinv g) i) eqn:A.
  - symmetry in H. eapply uinv_inj; eauto.
  - apply nth_error_None in A. lia.
Qed.

Lemma look_fresh g L v w :
  (forall u v e, In ((u, v), e) L -> In u (uinv g) /\ In v (uinv g)) ->
  ~ In v (uinv g) -> look L v w = None /\ look L w v = None.
Proof.
  intros E N.
  assert (look L v w = None).
  { destruct (look L v w) eqn:Q; auto. exfalso.
    assert (Q' : look L v w <> None) by congruence.
    apply look_In in Q'. destruct Q' as ([a b] & e & A & B). apply E in A.
    unfold same in B. simpl in B. apply orb_true_iff in B.
    destruct B as [B|B]; apply andb_true_iff in B; destruct B as [B1 B2];
      apply Nat.eqb_eq in B1; apply Nat.eqb_eq in B2; subst; tauto. }
  split; auto. now rewrite look_flip.
Qed.

Lemma uget_grow n m i k :
  usq n m -> i < S n -> k < S n - i ->
  uget (map (fun row => row ++ [None]) m ++ [[None]]) i k =
  if Nat.ltb i n && Nat.ltb k (n - i) then uget m i k else Some None.
Proof.
  intros [L R] Hi Hk. unfold uget. rewrite nth_error_snoc, map_length, L.
  destruct (Nat.ltb_spec i n); simpl.
  - rewrite nth_error_map. destruct (nth_error m i) eqn:E; simpl.
    + rewrite nth_error_snoc, (R _ _ E).
      destruct (Nat.ltb_spec k (n - i)); auto.
      destruct (Nat.eqb_spec k (n - i)); auto. lia.
    + apply nth_error_None in E. lia.
  - destruct (Nat.eqb_spec i n); [|lia]. subst.
    assert (k = 0) by lia. subst. reflexivity.
Qed.

Lemma uinv_addVertex_new g L v :
  UInv g L -> ug_find g v = None ->
  exists g', ug_addVertex g v = Ret g' /\ UInv g' L
    /\ uinv g' = uinv g ++ [v] /\ ug_find g' v = Some (unV g).
Proof.
  intros D H. unfold ug_addVertex. rewrite H. eexists; split; [reflexivity|].
  destruct D as [dm dk di da dd ds den dge dod de]. unfold ug_find in H.
  assert (NV : forall i, nth_error (uinv g) i <> Some v).
  { intros i C. apply dm in C. congruence. }
  assert (NI : ~ In v (uinv g)).
  { intros C. apply In_nth_error in C. destruct C as [i C]. now apply NV in C. }
  split; [|split; [reflexivity|unfold ug_find; simpl; now rewrite Nat.eqb_refl]].
  constructor; simpl.
  - intros w i. rewrite nth_error_snoc, di.
    destruct (Nat.eqb_spec v w).
    + subst. destruct (Nat.ltb_spec i (unV g)).
      * split; intros C; [inversion C; lia|now apply NV in C].
      * destruct (Nat.eqb_spec i (unV g)); split; intros C; inversion C; congruence.
    + rewrite dm. destruct (Nat.ltb_spec i (unV g)); [tauto|].
      split; intros C.
      * assert (i < length (uinv g)) by (apply nth_error_Some; congruence). lia.
      * destruct (Nat.eqb i (unV g)); inversion C; congruence.
  - constructor; auto. now apply map_find_None.
  - rewrite app_length; simpl; lia.
  - destruct da as [da1 da2]. split.
    + rewrite app_length, map_length. simpl. lia.
    + intros i row. rewrite nth_error_snoc, map_length, da1.
      destruct (Nat.ltb_spec i (unV g)).
      * rewrite nth_error_map. destruct (nth_error (uadj g) i) eqn:E; simpl; [|discriminate].
        intros H1; inversion H1. rewrite app_length. cbn [length]. apply da2 in E. destruct i; lia.
      * destruct (Nat.eqb_spec i (unV g)); [|discriminate].
        intros H1; inversion H1. subst. cbn [length]. destruct (unV g); lia.
  - rewrite app_length; simpl; lia.
  - auto.
  - intros a b e C. apply den in C. rewrite !in_app_iff. tauto.
  - intros i j a b Hij. rewrite !nth_error_snoc, !di.
    intros A B.
    assert (Hj : j <= unV g).
    { destruct (Nat.ltb_spec j (unV g)); [lia|].
      destruct (Nat.eqb_spec j (unV g)); [lia|discriminate]. }
    rewrite (uget_grow _ _ _ _ da) by lia.
    destruct (Nat.ltb_spec j (unV g)).
    + destruct (Nat.ltb_spec i (unV g)); [|lia].
      destruct (Nat.ltb_spec (j - i) (unV g - i)); [|lia]. simpl. auto.
    + destruct (Nat.eqb_spec j (unV g)); [|lia]. inversion B; subst b.
      rewrite (proj2 (look_fresh g L v a den NI)).
      destruct (Nat.ltb_spec i (unV g)); simpl; auto.
      destruct (Nat.ltb_spec (j - i) (unV g - i)); [lia|]. reflexivity.
  - intros i u. rewrite !nth_error_snoc, di, dd.
    destruct (Nat.ltb_spec i (unV g)); auto.
    destruct (Nat.eqb i (unV g)); intros A; inversion A; subst.
    destruct (filter (touch u) L) as [|[[a b] e] r] eqn:Q; auto. exfalso.
    assert (X : In ((a, b), e) (filter (touch u) L)) by (rewrite Q; left; auto).
    apply filter_In in X. destruct X as [X Y]. apply den in X. unfold touch in Y. simpl in Y.
    apply orb_true_iff in Y. destruct Y as [Y|Y]; apply Nat.eqb_eq in Y; subst; tauto.
  - auto.
Qed.

Lemma uinv_ensure g L v :
  UInv g L ->
  exists g' ext, ensure ug_find ug_addVertex g v = Ret g' /\ UInv g' L
    /\ uinv g' = uinv g ++ ext
    /\ (exists i, ug_find g' v = Some i)
    /\ (forall w, In w ext <-> w = v /\ ~ In v (uinv g)).
Proof.
  intros D. unfold ensure. destruct (ug_find g v) as [i|] eqn:F.
  - exists g, []. split; [reflexivity|]. split; [auto|].
    split; [now rewrite app_nil_r|]. split; [eauto|].
    intros w. simpl. split; [tauto|].
    intros [_ C]. apply C. apply (uinv_found _ _ _ D); eauto.
  - destruct (uinv_addVertex_new _ _ _ D F) as (g' & A & B & C & G).
    exists g', [v]. split; [auto|]. split; [auto|]. split; [auto|]. split; [eauto|].
    intros w. simpl. split.
    + intros [H|[]]; split; auto.
      intros Q. apply (uinv_found _ _ _ D) in Q. destruct Q; congruence.
    + intros [-> _]. left; auto.
Qed.

Lemma ug_find_mono g L g' L' ext v i :
  UInv g L -> UInv g' L' -> uinv g' = uinv g ++ ext ->
  ug_find g v = Some i -> ug_find g' v = Some i.
Proof.
  intros D D' H F. apply (u_map _ _ D'). apply (u_map _ _ D) in F.
  rewrite H. rewrite nth_error_app1; auto.
  apply nth_error_Some; congruence.
Qed.

Lemma usq_set n m i k e :
  usq n m -> i < n -> k < n - i ->
  exists m', uset m i k e = Some m' /\ usq n m'
    /\ forall a b, uget m' a b =
         if Nat.eqb a i && Nat.eqb b k then Some (Some e) else uget m a b.
Proof.
  intros [SL SR] Hi Hk. unfold uset.
  destruct (nth_error m i) as [row|] eqn:E; [|apply nth_error_None in E; lia].
  pose proof (SR _ _ E) as LR.
  destruct (nth_error row k) eqn:F; [|apply nth_error_None in F; lia].
  eexists; split; [reflexivity|]. split.
  - split; [now rewrite upd_length|].
    intros a r. rewrite nth_error_upd by lia.
    destruct (Nat.eqb_spec a i); intros H.
    + inversion H. subst. now rewrite upd_length.
    + eauto.
  - intros a b. unfold uget. rewrite nth_error_upd by lia.
    destruct (Nat.eqb_spec a i); simpl; auto. subst.
    rewrite nth_error_upd by lia. rewrite E.
    destruct (Nat.eqb b k); auto.
Qed.

Lemma uinv_insert g L u v i j e :
  UInv g L -> ug_find g u = Some i -> ug_find g v = Some j ->
  (look L u v <> None /\ (if Nat.ltb i j then ug_insert g i j i (j - i) e
                          else ug_insert g i j j (i - j) e) = Exn g)
  \/ (look L u v = None /\ exists g',
       (if Nat.ltb i j then ug_insert g i j i (j - i) e
        else ug_insert g i j j (i - j) e) = Ret g'
       /\ UInv g' (((u, v), e) :: L) /\ uinv g' = uinv g).
Proof.
  intros D Fu Fv.
  pose proof (uinv_bound _ _ _ _ D Fu) as Bi.
  pose proof (uinv_bound _ _ _ _ D Fv) as Bj.
  assert (Iu : nth_error (uinv g) i = Some u) by now apply (u_map _ _ D).
  assert (Iv : nth_error (uinv g) j = Some v) by now apply (u_map _ _ D).
  (* one statement for both branches: a <= b are the sorted indices *)
  assert (K : exists a b, a <= b /\ b < unV g
     /\ (forall g0, (if Nat.ltb i j then ug_insert g0 i j i (j - i) e
                          else ug_insert g0 i j j (i - j) e) = ug_insert g0 i j a (b - a) e)
     /\ uget (uadj g) a (b - a) = Some (look L u v)
     /\ ((a = i /\ b = j) \/ (a = j /\ b = i))).
  { destruct (Nat.ltb_spec i j).
    - exists i, j. repeat split; auto; try lia. apply (u_get _ _ D); auto; lia.
    - exists j, i. repeat split; auto; try lia. rewrite look_flip.
      apply (u_get _ _ D); auto; lia. }
  destruct K as (a & b & Hab & Hb & K1 & K2 & K3). rewrite !K1.
  destruct (look L u v) eqn:Q.
  - left. split; [congruence|]. unfold ug_insert. now rewrite K2.
  - right. split; auto. unfold ug_insert. rewrite K2.
    destruct (incr_spec (degrees g) i) as (d1 & O1 & O2 & O3);
      [now rewrite (u_deg _ _ D)|].
    rewrite O1.
    assert (DD : exists d2, (if Nat.eqb i j then Some d1 else incr d1 j) = Some d2
       /\ length d2 = unV g
       /\ forall k, nth_error d2 k =
            if Nat.eqb k i || Nat.eqb k j then option_map S (nth_error (degrees g) k)
            else nth_error (degrees g) k).
    { destruct (Nat.eqb_spec i j).
      - exists d1. split; auto. split; [rewrite O2; apply D|]. intros k. rewrite O3. subst.
        now rewrite orb_diag.
      - destruct (incr_spec d1 j) as (d2 & P1 & P2 & P3); [rewrite O2, (u_deg _ _ D); auto|].
        exists d2. split; auto. split; [rewrite P2, O2; apply D|].
        intros k. rewrite P3, O3. destruct (Nat.eqb_spec k i), (Nat.eqb_spec k j); subst; auto. congruence. }
    destruct DD as (d2 & X1 & X2 & X3). rewrite X1.
    destruct (usq_set _ _ a (b - a) e (u_sq _ _ D)) as (m & M1 & M2 & M3); [lia|lia|].
    rewrite M1. eexists. split; [reflexivity|]. split; [|reflexivity].
    pose proof D as D0.
    destruct D as [dm dk di da dd ds den dge dod de].
    constructor; simpl; auto.
    + intros x y f [C|C].
      * inversion C; subst. split; eapply nth_error_In; eauto.
      * eapply den; eauto.
    + intros k l x y Hkl A B. rewrite M3.
      destruct (Nat.eqb_spec k a); simpl.
      * destruct (Nat.eqb_spec (l - k) (b - a)); simpl.
        -- assert (l = b) by lia. subst.
           destruct K3 as [[-> ->]|[-> ->]].
           ++ replace x with u by congruence. replace y with v by congruence.
              unfold same; simpl. now rewrite !Nat.eqb_refl.
           ++ replace x with v by congruence. replace y with u by congruence.
              unfold same; simpl. rewrite !Nat.eqb_refl. now rewrite orb_true_r.
        -- rewrite (dge _ _ _ _ Hkl A B).
           destruct (same (u, v) (x, y)) eqn:S; auto. exfalso.
           unfold same in S; simpl in S. apply orb_true_iff in S.
           destruct S as [S|S]; apply andb_true_iff in S; destruct S as [S1 S2];
             apply Nat.eqb_eq in S1; apply Nat.eqb_eq in S2; subst x y.
           ++ pose proof (uinv_inj _ _ _ _ _ D0 A Iu). pose proof (uinv_inj _ _ _ _ _ D0 B Iv). lia.
           ++ pose proof (uinv_inj _ _ _ _ _ D0 A Iv). pose proof (uinv_inj _ _ _ _ _ D0 B Iu). lia.
      * rewrite (dge _ _ _ _ Hkl A B).
        destruct (same (u, v) (x, y)) eqn:S; auto. exfalso.
        unfold same in S; simpl in S. apply orb_true_iff in S.
        destruct S as [S|S]; apply andb_true_iff in S; destruct S as [S1 S2];
          apply Nat.eqb_eq in S1; apply Nat.eqb_eq in S2; subst x y.
        -- pose proof (uinv_inj _ _ _ _ _ D0 A Iu). pose proof (uinv_inj _ _ _ _ _ D0 B Iv). lia.
        -- pose proof (uinv_inj _ _ _ _ _ D0 A Iv). pose proof (uinv_inj _ _ _ _ _ D0 B Iu). lia.
    + intros k x A. rewrite X3. unfold touch at 1. simpl.
      destruct (Nat.eqb_spec u x), (Nat.eqb_spec v x); simpl.
      * subst x. rewrite (uinv_inj _ _ _ _ _ D0 A Iu), Nat.eqb_refl. simpl.
        rewrite (dod _ _ Iu). reflexivity.
      * subst x. rewrite (uinv_inj _ _ _ _ _ D0 A Iu), Nat.eqb_refl. simpl.
        rewrite (dod _ _ Iu). reflexivity.
      * subst x. rewrite (uinv_inj _ _ _ _ _ D0 A Iv), Nat.eqb_refl, orb_true_r. simpl.
        rewrite (dod _ _ Iv). reflexivity.
      * destruct (Nat.eqb_spec k i); [subst; congruence|].
        destruct (Nat.eqb_spec k j); [subst; congruence|]. simpl. auto.
Qed.

Lemma uinv_addEdge g L u v e :
  UInv g L ->
  exists g2 g' L', (ug_addEdge g u v e = Exn g' /\ look L u v <> None /\ L' = L
                    \/ ug_addEdge g u v e = Ret g' /\ look L u v = None /\ L' = ((u, v), e) :: L)
    /\ UInv g' L' /\ uinv g' = uinv g2
    /\ (forall w, In w (uinv g2) <-> In w (uinv g) \/ w = u \/ w = v).
Proof.
  intros D. unfold ug_addEdge.
  destruct (uinv_ensure _ _ u D) as (g1 & e1 & A1 & D1 & X1 & (iu & F1) & Y1).
  rewrite A1.
  destruct (uinv_ensure _ _ v D1) as (g2 & e2 & A2 & D2 & X2 & (iv & F2) & Y2).
  rewrite A2.
  pose proof (ug_find_mono _ _ _ _ _ _ _ D1 D2 X2 F1) as F1'.
  rewrite F1', F2.
  assert (M : forall w, In w (uinv g2) <-> In w (uinv g) \/ w = u \/ w = v).
  { intros w. rewrite X2, X1, !in_app_iff. rewrite Y2, X1, Y1, !in_app_iff, Y1.
    destruct (in_dec Nat.eq_dec u (uinv g));
    destruct (in_dec Nat.eq_dec v (uinv g));
    destruct (Nat.eq_dec v u); subst; intuition (subst; auto). }
  destruct (uinv_insert _ _ _ _ _ _ e D2 F1' F2) as [[Q B]|[Q (g' & B1 & B2 & B3)]].
  - rewrite B. exists g2, g2, L. split; [left; auto|]. auto.
  - rewrite B1. exists g2, g', (((u, v), e) :: L). split; [right; auto|]. auto.
Qed.

(** ** Histories *)
Lemma ug_run_app o1 o2 g :
  ug_run (o1 ++ o2) g = match ug_run o1 g with Some g' => ug_run o2 g' | None => None end.
Proof. revert g; induction o1; simpl; intros; auto. destruct (ug_apply g a); auto. Qed.

Lemma umentions_app a b : umentions (a ++ b) = umentions a ++ umentions b.
Proof. induction a as [|[v|u v e] a IH]; simpl; auto; now rewrite IH. Qed.

Lemma label_app a b u v :
  label (a ++ b) u v = match label a u v with Some e => Some e | None => label b u v end.
Proof.
  induction a as [|[x|x y e] a IH]; simpl; auto. destruct (same _ _); auto.
Qed.

Lemma look_same L p q u v : same (p, q) (u, v) = true -> look L p q = look L u v.
Proof.
  intros S. unfold same in S; simpl in S. apply orb_true_iff in S.
  destruct S as [S|S]; apply andb_true_iff in S; destruct S as [S1 S2];
    apply Nat.eqb_eq in S1; apply Nat.eqb_eq in S2; subst; auto. apply look_flip.
Qed.

Lemma ug_run_inv ops :
  exists g L, ug_run ops ug_empty = Some g /\ UInv g L
    /\ (forall u v, look L u v = label ops u v)
    /\ (forall v, In v (uinv g) <-> In v (umentions ops)).
Proof.
  induction ops as [|o ops IH] using rev_ind.
  - exists ug_empty, []. split; [reflexivity|]. split; [apply uinv_empty|]. simpl. split; auto; tauto.
  - destruct IH as (g & L & R & D & HE & HV).
    rewrite ug_run_app, R. rewrite umentions_app.
    destruct o as [v|u v e]; simpl.
    + destruct (ug_find g v) as [i|] eqn:F.
      * exists g, L. unfold ug_addVertex. rewrite F.
        split; [reflexivity|]. split; [auto|]. split.
        { intros a b. rewrite label_app, <- HE. simpl. now destruct (look L a b). }
        intros w. rewrite in_app_iff, HV. simpl. split; [auto|].
        intros [C|[C|[]]]; auto. subst. apply HV. apply (uinv_found _ _ _ D). eauto.
      * destruct (uinv_addVertex_new _ _ _ D F) as (g' & A & B & C & _).
        rewrite A. exists g', L. split; [reflexivity|]. split; [auto|]. split.
        { intros a b. rewrite label_app, <- HE. simpl. now destruct (look L a b). }
        intros w. rewrite C, !in_app_iff, HV. tauto.
    + destruct (uinv_addEdge _ _ u v e D) as (g2 & g' & L' & [(A & Q & ->)|(A & Q & ->)] & B & C & F).
      * rewrite A. exists g', L. split; [reflexivity|]. split; [auto|]. split.
        { intros a b. rewrite label_app, <- HE. simpl.
          destruct (look L a b) eqn:X; auto. destruct (same (u, v) (a, b)) eqn:S; auto.
          apply look_same with (L := L) in S. congruence. }
        intros w. rewrite C, F, HV, in_app_iff. simpl. intuition auto.
      * rewrite A. eexists g', _. split; [reflexivity|]. split; [exact B|]. split.
        { intros a b. rewrite label_app, <- HE. simpl.
          destruct (same (u, v) (a, b)) eqn:S.
          - apply look_same with (L := L) in S. now rewrite <- S, Q.
          - now destruct (look L a b). }
        intros w. rewrite C, F, HV, in_app_iff. simpl. intuition auto.
Qed.

Lemma all_pairs_label ops p :
  In p (all_pairs ops) <-> exists u v, p = norm (u, v) /\ label ops u v <> None.
Proof.
  induction ops as [|[x|x y e] ops IH]; simpl.
  - split; [tauto|]. intros (? & ? & _ & C). congruence.
  - auto.
  - rewrite IH. split.
    + intros [<-|(u & v & A & B)].
      * exists x, y. split; auto. unfold same; simpl. rewrite !Nat.eqb_refl. simpl. congruence.
      * exists u, v. split; auto. destruct (same _ _); congruence.
    + intros (u & v & A & B). destruct (same (x, y) (u, v)) eqn:S.
      * left. apply same_norm in S. congruence.
      * right. eauto.
Qed.

Lemma distinct_norm L : distinct L -> NoDup (map (fun l => norm (fst l)) L).
Proof.
  induction L as [|[p e] L IH]; simpl; intros H; constructor.
  - intros C. apply in_map_iff in C. destruct C as ([q f] & A & B). simpl in A.
    destruct H as [H _]. apply same_norm in A.
    assert (look L (fst p) (snd p) <> None); [|congruence].
    apply look_In. exists q, f. split; auto.
  - apply IH; tauto.
Qed.

Lemma nbrs_label ops v w : In w (nbrs ops v) <-> label ops v w <> None.
Proof.
  induction ops as [|[x|x y e] ops IH]; simpl; [split; [tauto|congruence]|auto|].
  rewrite in_app_iff, IH. unfold same. simpl.
  destruct (Nat.eqb_spec x v).
  - subst. simpl. destruct (Nat.eqb_spec y w).
    + simpl. split; [congruence|auto].
    + simpl. destruct (Nat.eqb_spec v w), (Nat.eqb_spec y v); simpl; subst; try tauto; try congruence.
  - destruct (Nat.eqb_spec y v); simpl.
    + subst. destruct (Nat.eqb_spec x w); simpl.
      * split; [congruence|auto].
      * tauto.
    + rewrite andb_false_r. simpl. tauto.
Qed.

Definition other (u : V) (l : lab) : V :=
  if Nat.eqb (fst (fst l)) u then snd (fst l) else fst (fst l).

Lemma touch_other L u w :
  In w (map (other u) (filter (touch u) L)) <-> look L u w <> None.
Proof.
  rewrite in_map_iff, look_In. split.
  - intros ([[a b] e] & A & B). apply filter_In in B. destruct B as [B T].
    exists (a, b), e. split; auto. unfold touch, other, same in *. simpl in *.
    destruct (Nat.eqb_spec a u); subst.
    + now rewrite Nat.eqb_refl.
    + simpl in T. apply Nat.eqb_eq in T. subst. rewrite !Nat.eqb_refl. now rewrite orb_true_r.
  - intros ([a b] & e & A & B). exists ((a, b), e). rewrite filter_In.
    unfold touch, other, same in *. simpl in *.
    destruct (Nat.eqb_spec a u); simpl in *.
    + split; [|auto]. destruct (Nat.eqb_spec b w); auto. simpl in B.
      destruct (Nat.eqb_spec a w), (Nat.eqb_spec b u); simpl in B; try discriminate; congruence.
    + apply andb_true_iff in B. destruct B as [B1 B2]. apply Nat.eqb_eq in B1.
      rewrite B2. auto.
Qed.

Lemma other_nodup L u : distinct L -> NoDup (map (other u) (filter (touch u) L)).
Proof.
  induction L as [|[[a b] e] L IH]; simpl; intros H; [constructor|].
  destruct H as [H1 H2]. destruct (touch u (a, b, e)) eqn:T; simpl; auto.
  constructor; auto. intros C. apply touch_other in C.
  unfold touch, other in *. simpl in *.
  destruct (Nat.eqb_spec a u); subst; [congruence|].
  simpl in T. apply Nat.eqb_eq in T. subst. rewrite look_flip in C. congruence.
Qed.

Lemma c54_counts ops :
  exists g, ug_run ops ug_empty = Some g
    /\ ug_getNVertices g = length (nodup Nat.eq_dec (umentions ops))
    /\ ug_getNEdges g = length (upairs ops)
    /\ NoDup (ug_getVertices g)
    /\ (forall v, In v (ug_getVertices g) <-> In v (umentions ops)).
Proof.
  destruct (ug_run_inv ops) as (g & L & R & D & HE & HV).
  exists g. split; auto. split; [|split; [|split]].
  - unfold ug_getNVertices. rewrite <- (u_inv _ _ D).
    apply nodup_length_eq; auto. eapply uinv_nodup; eauto.
  - unfold ug_getNEdges, upairs. rewrite (u_edges _ _ D).
    rewrite <- (map_length (fun l => norm (fst l)) L).
    apply nodup_length_eq.
    + apply distinct_norm. apply D.
    + intros p. rewrite all_pairs_label, in_map_iff. split.
      * intros ([[u v] e] & <- & A). exists u, v. split; auto. rewrite <- HE.
        apply look_In. exists (u, v), e. split; auto. unfold same; simpl.
        now rewrite !Nat.eqb_refl.
      * intros (u & v & -> & A). rewrite <- HE in A. apply look_In in A.
        destruct A as (q & e & A & B). exists (q, e). split; auto. simpl. now apply same_norm.
  - apply D.
  - intros v. rewrite <- HV. rewrite (uinv_found _ _ _ D). unfold ug_find, ug_getVertices. split.
    + intros C. destruct (map_find (umapping g) v) eqn:F; eauto.
      apply map_find_None in F. tauto.
    + intros [i C]. apply map_find_In in C. apply in_map_iff. exists (v, i); auto.
Qed.

Lemma uentry_look g L i j u v :
  UInv g L -> nth_error (uinv g) i = Some u -> nth_error (uinv g) j = Some v ->
  uentry g i j = Some (look L u v).
Proof.
  intros D A B. unfold uentry. destruct (Nat.ltb_spec i j).
  - apply (u_get _ _ D); auto; lia.
  - rewrite look_flip. apply (u_get _ _ D); auto.
Qed.

Lemma collect_ok g L i u js :
  UInv g L -> nth_error (uinv g) i = Some u ->
  (forall j, In j js -> j < unV g) -> NoDup js ->
  exists l, ug_collect g i js = Ret l /\ NoDup l
    /\ forall w, In w l <-> look L u w <> None /\ exists j, In j js /\ nth_error (uinv g) j = Some w.
Proof.
  intros D A. induction js as [|j js IH]; intros B N; simpl.
  - exists []. split; auto. split; [constructor|]. intros w. simpl. split; [tauto|].
    intros (_ & j & [] & _).
  - inversion N as [|? ? N1 N2]; subst.
    destruct IH as (l & E & Nl & M); auto; [intros; apply B; right; auto|].
    destruct (nth_error (uinv g) j) as [w0|] eqn:F.
    2:{ apply nth_error_None in F. rewrite (u_inv _ _ D) in F.
        specialize (B j (or_introl eq_refl)). lia. }
    rewrite (uentry_look _ _ _ _ _ _ D A F).
    destruct (look L u w0) eqn:Q.
    + rewrite E. eexists; split; [reflexivity|]. split.
      * constructor; auto. rewrite M. intros (_ & j' & Hj' & F').
        pose proof (uinv_inj _ _ _ _ _ D F F'). subst. auto.
      * intros w. simpl. rewrite M. split.
        -- intros [<-|(X & j' & Y & Z)]; [split; [congruence|eauto]|split; eauto].
        -- intros (X & j' & [->|Y] & Z); [left; congruence|right; eauto].
    + exists l. split; auto. split; auto. intros w. rewrite M. split.
      * intros (X & j' & Y & Z). split; eauto.
      * intros (X & j' & [->|Y] & Z); [congruence|eauto].
Qed.

Lemma c54_queries ops g u v :
  ug_run ops ug_empty = Some g -> In u (umentions ops) -> In v (umentions ops) ->
  ug_getEdge g u v = (match label ops u v with Some e => Ret e | None => Exn tt end)
  /\ (u <> v -> ug_isAdjacent g u v
        = Ret (match label ops u v with Some _ => true | None => false end))
  /\ ug_getDegree g v = Ret (length (nodup Nat.eq_dec (nbrs ops v)))
  /\ (exists l, ug_getNeighbours g v = Ret l /\ NoDup l
        /\ forall w, In w l <-> In w (nbrs ops v)).
Proof.
  intros R Hu Hv. destruct (ug_run_inv ops) as (g' & L & R' & D & HE & HV).
  rewrite R in R'. inversion R'; subst g'.
  apply HV in Hu. apply HV in Hv.
  pose proof Hu as Iu. pose proof Hv as Iv.
  apply (uinv_found _ _ _ D) in Hu. apply (uinv_found _ _ _ D) in Hv.
  destruct Hu as [i Fi], Hv as [j Fj].
  pose proof Fi as Ni. pose proof Fj as Nj.
  apply (u_map _ _ D) in Ni. apply (u_map _ _ D) in Nj.
  split; [|split; [|split]].
  - unfold ug_getEdge. rewrite Fi, Fj, (uentry_look _ _ _ _ _ _ D Ni Nj), HE.
    now destruct (label ops u v).
  - intros Hne. unfold ug_isAdjacent. rewrite Fi, Fj.
    destruct (Nat.ltb_spec i j).
    + rewrite (u_get _ _ D i j u v) by (auto; lia). now rewrite HE.
    + destruct (Nat.ltb_spec j i).
      * rewrite (u_get _ _ D j i v u) by (auto; lia). rewrite look_flip, HE. reflexivity.
      * exfalso. apply Hne. assert (i = j) by lia. subst. congruence.
  - unfold ug_getDegree. rewrite Fj. unfold vget. rewrite (u_degs _ _ D _ _ Nj). f_equal.
    rewrite <- (map_length (other v)). apply nodup_length_eq.
    + apply other_nodup. apply D.
    + intros w. now rewrite touch_other, HE, nbrs_label.
  - unfold ug_getNeighbours. rewrite Fj.
    destruct (collect_ok g L j v (seq 0 (unV g)) D Nj) as (l & A & B & C).
    { intros k Hk. apply in_seq in Hk. lia. } { apply seq_NoDup. }
    exists l. split; auto. split; auto. intros w. rewrite C, HE, nbrs_label. split; [tauto|].
    intros X. split; auto. rewrite <- HE in X. apply look_In in X.
    destruct X as ([a b] & e & X & S).
    pose proof (u_ends _ _ D _ _ _ X) as [Ha Hb].
    assert (Iw : In w (uinv g)).
    { unfold same in S; simpl in S. apply orb_true_iff in S.
      destruct S as [S|S]; apply andb_true_iff in S; destruct S as [S1 S2];
        apply Nat.eqb_eq in S1; apply Nat.eqb_eq in S2; subst; auto. }
    apply In_nth_error in Iw. destruct Iw as [k Hk]. exists k. split; auto.
    apply in_seq. pose proof (proj1 (nth_error_Some (uinv g) k)). rewrite (u_inv _ _ D) in H.
    assert (k < unV g) by (apply H; congruence). lia.
Qed.

Lemma c54_rejects ops g u v e :
  ug_run ops ug_empty = Some g ->
  (ug_addVertex g v = Exn g <-> In v (umentions ops))
  /\ ((exists g', ug_addEdge g u v e = Exn g') <-> label ops u v <> None)
  /\ ug_addEdge g u v e <> Ub.
Proof.
  intros R. destruct (ug_run_inv ops) as (g' & L & R' & D & HE & HV).
  rewrite R in R'. inversion R'; subst g'. split; [|split].
  - rewrite <- HV, (uinv_found _ _ _ D). unfold ug_addVertex.
    destruct (ug_find g v); split; intros H; eauto; try discriminate.
    destruct H; discriminate.
  - rewrite <- HE. destruct (uinv_addEdge _ _ u v e D) as (g2 & g' & L' & [(A & Q & _)|(A & Q & _)] & _).
    + split; eauto.
    + split; [|congruence]. intros [x X]. congruence.
  - destruct (uinv_addEdge _ _ u v e D) as (g2 & g' & L' & [(A & Q & _)|(A & Q & _)] & _); congruence.
Qed.

(** A self loop counts for the degree and the neighbourhood, but
    [isAdjacent(v, v)] denies it. *)
Lemma c54_self_loop :
  exists ops g, ug_run ops ug_empty = Some g
    /\ label ops 4 4 = Some 9 /\ ug_getEdge g 4 4 = Ret 9 /\ ug_getDegree g 4 = Ret 1
    /\ ug_getNeighbours g 4 = Ret [4] /\ ug_isAdjacent g 4 4 = Ret false.
Proof.
  exists [UAddEdge 4 4 9]. eexists. split; [vm_compute; reflexivity|].
  repeat split.
Qed.

(** ** Symmetric matrices *)
Section Sm.
Context {A : Type}.
Definition tri (n : nat) (m : list (list A)) : Prop :=
  length m = n /\ forall i row, nth_error m i = Some row -> length row = S i.

Lemma tri_init n (x : A) : tri n (sm_init n x).
Proof.
  unfold sm_init. split; [now rewrite map_length, seq_length|].
  intros i row. rewrite nth_error_map. destruct (nth_error (seq 0 n) i) eqn:E; simpl; [|discriminate].
  intros H; inversion H. simpl. rewrite repeat_length.
  assert (Hi : i < n).
  { rewrite <- (seq_length n 0). apply nth_error_Some. congruence. }
  apply nth_error_nth with (d := 0) in E. rewrite seq_nth in E by auto. lia.
Qed.

Lemma tri_put n (m : list (list A)) i j x :
  tri n m -> j <= i < n ->
  exists m', sm_put m i j x = Some m' /\ tri n m'
    /\ forall a b, sm_at m' a b = if Nat.eqb a i && Nat.eqb b j then Some x else sm_at m a b.
Proof.
  intros [L R] H. unfold sm_put.
  destruct (nth_error m i) as [row|] eqn:E; [|apply nth_error_None in E; lia].
  pose proof (R _ _ E) as LR.
  destruct (nth_error row j) as [y0|] eqn:F; [|apply nth_error_None in F; lia].
  eexists; split; [reflexivity|]. split.
  - split; [now rewrite upd_length|].
    intros a r. rewrite nth_error_upd by lia.
    destruct (Nat.eqb_spec a i); intros Q; [inversion Q; subst; now rewrite upd_length|eauto].
  - intros a b. unfold sm_at. rewrite nth_error_upd by lia.
    destruct (Nat.eqb_spec a i); simpl; auto. subst.
    rewrite nth_error_upd by lia. rewrite E. destruct (Nat.eqb b j); auto.
Qed.

Lemma tri_set n (m : list (list A)) i j x :
  tri n m -> i < n -> j < n ->
  exists m', sm_set m i j x = Some m' /\ tri n m'
    /\ forall a b, a < n -> b < n ->
        sm_get m' a b = if same (i, j) (a, b) then Some x else sm_get m a b.
Proof.
  intros T Hi Hj.
  assert (K : exists p q, q <= p < n /\ sm_set m i j x = sm_put m p q x
     /\ ((p = i /\ q = j) \/ (p = j /\ q = i))).
  { unfold sm_set. destruct (Nat.ltb_spec i j).
    - exists j, i. repeat split; auto; lia.
    - exists i, j. repeat split; auto; lia. }
  destruct K as (p & q & Hpq & -> & PQ).
  destruct (tri_put n m p q x T Hpq) as (m' & M1 & M2 & M3).
  exists m'. split; auto. split; auto. intros a b Ha Hb.
  unfold sm_get. rewrite !M3.
  assert (S1 : forall c d, d <= c ->
     Nat.eqb c p && Nat.eqb d q = same (i, j) (c, d)).
  { intros c d Hcd. unfold same. simpl.
    destruct PQ as [[-> ->]|[-> ->]];
    destruct (Nat.eqb_spec c i), (Nat.eqb_spec d j), (Nat.eqb_spec i c), (Nat.eqb_spec j d),
       (Nat.eqb_spec i d), (Nat.eqb_spec j c), (Nat.eqb_spec c j), (Nat.eqb_spec d i); subst; simpl; auto; lia. }
  destruct (Nat.ltb_spec a b).
  - rewrite S1 by lia. now rewrite same_flip.
  - rewrite S1 by lia. reflexivity.
Qed.

Lemma sm_init_get n (x : A) a b : a < n -> b < n -> sm_get (sm_init n x) a b = Some x.
Proof.
  intros Ha Hb.
  assert (K : forall c d, d <= c < n -> sm_at (sm_init n x) c d = Some x).
  { intros c d H. unfold sm_at, sm_init. rewrite nth_error_map.
    assert (E : nth_error (seq 0 n) c = Some c).
    { rewrite (nth_error_nth' _ 0) by (rewrite seq_length; lia). f_equal. now rewrite seq_nth by lia. }
    rewrite E. cbn [option_map]. rewrite nth_error_repeat'. destruct (Nat.ltb_spec d (S c)); auto; lia. }
  unfold sm_get. destruct (Nat.ltb_spec a b); apply K; lia.
Qed.

Lemma last_write_app (w1 w2 : list (nat * nat * A)) i j :
  last_write (w1 ++ w2) i j = match last_write w2 i j with Some y => Some y | None => last_write w1 i j end.
Proof.
  induction w1 as [|[[a b] y] w1 IH]; simpl; [now destruct (last_write w2 i j)|].
  rewrite IH. destruct (last_write w2 i j); auto.
Qed.

Lemma sm_run_app (w1 w2 : list (nat * nat * A)) m :
  sm_run (w1 ++ w2) m = match sm_run w1 m with Some m' => sm_run w2 m' | None => None end.
Proof.
  revert m; induction w1 as [|[[a b] y] w1 IH]; simpl; intros; auto.
  destruct (sm_set m a b y); auto.
Qed.

Lemma c54_matrix n (x : A) ws :
  (forall i j y, In (i, j, y) ws -> i < n /\ j < n) ->
  exists m, sm_run ws (sm_init n x) = Some m /\ sm_size m = n
    /\ forall a b, a < n -> b < n ->
        sm_get m a b = sm_get m b a
        /\ sm_get m a b = Some (match last_write ws a b with Some y => y | None => x end).
Proof.
  intros H.
  assert (K : exists m, sm_run ws (sm_init n x) = Some m /\ tri n m
    /\ forall a b, a < n -> b < n ->
        sm_get m a b = Some (match last_write ws a b with Some y => y | None => x end)).
  { revert H. induction ws as [|[[i j] y] ws IH] using rev_ind; intros H.
    - eexists. split; [reflexivity|]. split; [apply tri_init|]. intros. now apply sm_init_get.
    - destruct IH as (m & R & T & G); [intros; eapply H; apply in_or_app; eauto|].
      destruct (H i j y) as [Hi Hj]; [apply in_or_app; simpl; auto|].
      destruct (tri_set n m i j y T Hi Hj) as (m' & M1 & M2 & M3).
      exists m'. rewrite sm_run_app, R. cbn [sm_run]. rewrite M1. split; auto. split; auto.
      intros a b Ha Hb. rewrite M3 by auto. rewrite last_write_app. cbn [last_write].
      destruct (same (i, j) (a, b)); auto. }
  destruct K as (m & R & T & G). exists m. split; auto. split; [apply T|].
  intros a b Ha Hb. split; [|auto].
  unfold sm_get. destruct (Nat.ltb_spec a b), (Nat.ltb_spec b a); auto; try lia.
  assert (a = b) by lia. now subst.
Qed.
End Sm.
