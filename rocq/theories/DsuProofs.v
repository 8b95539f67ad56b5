(** Proofs about disjoint sets. *)
From Coq Require Import List Arith Bool Lia Relations.
From Verif Require Import DsuModel DsuSpec.
Import ListNotations.

Lemma mfind_minsert m v x w :
  mfind (minsert m v x) w = if Nat.eqb w v then Some x else mfind m w.
Proof.
  induction m as [|[k y] m IH]; simpl.
  - destruct (Nat.eqb_spec v w), (Nat.eqb_spec w v); subst; congruence.
  - destruct (Nat.eqb_spec k v); simpl.
    + subst. destruct (Nat.eqb_spec v w), (Nat.eqb_spec w v); subst; congruence.
    + destruct (Nat.eqb_spec k w).
      * subst. destruct (Nat.eqb_spec w v); congruence.
      * apply IH.
Qed.

Lemma minsert_length m v x :
  mfind m v <> None -> length (minsert m v x) = length m.
Proof.
  induction m as [|[k y] m IH]; simpl; [congruence|].
  destruct (Nat.eqb_spec k v); simpl; auto.
Qed.

(** Number of entries whose rank exceeds [r]: the recursion depth. *)
Section Rank.
Variable rk : nat -> nat.

Record PInv (p : list (nat * nat)) : Prop := {
  p_closed : forall v q, mfind p v = Some q -> mfind p q <> None;
  p_rank : forall v q, mfind p v = Some q -> q <> v -> rk v < rk q
}.

Inductive rootof (p : list (nat * nat)) : nat -> nat -> Prop :=
| ro_here v : mfind p v = Some v -> rootof p v v
| ro_up v q r : mfind p v = Some q -> q <> v -> rootof p q r -> rootof p v r.

Lemma rootof_fun p v r s : rootof p v r -> rootof p v s -> r = s.
Proof.
  intros H. revert s. induction H; intros s Hs; inversion Hs; subst; try congruence.
  replace q0 with q in * by congruence. auto.
Qed.

Lemma rootof_self p v r : rootof p v r -> mfind p r = Some r.
Proof. induction 1; auto. Qed.

Lemma rootof_rank p v r : PInv p -> rootof p v r -> r = v \/ rk v < rk r.
Proof.
  intros P. induction 1; auto. right. pose proof (p_rank _ P _ _ H H0).
  destruct IHrootof; subst; auto. lia.
Qed.

Definition above (p : list (nat * nat)) (r : nat) : nat :=
  length (filter (fun e => Nat.ltb r (rk (fst e))) p).

Lemma above_mono p r s : r <= s -> above p s <= above p r.
Proof.
  intros H. unfold above. induction p as [|[k y] p IH]; simpl; auto.
  destruct (Nat.ltb_spec s (rk k)); destruct (Nat.ltb_spec r (rk k)); simpl; lia.
Qed.

Lemma above_lt p v r : mfind p v <> None -> r < rk v -> above p (rk v) < above p r.
Proof.
  intros H L. unfold above. induction p as [|[k y] p IH]; simpl in *; [congruence|].
  destruct (Nat.eqb_spec k v).
  - subst. rewrite Nat.ltb_irrefl.
    destruct (Nat.ltb_spec r (rk v)); [|lia]. simpl.
    pose proof (above_mono p r (rk v)). unfold above in *. lia.
  - specialize (IH H).
    destruct (Nat.ltb_spec (rk v) (rk k)); destruct (Nat.ltb_spec r (rk k)); simpl; lia.
Qed.

Lemma above_le p r : above p r <= length p.
Proof. unfold above. induction p as [|e p IH]; simpl; auto. destruct (Nat.ltb _ _); simpl; lia. Qed.

(** Re-rooting [v] at its root changes no root. *)
Lemma rootof_compress p v r :
  PInv p -> rootof p v r ->
  PInv (minsert p v r) /\ (forall w s, rootof p w s <-> rootof (minsert p v r) w s)
  /\ (forall w, mfind (minsert p v r) w <> None <-> mfind p w <> None)
  /\ length (minsert p v r) = length p.
Proof.
  intros P R.
  assert (Kv : mfind p v <> None) by (inversion R; congruence).
  assert (Kr : mfind p r = Some r) by (eapply rootof_self; eauto).
  assert (D : forall w, mfind (minsert p v r) w <> None <-> mfind p w <> None).
  { intros w. rewrite mfind_minsert. destruct (Nat.eqb_spec w v); subst; [|tauto].
    split; auto. congruence. }
  assert (F : forall w s, rootof p w s -> rootof (minsert p v r) w s).
  { intros w s H. induction H as [w H|w q s H Hne H' IH].
    - apply ro_here. rewrite mfind_minsert. destruct (Nat.eqb_spec w v); auto.
      subst. inversion R; subst; auto; congruence.
    - destruct (Nat.eq_dec w v).
      + subst. assert (s = r).
        { eapply rootof_fun; [|exact R]. eapply ro_up; eauto. }
        subst. apply ro_up with r.
        * rewrite mfind_minsert, Nat.eqb_refl. auto.
        * intros ->. congruence.
        * apply ro_here. rewrite mfind_minsert. destruct (Nat.eqb_spec r v); congruence.
      + apply ro_up with q; auto. rewrite mfind_minsert.
        destruct (Nat.eqb_spec w v); congruence. }
  split.
  { constructor.
    - intros w q. rewrite mfind_minsert. destruct (Nat.eqb_spec w v).
      + intros H; inversion H; subst. apply D. congruence.
      + intros H. apply D. eapply p_closed; eauto.
    - intros w q. rewrite mfind_minsert. destruct (Nat.eqb_spec w v).
      + intros H; inversion H; subst. intros Hne.
        destruct (rootof_rank _ _ _ P R); congruence || auto.
      + apply P. }
  split.
  { intros w s. split; [apply F|]. intros H.
    assert (T : exists s', rootof p w s').
    { clear - H R P. induction H as [w H|w q s H Hne H' IH].
      - rewrite mfind_minsert in H. destruct (Nat.eqb_spec w v); [subst; eauto|].
        exists w. now apply ro_here.
      - rewrite mfind_minsert in H. destruct (Nat.eqb_spec w v); [subst; eauto|].
        destruct IH as [s' IH]. exists s'. eapply ro_up; eauto. }
    destruct T as [s' T]. pose proof (F _ _ T).
    assert (s = s') by (eapply rootof_fun; eauto). now subst. }
  split; auto. apply minsert_length; auto.
Qed.

Lemma find_go_ok fuel p v :
  PInv p -> mfind p v <> None -> above p (rk v) < fuel ->
  exists r p', find_go fuel p v = Some (r, p') /\ rootof p v r /\ PInv p'
    /\ (forall w s, rootof p w s <-> rootof p' w s)
    /\ (forall w, mfind p' w <> None <-> mfind p w <> None)
    /\ length p' = length p.
Proof.
  revert v p. induction fuel as [|f IH]; intros v p P K L; [lia|].
  simpl. unfold mindex. destruct (mfind p v) as [q|] eqn:F; [|congruence].
  destruct (Nat.eqb_spec q v).
  - subst. exists v, p. split; [reflexivity|]. split; [now apply ro_here|]. tauto.
  - assert (Kq : mfind p q <> None) by (eapply p_closed; eauto).
    pose proof (p_rank _ P _ _ F n) as Hr.
    destruct (IH q p P Kq) as (r & p1 & A & B & C & D & E & G).
    { pose proof (above_lt p q (rk v) Kq Hr). lia. }
    rewrite A.
    assert (R : rootof p1 v r) by (apply D; eapply ro_up; eauto).
    destruct (rootof_compress _ _ _ C R) as (C1 & C2 & C3 & C4).
    eexists r, _. split; [reflexivity|]. split; [eapply ro_up; eauto|].
    split; [auto|]. split.
    { intros w s. rewrite D. apply C2. }
    split; [|congruence]. intros w. rewrite C3. apply E.
Qed.
End Rank.

(** ** The invariant over histories *)
Definition rkf (d : dsu) (v : nat) : nat := match mfind (rank d) v with Some r => r | None => 0 end.

Record DsInv (els : list nat) (d : dsu) (ops : list dop) : Prop := {
  s_p : PInv (rkf d) (parent d);
  s_dom : forall v, mfind (parent d) v <> None <-> In v els;
  s_rdom : forall v, mfind (rank d) v <> None <-> In v els;
  s_tot : forall v, In v els -> exists r, rootof (parent d) v r;
  s_conn : forall v w r s, rootof (parent d) v r -> rootof (parent d) w s ->
             (r = s <-> connected ops v w)
}.

Lemma rootof_known p v r : rootof p v r -> mfind p v <> None /\ mfind p r <> None.
Proof.
  intros H. split; [inversion H; congruence|].
  rewrite (rootof_self _ _ _ H). congruence.
Qed.

Lemma conn_mono ops ops' x y :
  (forall o, In o ops -> In o ops') -> connected ops x y -> connected ops' x y.
Proof.
  intros H C. induction C.
  - apply rst_step. auto.
  - apply rst_refl.
  - now apply rst_sym.
  - eapply rst_trans; eauto.
Qed.

Lemma findSet_ok els d ops v :
  DsInv els d ops -> In v els ->
  exists r d', findSet d v = Some (r, d') /\ rootof (parent d) v r
    /\ rank d' = rank d
    /\ (forall w s, rootof (parent d) w s <-> rootof (parent d') w s)
    /\ DsInv els d' ops.
Proof.
  intros [P D Rd T C] K. unfold findSet.
  destruct (find_go_ok (rkf d) (S (S (length (parent d)))) (parent d) v P) as (r & p' & A & B & P' & E & F & G).
  { now apply D. }
  { pose proof (above_le (rkf d) (parent d) (rkf d v)). lia. }
  rewrite A. eexists r, _. split; [reflexivity|]. simpl. split; [auto|]. split; [auto|].
  split; [auto|]. constructor; simpl; auto.
  - intros w. rewrite F. apply D.
  - intros w Hw. destruct (T w Hw) as [s Hs]. exists s. now apply E.
  - intros w z s t Hs Ht. apply C; now apply E.
Qed.

(** Linking root [a] under root [b]. *)
Lemma rootof_link p a b v r :
  mfind p a = Some a -> mfind p b = Some b -> a <> b ->
  rootof p v r -> rootof (minsert p a b) v (if Nat.eqb r a then b else r).
Proof.
  intros A B N H. induction H as [w H|w q s H Hne H' IH].
  - destruct (Nat.eqb_spec w a).
    + subst. apply ro_up with b; auto.
      * rewrite mfind_minsert, Nat.eqb_refl. auto.
      * apply ro_here. rewrite mfind_minsert. destruct (Nat.eqb_spec b a); congruence.
    + apply ro_here. rewrite mfind_minsert. destruct (Nat.eqb_spec w a); congruence.
  - apply ro_up with q; auto. rewrite mfind_minsert.
    destruct (Nat.eqb_spec w a); [congruence|auto].
Qed.

Lemma connected_snoc ops x y v w :
  connected (ops ++ [Union x y]) v w <->
  connected ops v w \/ (connected ops v x /\ connected ops y w)
                    \/ (connected ops v y /\ connected ops x w).
Proof.
  split.
  - intros C. induction C as [a b H|a|a b H IH|a b c H1 IH1 H2 IH2].
    + apply in_app_iff in H. destruct H as [H|[H|[]]].
      * left. now apply rst_step.
      * inversion H; subst. right; left. split; apply rst_refl.
    + left. apply rst_refl.
    + destruct IH as [IH|[[A B]|[A B]]].
      * left. now apply rst_sym.
      * right; right. split; now apply rst_sym.
      * right; left. split; now apply rst_sym.
    + assert (TR : forall p q r, connected ops p q -> connected ops q r -> connected ops p r)
        by (intros; eapply rst_trans; eauto).
      assert (SY : forall p q, connected ops p q -> connected ops q p)
        by (intros; now apply rst_sym).
      destruct IH1 as [A|[[A A']|[A A']]]; destruct IH2 as [B|[[B B']|[B B']]]; eauto 6.
  - assert (M : forall p q, connected ops p q -> connected (ops ++ [Union x y]) p q).
    { intros. eapply conn_mono; [|eauto]. intros. apply in_or_app; auto. }
    assert (S : connected (ops ++ [Union x y]) x y).
    { apply rst_step. apply in_or_app. simpl. auto. }
    intros [C|[[A B]|[A B]]]; auto.
    + eapply rst_trans; [apply M; exact A|]. eapply rst_trans; [exact S|]. now apply M.
    + eapply rst_trans; [apply M; exact A|]. eapply rst_trans; [apply rst_sym; exact S|]. now apply M.
Qed.

(** Linking two different roots, ranks adjusted, keeps the invariant. *)
Lemma link_inv els d ops x y a b rk' :
  DsInv els d ops -> In x els -> In y els ->
  (rootof (parent d) x a /\ rootof (parent d) y b \/ rootof (parent d) x b /\ rootof (parent d) y a) ->
  a <> b ->
  (forall v, mfind rk' v <> None <-> In v els) ->
  rkf d a <= rkf d b ->
  (forall v, match mfind rk' v with Some r => r | None => 0 end
     = if Nat.eqb v b then (if Nat.eqb (rkf d a) (rkf d b) then S (rkf d b) else rkf d b) else rkf d v) ->
  DsInv els (mkDsu (minsert (parent d) a b) rk') (ops ++ [Union x y]).
Proof.
  intros [P D Rd T C] Kx Ky R N Rk Le Hr.
  assert (RA : mfind (parent d) a = Some a) by (destruct R as [[R1 R2]|[R1 R2]]; eapply rootof_self; eauto).
  assert (RB : mfind (parent d) b = Some b) by (destruct R as [[R1 R2]|[R1 R2]]; eapply rootof_self; eauto).
  assert (DM : forall w, mfind (minsert (parent d) a b) w <> None <-> mfind (parent d) w <> None).
  { intros w. rewrite mfind_minsert. destruct (Nat.eqb_spec w a); subst; [|tauto].
    split; congruence. }
  constructor; simpl; auto.
  - constructor.
    + intros v q. rewrite mfind_minsert. destruct (Nat.eqb_spec v a).
      * intros H; inversion H; subst. apply DM. congruence.
      * intros H. apply DM. eapply p_closed; eauto.
    + intros v q. rewrite mfind_minsert. unfold rkf at 1 2; simpl. rewrite !Hr.
      destruct (Nat.eqb_spec v a).
      * intros H _; inversion H; subst. rewrite Nat.eqb_refl.
        destruct (Nat.eqb_spec a q); [congruence|].
        destruct (Nat.eqb_spec (rkf d a) (rkf d q)); lia.
      * intros H Hne. pose proof (p_rank _ _ P _ _ H Hne) as L.
        destruct (Nat.eqb_spec v b); [subst; congruence|].
        destruct (Nat.eqb_spec q b); auto. subst.
        destruct (Nat.eqb_spec (rkf d a) (rkf d b)); lia.
  - intros v. rewrite DM. apply D.
  - intros v Hv. destruct (T v Hv) as [r Hrr]. eexists. eapply rootof_link; eauto.
  - intros v w r s Hv Hw.
    assert (Kv : In v els) by (apply D, DM; apply (rootof_known _ _ _ Hv)).
    assert (Kw : In w els) by (apply D, DM; apply (rootof_known _ _ _ Hw)).
    destruct (T v Kv) as [r0 R0], (T w Kw) as [s0 S0].
    pose proof (rootof_link _ _ _ _ _ RA RB N R0) as R1.
    pose proof (rootof_link _ _ _ _ _ RA RB N S0) as S1.
    rewrite (rootof_fun _ _ _ _ Hv R1), (rootof_fun _ _ _ _ Hw S1).
    assert (SY : forall p q, connected ops p q -> connected ops q p)
        by (intros; now apply rst_sym).
    rewrite connected_snoc, <- (C _ _ _ _ R0 S0).
    destruct R as [[Rx Ry]|[Rx Ry]].
    + rewrite <- (C _ _ _ _ R0 Rx), <- (C _ _ _ _ Ry S0),
              <- (C _ _ _ _ R0 Ry), <- (C _ _ _ _ Rx S0).
      destruct (Nat.eqb_spec r0 a), (Nat.eqb_spec s0 a); subst; intuition congruence.
    + rewrite <- (C _ _ _ _ R0 Rx), <- (C _ _ _ _ Ry S0),
              <- (C _ _ _ _ R0 Ry), <- (C _ _ _ _ Rx S0).
      destruct (Nat.eqb_spec r0 a), (Nat.eqb_spec s0 a); subst; intuition congruence.
Qed.

(** Uniting two elements with the same root. *)
Lemma same_inv els d ops x y a rk' :
  DsInv els d ops -> In x els -> In y els ->
  rootof (parent d) x a -> rootof (parent d) y a ->
  (forall v, mfind rk' v <> None <-> In v els) ->
  (forall v, match mfind rk' v with Some r => r | None => 0 end
     = if Nat.eqb v a then S (rkf d a) else rkf d v) ->
  DsInv els (mkDsu (minsert (parent d) a a) rk') (ops ++ [Union x y]).
Proof.
  intros [P D Rd T C] Kx Ky Rx Ry Rk Hr.
  assert (RA : mfind (parent d) a = Some a) by (eapply rootof_self; eauto).
  assert (EQ : forall w, mfind (minsert (parent d) a a) w = mfind (parent d) w).
  { intros w. rewrite mfind_minsert. destruct (Nat.eqb_spec w a); congruence. }
  assert (RO : forall w s, rootof (minsert (parent d) a a) w s <-> rootof (parent d) w s).
  { intros w s. split; intros H; induction H.
    - apply ro_here. now rewrite <- EQ.
    - apply ro_up with q; auto. now rewrite <- EQ.
    - apply ro_here. now rewrite EQ.
    - apply ro_up with q; auto. now rewrite EQ. }
  constructor; simpl; auto.
  - constructor.
    + intros v q. rewrite !EQ. eapply p_closed; eauto.
    + intros v q. rewrite EQ. unfold rkf; simpl. rewrite !Hr. intros H Hne.
      pose proof (p_rank _ _ P _ _ H Hne).
      destruct (Nat.eqb_spec v a); [subst; congruence|].
      destruct (Nat.eqb_spec q a); subst; lia.
  - intros v. rewrite EQ. apply D.
  - intros v Hv. destruct (T v Hv) as [r Hrr]. exists r. now apply RO.
  - intros v w r s Hv Hw. apply RO in Hv. apply RO in Hw.
    rewrite connected_snoc.
    rewrite <- (C _ _ _ _ Hv Hw), <- (C _ _ _ _ Hv Rx), <- (C _ _ _ _ Ry Hw),
              <- (C _ _ _ _ Hv Ry), <- (C _ _ _ _ Rx Hw).
    intuition congruence.
Qed.

Lemma unionSet_ok els d ops x y :
  DsInv els d ops -> In x els -> In y els ->
  exists d', unionSet d x y = Some d' /\ DsInv els d' (ops ++ [Union x y]).
Proof.
  intros I Kx Ky. unfold unionSet.
  destruct (findSet_ok _ _ _ _ I Kx) as (xs & d1 & A1 & R1 & Q1 & E1 & I1).
  rewrite A1.
  destruct (findSet_ok _ _ _ _ I1 Ky) as (ys & d2 & A2 & R2 & Q2 & E2 & I2).
  rewrite A2.
  assert (Rx : rootof (parent d2) x xs) by (apply E2, E1; auto).
  assert (Ry : rootof (parent d2) y ys) by (apply E2; auto).
  assert (Kxs : In xs els) by (apply (s_dom _ _ _ I2); apply (rootof_known _ _ _ Rx)).
  assert (Kys : In ys els) by (apply (s_dom _ _ _ I2); apply (rootof_known _ _ _ Ry)).
  unfold mindex.
  destruct (mfind (rank d2) xs) as [rx|] eqn:Fx; [|exfalso; exact (proj2 (s_rdom _ _ _ I2 xs) Kxs Fx)].
  destruct (mfind (rank d2) ys) as [ry|] eqn:Fy; [|exfalso; exact (proj2 (s_rdom _ _ _ I2 ys) Kys Fy)].
  assert (Hx : rkf d2 xs = rx) by (unfold rkf; now rewrite Fx).
  assert (Hy : rkf d2 ys = ry) by (unfold rkf; now rewrite Fy).
  destruct (Nat.ltb_spec ry rx).
  - eexists. split; [reflexivity|].
    eapply (link_inv els d2 ops x y ys xs); eauto.
    + intros ->. rewrite Hx in Hy. lia.
    + apply I2.
    + lia.
    + intros v. rewrite Hx, Hy. destruct (Nat.eqb_spec ry rx); [lia|].
      destruct (Nat.eqb_spec v xs); subst; auto.
  - eexists. split; [reflexivity|].
    destruct (Nat.eq_dec xs ys).
    + subst ys. assert (ry = rx) by congruence. subst ry. rewrite Hx, Nat.eqb_refl.
      eapply same_inv; eauto.
      * intros v. rewrite mfind_minsert. destruct (Nat.eqb_spec v xs); [subst|apply I2].
        split; [auto|congruence].
      * intros v. rewrite mfind_minsert. destruct (Nat.eqb_spec v xs); subst; auto.
    + eapply (link_inv els d2 ops x y xs ys); eauto.
      * destruct (Nat.eqb rx ry); [|apply I2].
        intros v. rewrite mfind_minsert. destruct (Nat.eqb_spec v ys); [subst|apply I2].
        split; [auto|congruence].
      * lia.
      * intros v. rewrite Hx, Hy. destruct (Nat.eqb_spec rx ry).
        -- rewrite mfind_minsert. destruct (Nat.eqb_spec v ys); auto.
        -- destruct (Nat.eqb_spec v ys); subst; auto.
Qed.

Lemma dsu_init_inv els : DsInv els (dsu_init els) [].
Proof.
  unfold dsu_init.
  assert (Q : forall l d,
    let d' := fold_left (fun d e => mkDsu (minsert (parent d) e e) (minsert (rank d) e 0)) l d in
    (forall v q, mfind (parent d) v = Some q -> q = v) ->
    (forall v q, mfind (parent d') v = Some q -> q = v)
    /\ (forall v, mfind (parent d') v <> None <-> In v l \/ mfind (parent d) v <> None)
    /\ (forall v, mfind (rank d') v <> None <-> In v l \/ mfind (rank d) v <> None)).
  { induction l as [|e l IH]; intros d d' H.
    - simpl in *. subst d'. repeat split; auto; try tauto; try (intros [[]|?]; auto).
    - subst d'. simpl. destruct (IH (mkDsu (minsert (parent d) e e) (minsert (rank d) e 0))) as (A & B & C).
      + simpl. intros v q. rewrite mfind_minsert. destruct (Nat.eqb_spec v e); [congruence|auto].
      + split; [auto|]. split.
        * intros v. rewrite B. simpl. rewrite mfind_minsert.
          destruct (Nat.eqb_spec v e); [|intuition congruence].
          subst. split; auto. intros _. right. discriminate.
        * intros v. rewrite C. simpl. rewrite mfind_minsert.
          destruct (Nat.eqb_spec v e); [|intuition congruence].
          subst. split; auto. intros _. right. discriminate. }
  destruct (Q els (mkDsu [] [])) as (A & B & C); [simpl; discriminate|].
  set (d := fold_left _ els _) in *.
  assert (RO : forall v r, rootof (parent d) v r -> r = v).
  { intros v r H. inversion H; subst; auto. apply A in H0. congruence. }
  constructor.
  - constructor.
    + intros v q H. pose proof (A _ _ H). subst. congruence.
    + intros v q H Hne. apply A in H. congruence.
  - intros v. rewrite B. simpl. intuition congruence.
  - intros v. rewrite C. simpl. intuition congruence.
  - intros v Hv. exists v. apply ro_here.
    destruct (mfind (parent d) v) eqn:F; [now rewrite (A _ _ F)|].
    exfalso. apply (proj2 (B v)); auto.
  - intros v w r s Hv Hw. apply RO in Hv. apply RO in Hw. subst. split.
    + intros ->. apply rst_refl.
    + intros H. clear - H. induction H; [destruct H|auto|auto|congruence].
Qed.

Lemma dsu_run_app o1 o2 d :
  dsu_run (o1 ++ o2) d = match dsu_run o1 d with Some d' => dsu_run o2 d' | None => None end.
Proof. revert d; induction o1; simpl; intros; auto. destruct (dsu_step d a); auto. Qed.

Lemma dsu_run_inv els ops :
  (forall o, In o ops -> known els o) ->
  exists d, dsu_run ops (dsu_init els) = Some d /\ DsInv els d ops.
Proof.
  induction ops as [|o ops IH] using rev_ind; intros K.
  - eexists. split; [reflexivity|]. apply dsu_init_inv.
  - destruct IH as (d & R & I); [intros; apply K; apply in_or_app; auto|].
    rewrite dsu_run_app, R. simpl.
    assert (Ko : known els o) by (apply K; apply in_or_app; simpl; auto).
    destruct o as [v|x y]; simpl in *.
    + destruct (findSet_ok _ _ _ _ I Ko) as (r & d' & A & _ & _ & _ & I').
      rewrite A. eexists. split; [reflexivity|].
      destruct I' as [P D Rd T C]. constructor; auto.
      intros a b r' s Ha Hb. rewrite (C _ _ _ _ Ha Hb). split; intros H.
      * eapply conn_mono; [|eauto]. intros. apply in_or_app; auto.
      * clear - H. induction H.
        -- apply in_app_iff in H. destruct H as [H|[H|[]]]; [|discriminate]. now apply rst_step.
        -- apply rst_refl.
        -- now apply rst_sym.
        -- eapply rst_trans; eauto.
    + destruct Ko as [Kx Ky]. destruct (unionSet_ok _ _ _ _ _ I Kx Ky) as (d' & A & I').
      rewrite A. eauto.
Qed.

Lemma c53 els ops :
  (forall o, In o ops -> known els o) ->
  exists d, dsu_run ops (dsu_init els) = Some d
    /\ forall x y, In x els -> In y els ->
       exists rx d1 ry d2,
         findSet d x = Some (rx, d1) /\ findSet d1 y = Some (ry, d2)
         /\ (rx = ry <-> connected ops x y)
         /\ In rx els /\ connected ops x rx.
Proof.
  intros K. destruct (dsu_run_inv _ _ K) as (d & R & I). exists d. split; auto.
  intros x y Kx Ky.
  destruct (findSet_ok _ _ _ _ I Kx) as (rx & d1 & A1 & R1 & _ & E1 & I1).
  destruct (findSet_ok _ _ _ _ I1 Ky) as (ry & d2 & A2 & R2 & _ & E2 & I2).
  exists rx, d1, ry, d2. split; auto. split; auto.
  apply E1 in R1. split; [|split].
  - apply (s_conn _ _ _ I1); auto.
  - apply (s_dom _ _ _ I1). apply (rootof_known _ _ _ R1).
  - apply (s_conn _ _ _ I1 x rx rx rx); auto. apply ro_here. eapply rootof_self; eauto.
Qed.

(** A query about an element that was never added silently merges it with
    [T{}]. *)
Lemma c53_unknown :
  exists els ops d rx d1 ry d2, dsu_run ops (dsu_init els) = Some d
   /\ findSet d 7 = Some (rx, d1) /\ findSet d1 0 = Some (ry, d2) /\ rx = ry
   /\ ~ connected ops 7 0.
Proof.
  exists [0; 1], [Find 7].
  destruct (dsu_run [Find 7] (dsu_init [0; 1])) as [d|] eqn:R; [|vm_compute in R; discriminate].
  exists d. vm_compute in R. inversion R; subst. clear R.
  eexists _, _, _, _. split; [reflexivity|]. split; [vm_compute; reflexivity|].
  split; [vm_compute; reflexivity|]. split; [reflexivity|].
  assert (H : forall a b, connected [Find 7] a b -> a = b).
  { intros a b H. induction H; auto; [|congruence]. destruct H as [H|[]]; discriminate. }
  intros C. apply H in C. discriminate.
Qed.
