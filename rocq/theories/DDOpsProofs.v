(* Addition, multiplication, conjugate transpose and inner product compute what they name. *)
From Coq Require Import Reals Lra Psatz List Bool Arith Lia FunctionalExtensionality.
From Verif Require Import Cplx Qsem DDModel DDSpec DDProofs DDCanonProofs.
Import ListNotations.
Local Open Scope R_scope.

(* intermediate results: canonical, or of weight zero *)
Definition vcan0 (n : nat) (e : vedge) : Prop := fst e = C0 \/ vcanon n e.
Definition mcan0 (n : nat) (e : medge) : Prop := fst e = C0 \/ mcanon n e.

Lemma vcan0_scale n e k : vcan0 n e -> vcan0 n ((fst e * k)%C, snd e).
Proof.
  intros [Z|H]; [left; cbn; rewrite Z; ring|].
  destruct (Ceq_dec (fst e * k)%C C0) as [E|E]; [left; auto|right].
  unfold vcanon in *; cbn [fst snd]. eapply vcan_weight; eauto. intros Q; apply E; rewrite Q; ring.
Qed.
Lemma mcan0_scale n e k : mcan0 n e -> mcan0 n ((fst e * k)%C, snd e).
Proof.
  intros [Z|H]; [left; cbn; rewrite Z; ring|].
  destruct (Ceq_dec (fst e * k)%C C0) as [E|E]; [left; auto|right].
  unfold mcanon in *; cbn [fst snd]. eapply mcan_weight; eauto.
Qed.
Lemma vlook_canon n e : vcan0 n e -> vcanon n (vlook e).
Proof.
  unfold vlook. destruct (ezero (fst e)) eqn:Z; intros [H|H]; auto using vcanon_zero.
  apply ezero_false in Z; tauto.
Qed.
Lemma mlook_canon n e : mcan0 n e -> mcanon n (mlook e).
Proof.
  unfold mlook. destruct (ezero (fst e)) eqn:Z; intros [H|H]; auto; try apply mcanon_T.
  apply ezero_false in Z; tauto.
Qed.
Lemma vlook_den e b : veden (vlook e) b = veden e b.
Proof.
  unfold vlook. destruct (ezero (fst e)) eqn:Z; auto. apply ezero_true in Z.
  unfold veden; rewrite Z; cbn; ring.
Qed.
Lemma mlook_den n e r c : meden n (mlook e) r c = meden n e r c.
Proof.
  unfold mlook. destruct (ezero (fst e)) eqn:Z; auto. apply ezero_true in Z.
  unfold meden; rewrite Z; cbn; ring.
Qed.

(* ---- addition --------------------------------------------------------------------------------- *)

Lemma vadd_base n x y : vcan0 n x -> vcan0 n y ->
  ezero (fst x) = true \/ ezero (fst y) = true \/ snd x = snd y ->
  exists r, (if ezero (fst x) then (if ezero (fst y) then DOk vzero else DOk y)
          else if ezero (fst y) then DOk x
          else if vtree_eq_dec (snd x) (snd y) then DOk ((fst x + fst y)%C, snd x) else DUb) = DOk r /\
          vcan0 n r /\ forall b, veden r b = (veden x b + veden y b)%C.
Proof.
  intros Hx Hy K; destruct (ezero (fst x)) eqn:Zx;
    [apply ezero_true in Zx; destruct (ezero (fst y)) eqn:Zy;
      [apply ezero_true in Zy; exists vzero; split; [auto|split; [left; auto|]];
        intros b; unfold veden; rewrite Zx, Zy; cbn [fst vzero]; ring
      |exists y; split; [auto|split; [auto|]]; intros b; unfold veden; rewrite Zx; ring]|].
  destruct (ezero (fst y)) eqn:Zy;
      [apply ezero_true in Zy; exists x; split; [auto|split; [auto|]]; intros b; unfold veden; rewrite Zy; ring|].
  destruct vtree_eq_dec as [E|E]; [|intuition congruence].
  eexists; split; [reflexivity|split].
  - destruct (Ceq_dec (fst x + fst y)%C C0) as [Q|Q]; [left; auto|right].
    apply ezero_false in Zx; destruct Hx as [|Hx]; [tauto|].
    unfold vcanon; cbn [fst snd]; eapply vcan_weight; eauto.
  - intros b; unfold veden; cbn [fst snd]; rewrite E; ring.
Qed.

Lemma vadd_spec : forall n x y, vcan0 n x -> vcan0 n y ->
  exists r, vadd n x y = DOk r /\ vcan0 n r /\ forall b, veden r b = (veden x b + veden y b)%C.
Proof.
  induction n as [|v IH]; intros x y Hx Hy.
  all: pose proof (vadd_base _ x y Hx Hy) as BASE.
  - cbn [vadd].
    assert (K : ezero (fst x) = true \/ ezero (fst y) = true \/ snd x = snd y).
    { destruct (ezero (fst x)) eqn:Zx; auto. destruct (ezero (fst y)) eqn:Zy; auto.
      apply ezero_false in Zx, Zy. destruct Hx as [|Hx]; [tauto|]. destruct Hy as [|Hy]; [tauto|].
      right; right. unfold vcanon in *. destruct (snd x); [|destruct Hx as (_ & ? & _); discriminate].
      destruct (snd y); [auto|destruct Hy as (_ & ? & _); discriminate]. }
    destruct (BASE K) as (r & A & B).
    exists r. split; [rewrite <- A; reflexivity|auto].
  - destruct (ezero (fst x)) eqn:Zx.
    { destruct BASE as (r & A & B); [auto|]. exists r; split; auto. cbn [vadd]. rewrite Zx. auto. }
    destruct (ezero (fst y)) eqn:Zy.
    { destruct BASE as (r & A & B); [auto|]. exists r; split; auto. cbn [vadd]. rewrite Zx, Zy. auto. }
    destruct (vtree_eq_dec (snd x) (snd y)) as [E|E].
    { destruct BASE as (r & A & B); [auto|]. exists r; split; auto. cbn [vadd]. rewrite Zx, Zy.
      destruct vtree_eq_dec; [auto|tauto]. }
    clear BASE. cbn [vadd]. rewrite Zx, Zy. destruct vtree_eq_dec; [tauto|].
    apply ezero_false in Zx, Zy. destruct Hx as [|Hx]; [tauto|]. destruct Hy as [|Hy]; [tauto|].
    unfold vcanon in *. destruct (snd x) as [|qx xw xt] eqn:Ex; [destruct Hx; [discriminate|tauto]|].
    destruct (snd y) as [|qy yw yt] eqn:Ey; [destruct Hy; [discriminate|tauto]|].
    destruct Hx as (_ & Qx & Ux & Lx). destruct Hy as (_ & Qy & Uy & Ly).
    injection Qx as <-. injection Qy as <-.
    assert (CX : forall i, vcan0 v (vchild (fst x) xw xt i)).
    { intros i. destruct (Ceq_dec (xw i) C0) as [Z|Z]; [left; cbn; rewrite Z; ring|right].
      unfold vcanon; cbn. eapply vcan_weight; eauto using Cmul_neq0. }
    assert (CY : forall i, vcan0 v (vchild (fst y) yw yt i)).
    { intros i. destruct (Ceq_dec (yw i) C0) as [Z|Z]; [left; cbn; rewrite Z; ring|right].
      unfold vcanon; cbn. eapply vcan_weight; eauto using Cmul_neq0. }
    destruct (IH _ _ (CX false) (CY false)) as (a & Ea & Ca & Da).
    destruct (IH _ _ (CX true) (CY true)) as (b & Eb & Cb & Db).
    rewrite Ea; cbn [dbind]. rewrite Eb; cbn [dbind].
    eexists; split; [reflexivity|split].
    + right. apply vmk_canon. intros []; auto.
    + intros bb. rewrite vmk_den. unfold v2, veden at 2 3. rewrite Ex, Ey. cbn [vden].
      destruct (bb v); [rewrite Db|rewrite Da]; unfold veden, vchild; cbn [fst snd]; ring.
Qed.

Lemma mchild_can v x i j : mcan0 (S v) x -> fst x <> C0 -> mcan0 v (mchild v x i j).
Proof.
  intros [|H] N; [tauto|]. unfold mchild, mcanon in *.
  destruct (snd x) as [|q w t] eqn:E.
  - destruct (eqb i j); right; unfold mcanon; [rewrite E|]; exact Logic.I.
  - destruct H as (A & B & U & NI & L). destruct (Nat.ltb_spec q v).
    + destruct (eqb i j); [right|left; auto]. unfold mcanon; rewrite E. cbn.
      split; [auto|]. split; [auto|]. auto.
    + assert (q = v) by lia; subst q.
      destruct (Ceq_dec (w i j) C0) as [Z|Z]; [left; cbn; rewrite Z; ring|right].
      unfold mcanon; cbn. eapply mcan_weight; eauto using Cmul_neq0.
Qed.
Lemma mchild_den v x r c : mlev (S v) (snd x) ->
  meden v (mchild v x (r v) (c v)) r c = meden (S v) x r c.
Proof.
  intros L. unfold mchild, meden. destruct (snd x) as [|q w t] eqn:E.
  - cbn [mden]. destruct (eqb (r v) (c v)); [rewrite E; auto|]. cbn; ring.
  - destruct L as [A B]. destruct (Nat.ltb_spec q v).
    + rewrite mden_lift by (split; auto). destruct (eqb (r v) (c v)); [rewrite E; auto|cbn; ring].
    + assert (q = v) by lia; subst q. rewrite mden_node. cbn [fst snd]. ring.
Qed.

Lemma seq4_ok {A} (f : bool -> bool -> dres A) (P : bool -> bool -> A -> Prop) :
  (forall i j, exists a, f i j = DOk a /\ P i j a) ->
  exists g, seq4 f = DOk g /\ forall i j, P i j (g i j).
Proof.
  intros H.
  destruct (H false false) as (a & Ea & Pa). destruct (H false true) as (b & Eb & Pb).
  destruct (H true false) as (c & Ec & Pc). destruct (H true true) as (d & Ed & Pd).
  unfold seq4. rewrite Ea, Eb, Ec, Ed; cbn [dbind]. eexists; split; [reflexivity|].
  intros [] []; auto.
Qed.

Lemma mcan0_lev n e : mcan0 n e -> fst e <> C0 -> mlev n (snd e).
Proof. intros [|H] N; [tauto|]. eapply mcan_lev; eauto. Qed.

Lemma mnormalize_ext eps z z' v w w' t t' :
  (forall i j, z i j = z' i j) -> (forall i j, w i j = w' i j) ->
  (forall i j, z i j = false -> t i j = t' i j) -> mnormalize eps z v w t = mnormalize eps z' v w' t'.
Proof.
  intros Z W TT.
  assert (z = z') as <- by (apply functional_extensionality; intros i; apply functional_extensionality; auto).
  assert (w = w') as <- by (apply functional_extensionality; intros i; apply functional_extensionality; auto).
  unfold mnormalize. destruct margmax as [m|]; auto. f_equal. f_equal.
  apply functional_extensionality; intros i; apply functional_extensionality; intros j.
  destruct (z i j) eqn:Q; auto. rewrite (TT i j Q); auto.
Qed.

(* makeDDNode on cached edges: entries of weight zero are never followed *)
Lemma mmk_den0 v e r c : (forall i j, mcan0 v (e i j)) ->
  meden (S v) (mmk v e) r c = meden v (e (r v) (c v)) r c.
Proof.
  intros H.
  assert (E : mmk v e = mmk v (fun i j => if ezero (fst (e i j)) then mzero else e i j)).
  { unfold mmk, mmakeC. f_equal.
    rewrite (mnormalize_ext 0 _ (fun i j => azero 0 (fst (if ezero (fst (e i j)) then mzero else e i j))) v
              (fun i j => fst (e i j)) (fun i j => fst (if ezero (fst (e i j)) then mzero else e i j))
              (fun i j => snd (e i j)) (fun i j => snd (if ezero (fst (e i j)) then mzero else e i j))); auto.
    - intros i j. rewrite !azero_0. destruct (ezero (fst (e i j))) eqn:Q; auto. symmetry; apply ezero_0.
    - intros i j. destruct (ezero (fst (e i j))) eqn:Q; auto. apply ezero_true in Q. rewrite Q; auto.
    - intros i j. rewrite azero_0. intros Q. rewrite Q. auto. }
  rewrite E, mmk_den.
  - destruct (ezero _) eqn:Q; auto. apply ezero_true in Q. unfold meden; rewrite Q; cbn; ring.
  - intros i j. destruct (ezero _) eqn:Q; [exact Logic.I|]. apply ezero_false in Q.
    apply mcan0_lev; auto.
Qed.

Lemma madd_base n x y : mcan0 n x -> mcan0 n y ->
  ezero (fst x) = true \/ ezero (fst y) = true \/ snd x = snd y ->
  exists r, (if ezero (fst x) then (if ezero (fst y) then DOk mzero else DOk y)
          else if ezero (fst y) then DOk x
          else if mtree_eq_dec (snd x) (snd y) then DOk ((fst x + fst y)%C, snd x) else DUb) = DOk r /\
          mcan0 n r /\ forall b c, meden n r b c = (meden n x b c + meden n y b c)%C.
Proof.
  intros Hx Hy K; destruct (ezero (fst x)) eqn:Zx;
    [apply ezero_true in Zx; destruct (ezero (fst y)) eqn:Zy;
      [apply ezero_true in Zy; exists mzero; split; [auto|split; [left; auto|]];
        intros b c; unfold meden; rewrite Zx, Zy; cbn [fst mzero]; ring
      |exists y; split; [auto|split; [auto|]]; intros b c; unfold meden; rewrite Zx; ring]|].
  destruct (ezero (fst y)) eqn:Zy;
      [apply ezero_true in Zy; exists x; split; [auto|split; [auto|]]; intros b c; unfold meden; rewrite Zy; ring|].
  destruct mtree_eq_dec as [E|E]; [|intuition congruence].
  eexists; split; [reflexivity|split].
  - destruct (Ceq_dec (fst x + fst y)%C C0) as [Q|Q]; [left; auto|right].
    apply ezero_false in Zx; destruct Hx as [|Hx]; [tauto|].
    unfold mcanon; cbn [fst snd]; eapply mcan_weight; eauto.
  - intros b c; unfold meden; cbn [fst snd]; rewrite E; ring.
Qed.

Lemma madd_spec : forall n x y, mcan0 n x -> mcan0 n y ->
  exists r, madd n x y = DOk r /\ mcan0 n r /\ forall b c, meden n r b c = (meden n x b c + meden n y b c)%C.
Proof.
  induction n as [|v IH]; intros x y Hx Hy.
  all: pose proof (madd_base _ x y Hx Hy) as BASE.
  - cbn [madd].
    assert (K : ezero (fst x) = true \/ ezero (fst y) = true \/ snd x = snd y).
    { destruct (ezero (fst x)) eqn:Zx; auto. destruct (ezero (fst y)) eqn:Zy; auto.
      apply ezero_false in Zx, Zy. destruct Hx as [|Hx]; [tauto|]. destruct Hy as [|Hy]; [tauto|].
      right; right. unfold mcanon in *. destruct (snd x); [|destruct Hx as (_ & ? & _); lia].
      destruct (snd y); [auto|destruct Hy as (_ & ? & _); lia]. }
    destruct (BASE K) as (r & A & B).
    exists r. split; auto.
  - destruct (ezero (fst x)) eqn:Zx.
    { destruct BASE as (r & A & B); [auto|]. exists r; split; auto. cbn [madd]. rewrite Zx. auto. }
    destruct (ezero (fst y)) eqn:Zy.
    { destruct BASE as (r & A & B); [auto|]. exists r; split; auto. cbn [madd]. rewrite Zx, Zy. auto. }
    destruct (mtree_eq_dec (snd x) (snd y)) as [E|E].
    { destruct BASE as (r & A & B); [auto|]. exists r; split; auto. cbn [madd]. rewrite Zx, Zy.
      destruct mtree_eq_dec; [auto|tauto]. }
    clear BASE. cbn [madd]. rewrite Zx, Zy. destruct mtree_eq_dec; [tauto|].
    apply ezero_false in Zx, Zy.
    destruct (seq4_ok (fun i j => madd v (mchild v x i j) (mchild v y i j))
               (fun i j a => mcan0 v a /\ forall b c, meden v a b c =
                  (meden v (mchild v x i j) b c + meden v (mchild v y i j) b c)%C)) as (g & Eg & Pg).
    { intros i j. apply IH; apply mchild_can; auto. }
    rewrite Eg; cbn [dbind]. eexists; split; [reflexivity|split].
    + right. apply mmk_canon. intros i j. apply Pg.
    + intros b c. rewrite mmk_den0 by (intros; apply Pg). rewrite (proj2 (Pg _ _)).
      rewrite !mchild_den by (apply mcan0_lev; auto). auto.
Qed.

(* ---- sums over assignments ---------------------------------------------------------------------- *)

Lemma bsum_ext n f g b : (forall c, f c = g c) -> bsum n f b = bsum n g b.
Proof. intros E. replace g with f; auto. apply functional_extensionality; auto. Qed.
Lemma bsum_setb n f b q v : (n <= q)%nat -> bsum n f (setb b q v) = bsum n (fun c => f (setb c q v)) b.
Proof.
  revert b. induction n as [|n IH]; intros b H; cbn [bsum]; auto.
  rewrite (setb_comm b q n v false), (setb_comm b q n v true) by lia.
  rewrite !IH by lia. auto.
Qed.
Lemma bsum_add n f g b : bsum n (fun c => (f c + g c)%C) b = (bsum n f b + bsum n g b)%C.
Proof. revert b; induction n as [|n IH]; intros b; cbn [bsum]; auto. rewrite !IH; ring. Qed.
Lemma bsum_scal n k f b : bsum n (fun c => (k * f c)%C) b = (k * bsum n f b)%C.
Proof. revert b; induction n as [|n IH]; intros b; cbn [bsum]; auto. rewrite !IH; ring. Qed.
Lemma bsum_zero n b : bsum n (fun _ => C0) b = C0.
Proof. revert b; induction n as [|n IH]; intros b; cbn [bsum]; auto. rewrite !IH; ring. Qed.
Lemma bsum_S n f b : bsum (S n) f b =
  (bsum n (fun c => f (setb c n false)) b + bsum n (fun c => f (setb c n true)) b)%C.
Proof. cbn [bsum]. rewrite !bsum_setb; auto. Qed.

Definition local (n : nat) (f : bits -> C) : Prop :=
  forall b b', (forall q, (q < n)%nat -> b q = b' q) -> f b = f b'.
Lemma bsum_base n f b b' : local n f -> bsum n f b = bsum n f b'.
Proof.
  revert f. induction n as [|n IH]; intros f L.
  - cbn. apply L. intros; lia.
  - rewrite !bsum_S. f_equal; apply IH; intros x y E; apply L; intros q Hq;
      destruct (Nat.eq_dec q n) as [->|]; [rewrite !setb_same| rewrite !setb_other by auto; apply E; lia
                                          |rewrite !setb_same| rewrite !setb_other by auto; apply E; lia]; auto.
Qed.
Lemma bsum_id n f r b : local n f -> bsum n (fun c => (mden n MT r c * f c)%C) b = f r.
Proof.
  revert f b. induction n as [|n IH]; intros f b L.
  - cbn [bsum mden]. rewrite Cmul_1_l. apply L. intros; lia.
  - rewrite bsum_S. cbn [mden].
    assert (L' : forall v, local n (fun c => f (setb c n v))).
    { intros v x y E. apply L. intros q Hq.
      destruct (Nat.eq_dec q n) as [->|]; [rewrite !setb_same; auto|].
      rewrite !setb_other by auto. apply E; lia. }
    assert (G : forall v, bsum n (fun c => ((if eqb (r n) (setb c n v n) then mden n MT r (setb c n v) else C0)
                                       * f (setb c n v))%C) b
                      = if eqb (r n) v then f (setb r n v) else C0).
    { intros v. destruct (eqb (r n) v) eqn:Q.
      - rewrite <- (IH (fun c => f (setb c n v)) b); [|apply L'].
        apply bsum_ext. intros c. rewrite setb_same, Q. f_equal.
        apply mden_ext. intros q Hq. rewrite setb_other by lia. auto.
      - transitivity (bsum n (fun _ => C0) b); [|apply bsum_zero]. apply bsum_ext. intros c. rewrite setb_same, Q. ring. }
    rewrite !G. assert (RR : f r = f (setb r n (r n))) by (rewrite setb_id; auto). rewrite RR.
    destruct (r n); cbn [eqb]; ring.
Qed.

(* ---- multiplication ------------------------------------------------------------------------------- *)

Lemma mchildM_can v w t i j : mcan (S v) w t -> w <> C0 -> mcanon v (mchildM v t i j).
Proof.
  unfold mchildM, mcanon. destruct t as [|q ws s]; intros H N.
  - destruct (eqb i j); exact Logic.I.
  - destruct H as (_ & B & U & NI & L). destruct (Nat.eqb_spec q v) as [->|Q].
    + cbn; apply L.
    + destruct (eqb i j); [|exact Logic.I]. cbn. split; [apply C1_neq_C0|]. split; [lia|auto].
Qed.
Lemma mchildM_den v t r c i j : mlev (S v) t ->
  meden v (mchildM v t i j) r c = mden (S v) t (setb r v i) (setb c v j).
Proof.
  intros L. unfold mchildM, meden. destruct t as [|q ws s].
  - rewrite mden_lift by auto. rewrite !setb_same, mden_setb by auto.
    destruct (eqb i j); cbn [fst snd mzero]; ring.
  - destruct (Nat.eqb_spec q v) as [->|Q].
    + rewrite mden_node, !setb_same, mden_setb by auto. auto.
    + rewrite mden_lift by (destruct L; split; [lia|auto]). rewrite !setb_same, mden_setb by auto.
      destruct (eqb i j); cbn [fst snd mzero]; ring.
Qed.
Lemma vchildM_node v ws s k : vchildM v (VNode v ws s) k = (ws k, s k).
Proof. unfold vchildM. rewrite Nat.eqb_refl; auto. Qed.

Lemma vacc_spec n a b : vcan0 n a -> vcan0 n b ->
  exists r, vacc n a b = DOk r /\ vcan0 n r /\ forall c, veden r c = (veden a c + veden b c)%C.
Proof.
  intros A B. unfold vacc. destruct (ezero (fst a)) eqn:Za.
  - apply ezero_true in Za. exists b. split; [auto|]. split; [auto|]. intros c. unfold veden; rewrite Za; ring.
  - destruct (ezero (fst b)) eqn:Zb.
    + apply ezero_true in Zb. exists a. split; [auto|]. split; [auto|]. intros c. unfold veden; rewrite Zb; ring.
    + apply vadd_spec; auto.
Qed.
Lemma macc_spec n a b : mcan0 n a -> mcan0 n b ->
  exists r, macc n a b = DOk r /\ mcan0 n r /\ forall c d, meden n r c d = (meden n a c d + meden n b c d)%C.
Proof.
  intros A B. unfold macc. destruct (ezero (fst a)) eqn:Za.
  - apply ezero_true in Za. exists b. split; [auto|]. split; [auto|]. intros c d. unfold meden; rewrite Za; ring.
  - destruct (ezero (fst b)) eqn:Zb.
    + apply ezero_true in Zb. exists a. split; [auto|]. split; [auto|]. intros c d. unfold meden; rewrite Zb; ring.
    + apply madd_spec; auto.
Qed.

Lemma veden_local n e : vwf n e -> local n (veden e).
Proof. intros W b b' E. unfold veden. f_equal. eapply vden_ext; eauto. Qed.

Lemma mvmul_spec : forall n x y, mcanon n x -> vcanon n y ->
  exists r, mvmul n x y = DOk r /\ vcan0 n r /\
            forall b b0, veden r b = bsum n (fun c => (meden n x b c * veden y c)%C) b0.
Proof.
  assert (ZERO : forall n (x : medge) (y : vedge), fst x = C0 \/ fst y = C0 ->
      exists r, DOk vzero = DOk r /\ vcan0 n r /\
            forall b b0, veden r b = bsum n (fun c => (meden n x b c * veden y c)%C) b0).
  { intros n x y Z. exists vzero. split; [auto|]. split; [left; auto|]. intros b b0.
    transitivity C0; [unfold veden; cbn [fst vzero]; ring|]. rewrite <- (bsum_zero n b0).
    apply bsum_ext. intros k. unfold meden, veden. destruct Z as [Z|Z]; rewrite Z; ring. }
  assert (ID : forall m (x : medge) (y : vedge), fst x <> C0 -> fst y <> C0 -> snd x = MT -> vcanon m y ->
         exists r, (DOk ((fst x * fst y)%C, snd y) = DOk r) /\ vcan0 m r /\
            forall b b0, veden r b = bsum m (fun c => (meden m x b c * veden y c)%C) b0).
  { intros m x y Zx Zy Ex Hm; eexists; split; [reflexivity|split].
    - right; unfold vcanon; cbn [fst snd]. eapply vcan_weight; eauto using Cmul_neq0.
    - intros b b0; unfold meden; rewrite Ex.
      rewrite (bsum_ext m _ (fun c => (mden m MT b c * (fst x * veden y c))%C)) by (intros; ring).
      rewrite (bsum_id m (fun c => (fst x * veden y c)%C)).
      + unfold veden; cbn [fst snd]; ring.
      + intros c c' Ec; f_equal; apply (veden_local m); auto; apply vcanon_wf; auto. }
  induction n as [|v IH]; intros x y Hx Hy; cbn [mvmul].
  all: destruct (ezero (fst x)) eqn:Zx; cbn [orb]; [apply ZERO; left; apply ezero_true; auto|].
  all: destruct (ezero (fst y)) eqn:Zy; [apply ZERO; right; apply ezero_true; auto|].
  all: apply ezero_false in Zx, Zy.
  - destruct (snd x) as [|q ws s] eqn:Ex; [apply ID; auto|].
    exfalso. unfold mcanon in Hx. rewrite Ex in Hx. destruct Hx as (_ & ? & _); lia.
  - destruct (snd x) as [|q ws s] eqn:Ex; [apply ID; auto|]. rewrite <- Ex.
    unfold vcanon in Hy. destruct (snd y) as [|qy yw yt] eqn:Ey; [destruct Hy; [discriminate|tauto]|].
    destruct Hy as (_ & Qy & Uy & Ly). injection Qy as <-. rewrite !vchildM_node.
    assert (EN : forall i, exists r,
      (let* a := mvmul v (mchildM v (snd x) i false) (yw false, yt false) in
       let* b := mvmul v (mchildM v (snd x) i true) (yw true, yt true) in vacc v a b) = DOk r /\
      vcan0 v r /\ forall b b0, veden r b =
        (bsum v (fun c => (meden v (mchildM v (snd x) i false) b c * veden (yw false, yt false) c)%C) b0 +
         bsum v (fun c => (meden v (mchildM v (snd x) i true) b c * veden (yw true, yt true) c)%C) b0)%C).
    { intros i.
      destruct (IH (mchildM v (snd x) i false) (yw false, yt false)) as (a & Ea & Ca & Da);
        [eapply mchildM_can; eauto|apply Ly|].
      destruct (IH (mchildM v (snd x) i true) (yw true, yt true)) as (b & Eb & Cb & Db);
        [eapply mchildM_can; eauto|apply Ly|].
      rewrite Ea; cbn [dbind]. rewrite Eb; cbn [dbind].
      destruct (vacc_spec v a b Ca Cb) as (r & Er & Cr & Dr).
      exists r. split; [auto|]. split; [auto|]. intros b1 b0. rewrite Dr, (Da b1 b0), (Db b1 b0); auto. }
    destruct (EN false) as (a & Ea & Ca & Da). destruct (EN true) as (b & Eb & Cb & Db).
    rewrite Ea; cbn [dbind]. rewrite Eb; cbn [dbind].
    eexists; split; [reflexivity|split].
    + apply vcan0_scale. right. apply vmk_canon. intros []; auto.
    + intros b1 b0. unfold veden at 1; cbn [fst snd].
      transitivity (fst x * fst y * veden (vmk v (v2 a b)) b1)%C; [unfold veden; ring|].
      rewrite vmk_den, bsum_S.
      assert (T : forall k, (fst x * fst y * bsum v (fun c => (meden v (mchildM v (snd x) (b1 v) k) b1 c *
                                              veden (yw k, yt k) c)%C) b0)%C =
                  bsum v (fun c => (meden (S v) x b1 (setb c v k) * veden y (setb c v k))%C) b0).
      { intros k. rewrite <- bsum_scal. apply bsum_ext. intros c.
        rewrite mchildM_den by (eapply mcan_lev; eauto). rewrite setb_id.
        unfold meden, veden. rewrite Ey. cbn [fst snd vden]. rewrite setb_same.
        rewrite (vden_setb (yt k) v (yw k)) by (auto using vcan_lev). ring. }
      rewrite <- !T. unfold v2. destruct (b1 v); [rewrite (Db _ b0)|rewrite (Da _ b0)]; ring.
Qed.

Lemma meden_local_l n e c : local n (fun r => meden n e r c).
Proof. intros b b' E. unfold meden. f_equal. apply mden_ext. auto. Qed.
Lemma meden_local_r n e r : local n (fun c => meden n e r c).
Proof. intros b b' E. unfold meden. f_equal. apply mden_ext. auto. Qed.
Lemma mden_MT_sym n r c : mden n MT r c = mden n MT c r.
Proof. induction n as [|n IH]; cbn [mden]; auto. rewrite IH. destruct (r n), (c n); auto. Qed.

Lemma mmmul_spec : forall n x y, mcanon n x -> mcanon n y ->
  exists e, mmmul n x y = DOk e /\ mcan0 n e /\
            forall r c b0, meden n e r c = bsum n (fun k => (meden n x r k * meden n y k c)%C) b0.
Proof.
  assert (ZERO : forall n (x y : medge), fst x = C0 \/ fst y = C0 ->
      exists e, DOk mzero = DOk e /\ mcan0 n e /\
            forall r c b0, meden n e r c = bsum n (fun k => (meden n x r k * meden n y k c)%C) b0).
  { intros n x y Z. exists mzero. split; [auto|]. split; [left; auto|]. intros r c b0.
    transitivity C0; [unfold meden; cbn [fst mzero]; ring|]. rewrite <- (bsum_zero n b0).
    apply bsum_ext. intros k. unfold meden. destruct Z as [Z|Z]; rewrite Z; ring. }
  assert (IDL : forall n (x y : medge), fst x <> C0 -> fst y <> C0 -> snd x = MT -> mcanon n y ->
      exists e, DOk ((fst x * fst y)%C, snd y) = DOk e /\ mcan0 n e /\
            forall r c b0, meden n e r c = bsum n (fun k => (meden n x r k * meden n y k c)%C) b0).
  { intros n x y Nx Ny Ex Hy. eexists; split; [reflexivity|split].
    - right. unfold mcanon; cbn [fst snd]. eapply mcan_weight; eauto using Cmul_neq0.
    - intros r c b0. unfold meden at 2. rewrite Ex.
      rewrite (bsum_ext n _ (fun k => (mden n MT r k * (fst x * meden n y k c))%C)) by (intros; ring).
      rewrite (bsum_id n (fun k => (fst x * meden n y k c)%C)).
      + unfold meden; cbn [fst snd]; ring.
      + intros k k' E. f_equal. apply (meden_local_l n y c); auto. }
  assert (IDR : forall n (x y : medge), fst x <> C0 -> fst y <> C0 -> snd y = MT -> mcanon n x ->
      exists e, DOk ((fst x * fst y)%C, snd x) = DOk e /\ mcan0 n e /\
            forall r c b0, meden n e r c = bsum n (fun k => (meden n x r k * meden n y k c)%C) b0).
  { intros n x y Nx Ny Ey Hx. eexists; split; [reflexivity|split].
    - right. unfold mcanon; cbn [fst snd]. eapply mcan_weight; eauto using Cmul_neq0.
    - intros r c b0. unfold meden at 3. rewrite Ey.
      rewrite (bsum_ext n _ (fun k => (mden n MT c k * (fst y * meden n x r k))%C))
        by (intros; rewrite (mden_MT_sym n c); ring).
      rewrite (bsum_id n (fun k => (fst y * meden n x r k)%C)).
      + unfold meden; cbn [fst snd]; ring.
      + intros k k' E. f_equal. apply (meden_local_r n x r); auto. }
  induction n as [|v IH]; intros x y Hx Hy; cbn [mmmul].
  all: destruct (ezero (fst x)) eqn:Zx; cbn [orb]; [apply ZERO; left; apply ezero_true; auto|].
  all: destruct (ezero (fst y)) eqn:Zy; [apply ZERO; right; apply ezero_true; auto|].
  all: apply ezero_false in Zx, Zy.
  - unfold mcanon in *. destruct (snd x) as [|q ws s] eqn:Ex; [apply IDL; auto|destruct Hx as (_ & ? & _); lia].
  - destruct (snd x) as [|q ws s] eqn:Ex; [apply IDL; auto|]. rewrite <- Ex.
    destruct (snd y) as [|qy yw ys] eqn:Ey; [apply IDR; auto|]. rewrite <- Ey.
    set (F := fun i j => (let* a := mmmul v (mchildM v (snd x) i false) (mchildM v (snd y) false j) in
             let* b := mmmul v (mchildM v (snd x) i true) (mchildM v (snd y) true j) in macc v a b)).
    destruct (seq4_ok F (fun i j e => mcan0 v e /\ forall r c b0, meden v e r c =
        (bsum v (fun k => (meden v (mchildM v (snd x) i false) r k * meden v (mchildM v (snd y) false j) k c)%C) b0
         + bsum v (fun k => (meden v (mchildM v (snd x) i true) r k * meden v (mchildM v (snd y) true j) k c)%C) b0)%C))
      as (g & Eg & Pg).
    { intros i j. unfold F.
      destruct (IH (mchildM v (snd x) i false) (mchildM v (snd y) false j)) as (a & Ea & Ca & Da);
        [eapply mchildM_can; eauto|eapply mchildM_can; eauto|].
      destruct (IH (mchildM v (snd x) i true) (mchildM v (snd y) true j)) as (b & Eb & Cb & Db);
        [eapply mchildM_can; eauto|eapply mchildM_can; eauto|].
      rewrite Ea; cbn [dbind]. rewrite Eb; cbn [dbind].
      destruct (macc_spec v a b Ca Cb) as (r & Er & Cr & Dr).
      exists r. split; [auto|]. split; [auto|]. intros r0 c0 b0. rewrite Dr, (Da _ _ b0), (Db _ _ b0). auto. }
    change (exists e, (let* e0 := seq4 F in DOk ((fst (mmk v e0) * (fst x * fst y))%C, snd (mmk v e0))) = DOk e /\
       mcan0 (S v) e /\ forall r c b0, meden (S v) e r c = bsum (S v) (fun k => (meden (S v) x r k * meden (S v) y k c)%C) b0).
    rewrite Eg; cbn [dbind]. eexists; split; [reflexivity|split].
    + apply mcan0_scale. right. apply mmk_canon. intros; apply Pg.
    + intros r c b0. unfold meden at 1; cbn [fst snd].
      transitivity (fst x * fst y * meden (S v) (mmk v g) r c)%C; [unfold meden; ring|].
      rewrite mmk_den0 by (intros; apply Pg). rewrite (proj2 (Pg _ _) r c b0), bsum_S.
      assert (T : forall k0, bsum v (fun k => (meden (S v) x r (setb k v k0) * meden (S v) y (setb k v k0) c)%C) b0 =
        (fst x * fst y * bsum v (fun k => (meden v (mchildM v (snd x) (r v) k0) r k *
                                      meden v (mchildM v (snd y) k0 (c v)) k c)%C) b0)%C).
      { intros k0. rewrite <- bsum_scal. apply bsum_ext. intros k.
        rewrite !mchildM_den by (eapply mcan_lev; eauto). rewrite !setb_id. unfold meden. ring. }
      rewrite !T. ring.
Qed.

(* ---- conjugate transpose --------------------------------------------------------------------------- *)

Lemma mct_spec : forall t n w, mcan n w t ->
  mcan0 n (mct_node t) /\ forall r c, meden n (mct_node t) r c = Cconj (mden n t c r).
Proof.
  assert (MTC : forall n r c, Cconj (mden n MT c r) = mden n MT r c).
  { induction n as [|n IH]; intros r c; cbn [mden]; [apply Cconj_1|].
    destruct (c n), (r n); cbn [eqb]; auto using Cconj_0. }
  induction t as [|q ws s IH]; intros n w H.
  - split; [right; exact Logic.I|]. intros r c. unfold meden; cbn [mct_node mone fst snd]. rewrite MTC. ring.
  - destruct H as (Hw & Hq & U & NI & L). cbn [mct_node].
    set (e := fun i j => ((fst (mct_node (s j i)) * Cconj (ws j i))%C, snd (mct_node (s j i)))).
    assert (CE : forall i j, mcan0 q (e i j)).
    { intros i j. unfold e. apply mcan0_scale. eapply IH; eauto. }
    assert (CM : mcanon (S q) (mmk q e)) by (apply mmk_canon; auto).
    assert (D : forall r c, meden (S q) (mmk q e) r c = Cconj (mden (S q) (MNode q ws s) c r)).
    { intros r c. rewrite mmk_den0 by auto. rewrite mden_node, Cconj_mul.
      destruct (IH (c q) (r q) q (ws (c q) (r q))) as [_ B]; [auto|].
      rewrite <- B. unfold e, meden; cbn [fst snd]. ring. }
    split.
    + right. unfold mcanon in *. apply (mcan_mono (S q)); auto.
    + replace n with (n - S q + S q)%nat by lia. induction (n - S q)%nat as [|d IHd]; cbn [Nat.add]; auto.
      intros r c. unfold meden.
      rewrite mden_lift by (eapply mlev_mono; [|eapply mcan_lev; apply CM]; lia).
      rewrite mden_lift by (split; [lia|intros i j; eapply mcan_lev; apply L]).
      replace (eqb (c (d + S q)%nat) (r (d + S q)%nat)) with (eqb (r (d + S q)%nat) (c (d + S q)%nat))
        by (destruct (r (d + S q)%nat), (c (d + S q)%nat); auto).
      destruct (eqb (r (d + S q)%nat) (c (d + S q)%nat)).
      * apply IHd.
      * rewrite Cconj_0. ring.
Qed.
Lemma conjugateTranspose_spec n a : mcanon n a ->
  mcanon n (conjugateTranspose a) /\ forall r c, meden n (conjugateTranspose a) r c = Cconj (meden n a c r).
Proof.
  destruct a as [w t]. intros H. destruct (mct_spec t n w H) as [A B].
  split.
  - unfold conjugateTranspose; cbn [fst snd]. destruct (Ceq_dec w C0) as [->|N].
    + unfold mcanon in H; cbn in H. destruct t; [exact Logic.I|destruct H; tauto].
    + destruct (mcan0_scale n _ (Cconj w) A) as [Z|K]; auto.
      exfalso. cbn [fst] in Z. destruct (Cmul_zero _ _ Z) as [Q|Q].
      * destruct (mden_nonzero n t w H) as (r & c & Hrc).
        specialize (B c r). unfold meden in B. rewrite Q, Cmul_0_l in B.
        apply Hrc. rewrite <- (Cconj_conj (mden n t r c)), <- B. apply Cconj_0.
      * apply N. rewrite <- (Cconj_conj w), Q. apply Cconj_0.
  - intros r c. unfold conjugateTranspose, meden in *; cbn [fst snd].
    rewrite Cconj_mul, <- B. ring.
Qed.


(* ---- the public entry points -------------------------------------------------------------------------- *)

Lemma vcanon_root n e : vcanon n e -> snd e = VT \/ (n = S (vvar (snd e)) /\ fst e <> C0).
Proof.
  unfold vcanon. destruct (snd e) as [|q ws s]; auto. intros (A & -> & _). right; auto.
Qed.
Lemma vectorAdd_spec n x y : vcanon n x -> vcanon n y ->
  exists r, vectorAdd x y = DOk r /\ vcanon n r /\ forall b, veden r b = (veden x b + veden y b)%C.
Proof.
  intros Hx Hy. unfold vectorAdd.
  assert (E : vadd (S (Nat.max (vvar (snd x)) (vvar (snd y)))) x y = vadd n x y).
  { destruct (vcanon_root n x Hx) as [Tx|[Nx Wx]]; destruct (vcanon_root n y Hy) as [Ty|[Ny Wy]].
    - rewrite Tx, Ty. destruct n; cbn [vadd]; rewrite ?Tx, ?Ty; destruct (ezero (fst x)); auto;
        destruct (ezero (fst y)); auto; destruct vtree_eq_dec; tauto.
    - rewrite Tx. cbn [vvar Nat.max]. rewrite <- Ny. auto.
    - rewrite Ty, Nat.max_0_r. rewrite <- Nx. auto.
    - assert (vvar (snd x) = vvar (snd y)) by lia. rewrite H, Nat.max_id, <- Ny. auto. }
  rewrite E. destruct (vadd_spec n x y) as (r & Er & Cr & Dr); [right; auto|right; auto|].
  rewrite Er; cbn [dbind]. eexists; split; [reflexivity|split].
  - apply vlook_canon; auto.
  - intros b. rewrite vlook_den; auto.
Qed.

Lemma mlev_root n t : mlev n t -> mlev (S (mvar t)) t /\ (t = MT \/ (S (mvar t) <= n)%nat).
Proof. destruct t as [|q ws s]; cbn; auto. intros [A B]. split; [split; [lia|auto]|right; lia]. Qed.
Lemma mcanon_root n e m : mcanon n e -> (mvar (snd e) < m)%nat -> mcanon m e.
Proof. unfold mcanon. destruct (snd e) as [|q ws s]; cbn; auto. intuition lia. Qed.

(* equations between diagrams of level m hold at every higher level *)
Lemma madd_lift m n x y r : (m <= n)%nat -> mwf m x -> mwf m y -> mwf m r ->
  (forall b c, meden m r b c = (meden m x b c + meden m y b c)%C) ->
  forall b c, meden n r b c = (meden n x b c + meden n y b c)%C.
Proof.
  intros H Wx Wy Wr E. replace n with (n - m + m)%nat by lia.
  induction (n - m)%nat as [|d IH]; cbn [Nat.add]; auto.
  intros b c. unfold meden. rewrite !mden_lift by (eapply mlev_mono; [|eassumption]; lia).
  destruct (eqb _ _); [apply IH|ring].
Qed.
Lemma mmul_lift m n x y r : (m <= n)%nat -> mwf m x -> mwf m y -> mwf m r ->
  (forall b c b0, meden m r b c = bsum m (fun k => (meden m x b k * meden m y k c)%C) b0) ->
  forall b c b0, meden n r b c = bsum n (fun k => (meden n x b k * meden n y k c)%C) b0.
Proof.
  intros H Wx Wy Wr E. replace n with (n - m + m)%nat by lia.
  induction (n - m)%nat as [|d IH]; cbn [Nat.add]; auto.
  intros b c b0. unfold meden at 1. rewrite !mden_lift by (eapply mlev_mono; [|eassumption]; lia).
  rewrite bsum_S. set (p := (d + m)%nat) in *.
  assert (G : forall v, bsum p (fun k => (meden (S p) x b (setb k p v) * meden (S p) y (setb k p v) c)%C) b0 =
     if eqb (b p) v && eqb v (c p) then meden p r b c else C0).
  { intros v. destruct (eqb (b p) v) eqn:Q1; cbn [andb].
    - destruct (eqb v (c p)) eqn:Q2.
      + rewrite (IH b c b0). apply bsum_ext. intros k. unfold meden.
        rewrite !mden_lift by (eapply mlev_mono; [|eassumption]; lia).
        rewrite setb_same, Q1, Q2. f_equal; f_equal; apply mden_ext; intros q Hq;
          rewrite setb_other by lia; auto.
      + transitivity (bsum p (fun _ => C0) b0); [|apply bsum_zero]. apply bsum_ext. intros k. unfold meden.
        rewrite !mden_lift by (eapply mlev_mono; [|eassumption]; lia). rewrite setb_same, Q2. ring.
    - transitivity (bsum p (fun _ => C0) b0); [|apply bsum_zero]. apply bsum_ext. intros k. unfold meden.
      rewrite !mden_lift by (eapply mlev_mono; [|eassumption]; lia). rewrite setb_same, Q1. ring. }
  rewrite !G. unfold meden. destruct (b p), (c p); cbn [eqb andb]; ring.
Qed.

Lemma matrixAdd_spec n x y : mcanon n x -> mcanon n y ->
  exists r, matrixAdd x y = DOk r /\ mcanon n r /\
            forall b c, meden n r b c = (meden n x b c + meden n y b c)%C.
Proof.
  intros Hx Hy. unfold matrixAdd. set (m := S (Nat.max (mvar (snd x)) (mvar (snd y)))).
  assert (Mx : mcanon m x) by (eapply mcanon_root; eauto; unfold m; lia).
  assert (My : mcanon m y) by (eapply mcanon_root; eauto; unfold m; lia).
  destruct (madd_spec m x y) as (r & Er & Cr & Dr); [right; auto|right; auto|].
  rewrite Er; cbn [dbind]. eexists; split; [reflexivity|].
  pose proof (mlook_canon m r Cr) as CL.
  assert (TT : (m <= n)%nat \/ (snd x = MT /\ snd y = MT)).
  { destruct (mlev_root n (snd x) (mcan_lev _ _ _ Hx)) as [_ [A|A]];
      destruct (mlev_root n (snd y) (mcan_lev _ _ _ Hy)) as [_ [B|B]]; auto; left; unfold m; rewrite ?A, ?B in *; cbn [mvar] in *; lia. }
  destruct TT as [L|[Tx Ty]].
  - split; [unfold mcanon; eapply mcan_mono; [apply L|apply CL]|].
    apply (madd_lift m n x y (mlook r)); auto using mcanon_wf. intros b c. rewrite mlook_den; auto.
  - assert (R : snd (mlook r) = MT /\ fst (mlook r) = (fst x + fst y)%C).
    { unfold m in Er. cbn [madd] in Er. unfold mlook.
      destruct (ezero (fst x)) eqn:Zx.
      - apply ezero_true in Zx. destruct (ezero (fst y)) eqn:Zy; injection Er as <-.
        + apply ezero_true in Zy. cbn [fst mzero]. rewrite ezero_0, Zx, Zy. split; [auto|cbn; ring].
        + rewrite Zy, Zx, Ty. split; [auto|ring].
      - destruct (ezero (fst y)) eqn:Zy.
        + apply ezero_true in Zy. injection Er as <-. rewrite Zx, Zy, Tx. split; [auto|ring].
        + destruct mtree_eq_dec as [Q|Q]; [|rewrite Tx, Ty in Q; tauto].
          injection Er as <-. cbn [fst snd]. destruct (ezero (fst x + fst y)%C) eqn:Z; [|split; auto].
          apply ezero_true in Z. rewrite Z. split; auto. }
    destruct R as [R1 R2]. split; [unfold mcanon; rewrite R1; exact Logic.I|].
    intros b c. unfold meden. rewrite R1, R2, Tx, Ty. ring.
Qed.

Lemma multiplyMV_spec n x y : mcanon n x -> vcanon n y ->
  exists r, multiplyMV x y = DOk r /\ vcanon n r /\
            forall b b0, veden r b = bsum n (fun c => (meden n x b c * veden y c)%C) b0.
Proof.
  intros Hx Hy. unfold multiplyMV.
  assert (E : mvmul (S (Nat.max (mvar (snd x)) (vvar (snd y)))) x y = mvmul n x y).
  { destruct (vcanon_root n y Hy) as [Ty|[Ny Wy]].
    - destruct (Ceq_dec (fst y) C0) as [Z|Z].
      + destruct n; cbn [mvmul]; rewrite Z, ezero_0, orb_true_r; auto.
      + unfold vcanon in Hy. rewrite Ty in Hy. destruct Hy as [->|]; [|tauto].
        unfold mcanon in Hx. destruct (snd x) as [|q ws s] eqn:Ex; [|destruct Hx as (_ & ? & _); lia].
        rewrite Ty. cbn [mvmul]. rewrite !Ex. auto.
    - assert (mvar (snd x) <= vvar (snd y))%nat.
      { destruct (mlev_root n (snd x) (mcan_lev _ _ _ Hx)) as [_ [A|A]]; [rewrite A; cbn; lia|lia]. }
      rewrite Nat.max_r by auto. rewrite <- Ny. auto. }
  rewrite E. destruct (mvmul_spec n x y Hx Hy) as (r & Er & Cr & Dr).
  rewrite Er; cbn [dbind]. eexists; split; [reflexivity|split].
  - apply vlook_canon; auto.
  - intros b b0. rewrite vlook_den; auto.
Qed.

Lemma multiplyMM_spec n x y : mcanon n x -> mcanon n y ->
  exists e, multiplyMM x y = DOk e /\ mcanon n e /\
            forall r c b0, meden n e r c = bsum n (fun k => (meden n x r k * meden n y k c)%C) b0.
Proof.
  intros Hx Hy. unfold multiplyMM. set (m := S (Nat.max (mvar (snd x)) (mvar (snd y)))).
  assert (Mx : mcanon m x) by (eapply mcanon_root; eauto; unfold m; lia).
  assert (My : mcanon m y) by (eapply mcanon_root; eauto; unfold m; lia).
  destruct (mmmul_spec m x y Mx My) as (r & Er & Cr & Dr).
  rewrite Er; cbn [dbind]. eexists; split; [reflexivity|].
  pose proof (mlook_canon m r Cr) as CL.
  assert (TT : (m <= n)%nat \/ (snd x = MT /\ snd y = MT)).
  { destruct (mlev_root n (snd x) (mcan_lev _ _ _ Hx)) as [_ [A|A]];
      destruct (mlev_root n (snd y) (mcan_lev _ _ _ Hy)) as [_ [B|B]]; auto; left; unfold m; rewrite ?A, ?B in *; cbn [mvar] in *; lia. }
  destruct TT as [L|[Tx Ty]].
  - split; [unfold mcanon; eapply mcan_mono; [apply L|apply CL]|].
    apply (mmul_lift m n x y (mlook r)); auto using mcanon_wf. intros b c b0. rewrite mlook_den; auto.
  - destruct (mmmul_spec n x y Hx Hy) as (r' & Er' & Cr' & Dr').
    assert (r' = r) as ->.
    { unfold m in Er. destruct n; cbn [mmmul] in Er, Er'; rewrite Tx in Er, Er';
        destruct (_ || _); congruence. }
    split; [apply mlook_canon; auto|]. intros b c b0. rewrite mlook_den; auto.
Qed.

(* ---- conjugation and inner product --------------------------------------------------------------------- *)

Lemma vconj_spec : forall t n w, vcan n w t -> w <> C0 ->
  vcan0 n (vconj_node t) /\ forall b, veden (vconj_node t) b = Cconj (vden t b).
Proof.
  induction t as [|q ws s IH]; intros n w H N.
  - destruct H as [->|]; [|tauto]. split; [right; apply vcanon_one|].
    intros b. unfold veden; cbn [fst snd vone vconj_node vden]. rewrite Cconj_1. ring.
  - destruct H as (_ & -> & U & L). cbn [vconj_node].
    set (e := fun i => if ezero (ws i) then vzero else ((fst (vconj_node (s i)) * Cconj (ws i))%C, snd (vconj_node (s i)))).
    assert (CE : forall i, vcan0 q (e i)).
    { intros i. unfold e. destruct (ezero (ws i)) eqn:Z; [left; auto|]. apply ezero_false in Z.
      apply vcan0_scale. eapply IH; eauto. }
    split; [right; apply vmk_canon; apply CE|].
    intros b. rewrite vmk_den. cbn [vden]. rewrite Cconj_mul. unfold e.
    destruct (ezero (ws (b q))) eqn:Z.
    + apply ezero_true in Z. rewrite Z, Cconj_0. unfold veden; cbn; ring.
    + apply ezero_false in Z. destruct (IH (b q) q (ws (b q))) as [_ B]; auto.
      rewrite <- B. unfold veden; cbn [fst snd]. ring.
Qed.

Lemma ipchild_node w cj ws s i : ipchild w cj (VNode w ws s) i = ((if cj then Cconj (ws i) else ws i), s i).
Proof. unfold ipchild. rewrite Nat.eqb_refl; auto. Qed.
Lemma Cconj_zero_iff w : Cconj w = C0 <-> w = C0.
Proof.
  split; intros H; [|subst; apply Cconj_0]. rewrite <- (Cconj_conj w), H. apply Cconj_0.
Qed.

Lemma ip_rec_spec : forall n cx tx y b0, vlev n cx tx -> vwf n y ->
  ip_rec n (cx, tx) y = (cx * fst y * bsum n (fun b => (Cconj (vden tx b) * vden (snd y) b)%C) b0)%C.
Proof.
  induction n as [|v IH]; intros cx tx y b0 Lx Ly; cbn [ip_rec fst snd].
  all: destruct (ezero cx) eqn:Zx; [apply ezero_true in Zx; rewrite Zx; ring|].
  all: destruct (ezero (fst y)) eqn:Zy; [apply ezero_true in Zy; rewrite Zy; ring|].
  all: apply ezero_false in Zx, Zy; unfold vwf in Ly.
  - destruct tx as [|q ws s]; [|destruct Lx; discriminate].
    destruct (snd y) as [|q ws s]; [|destruct Ly; discriminate]. cbn. rewrite Cconj_1. ring.
  - destruct tx as [|q ws s]; [destruct Lx; [discriminate|tauto]|].
    destruct (snd y) as [|qy yw ys] eqn:Ey; [destruct Ly; [discriminate|tauto]|].
    destruct Lx as [Q Lx]. destruct Ly as [Qy Ly]. injection Q as <-. injection Qy as <-.
    rewrite !ipchild_node.
    assert (LC : forall i, vlev v (Cconj (ws i)) (s i)).
    { intros i. specialize (Lx i). destruct (s i); cbn in *; auto.
      destruct Lx as [|Z]; auto. right. rewrite Z; apply Cconj_0. }
    rewrite (IH (Cconj (ws false)) (s false) (yw false, ys false) b0), (IH (Cconj (ws true)) (s true) (yw true, ys true) b0)
      by (auto; apply Ly). cbn [fst snd].
    rewrite bsum_S.
    assert (T : forall k, bsum v (fun c => (Cconj (vden (VNode v ws s) (setb c v k)) * vden (VNode v yw ys) (setb c v k))%C) b0 =
      (Cconj (ws k) * yw k * bsum v (fun b => (Cconj (vden (s k) b) * vden (ys k) b)%C) b0)%C).
    { intros k. rewrite <- bsum_scal. apply bsum_ext. intros c. cbn [vden]. rewrite setb_same.
      rewrite (vden_setb (s k) v (ws k)), (vden_setb (ys k) v (yw k)) by auto. rewrite Cconj_mul. ring. }
    rewrite !T. ring.
Qed.

Lemma innerProduct_spec n x y b0 : vcanon (S n) x -> vcanon (S n) y ->
  innerProduct x y = bsum (S n) (fun b => (Cconj (veden x b) * veden y b)%C) b0.
Proof.
  intros Hx Hy. unfold innerProduct.
  assert (ZERO : fst x = C0 \/ fst y = C0 -> C0 = bsum (S n) (fun b => (Cconj (veden x b) * veden y b)%C) b0).
  { intros Z. transitivity (bsum (S n) (fun _ => C0) b0); [symmetry; apply bsum_zero|]. apply bsum_ext. intros b.
    unfold veden. rewrite Cconj_mul. destruct Z as [Z|Z]; rewrite Z, ?Cconj_0; ring. }
  destruct (vcanon_root _ x Hx) as [Tx|[Nx Wx]].
  { rewrite Tx. apply ZERO. unfold vcanon in Hx. rewrite Tx in Hx. destruct Hx; [discriminate|auto]. }
  destruct (snd x) as [|qx ws s] eqn:Ex.
  { apply ZERO. unfold vcanon in Hx. rewrite Ex in Hx. destruct Hx; [discriminate|auto]. }
  destruct (snd y) as [|qy yw ys] eqn:Ey.
  { apply ZERO. unfold vcanon in Hy. rewrite Ey in Hy. destruct Hy; [discriminate|auto]. }
  unfold vcanon in Hx, Hy. rewrite Ex in Hx. rewrite Ey in Hy.
  pose proof (proj1 Hx) as NX. pose proof (proj1 Hy) as NY.
  assert (ezero (fst x) = false /\ ezero (fst y) = false) as [-> ->] by (split; apply ezero_false; auto).
  cbn [orb]. destruct Hx as (_ & Qx & Hx). destruct Hy as (_ & Qy & Hy). injection Qx as <-. injection Qy as <-.
  rewrite Nat.max_id, (ip_rec_spec (S n) _ _ y b0).
  - rewrite <- bsum_scal. apply bsum_ext. intros b. unfold veden. rewrite Ex, Ey, Cconj_mul. ring.
  - cbn. split; [auto|]. intros i. apply vcan_lev, Hx.
  - unfold vwf. rewrite Ey. cbn. split; [auto|]. intros i. apply vcan_lev, Hy.
Qed.
