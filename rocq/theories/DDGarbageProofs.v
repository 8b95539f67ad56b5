(* Reducing garbage qubits: proofs. *)
From Coq Require Import Reals Lra Psatz List Bool Arith Lia FunctionalExtensionality.
From Verif Require Import Cplx Qsem DDModel DDSpec DDProofs DDCanonProofs DDOpsProofs DDReduceModel DDReduceSpec DDReduceProofs.
Import ListNotations.
Local Open Scope R_scope.

(* ---- sums over flagged qubits ------------------------------------------------------------------- *)

Section sums.
Variable fl : list bool.
Lemma fsum_ext n f g b : (forall c, f c = g c) -> fsum fl n f b = fsum fl n g b.
Proof. intros H. revert b; induction n as [|k IH]; intros b; cbn; auto. destruct nth; auto. rewrite !IH; auto. Qed.
Lemma fsum_setb n f b q i : (n <= q)%nat -> fsum fl n f (setb b q i) = fsum fl n (fun c => f (setb c q i)) b.
Proof.
  revert b; induction n as [|k IH]; intros b H; cbn; auto.
  destruct (nth k fl false); [|apply IH; lia].
  rewrite <- !IH by lia. f_equal; f_equal; apply functional_extensionality; intros x; unfold setb;
    destruct (Nat.eqb_spec x k); destruct (Nat.eqb_spec x q); auto; lia.
Qed.
Lemma fsum_scal n k f b : fsum fl n (fun c => k * f c) b = k * fsum fl n f b.
Proof. revert b; induction n as [|m IH]; intros b; cbn; auto. destruct nth; auto. rewrite !IH; ring. Qed.
Lemma fsum_zero n b : fsum fl n (fun _ => 0) b = 0.
Proof. revert b; induction n as [|m IH]; intros b; cbn; auto. destruct nth; auto. rewrite !IH; ring. Qed.
Lemma fsum_none n f b : (forall q, (q < n)%nat -> nth q fl false = false) -> fsum fl n f b = f b.
Proof. revert b; induction n as [|m IH]; intros b H; cbn; auto. rewrite H by lia. apply IH; auto. Qed.
Lemma fsum_irrel n f b b' : (forall q, (q < n)%nat /\ nth q fl false = true \/ b q = b' q) ->
  fsum fl n f b = fsum fl n f b'.
Proof.
  revert b b'; induction n as [|k IH]; intros b b' H; cbn.
  - f_equal. apply functional_extensionality; intros q. destruct (H q); [lia|auto].
  - destruct (nth k fl false) eqn:F.
    + f_equal; apply IH; intros q; unfold setb; destruct (Nat.eqb_spec q k); auto;
        destruct (H q) as [[A B]|]; auto; left; split; auto; lia.
    + apply IH. intros q. destruct (H q) as [[A B]|]; auto. left; split; auto.
      assert (q <> k) by congruence. lia.
Qed.
End sums.

(* ---- magnitudes ----------------------------------------------------------------------------------- *)

Lemma cmag_norm w : Cnorm2 (cmag w) = Cnorm2 w.
Proof. unfold cmag. rewrite Cnorm2_RtoC. apply Cmod_sq. Qed.
Lemma root2_norm a b : Cnorm2 (root2 a b) = Cnorm2 a + Cnorm2 b.
Proof.
  unfold root2. rewrite Cnorm2_RtoC. apply sqrt_sqrt. pose proof (Cnorm2_pos a); pose proof (Cnorm2_pos b); lra.
Qed.
Lemma cmag_neq w : w <> C0 -> cmag w <> C0.
Proof. intros H E. apply H. apply Cnorm2_zero. rewrite <- cmag_norm, E. apply Cnorm2_0. Qed.
Lemma root2_neq a b : a <> C0 -> root2 a b <> C0.
Proof.
  intros H E. pose proof (root2_norm a b) as Q. rewrite E, Cnorm2_0 in Q.
  pose proof (Cnorm2_gt a H). pose proof (Cnorm2_pos b). lra.
Qed.
Lemma magif_norm nw w : Cnorm2 (magif nw w) = Cnorm2 w.
Proof. destruct nw; auto. apply cmag_norm. Qed.
Lemma magif_neq nw w : w <> C0 -> magif nw w <> C0.
Proof. destruct nw; auto. apply cmag_neq. Qed.
Lemma magif_0 nw : magif nw C0 = C0.
Proof. apply Cnorm2_zero. rewrite magif_norm. apply Cnorm2_0. Qed.

Lemma nn_mag w : nonneg (cmag w).
Proof. exists (Cmod w). split; auto. apply Cmod_pos. Qed.
Lemma nn_root a b : nonneg (root2 a b).
Proof. eexists; split; [|reflexivity]. apply sqrt_pos. Qed.
Lemma nn_mul a b : nonneg a -> nonneg b -> nonneg (a * b)%C.
Proof.
  intros (x & Px & ->) (y & Py & ->). exists (x * y). split; [nra|].
  apply Ceq; unfold Cmul, RtoC; cbn; ring.
Qed.
Lemma nn_real x : 0 <= x -> nonneg (RtoC x).
Proof. intros; exists x; auto. Qed.
Lemma nn_0 : nonneg C0. Proof. exists 0. split; [lra|reflexivity]. Qed.
Lemma nn_1 : nonneg C1. Proof. exists 1. split; [lra|reflexivity]. Qed.
Lemma nn_div a b : nonneg a -> nonneg b -> nonneg (a / b)%C.
Proof.
  intros A (y & Py & ->). apply nn_mul; auto.
  destruct (Req_dec y 0) as [->|N].
  - exists 0. split; [lra|]. apply Ceq; unfold Cinv, Cnorm2, RtoC; cbn; unfold Rdiv; ring.
  - exists (/ y). split; [left; apply Rinv_0_lt_compat; lra|].
    apply Ceq; unfold Cinv, Cnorm2, RtoC; cbn; field; auto.
Qed.
Lemma nn_eq a b : nonneg a -> nonneg b -> Cnorm2 a = Cnorm2 b -> a = b.
Proof.
  intros (x & Px & ->) (y & Py & ->). rewrite !Cnorm2_RtoC. intros H. f_equal. nra.
Qed.

(* ---- diagrams whose weights are all non-negative ------------------------------------------------- *)

Fixpoint vpos (t : vtree) : Prop :=
  match t with VT => True | VNode _ w s => forall i, nonneg (w i) /\ vpos (s i) end.
Definition vposE (e : vedge) := nonneg (fst e) /\ vpos (snd e).
Fixpoint mpos (t : mtree) : Prop :=
  match t with MT => True | MNode _ w s => forall i j, nonneg (w i j) /\ mpos (s i j) end.
Definition mposE (e : medge) := nonneg (fst e) /\ mpos (snd e).
Lemma vpos_den t b : vpos t -> nonneg (vden t b).
Proof. induction t as [|v w s IH]; cbn; [intros; apply nn_1|]. intros H. apply nn_mul; [apply H|apply IH, H]. Qed.
Lemma vposE_den e b : vposE e -> nonneg (veden e b).
Proof. intros [A B]. apply nn_mul; auto. apply vpos_den; auto. Qed.
Lemma mpos_den n t r c : mpos t -> nonneg (mden n t r c).
Proof.
  revert t; induction n as [|k IH]; intros t H; cbn [mden]; [apply nn_1|].
  destruct t as [|q w s]; [destruct eqb; [auto|apply nn_0]|].
  destruct Nat.eqb; [apply nn_mul; [apply H|apply IH, H]|]. destruct eqb; [auto|apply nn_0].
Qed.
Lemma mposE_den n e r c : mposE e -> nonneg (meden n e r c).
Proof. intros [A B]. apply nn_mul; auto. apply mpos_den; auto. Qed.
Lemma vmk_pos v e : (forall i, vposE (e i)) -> vposE (vmk v e).
Proof.
  intros H. unfold vmk, vmakeC. rewrite !azero_0.
  assert (W : forall i, nonneg (fst (e i))) by (intros; apply H).
  assert (T : forall i, vpos (snd (e i))) by (intros; apply H).
  destruct ezero; destruct ezero; unfold vposE; cbn [fst snd].
  - split; [apply nn_0|exact Logic.I].
  - split; auto. cbn. intros []; split; auto using nn_0, nn_1; exact Logic.I.
  - split; auto. cbn. intros []; split; auto using nn_0, nn_1; exact Logic.I.
  - unfold vnorm_both. cbn [fst snd]. set (m := vargmax _ _). set (nr := sqrt _). set (mm := sqrt _).
    assert (P : 0 <= nr) by apply sqrt_pos. assert (P' : 0 <= mm) by apply sqrt_pos.
    assert (D : forall x y, 0 <= x -> 0 <= y -> 0 <= x / y).
    { intros x y A B. unfold Rdiv. apply Rmult_le_pos; auto. destruct (Req_dec y 0) as [->|]; [rewrite Rinv_0; lra|].
      left; apply Rinv_0_lt_compat; lra. }
    assert (TOP : nonneg (fst (e m) * RtoC (nr / mm))%C) by (apply nn_mul; auto using nn_real).
    split; auto. cbn. intros i. destruct (eqb i m); split; auto using nn_real, nn_div.
    destruct ezero; [exact Logic.I|auto].
Qed.
Lemma skip_id_pos e : mposE e -> mposE (skip_id e).
Proof.
  intros [A B]. unfold skip_id. destruct (snd e) as [|v w t] eqn:E; [split; auto; rewrite E; auto|].
  destruct mtree_eq_dec; [destruct (_ && _)|]; split; auto; try (rewrite E; auto). cbn [snd]. apply B.
Qed.
Lemma mmk_pos v e : (forall i j, mposE (e i j)) -> mposE (mmk v e).
Proof.
  intros H. apply skip_id_pos. unfold mnormalize. destruct margmax as [m|]; [|split; [apply nn_0|exact Logic.I]].
  split; cbn [fst snd]; [apply H|]. cbn. intros i j.
  destruct azero; [split; [apply nn_0|exact Logic.I]|]. destruct (_ && _); [split; [apply nn_1|apply H]|].
  split; [apply nn_div; apply H|]. destruct ezero; [exact Logic.I|apply H].
Qed.

(* ---- addMagnitudes ------------------------------------------------------------------------------- *)

Lemma vaddmag_base n x y : vcan0 n x -> vcan0 n y ->
  ezero (fst x) = true \/ ezero (fst y) = true \/ snd x = snd y ->
  exists r, (if ezero (fst x) then (if ezero (fst y) then DOk vzero else DOk (cmag (fst y), snd y))
          else if ezero (fst y) then DOk (cmag (fst x), snd x)
          else if vtree_eq_dec (snd x) (snd y) then DOk (root2 (fst x) (fst y), snd x) else DUb) = DOk r /\
          vcan0 n r /\ (vposE x -> vposE y -> vposE r) /\
          forall b, Cnorm2 (veden r b) = Cnorm2 (veden x b) + Cnorm2 (veden y b).
Proof.
  intros Hx Hy K; destruct (ezero (fst x)) eqn:Zx.
  - apply ezero_true in Zx; destruct (ezero (fst y)) eqn:Zy.
    + apply ezero_true in Zy; exists vzero; split; [auto|split; [left; auto|split]].
      * intros _ _; split; [apply nn_0|exact Logic.I].
      * intros b; unfold veden; rewrite Zx, Zy; cbn [fst vzero]. rewrite !Cmul_0_l, Cnorm2_0; ring.
    + apply ezero_false in Zy. destruct Hy as [|Hy]; [tauto|].
      eexists; split; [reflexivity|split; [right|split]].
      * eapply vcan_weight; eauto using cmag_neq.
      * intros _ [_ P]; split; auto; apply nn_mag.
      * intros b; unfold veden; cbn [fst snd]; rewrite Zx, !Cnorm2_mul, cmag_norm, Cnorm2_0; ring.
  - apply ezero_false in Zx. destruct Hx as [|Hx]; [tauto|]. destruct (ezero (fst y)) eqn:Zy.
    + apply ezero_true in Zy. eexists; split; [reflexivity|split; [right|split]].
      * eapply vcan_weight; eauto using cmag_neq.
      * intros [_ P] _; split; auto; apply nn_mag.
      * intros b; unfold veden; cbn [fst snd]; rewrite Zy, !Cnorm2_mul, cmag_norm, Cnorm2_0; ring.
    + destruct vtree_eq_dec as [E|E]; [|exfalso; destruct K as [?|[?|?]]; try congruence; apply ezero_true in H; tauto].
      eexists; split; [reflexivity|split; [right|split]].
      * eapply vcan_weight; eauto using root2_neq.
      * intros [_ P] _; split; auto; apply nn_root.
      * intros b; unfold veden; cbn [fst snd]; rewrite !Cnorm2_mul, root2_norm, <- E; ring.
Qed.
Lemma vaddmag_spec : forall n x y, vcan0 n x -> vcan0 n y ->
  exists r, vaddmag n x y = DOk r /\ vcan0 n r /\ (vposE x -> vposE y -> vposE r) /\
    forall b, Cnorm2 (veden r b) = Cnorm2 (veden x b) + Cnorm2 (veden y b).
Proof.
  induction n as [|v IH]; intros x y Hx Hy.
  all: pose proof (vaddmag_base _ x y Hx Hy) as BASE.
  - cbn [vaddmag].
    assert (K : ezero (fst x) = true \/ ezero (fst y) = true \/ snd x = snd y).
    { destruct (ezero (fst x)) eqn:Zx; auto. destruct (ezero (fst y)) eqn:Zy; auto.
      apply ezero_false in Zx, Zy. destruct Hx as [|Hx]; [tauto|]. destruct Hy as [|Hy]; [tauto|].
      right; right. unfold vcanon in *. destruct (snd x); [|destruct Hx as (_ & ? & _); discriminate].
      destruct (snd y); [auto|destruct Hy as (_ & ? & _); discriminate]. }
    destruct (BASE K) as (r & A & B).
    exists r. split; [rewrite <- A; reflexivity|auto].
  - destruct (ezero (fst x)) eqn:Zx.
    { destruct BASE as (r & A & B); [auto|]. exists r; split; auto. cbn [vaddmag]. rewrite Zx. auto. }
    destruct (ezero (fst y)) eqn:Zy.
    { destruct BASE as (r & A & B); [auto|]. exists r; split; auto. cbn [vaddmag]. rewrite Zx, Zy. auto. }
    destruct (vtree_eq_dec (snd x) (snd y)) as [E|E].
    { destruct BASE as (r & A & B); [auto|]. exists r; split; auto. cbn [vaddmag]. rewrite Zx, Zy.
      destruct vtree_eq_dec; [auto|tauto]. }
    clear BASE. cbn [vaddmag]. rewrite Zx, Zy. destruct vtree_eq_dec; [tauto|].
    apply ezero_false in Zx, Zy. destruct Hx as [|Hx]; [tauto|]. destruct Hy as [|Hy]; [tauto|].
    unfold vcanon in *. destruct (snd x) as [|qx xw xt] eqn:Ex; [destruct Hx; [discriminate|tauto]|].
    destruct (snd y) as [|qy yw yt] eqn:Ey; [destruct Hy; [discriminate|tauto]|].
    destruct Hx as (_ & Qx & Ux & Lx). destruct Hy as (_ & Qy & Uy & Ly).
    injection Qx as <-. injection Qy as <-.
    assert (CX : forall i, vcan0 v (vchild (fst x) xw xt i)).
    { intros i. destruct (Ceq_dec (xw i) C0) as [Z|Z]; [left; cbn; rewrite Z; ring|right].
      unfold vcanon; cbn. eapply vcan_weight; eauto using Cmul_neq0. }
    assert (CY : forall i, vcan0 v (vchild (fst y) yw yt i)).
    { intros i. destruct (Ceq_dec (yw i) C0) as [Z|Z]; [left; cbn; rewrite Z; ring|right].
      unfold vcanon; cbn. eapply vcan_weight; eauto using Cmul_neq0. }
    destruct (IH _ _ (CX false) (CY false)) as (a & Ea & Ca & Pa & Da).
    destruct (IH _ _ (CX true) (CY true)) as (b & Eb & Cb & Pb & Db).
    rewrite Ea; cbn [dbind]. rewrite Eb; cbn [dbind].
    eexists; split; [reflexivity|split; [|split]].
    + right. apply vmk_canon. intros []; auto.
    + intros [P P'] [R R']. rewrite Ex in P'. rewrite Ey in R'. cbn in P', R'.
      apply vmk_pos. intros []; [apply Pb|apply Pa]; split; cbn [vchild fst snd];
        try (apply nn_mul; auto; apply P'); try (apply nn_mul; auto; apply R'); try apply P'; apply R'.
    + intros bb. rewrite vmk_den. unfold v2, veden at 2 3. rewrite Ex, Ey. cbn [vden].
      destruct (bb v); [rewrite Db|rewrite Da]; unfold veden, vchild; cbn [fst snd]; rewrite !Cnorm2_mul; ring.
Qed.

(* ---- vectors ---------------------------------------------------------------------------------------- *)

Section vec.
Variables (fl : list bool) (nw : bool).
Definition vsummed (n : nat) (g e : vedge) : Prop :=
  forall b, Cnorm2 (veden g b) = if hit fl n b then 0 else fsum fl n (fun c => Cnorm2 (veden e c)) b.

Lemma vgarb_spec : forall t n w, vcan n w t -> (n <= length fl)%nat -> t <> VT ->
  exists f, vgarb fl (lowerbound fl) nw t = DOk f /\ vcanon n f /\ (nw = true -> vposE f) /\ vsummed n f (C1, t).
Proof.
  induction t as [|v ws s IH]; intros n w H L NT; [congruence|clear NT].
  cbn [vgarb]. destruct H as (N & -> & U & K).
  destruct (negb nw && Nat.ltb v (lowerbound fl)) eqn:B.
  { apply andb_true_iff in B as [B1 B2]. apply Nat.ltb_lt in B2.
    eexists; split; [reflexivity|split; [|split]].
    - unfold vcanon; cbn. split; [apply C1_neq_C0|auto].
    - intros ->; discriminate.
    - intros b. rewrite hit_lb by lia. rewrite fsum_none; auto. intros q Q. apply below_lb; lia. }
  set (child := fun i => match s i with
    | VT => DOk (magif nw (ws i), VT)
    | VNode _ _ _ => let* f := vgarb fl (lowerbound fl) nw (s i) in DOk (magif nw (fst f * ws i)%C, snd f)
    end).
  assert (CH : forall i, exists a, child i = DOk a /\ vcan0 v a /\ (nw = true -> vposE a) /\ vsummed v a (ws i, s i)).
  { intros i. unfold child. specialize (K i). destruct (s i) as [|q ws' s'] eqn:E.
    - eexists; split; [reflexivity|split; [|split]].
      + destruct K as [->|Z]; [right; left; auto|left; cbn; rewrite Z; apply magif_0].
      + intros ->. split; [apply nn_mag|exact Logic.I].
      + intros b. unfold veden; cbn [fst snd vden]. rewrite Cnorm2_mul, magif_norm, <- Cnorm2_mul.
        destruct K as [->|Z]; [reflexivity|].
        rewrite Z, Cmul_0_l, Cnorm2_0, fsum_zero. destruct hit; auto.
    - destruct (IH i v (ws i)) as (f & Ef & Cf & Pf & Df); [rewrite E; auto|lia|rewrite E; congruence|].
      rewrite E in *. rewrite Ef. cbn [dbind]. eexists; split; [reflexivity|split; [|split]].
      + destruct (Ceq_dec (fst f * ws i)%C C0) as [Z|Z]; [left; cbn; rewrite Z; apply magif_0|right].
        eapply vcan_weight; eauto using magif_neq. intros Q; apply Z; rewrite Q; ring.
      + intros T. split; [rewrite T; apply nn_mag|]. apply Pf; auto.
      + intros b. specialize (Df b). unfold veden in *; cbn [fst snd] in *.
        rewrite Cnorm2_mul, magif_norm, Cnorm2_mul.
        transitivity (Cnorm2 (ws i) * Cnorm2 (fst f * vden (snd f) b)); [rewrite Cnorm2_mul; ring|].
        rewrite Df. destruct hit; [ring|]. rewrite <- fsum_scal. apply fsum_ext. intros c.
        rewrite !Cnorm2_mul, Cnorm2_1; ring. }
  destruct (CH false) as (a & Ea & Ca & Pa & Da). destruct (CH true) as (b & Eb & Cb & Pb & Db).
  cbv beta delta [child] in Ea, Eb. rewrite Ea; cbn [dbind]. rewrite Eb; cbn [dbind]. clear child CH Ea Eb.
  rewrite flagged_ok by lia. cbn [dbind].
  assert (MV : forall bb i, fsum fl v (fun c => Cnorm2 (veden (C1, VNode v ws s) c)) (setb bb v i) =
               fsum fl v (fun c => Cnorm2 (veden (ws i, s i) c)) bb).
  { intros bb i. rewrite fsum_setb by auto. apply fsum_ext. intros c. unfold veden; cbn [fst snd vden].
    rewrite setb_same, (vden_setb (s i) v (ws i)); auto using vcan_lev. f_equal; ring. }
  destruct (nth v fl false) eqn:F.
  - destruct (vaddmag_spec v a b Ca Cb) as (r & Er & Cr & Pr & Dr). rewrite Er. cbn [dbind].
    eexists; split; [reflexivity|split; [|split]].
    + apply vmk_canon. intros []; [left; auto|auto].
    + intros T. apply vmk_pos. intros []; [split; [apply nn_0|exact Logic.I]|cbn; auto].
    + intros bb. rewrite vmk_den. cbn [hit fsum]. rewrite F. cbn [andb]. rewrite !MV.
      destruct (bb v) eqn:Q; rewrite ?orb_true_r, ?orb_false_r; cbn [v2].
      * unfold veden; cbn [fst vzero]. rewrite Cmul_0_l. apply Cnorm2_0.
      * rewrite Dr, Da, Db. destruct hit; ring.
  - eexists; split; [reflexivity|split; [|split]].
    + apply vmk_canon. intros []; auto.
    + intros T. apply vmk_pos. intros []; cbn; auto.
    + intros bb. rewrite vmk_den. cbn [hit fsum]. rewrite F. cbn [andb]. rewrite orb_false_r.
      rewrite <- (setb_id bb v) at 4. rewrite MV.
      destruct (bb v); cbn [v2]; [apply Db|apply Da].
Qed.

Lemma reduceGarbageV_spec n e : vcanon n e -> (n <= length fl)%nat -> (nw = true -> snd e <> VT) ->
  exists e', reduceGarbageV e fl nw = DOk e' /\ vcanon n e' /\ (nw = true -> vposE e') /\ vsummed n e' e.
Proof.
  intros H L NT. unfold reduceGarbageV.
  destruct (negb nw && (noneflag fl || vterminal e)) eqn:B.
  { apply andb_true_iff in B as [B1 B2]. eexists; split; [reflexivity|split; [auto|split]].
    - intros ->; discriminate.
    - intros b. apply orb_true_iff in B2 as [NF|T].
      + rewrite hit_none by auto. rewrite fsum_none; auto. intros; apply noneflag_all; auto.
      + unfold vterminal in T. unfold vcanon in H. unfold veden. destruct (snd e) eqn:E; [|discriminate].
        destruct H as [->|Z]; [reflexivity|]. rewrite Z. cbn [vden].
        rewrite fsum_ext with (g := fun _ => 0) by (intros; rewrite Cmul_0_l; apply Cnorm2_0).
        rewrite fsum_zero, Cmul_0_l, Cnorm2_0. destruct hit; auto. }
  destruct e as [w t]; cbn [fst snd vterminal] in *. destruct t as [|v ws s] eqn:Et.
  { exfalso. destruct nw; [apply NT; auto|]. cbn in B. rewrite orb_true_r in B. discriminate. }
  rewrite <- Et in *. assert (HN : w <> C0 /\ n = S v) by (subst t; destruct H as (? & ? & _); auto).
  destruct HN as [N ->].
  destruct (negb nw && Nat.ltb v (lowerbound fl)) eqn:B2.
  { apply andb_true_iff in B2 as [B2 B3]. apply Nat.ltb_lt in B3.
    eexists; split; [reflexivity|split; [auto|split]].
    - intros ->; discriminate.
    - intros b. rewrite hit_lb by lia. rewrite fsum_none; auto. intros q Q. apply below_lb; lia. }
  destruct (vgarb_spec t (S v) w H L ltac:(subst; congruence)) as (f & Ef & Cf & Pf & Df).
  rewrite Ef. cbn [dbind]. eexists; split; [reflexivity|split; [|split]].
  - destruct (Ceq_dec (fst f) C0) as [Z|Z].
    + unfold vcanon in *; cbn [fst snd]. rewrite Z in *. replace (w * C0)%C with C0 by ring. rewrite magif_0. auto.
    + eapply vcan_weight; eauto. apply magif_neq, Cmul_neq0; auto.
  - intros T. rewrite T. split; [apply nn_mag|]. apply Pf; auto.
  - intros b. specialize (Df b). unfold veden in *; cbn [fst snd] in *.
    rewrite Cnorm2_mul, magif_norm, Cnorm2_mul.
    transitivity (Cnorm2 w * Cnorm2 (fst f * vden (snd f) b)); [rewrite Cnorm2_mul; ring|].
    rewrite Df. destruct hit; [ring|]. rewrite <- fsum_scal. apply fsum_ext. intros c.
    rewrite !Cnorm2_mul, Cnorm2_1; ring.
Qed.
End vec.
