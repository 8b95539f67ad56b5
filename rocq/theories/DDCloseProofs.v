(* isCloseToIdentity: proofs. *)
From Coq Require Import Reals Lra Psatz List Bool Arith Lia FunctionalExtensionality.
From Verif Require Import Cplx Qsem DDModel DDSpec DDProofs DDCanonProofs DDOpsProofs DDReduceModel DDReduceSpec DDReduceProofs.
Import ListNotations.
Local Open Scope R_scope.

Lemma gt_false a b : gt a b = false <-> a <= b.
Proof. unfold gt. destruct Rlt_dec; split; intros; try discriminate; auto; lra. Qed.
Lemma gt_true a b : gt a b = true <-> b < a.
Proof. unfold gt. destruct Rlt_dec; split; intros; try discriminate; auto; lra. Qed.

Lemma munit_le w i j : munit w -> Cnorm2 (w i j) <= 1.
Proof. intros (m & _ & H). specialize (H (i, j)). cbn [fst snd] in H. destruct before; lra. Qed.
Lemma mden_le1 : forall m t n w r c, mcan n w t -> Cnorm2 (mden m t r c) <= 1.
Proof.
  induction m as [|k IH]; intros t n w r c H; cbn [mden]; [rewrite Cnorm2_1; lra|].
  destruct t as [|q ws s].
  - destruct eqb; [eapply IH; eauto|rewrite Cnorm2_0; lra].
  - destruct Nat.eqb; [|destruct eqb; [eapply IH; eauto|rewrite Cnorm2_0; lra]].
    destruct H as (_ & _ & U & _ & K). rewrite Cnorm2_mul.
    pose proof (munit_le ws (r k) (c k) U). pose proof (IH _ _ _ r c (K (r k) (c k))).
    pose proof (Cnorm2_pos (ws (r k) (c k))). pose proof (Cnorm2_pos (mden k (s (r k) (c k)) r c)). nra.
Qed.
Lemma carg_spec w : w = (RtoC (Cmod w) * Cexp (carg w))%C.
Proof.
  unfold carg. destruct (ezero w) eqn:Z.
  - apply ezero_true in Z. rewrite Z. unfold Cmod. rewrite Cnorm2_0, sqrt_0. apply Ceq; cbn; ring.
  - apply ezero_false in Z. assert (P : 0 < Cmod w).
    { destruct (Rle_lt_or_eq_dec _ _ (Cmod_pos w)); auto. exfalso; apply Z, Cmod_zero; auto. }
    pose proof (Cmod_sq w) as Q. set (m := Cmod w) in *. destruct w as [x y]. unfold Cnorm2 in Q; cbn [fst snd] in *.
    assert (B : -1 <= x / m <= 1).
    { split.
      - apply Rmult_le_reg_r with m; auto. unfold Rdiv. rewrite Rmult_assoc, Rinv_l by lra. nra.
      - apply Rmult_le_reg_r with m; auto. unfold Rdiv. rewrite Rmult_assoc, Rinv_l by lra. nra. }
    assert (S1 : forall s, 0 <= s -> s * s = y * y -> sqrt (1 - (x / m)²) = s / m).
    { intros s Ps Es. replace (1 - (x / m)²) with ((s / m) * (s / m)).
      - apply sqrt_square. apply Rmult_le_pos; auto. left; apply Rinv_0_lt_compat; auto.
      - unfold Rsqr, Rdiv.
        replace (s * / m * (s * / m)) with ((s * s) * (/ m * / m)) by ring. rewrite Es.
        replace (1 - x * / m * (x * / m)) with ((m * m - x * x) * (/ m * / m)) by (field; lra).
        rewrite Q. ring. }
    destruct Rle_dec as [Y|Y]; apply Ceq; unfold Cmul, RtoC, Cexp; cbn [fst snd].
    + rewrite cos_acos by auto. field; lra.
    + rewrite cos_acos, sin_acos, (S1 y) by (auto; lra). field; lra.
    + rewrite cos_neg, cos_acos by auto. field; lra.
    + rewrite cos_neg, sin_neg, cos_acos, sin_acos, (S1 (- y)) by (auto; lra). field; lra.
Qed.

Section close.
Variables (tol : R) (gar : list bool) (checkOne : bool).
Hypothesis T0 : 0 <= tol.

Lemma differ_down k r c : r k = c k -> differ gar (S k) r c -> differ gar k r c.
Proof.
  intros E (q & A & B & D). exists q. repeat split; auto. assert (q <> k) by congruence. lia.
Qed.
Lemma differ_gar k r c : nth k gar false = true -> differ gar (S k) r c -> differ gar k r c.
Proof.
  intros E (q & A & B & D). exists q. repeat split; auto.
  assert (q <> k) by (intros ->; apply nth_flag in E; congruence). lia.
Qed.
Lemma close_node v w s : close tol gar checkOne (MNode v w s) = true ->
  (forall i j, i = j \/ nth v gar false = true -> close tol gar checkOne (s i j) = true) /\
  (nth v gar false = false -> (forall i j, i <> j -> Cnorm2 (w i j) <= tol) /\
    (checkOne = true -> far_from_one tol (w false false) = false /\
       (far_from_one tol (w true true) = false \/ Cnorm2 (w true true) <= tol))).
Proof.
  cbn [close]. destruct (nth v gar false) eqn:G.
  - rewrite !andb_true_iff. intros [[[A B] D] E]. split; [intros [] [] _; auto|discriminate].
  - destruct (gt (Cnorm2 (w false true)) tol || gt (Cnorm2 (w true false)) tol) eqn:O; [discriminate|].
    apply orb_false_iff in O as [O1 O2]. apply gt_false in O1, O2.
    match goal with |- (if ?x then _ else _) = true -> _ => destruct x eqn:O end; [discriminate|].
    rewrite andb_true_iff. intros [A B]. split.
    + intros [] [] [E|E]; try congruence; auto.
    + intros _. split; [intros [] [] H; try congruence; auto|]. intros ->. cbn [andb] in O.
      apply orb_false_iff in O as [X Y]. split; auto. apply andb_false_iff in Y as [Y|Y]; auto.
      right. apply gt_false; auto.
Qed.

Lemma close_off : forall m t n w r c, mcan n w t -> close tol gar checkOne t = true -> differ gar m r c ->
  Cnorm2 (mden m t r c) <= tol.
Proof.
  induction m as [|k IH]; intros t n w r c H CL D; [destruct D as (q & ? & _); lia|].
  assert (LIFT : Cnorm2 (if eqb (r k) (c k) then mden k t r c else C0) <= tol).
  { destruct (eqb (r k) (c k)) eqn:E; [|rewrite Cnorm2_0; auto].
    apply eqb_prop in E. eapply IH; eauto. apply differ_down; auto. }
  cbn [mden]. destruct t as [|q ws s]; auto. destruct (Nat.eqb_spec q k) as [->|]; auto. clear LIFT.
  apply close_node in CL as [CS CW]. destruct H as (_ & _ & U & _ & K). rewrite Cnorm2_mul.
  pose proof (munit_le ws (r k) (c k) U). pose proof (Cnorm2_pos (ws (r k) (c k))).
  pose proof (Cnorm2_pos (mden k (s (r k) (c k)) r c)).
  pose proof (mden_le1 k _ _ _ r c (K (r k) (c k))).
  destruct (nth k gar false) eqn:G.
  - pose proof (IH _ _ _ r c (K (r k) (c k)) (CS _ _ (or_intror eq_refl)) (differ_gar _ _ _ G D)). nra.
  - destruct (bool_dec (r k) (c k)) as [E|E].
    + pose proof (IH _ _ _ r c (K (r k) (c k)) (CS _ _ (or_introl E)) (differ_down _ _ _ E D)). nra.
    + pose proof (proj1 (CW eq_refl) _ _ E). nra.
Qed.

Lemma near_up k z : tol <= 1 -> nearly_one k tol z -> nearly_one (S k) tol z.
Proof.
  intros T1 (rho & th & A & B & D & E). exists rho, th. repeat split; auto; try lra.
  - cbn [pow]. assert (0 <= (1 - tol) ^ k) by (apply pow_le; lra). nra.
  - rewrite S_INR. nra.
Qed.
Lemma near_mul k w z : tol <= 1 -> far_from_one tol w = false -> Cnorm2 w <= 1 -> nearly_one k tol z ->
  nearly_one (S k) tol (w * z)%C.
Proof.
  intros T1 F W1 (rho & th & A & B & D & E).
  unfold far_from_one in F. apply orb_false_iff in F as [F1 F2]. apply gt_false in F1, F2.
  assert (F1' : - tol <= Cnorm2 w - 1) by (revert F1; unfold Rabs; destruct Rcase_abs; lra). pose proof (Cmod_sq w) as Q. pose proof (Cmod_pos w) as P.
  assert (PW : 0 <= (1 - tol) ^ k) by (apply pow_le; lra).
  exists (Cmod w * rho), (carg w + th). split; [nra|]. split; [|split].
  - cbn [pow]. replace (Cmod w * rho * (Cmod w * rho)) with (Cnorm2 w * (rho * rho)) by (rewrite <- Q; ring).
    pose proof (Cnorm2_pos w). split; [|nra]. apply Rle_trans with ((1 - tol) * (rho * rho)); nra.
  - rewrite S_INR. pose proof (Rabs_triang (carg w) th). lra.
  - rewrite E. rewrite (carg_spec w) at 1. rewrite Cexp_add.
    replace (RtoC (Cmod w * rho)) with (RtoC (Cmod w) * RtoC rho)%C by (apply Ceq; unfold Cmul, RtoC; cbn; ring). ring.
Qed.
Lemma near_1 : nearly_one 0 tol C1.
Proof.
  exists 1, 0. cbn. rewrite Rabs_R0. repeat split; try lra.
  apply Ceq; unfold Cmul, RtoC, Cexp; cbn; rewrite cos_0, sin_0; ring.
Qed.
Lemma close_diag : forall m t n w r, mcan n w t -> tol <= 1 -> checkOne = true -> (forall q, nth q gar false = false) ->
  close tol gar checkOne t = true ->
  (nearly_one m tol (mden m t r r) \/ (Cnorm2 (mden m t r r) <= tol /\ exists q, (q < m)%nat /\ r q = true)).
Proof.
  induction m as [|k IH]; intros t n w r H T1 CO NG CL; [left; apply near_1|].
  assert (LIFT : nearly_one (S k) tol (if eqb (r k) (r k) then mden k t r r else C0) \/
    Cnorm2 (if eqb (r k) (r k) then mden k t r r else C0) <= tol /\ exists q, (q < S k)%nat /\ r q = true).
  { rewrite eqb_reflx. destruct (IH t n w r) as [A|[A (q & B & D)]]; auto; [left; apply near_up; auto|right; split; eauto]. }
  cbn [mden]. destruct t as [|q ws s]; auto. destruct (Nat.eqb_spec q k) as [->|]; auto. clear LIFT.
  apply close_node in CL as [CS CW]. destruct H as (_ & _ & U & _ & K).
  destruct (CW (NG k)) as [_ CW1]. destruct (CW1 CO) as [W0 W1].
  pose proof (munit_le ws (r k) (r k) U) as LE.
  pose proof (Cnorm2_pos (ws (r k) (r k))).
  pose proof (Cnorm2_pos (mden k (s (r k) (r k)) r r)).
  pose proof (mden_le1 k _ _ _ r r (K (r k) (r k))).
  assert (FF : far_from_one tol (ws (r k) (r k)) = false \/ (Cnorm2 (ws (r k) (r k)) <= tol /\ r k = true)).
  { destruct (r k); [destruct W1|]; auto. }
  destruct FF as [F|[F Rk]].
  - destruct (IH _ _ _ r (K (r k) (r k)) T1 CO NG (CS _ _ (or_introl eq_refl))) as [A|[A (q & B & D)]].
    + left. apply near_mul; auto.
    + right. split; [rewrite Cnorm2_mul; nra|exists q; split; auto].
  - right. split; [rewrite Cnorm2_mul; nra|exists k; split; auto].
Qed.
End close.

(* with tolerance zero the test of the off-diagonal entries is exact *)
Lemma close_complete gar : forall m t n w, mcan n w t -> (n <= m)%nat -> w <> C0 ->
  (forall r c, differ gar m r c -> mden m t r c = C0) -> close 0 gar false t = true.
Proof.
  induction m as [|k IH]; intros t n w H L N Z.
  { destruct t; auto. destruct H as (_ & ? & _). lia. }
  destruct t as [|q ws s]; auto.
  destruct (Nat.eq_dec q k) as [->|NE].
  - assert (SUB : forall i j, mcan k (ws i j) (s i j)) by apply H.
    assert (ZS : forall i j, (i = j \/ nth k gar false = true) -> ws i j <> C0 ->
       forall r c, differ gar k r c -> mden k (s i j) r c = C0).
    { intros i j _ W r c D.
      assert (D' : differ gar (S k) (setb r k i) (setb c k j)).
      { destruct D as (x & A & B & E). exists x. split; [lia|split; auto]. rewrite !setb_other by lia. auto. }
      specialize (Z _ _ D'). rewrite mden_node, !setb_same, mden_setb in Z by auto.
      destruct (Ceq_dec (mden k (s i j) r c) C0) as [E|E]; auto. exfalso. revert Z. apply Cmul_neq0; auto. }
    assert (CS : forall i j, (i = j \/ nth k gar false = true) -> close 0 gar false (s i j) = true).
    { intros i j D. destruct (Ceq_dec (ws i j) C0) as [W|W].
      - specialize (SUB i j). destruct (s i j); auto. destruct SUB as (? & _). tauto.
      - eapply IH; eauto. }
    cbn [close]. destruct (nth k gar false) eqn:G.
    + rewrite !CS; auto.
    + assert (W : forall i j, i <> j -> ws i j = C0).
      { intros i j D. destruct (Ceq_dec (ws i j) C0) as [W|W]; auto. exfalso.
        destruct (mden_nonzero k (s i j) (ws i j) (SUB i j)) as (r & c & E).
        assert (D' : differ gar (S k) (setb r k i) (setb c k j)).
        { exists k. split; [lia|split; [|rewrite !setb_same; auto]]. intros F. apply nth_flag in F. congruence. }
        specialize (Z _ _ D'). rewrite mden_node, !setb_same, mden_setb in Z by auto.
        revert Z. apply Cmul_neq0; auto. }
      rewrite !W by congruence. rewrite Cnorm2_0.
      replace (gt 0 0) with false by (symmetry; apply gt_false; lra). cbn [orb andb].
      rewrite !CS; auto.
  - assert (Q : (q < k)%nat) by (destruct H as (_ & ? & _); lia).
    assert (H' : mcan k w (MNode q ws s)).
    { destruct H as (A & B & D & E & F). cbn. auto. }
    eapply (IH _ k w H'); auto. intros r c D.
    assert (D' : differ gar (S k) (setb r k false) (setb c k false)).
    { destruct D as (x & A & B & E). exists x. split; [lia|split; auto]. rewrite !setb_other by lia. auto. }
    specialize (Z _ _ D'). rewrite mden_lift in Z by (eapply mcan_lev; eauto).
    rewrite !setb_same, mden_setb in Z by auto. exact Z.
Qed.

(* the identity with the columns of ancillary qubits cleared is accepted *)
Lemma snd_mmk_rest n g : fst g <> C0 -> exists w s, snd (mmk n (zero_rest g)) = MNode n w s /\
  w false false = C1 /\ w false true = C0 /\ w true false = C0 /\ w true true = C0 /\
  s false false = snd g /\ s false true = MT /\ s true false = MT /\ s true true = MT.
Proof.
  intros H. unfold mmk, mmakeC. unfold mnormalize, margmax, idx4, zero_rest, m4. cbn [fold_left].
  unfold argmax_step; cbn [fst snd mzero]. rewrite !azero_0.
  rewrite (proj2 (ezero_false _) H), ezero_0. cbn [fst snd]. unfold skip_id; cbn [snd fst eqb andb].
  assert (E10 : eone C0 = false).
  { destruct (eone C0) eqn:E; auto. apply eone_true in E. exfalso. apply C1_neq_C0; auto. }
  assert (Z0 : azero 0 C0 = true) by (rewrite azero_0; apply ezero_0).
  assert (ZG : azero 0 (fst g) = false) by (rewrite azero_0; apply ezero_false; auto).
  change (fst mzero) with C0. rewrite Z0, ZG, E10, andb_false_r.
  destruct (mtree_eq_dec (snd g) MT); cbn [snd]; do 2 eexists; (split; [reflexivity|]); cbn [eqb andb];
    change (fst mzero) with C0; rewrite Z0, ZG; repeat split; auto.
Qed.
Lemma close_rest tol gar co n g : 0 <= tol -> fst g <> C0 -> close tol gar co (snd g) = true ->
  close tol gar co (snd (mmk n (zero_rest g))) = true.
Proof.
  intros T N H. destruct (snd_mmk_rest n g N) as (w & s & E & W0 & W1 & W2 & W3 & S0 & S1 & S2 & S3).
  rewrite E. cbn [close]. rewrite W0, W1, W2, W3, S0, S1, S2, S3, H. cbn [close andb].
  destruct nth; auto. rewrite Cnorm2_0. replace (gt 0 tol) with false by (symmetry; apply gt_false; lra).
  cbn [orb andb]. replace (far_from_one tol C1) with false; [destruct co; auto|].
  symmetry. unfold far_from_one. rewrite Cnorm2_1.
  assert (A1 : carg C1 = 0).
  { unfold carg. rewrite ezero_1. cbn [snd C1]. destruct Rle_dec; [|lra].
    unfold Cmod. rewrite Cnorm2_1, sqrt_1. cbn. replace (1 / 1) with 1 by field. apply acos_1. }
  rewrite A1, Rabs_R0. replace (1 - 1) with 0 by ring. rewrite Rabs_R0.
  replace (gt 0 tol) with false by (symmetry; apply gt_false; lra). auto.
Qed.
Lemma close_raise tol gar co fl : 0 <= tol -> forall k from g g', fst g <> C0 ->
  close tol gar co (snd g) = true -> raise zero_rest fl from k g = DOk g' -> close tol gar co (snd g') = true.
Proof.
  intros T. induction k as [|k IH]; intros from g g' N H; cbn [raise]; [congruence|].
  unfold flagged. destruct nth_error as [[]|]; cbn [dbind]; try discriminate; intros E.
  - eapply IH; [| |exact E]; [rewrite mmk_first; auto|apply close_rest; auto].
  - eapply IH; eauto.
Qed.
Lemma mden_MT_agree n r c : mden n MT r c = C1 /\ agree n r c \/ mden n MT r c = C0 /\ ~ agree n r c.
Proof.
  induction n as [|k IH]; cbn [mden]; [left; split; auto; intros q Q; lia|].
  destruct (eqb (r k) (c k)) eqn:E.
  - apply eqb_prop in E. destruct IH as [[A B]|[A B]]; [left|right]; split; auto.
    + intros q Q. destruct (Nat.eq_dec q k) as [->|]; auto. apply B; lia.
    + intros D. apply B. intros q Q. apply D; lia.
  - right; split; auto. intros D. rewrite (D k) in E by lia. rewrite eqb_reflx in E. discriminate.
Qed.
