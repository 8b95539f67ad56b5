(** The whole state preparation. *)
From Coq Require Import Reals Lra Lia List Arith Bool NArith FunctionalExtensionality.
From Verif Require Import Cplx Qsem GateModel GateSpec IRModel IRSpec IRProofs OutcomeSpec AlgoModel AlgoSpec AlgoBaseProofs AlgoStateProofs AlgoMeasProofs AlgoQftProofs AlgoDistProofs.
From Verif Require Import PrepModel PrepSpec PrepNormProofs PrepMuxProofs PrepStepProofs.
Import ListNotations.
Local Open Scope R_scope.

(** ** Norms of lists *)
Lemma fold_norm v a : fold_left (fun n z => n + Cnorm2 z) v a = a + sqnorm v.
Proof. revert a. induction v as [|z v IH]; intros a; cbn; [ring|]. rewrite IH. ring. Qed.
Lemma twoNorm_eq v : twoNorm v = sqrt (sqnorm v).
Proof. unfold twoNorm. now rewrite fold_norm, Rplus_0_l. Qed.
Lemma sqnorm_pos v : 0 <= sqnorm v.
Proof. induction v as [|z v IH]; cbn; [lra|]. pose proof (Cnorm2_pos z). lra. Qed.
Lemma sqnorm_app u v : sqnorm (u ++ v) = sqnorm u + sqnorm v.
Proof. induction u as [|z u IH]; cbn; [ring|]. rewrite IH. ring. Qed.
Lemma twoNormR_bound l j : Rabs (nth j l 0) <= twoNormR l.
Proof.
  unfold twoNormR. rewrite twoNorm_eq. revert j. induction l as [|x l IH]; intros j.
  - cbn. rewrite sqrt_0. destruct j; rewrite Rabs_R0; lra.
  - cbn [map sqnorm]. pose proof (sqnorm_pos (map RtoC l)) as P. rewrite Cnorm2_RtoC. destruct j as [|j]; cbn [nth].
    + rewrite <- sqrt_Rsqr_abs. apply sqrt_le_1_alt. unfold Rsqr. lra.
    + eapply Rle_trans; [apply IH|]. apply sqrt_le_1_alt. pose proof (Rle_0_sqr x). unfold Rsqr in *. lra.
Qed.
Lemma sumw_list n : forall l b, length l = (2 ^ n)%nat -> sumw n (fun x => Cnorm2 (nth (idx n 0 x) l C0)) b = sqnorm l.
Proof.
  induction n as [|n IH]; intros l b L.
  - destruct l as [|z [|? ?]]; try discriminate L. cbn. ring.
  - assert (LU : length (firstn (2 ^ n) l) = (2 ^ n)%nat) by (rewrite firstn_length, L; cbn; lia).
    assert (LV : length (skipn (2 ^ n) l) = (2 ^ n)%nat) by (rewrite skipn_length, L; cbn; lia).
    rewrite <- (firstn_skipn (2 ^ n) l) in L |- *. set (u := firstn (2 ^ n) l) in *. set (v := skipn (2 ^ n) l) in *. clearbody u v. clear l.
    rewrite sqnorm_app, <- (IH u b LU), <- (IH v b LV). cbn [sumw]. rewrite <- !sumw_set by lia.
    f_equal; apply sumw_ext; intros x; rewrite idx_snoc; cbn [plus]; rewrite setb_same;
      rewrite (idx_ext n 0 (setb x n _) x) by (intros q Q; apply setb_other; lia); pose proof (idx_lt n 0 x).
    + rewrite Nat.add_0_r, app_nth1 by lia. auto.
    + rewrite app_nth2 by lia. rewrite LU. now replace (idx n 0 x + 2 ^ n - 2 ^ n)%nat with (idx n 0 x) by lia.
Qed.
Lemma outcome_idx n b : outcome n b = idx n 0 b.
Proof.
  unfold outcome. induction n as [|n IH]; auto. rewrite seq_S, map_app, rev_app_distr. cbn [map rev app value].
  rewrite IH, idx_snoc, rev_length, map_length, seq_length. cbn [plus]. lia.
Qed.
Lemma vec_stage n l : vec_state n l = stage 0 n l.
Proof. apply functional_extensionality. intros b. unfold vec_state, stage. now rewrite outcome_idx. Qed.
Lemma vec_weight n l : length l = (2 ^ n)%nat -> weight n (stage 0 n l) = sqnorm l.
Proof. intros L. unfold weight. rewrite weight_sumw. exact (sumw_list n l _ L). Qed.

(** ** The gates *)
Lemma multiplex_ok t : is_rot t -> forall k l last, Forall (fun o => exists s, o = OStd s /\ (forall i, op_ok (shift_op i (OStd s)))) (multiplex_ops k t l last).
Proof.
  intros T.
  assert (X : forall k, exists s, cg1 gX (S k) 0 = OStd s /\ (forall i, op_ok (shift_op i (OStd s)))).
  { intros k. eexists. split; [reflexivity|]. intros i. cbn. split; [split|]; [repeat constructor; intros []| |eexists; reflexivity].
    intros c [<-|[]] [E|[]]. cbn in E. lia. }
  induction k as [|k IH]; intros l last.
  - repeat constructor. eexists. split; [reflexivity|]. intros i. split; [split|]; [repeat constructor; intros []|intros c []|].
    destruct T as [-> | ->]; eexists; reflexivity.
  - cbn [multiplex_ops]. apply Forall_app. split; [apply IH|]. cbn [app]. constructor; [apply X|]. apply Forall_app. split; [apply Forall_rev, IH|].
    destruct last; repeat constructor. apply X.
Qed.
Lemma multiplex_shift_ok t i k l last : is_rot t ->
  Forall op_ok (map (shift_op i) (multiplex_ops k t l last)) /\ Forall no_meas (map (shift_op i) (multiplex_ops k t l last)).
Proof.
  intros T. pose proof (multiplex_ok t T k l last) as F. split; apply Forall_map; eapply Forall_impl; try exact F; intros o (s & -> & H); [apply H|exact I].
Qed.
Lemma as_op_ok l : Forall op_ok l -> Forall no_meas l -> Forall op_ok (as_op l) /\ Forall no_meas (as_op l).
Proof.
  intros A B. destruct l as [|o [|p l]]; auto. cbn [as_op]. split; constructor; auto; [now apply op_ok_comp|now apply no_meas_comp].
Qed.
Lemma as_op_acts l f : acts l f -> acts (as_op l) f.
Proof.
  intros A. destruct l as [|o [|p l]]; auto. intros psi m. cbn [as_op]. rewrite AlgoBaseProofs.run_one, run_comp. apply A.
Qed.
Lemma log2_pow k : Nat.log2 (2 ^ k) = k. Proof. apply Nat.log2_pow2. lia. Qed.

Section Rounds.
Variables (n : nat) (eps : R).
Hypothesis EPS : 0 < eps.

(** One round as it is carried out. *)
Lemma round_ok i k w : (i + S k = n)%nat -> length w = (2 ^ S k)%nat ->
  let '(rest, thetas, phis) := rotationsToDisentangle w eps in
  let ops := prep_round i thetas phis eps in
  length rest = (2 ^ k)%nat /\ Forall op_ok ops /\ Forall no_meas ops /\
  weight n (stage (S i) k rest) = weight n (stage i (S k) w) /\
  exists F, acts ops F /\ iso n F /\
    distance n (F (stage i (S k) w)) (stage (S i) k rest) <= eps * sqrt (weight n (stage i (S k) w)) + 2 * eps * sqrt (2 ^ k).
Proof.
  intros N L. pose proof (rest_len n i k w eps N L) as RL. pose proof (thetas_len n i k w eps N L) as TL. pose proof (phis_len n i k w eps N L) as PL.
  pose proof (stage_weight n i k w eps N L) as SW. pose proof (step_full n i k w eps N L (Rlt_le _ _ EPS)) as SF. unfold Ufull in SF.
  destruct (rotationsToDisentangle w eps) as [[rest thetas] phis]. cbn [fst snd] in *.
  split; [exact RL|]. unfold prep_round, multiplex. rewrite TL, PL, log2_pow.
  assert (TZ : is_rot gRZ) by (now left). assert (TY : is_rot gRY) by (now right).
  assert (OKZ : forall last, Forall op_ok (as_op (map (shift_op i) (multiplex_ops k gRZ phis last))) /\ Forall no_meas (as_op (map (shift_op i) (multiplex_ops k gRZ phis last)))).
  { intros last. destruct (multiplex_shift_ok gRZ i k phis last TZ). now apply as_op_ok. }
  assert (OKY : forall last, Forall op_ok (as_op (map (shift_op i) (rev (multiplex_ops k gRY thetas last)))) /\ Forall no_meas (as_op (map (shift_op i) (rev (multiplex_ops k gRY thetas last))))).
  { intros last. destruct (multiplex_shift_ok gRY i k thetas last TY). apply as_op_ok; rewrite map_rev; now apply Forall_rev. }
  split; [destruct (Rlt_dec _ _), (Rlt_dec _ _); cbn [andb negb]; rewrite ?app_nil_r; cbn [app]; try apply Forall_app; repeat split; try apply OKZ; try apply OKY; constructor|].
  split; [destruct (Rlt_dec _ _), (Rlt_dec _ _); cbn [andb negb]; rewrite ?app_nil_r; cbn [app]; try apply Forall_app; repeat split; try apply OKZ; try apply OKY; constructor|].
  split; [exact SW|].
  set (psi := stage i (S k) w) in *. set (fz := ang k i phis) in *. set (fy := ang k i thetas) in *.
  assert (IZ : iso n (mux gRZ fz i)) by (apply iso_mux; [lia|apply ang_indep]).
  assert (IY : iso n (mux gRY fy i)) by (apply iso_mux; [lia|apply ang_indep]).
  assert (NZ : twoNormR phis <= eps -> forall p, distance n (mux gRZ fz i p) p <= eps / 2 * sqrt (weight n p)).
  { intros H p. apply mux_near; [lia|apply ang_indep|lra|]. intros x. eapply Rle_trans; [apply twoNormR_bound|exact H]. }
  assert (NY : twoNormR thetas <= eps -> forall p, distance n (mux gRY fy i p) p <= eps / 2 * sqrt (weight n p)).
  { intros H p. apply mux_near; [lia|apply ang_indep|lra|]. intros x. eapply Rle_trans; [apply twoNormR_bound|exact H]. }
  assert (SYM : forall p q, distance n p q = distance n q p).
  { intros p q. unfold distance, weight. rewrite !weight_sumw. f_equal. apply sumw_ext. intros x. unfold Cnorm2. cbn. ring. }
  assert (WP : 0 <= sqrt (weight n psi)) by apply sqrt_pos.
  assert (EW : 0 <= eps / 2 * sqrt (weight n psi)) by (apply Rmult_le_pos; lra).
  destruct (multiplex_full gRZ i k phis TZ PL) as [ZF _]. destruct (multiplex_full gRY i k thetas TY TL) as [_ YF].
  destruct (multiplex_acts gRZ i TZ k phis PL) as [ZH _]. destruct (multiplex_acts gRY i TY k thetas TL) as [_ YH].
  rewrite <- map_rev in YF, YH. fold fz in ZF, ZH. fold fy in YF, YH.
  destruct (Rlt_dec eps (twoNormR phis)) as [HZ|HZ], (Rlt_dec eps (twoNormR thetas)) as [HY|HY]; cbn [andb negb]; rewrite ?app_nil_r; cbn [app].
  - exists (fun p => mux gRY fy i (mux gRZ fz i p)). split.
    + eapply acts_ext; [apply acts_app; apply as_op_acts; [exact ZH|exact YH]|]. intros p. cbv beta. now rewrite cxk_cxk.
    + split; [now apply (iso_comp n (mux gRZ fz i) (mux gRY fy i))|]. lra.
  - exists (mux gRZ fz i). split; [apply as_op_acts, ZF|]. split; [auto|].
    eapply Rle_trans; [apply (distance_triangle n _ (mux gRY fy i (mux gRZ fz i psi)))|]. rewrite SYM.
    apply Rnot_lt_le in HY. pose proof (NY HY (mux gRZ fz i psi)) as H. rewrite (proj1 IZ) in H. lra.
  - exists (mux gRY fy i). split; [apply as_op_acts, YF|]. split; [auto|].
    eapply Rle_trans; [apply (distance_triangle n _ (mux gRY fy i (mux gRZ fz i psi)))|]. rewrite (iso_distance n (mux gRY fy i)) by auto. rewrite SYM.
    apply Rnot_lt_le in HZ. pose proof (NZ HZ psi) as H. lra.
  - exists (fun p => p). split; [apply acts_nil|]. split; [apply iso_id|].
    apply Rnot_lt_le in HZ. apply Rnot_lt_le in HY. pose proof (NZ HZ psi) as H. pose proof (NY HY psi) as H'.
    eapply Rle_trans; [apply (distance_triangle n _ (mux gRY fy i psi))|]. rewrite (SYM psi).
    eapply Rle_trans; [apply Rplus_le_compat_l, (distance_triangle n _ (mux gRY fy i (mux gRZ fz i psi)))|]. rewrite (iso_distance n (mux gRY fy i)) by auto. rewrite (SYM psi). lra.
Qed.

Fixpoint err (w : R) (k : nat) : R := match k with O => 0 | S k => eps * w + 2 * eps * sqrt (2 ^ k) + err w k end.
Lemma rounds_ok k : forall i w, (i + k = n)%nat -> length w = (2 ^ k)%nat ->
  let (ops, final) := prep_rounds k i w eps in
  Forall op_ok ops /\ Forall no_meas ops /\ exists F z, final = [z] /\ acts ops F /\ iso n F /\
    Cnorm2 z = weight n (stage i k w) /\
    distance n (F (stage i k w)) (stage n 0 [z]) <= err (sqrt (weight n (stage i k w))) k.
Proof.
  induction k as [|k IH]; intros i w N L; cbn [prep_rounds].
  - destruct w as [|z [|? ?]]; try discriminate L. replace i with n by lia. split; [constructor|]. split; [constructor|]. exists (fun p => p), z. split; auto. split; [apply acts_nil|]. split; [apply iso_id|].
    split; [|rewrite distance_refl; cbn; lra].
    symmetry. rewrite (weight_point n _ zeros). { unfold stage. replace (low0 n _) with true; [reflexivity|]. symmetry. apply low0_spec. intros q _. unfold mask, zeros. destruct (_ <? _)%nat; reflexivity. }
    intros c (q & Q & H). unfold stage. destruct (low0 n c) eqn:E; auto. rewrite (proj1 (low0_spec n c) E q Q) in H. now elim H.
  - pose proof (round_ok i k w N L) as R. destruct (rotationsToDisentangle w eps) as [[rest thetas] phis].
    destruct R as (RL & O1 & N1 & W & F & AF & IF & DF). specialize (IH (S i) rest ltac:(lia) RL).
    destruct (prep_rounds k (S i) rest eps) as [ops final]. destruct IH as (O2 & N2 & G & z & -> & AG & IG & Z & DG).
    split; [apply Forall_app; auto|]. split; [apply Forall_app; auto|]. exists (fun p => G (F p)), z. split; auto.
    split; [now apply acts_app|]. split; [now apply iso_comp|]. split; [now rewrite Z|].
    eapply Rle_trans; [apply (distance_triangle n _ (G (stage (S i) k rest)))|]. rewrite (iso_distance n G) by auto. rewrite W in DG. cbn [err]. lra.
Qed.
Lemma err_bound w k : 0 <= w -> err w k <= eps * (INR k * w + 5 * sqrt (2 ^ k)) - 5 * eps.
Proof.
  intros W. induction k as [|k IH]; [cbn; rewrite sqrt_1; lra|]. cbn [err].
  eapply Rle_trans; [apply Rplus_le_compat_l, IH|].
  assert (S : 7 / 5 * sqrt (2 ^ k) <= sqrt (2 ^ S k)).
  { cbn [pow]. rewrite sqrt_mult by (try apply pow_le; lra). apply Rmult_le_compat_r; [apply sqrt_pos|].
    apply Rsqr_incr_0_var; [|apply sqrt_pos]. rewrite Rsqr_sqrt by lra. unfold Rsqr. lra. }
  rewrite S_INR. pose proof (sqrt_pos (2 ^ k)). nra.
Qed.
End Rounds.

(** ** The result *)
Lemma norm_phase_exp x : Cexp (norm_phase x) = Cexp x.
Proof. unfold norm_phase. rewrite <- (Cexp_2PI_Z (- floorR (x / (2 * PI))) x). f_equal. rewrite opp_IZR. ring. Qed.
Lemma stage_last n z : stage n 0 [z] = sscal z (basis n zeros).
Proof.
  apply functional_extensionality. intros b. unfold stage, sscal, basis, low0, zeros. cbn [idx nth].
  replace (forallb (fun q => negb (b q)) (seq 0 n)) with (forallb (fun q => Bool.eqb (b q) false) (seq 0 n)).
  - destruct (forallb _ _); ring.
  - apply forallb_ext_in. intros q _. now destruct (b q).
Qed.
Lemma weight_basis n c : weight n (sscal c (basis n zeros)) = Cnorm2 c.
Proof.
  rewrite (weight_point n _ zeros).
  - unfold sscal. rewrite basis_mask. rewrite (proj2 (same_bits_iff n zeros zeros)) by auto. f_equal. ring.
  - intros x H. unfold sscal. rewrite basis_out by auto. ring.
Qed.
Lemma distance_basis n c d : distance n (sscal c (basis n zeros)) (sscal d (basis n zeros)) = Cmod (c - d)%C.
Proof.
  unfold distance, Cmod. f_equal. rewrite <- (weight_basis n (c - d)%C). f_equal. apply functional_extensionality. intros b. unfold sscal. ring.
Qed.
Lemma phase_error z eps : 0 < eps -> let arg := carg z in
  Cmod (Cexp (if Rlt_dec eps (Rabs arg) then norm_phase arg else 0) - z)%C <= eps + Rabs (1 - Cmod z).
Proof.
  intros E arg.
  apply Rle_trans with (Cmod (Cexp (if Rlt_dec eps (Rabs arg) then norm_phase arg else 0) - Cexp arg)%C + Cmod (Cexp arg - z)%C).
  { eapply Rle_trans; [|apply Cmod_triangle]. right. f_equal. ring. }
  apply Rplus_le_compat.
  - destruct (Rlt_dec eps (Rabs arg)) as [H|H].
    + rewrite norm_phase_exp. replace (Cexp arg - Cexp arg)%C with C0 by ring. unfold Cmod. rewrite Cnorm2_0, sqrt_0. lra.
    + apply Rnot_lt_le in H. rewrite Cexp_0. unfold Cmod. apply sqrt_sq_le; [lra|].
      replace (Cnorm2 (C1 - Cexp arg)%C) with (Cnorm2 (Cexp arg - C1)%C) by (unfold Cnorm2; cbn; ring).
      eapply Rle_trans; [apply Cexp_near|]. pose proof (Rabs_pos arg).
      rewrite <- (Rabs_right (arg * arg)) by (apply Rle_ge, Rle_0_sqr). rewrite Rabs_mult. apply Rmult_le_compat; auto.
  - right. rewrite <- (polar_carg z) at 1. fold arg. unfold polar.
    replace (Cexp arg - RtoC (Cmod z) * Cexp arg)%C with (RtoC (1 - Cmod z) * Cexp arg)%C
      by (unfold Rminus; rewrite RtoC_add, RtoC_opp, RtoC_1; ring).
    rewrite Cmod_mul. unfold Cmod at 1 3. rewrite Cexp_norm2, Cnorm2_RtoC, sqrt_1, Rmult_1_r. apply sqrt_Rsqr_abs.
Qed.
Lemma prep_main n amps eps : 0 < eps -> length amps = (2 ^ n)%nat -> Rabs (1 - sqrt (sqnorm amps)) < eps ->
  exists c phi, invert_qc (gatesToUncompute amps n eps) = Some c /\ qc_n c = n /\
  (forall m, run_qc c (basis n zeros, m) = [(phi, m)]) /\ weight n phi = 1 /\
  distance n phi (vec_state n amps) <= eps * (INR n * sqrt (sqnorm amps) + 5 * sqrt (2 ^ n)).
Proof.
  intros E L NA. unfold gatesToUncompute. pose proof (rounds_ok n eps E n 0 amps (Nat.add_0_l n) L) as R.
  destruct (prep_rounds n 0 amps eps) as [ops final]. destruct R as (O & NM & F & z & -> & A & I & Z & D).
  rewrite vec_weight in Z, D by auto. cbn [fold_left]. replace (C0 + z)%C with z by ring.
  set (p := if Rlt_dec eps (Rabs (carg z)) then norm_phase (carg z) else 0).
  unfold invert_qc. cbn [qc_ops qc_n qc_init qc_out qc_phase].
  destruct (inverts_ops ops O NM) as [r IR]. rewrite IR. pose proof (undoes_ops ops r O IR) as U.
  assert (G : exists g, (forall psi m, run (rev r) (psi, m) = [(g psi, m)]) /\ (forall psi, F (g psi) = psi) /\ (forall psi, g (F psi) = psi)).
  { destruct (U zeros) as (f & g & Hf & Hg & I1 & I2).
    assert (FE : forall psi, f psi = F psi) by (intros psi; specialize (Hf psi); rewrite A in Hf; congruence).
    assert (K1 : forall psi, F (g psi) = psi) by (intros psi; rewrite <- FE; apply I2).
    assert (K2 : forall psi, g (F psi) = psi) by (intros psi; rewrite <- FE; apply I1).
    exists g. split; [|auto]. intros psi m. destruct (U m) as (f' & g' & Hf' & Hg' & J1 & J2). rewrite Hg'. f_equal. f_equal.
    rewrite <- (K2 (g' psi)). f_equal. specialize (Hf' (g' psi)). rewrite A in Hf'. injection Hf' as H. rewrite H. apply J2. }
  destruct G as (g & Hg & G1 & G2).
  eexists. exists (sscal (Cexp p) (g (basis n zeros))). split; [reflexivity|]. cbn [qc_n]. split; [reflexivity|].
  assert (FP : F (sscal (Cexp p) (g (basis n zeros))) = sscal (Cexp p) (basis n zeros)) by (rewrite (proj2 (proj2 I)), G1; auto).
  split; [|split].
  - intros m. unfold run_qc. cbn [qc_ops qc_phase]. rewrite Hg. reflexivity.
  - rewrite <- (proj1 I), FP, weight_basis. apply Cexp_norm2.
  - rewrite <- (iso_distance n F) by auto. rewrite FP, vec_stage.
    eapply Rle_trans; [apply (distance_triangle n _ (sscal z (basis n zeros)))|].
    rewrite distance_basis. pose proof (phase_error z eps E) as PE. cbv zeta in PE. fold p in PE.
    assert (SYM : forall p q, distance n p q = distance n q p).
    { intros p' q'. unfold distance, weight. rewrite !weight_sumw. f_equal. apply sumw_ext. intros x. unfold Cnorm2. cbn. ring. }
    rewrite SYM, <- stage_last.
    assert (MZ : Cmod z = sqrt (sqnorm amps)) by (unfold Cmod; now rewrite Z). rewrite MZ in PE.
    pose proof (err_bound eps E (sqrt (sqnorm amps)) n (sqrt_pos _)) as EB. lra.
Qed.

(** ** The checks *)
Lemma pow2_check k : (N.land (2 ^ k) (2 ^ k - 1) = 0)%N.
Proof. rewrite N.sub_1_r, <- N.ones_equiv. rewrite N.land_ones. apply N.mod_same. apply N.pow_nonzero. lia. Qed.
Lemma pow2_check_inv a : (a <> 0 -> N.land a (a - 1) = 0 -> exists k, a = 2 ^ k)%N.
Proof.
  intros A H. exists (N.log2 a). destruct (N.log2_spec a ltac:(lia)) as [L U]. destruct (N.eq_dec a (2 ^ N.log2 a)) as [E|E]; auto. exfalso.
  assert (B1 : N.testbit a (N.log2 a) = true) by (now apply N.bit_log2).
  assert (LG : N.log2 (a - 1) = N.log2 a). { apply N.log2_unique; lia. }
  assert (B2 : N.testbit (a - 1) (N.log2 a) = true). { rewrite <- LG. apply N.bit_log2. assert (2 ^ N.log2 a <> 0)%N by (apply N.pow_nonzero; lia). lia. }
  assert (X : N.testbit (N.land a (a - 1)) (N.log2 a) = true) by (now rewrite N.land_spec, B1, B2). rewrite H in X. now rewrite N.bits_0 in X.
Qed.
Lemma pow2_nat l : (N.eqb (N.of_nat l) 0 || negb (N.eqb (N.land (N.of_nat l) (N.of_nat l - 1)) 0))%bool = false <-> exists n, l = (2 ^ n)%nat.
Proof.
  rewrite orb_false_iff, negb_false_iff, N.eqb_neq, N.eqb_eq. split.
  - intros [A B]. destruct (pow2_check_inv _ A B) as [k K]. exists (N.to_nat k). apply Nat2N.inj. rewrite K, Nat2N.inj_pow, N2Nat.id. reflexivity.
  - intros [n ->]. rewrite Nat2N.inj_pow. change (N.of_nat 2) with 2%N. split; [apply N.pow_nonzero; lia|apply pow2_check].
Qed.
