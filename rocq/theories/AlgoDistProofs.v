(** The outcome distribution of phase estimation. *)
From Coq Require Import Reals Lra List Arith Bool Lia NArith ZArith FunctionalExtensionality.
From Verif Require Import Cplx Qsem GateModel IRModel IRSpec OutcomeSpec SimNormProofs AlgoModel AlgoSpec AlgoBaseProofs AlgoStateProofs AlgoQftProofs AlgoMeasProofs AlgoIterProofs AlgoQpeProofs.
Import ListNotations.
Local Open Scope nat_scope.

Lemma Cexp_2PI_Z z x : Cexp (x + 2 * PI * IZR z) = Cexp x.
Proof.
  destruct (Z_le_dec 0 z) as [P|P].
  - rewrite <- (Z2Nat.id z) by auto. rewrite <- INR_IZR_INZ. apply Cexp_2PI_nat.
  - rewrite <- (Cexp_2PI_nat (Z.to_nat (- z)) (x + 2 * PI * IZR z)). f_equal. rewrite INR_IZR_INZ, Z2Nat.id, opp_IZR by lia. ring.
Qed.
Lemma outcome_le n m : outcome n m = levalue n m. Proof. reflexivity. Qed.
Lemma levalue_mod i n m : i <= n -> exists k, levalue n m = levalue i m + 2 ^ i * k.
Proof.
  intros L. induction n as [|n IH].
  - exists 0. replace i with 0 by lia. lia.
  - destruct (Nat.eq_dec i (S n)) as [->|N]; [exists 0; lia|]. destruct IH as [k E]; [lia|]. rewrite levalue_S, E.
    exists ((if m n then 2 ^ (n - i) else 0) + k). destruct (m n); [|lia]. rewrite Nat.mul_add_distr_l, <- Nat.pow_add_r.
    replace (i + (n - i)) with n by lia. lia.
Qed.
Lemma pow_sub a n : a <= n -> (2 ^ n = 2 ^ a * 2 ^ (n - a))%R.
Proof. intros H. rewrite <- pow_add. f_equal. lia. Qed.

Lemma qamp_eq n lambda i m : i < n ->
  qamp n lambda i m (m i) = (RtoC (/ 2) * (C1 + Cexp (2 ^ (n - 1 - i) * (2 * PI * (lambda / 2 - INR (outcome n m) / 2 ^ n)))))%C.
Proof.
  intros L. unfold qamp. f_equal. f_equal.
  assert (E : ((if m i then - C1 else C1) * Cexp (qpe_angle n i lambda - ph i m))%C = Cexp (qpe_angle n i lambda - 2 * ph (S i) m)).
  { cbn [ph]. replace (qpe_angle n i lambda - 2 * ((ph i m + (if m i then PI else 0)) / 2))%R
      with (qpe_angle n i lambda - ph i m - (if m i then PI else 0))%R by field.
    unfold Rminus at 2. rewrite Cexp_add. destruct (m i).
    - rewrite <- Cexp_conj, Cexp_PI. replace (Cconj (- C1)) with (- C1)%C by (apply Ceq; cbn; ring). ring.
    - rewrite Ropp_0, Cexp_0. ring. }
  rewrite E. unfold qpe_angle, remainder2. generalize (rneR (2 ^ (n - 1 - i) * lambda / 2)). intros z.
  rewrite outcome_le. destruct (levalue_mod (S i) n m) as [k K]; [lia|]. rewrite K, ph_value, plus_INR, mult_INR, INR_pow2.
  rewrite (pow_sub (S i) n) by lia. replace (n - S i) with (n - 1 - i) by lia.
  pose proof (pow2_neq (S i)). pose proof (pow2_neq (n - 1 - i)).
  rewrite <- (Cexp_2PI_Z z), <- (Cexp_2PI_nat k (2 ^ (n - 1 - i) * _)). f_equal. field. auto.
Qed.
Lemma cprod_rev f n : cprod (fun i => f (n - 1 - i)) (seq 0 n) = cprod f (seq 0 n).
Proof.
  induction n as [|n IH]; [reflexivity|]. rewrite seq_S at 2. rewrite cprod_app. rewrite <- IH.
  cbn [seq]. rewrite <- seq_shift. unfold cprod at 1. cbn [fold_right]. fold (cprod (fun i => f (S n - 1 - i)) (map S (seq 0 n))).
  replace (S n - 1 - 0) with n by lia. replace (cprod (fun i => f (S n - 1 - i)) (map S (seq 0 n))) with (cprod (fun i => f (n - 1 - i)) (seq 0 n)).
  - unfold cprod at 3. cbn [fold_right plus]. ring.
  - unfold cprod. generalize (seq 0 n). induction l as [|j l IHl]; cbn [map fold_right]; auto. rewrite IHl. replace (S n - 1 - S j) with (n - 1 - j) by lia. auto.
Qed.
Lemma seq_plus k a N : map (fun i => k + i) (seq a N) = seq (k + a) N.
Proof. revert a. induction N as [|N IH]; intros a; cbn [seq map]; auto. rewrite IH. f_equal. f_equal. lia. Qed.
Lemma geom n x : csum (seq 0 (2 ^ n)) (fun k => Cexp (INR k * x)) = cprod (fun j => C1 + Cexp (2 ^ j * x))%C (seq 0 n).
Proof.
  induction n as [|n IH].
  - cbn. rewrite Rmult_0_l, Cexp_0. ring.
  - replace (2 ^ S n) with (2 ^ n + 2 ^ n) by (cbn; lia). rewrite (seq_S n), cprod_app, <- IH. rewrite seq_app, csum_app. cbn [plus].
    replace (csum (seq (2 ^ n) (2 ^ n)) (fun k => Cexp (INR k * x))) with (Cexp (2 ^ n * x) * csum (seq 0 (2 ^ n)) (fun k => Cexp (INR k * x)))%C.
    + unfold cprod. cbn [fold_right]. ring.
    + rewrite <- csum_scal. replace (seq (2 ^ n) (2 ^ n)) with (map (fun k => 2 ^ n + k) (seq 0 (2 ^ n))).
      * rewrite csum_map. apply csum_ext. intros k _. rewrite plus_INR, INR_pow2, <- Cexp_add. f_equal. ring.
      * rewrite seq_plus. f_equal. lia.
Qed.
Lemma cprod_half f n : cprod (fun j => RtoC (/ 2) * f j)%C (seq 0 n) = (RtoC (/ 2 ^ n) * cprod f (seq 0 n))%C.
Proof.
  induction n as [|n IH]; [cbn; apply Ceq; cbn; field|]. rewrite seq_S, !cprod_app, IH. unfold cprod. cbn [fold_right plus pow].
  rewrite Rinv_mult, RtoC_mul. ring.
Qed.
Lemma qpe_dist_amp n lambda m : rprod (fun j => Cnorm2 (qamp n lambda j m (m j))) (seq 0 n) = qpe_dist n (lambda / 2) (outcome n m).
Proof.
  rewrite <- cprod_norm. unfold qpe_dist. f_equal.
  rewrite (cprod_ext _ (fun j => RtoC (/ 2) * (fun j => C1 + Cexp (2 ^ (n - 1 - j) * (2 * PI * (lambda / 2 - INR (outcome n m) / 2 ^ n)))) j)%C).
  2: { intros j J. apply in_seq in J. apply qamp_eq. lia. }
  rewrite cprod_half. f_equal.
  rewrite (cprod_rev (fun j => C1 + Cexp (2 ^ j * (2 * PI * (lambda / 2 - INR (outcome n m) / 2 ^ n))))%C), <- geom.
  apply csum_ext. intros k _. f_equal. ring.
Qed.

(** ** The distribution in terms of cosines *)
Lemma half_norm x : Cnorm2 (RtoC (/ 2) * (C1 + Cexp x))%C = (cos (x / 2) ^ 2)%R.
Proof.
  rewrite Cnorm2_mul. unfold Cnorm2, Cexp. cbn. replace x with (2 * (x / 2))%R at 1 2 3 4 by field.
  rewrite cos_2a, sin_2a. pose proof (sin2_cos2 (x / 2)) as H. unfold Rsqr in H. set (c := cos (x / 2)) in *. set (s := sin (x / 2)) in *. clearbody c s.
  assert (S : (s * s = 1 - c * c)%R) by lra.
  transitivity (/ 4 * ((1 + (c * c - s * s)) * (1 + (c * c - s * s)) + 4 * (s * s) * (c * c)))%R; [field|]. rewrite S. field.
Qed.
Lemma qpe_dist_cos n phi y : qpe_dist n phi y = rprod (fun j => cos (PI * (2 ^ n * phi - INR y) / 2 ^ (n - j)) ^ 2)%R (seq 0 n).
Proof.
  unfold qpe_dist. rewrite (csum_ext _ _ (fun k => Cexp (INR k * (2 * PI * (phi - INR y / 2 ^ n))))).
  2: { intros k _. f_equal. ring. }
  rewrite geom, <- cprod_half, cprod_norm. apply rprod_ext. intros j J. apply in_seq in J. rewrite half_norm. f_equal. f_equal.
  rewrite (pow_sub j n) by lia. pose proof (pow2_neq (n - j)). pose proof (pow2_neq j). field. auto.
Qed.
Lemma rprod_rev f n : rprod (fun i => f (n - 1 - i)) (seq 0 n) = rprod f (seq 0 n).
Proof.
  assert (A : forall l l', rprod f (l ++ l') = (rprod f l * rprod f l')%R).
  { intros l l'. unfold rprod. induction l as [|j l IH]; cbn [app fold_right]; [ring|]. rewrite IH. ring. }
  induction n as [|n IH]; [reflexivity|]. rewrite seq_S at 2. rewrite A. rewrite <- IH.
  cbn [seq]. rewrite <- seq_shift. unfold rprod at 1. cbn [fold_right]. fold (rprod (fun i => f (S n - 1 - i)) (map S (seq 0 n))).
  replace (S n - 1 - 0) with n by lia. replace (rprod (fun i => f (S n - 1 - i)) (map S (seq 0 n))) with (rprod (fun i => f (n - 1 - i)) (seq 0 n)).
  - unfold rprod at 3. cbn [fold_right plus]. ring.
  - unfold rprod. generalize (seq 0 n). induction l as [|j l IHl]; cbn [map fold_right]; auto. rewrite IHl. replace (S n - 1 - S j) with (n - 1 - j) by lia. auto.
Qed.
Definition cosp (n : nat) (u : R) : R := rprod (fun j => cos (u / 2 ^ (S j)))%R (seq 0 n).
Lemma cosp_S n u : cosp (S n) u = (cosp n u * cos (u / 2 ^ (S n)))%R.
Proof.
  unfold cosp. rewrite seq_S. unfold rprod. generalize (seq 0 n). induction l as [|j l IH]; cbn [app fold_right plus]; [ring|]. cbn [plus] in IH. rewrite IH. ring.
Qed.
Lemma rprod_sq f l : rprod (fun j => f j ^ 2)%R l = (rprod f l ^ 2)%R.
Proof. unfold rprod. induction l as [|j l IH]; cbn [fold_right]; [ring|]. rewrite IH. ring. Qed.
Lemma qpe_dist_cosp n phi y : qpe_dist n phi y = (cosp n (PI * (2 ^ n * phi - INR y)) ^ 2)%R.
Proof.
  rewrite qpe_dist_cos, rprod_sq. f_equal. unfold cosp.
  rewrite <- rprod_rev. apply rprod_ext. intros j J. apply in_seq in J. f_equal. f_equal. f_equal. lia.
Qed.
(** Shifting the phase by a full turn does not matter. *)
Lemma qpe_dist_period n phi y z : qpe_dist n (phi + IZR z) y = qpe_dist n phi y.
Proof.
  unfold qpe_dist. f_equal. f_equal. apply csum_ext. intros k _.
  rewrite <- (Cexp_2PI_Z (Z.of_nat k * z) (2 * PI * INR k * (phi - INR y / 2 ^ n))). f_equal. rewrite mult_IZR, <- INR_IZR_INZ. ring.
Qed.
Lemma cosp_sin n u : (sin u = 2 ^ n * sin (u / 2 ^ n) * cosp n u)%R.
Proof.
  induction n as [|n IH].
  - unfold cosp. cbn. unfold Rdiv. rewrite Rinv_1, !Rmult_1_r. ring.
  - rewrite cosp_S. rewrite IH at 1. replace (u / 2 ^ n)%R with (2 * (u / 2 ^ S n))%R by (cbn [pow]; field; apply pow2_neq).
    rewrite sin_2a. cbn [pow]. ring.
Qed.
Lemma cosp_pos n u : (0 <= u <= PI / 2 -> 0 <= cosp n u)%R.
Proof.
  intros U. induction n as [|n IH]; [unfold cosp; cbn; lra|]. rewrite cosp_S. apply Rmult_le_pos; auto. apply cos_ge_0.
  - apply Rle_trans with 0%R; [lra|]. apply Rmult_le_pos; [lra|]. left. apply Rinv_0_lt_compat, pow_lt. lra.
  - apply Rle_trans with u; [|lra]. rewrite <- (Rmult_1_r u) at 2. apply Rmult_le_compat_l; [lra|].
    apply Rle_trans with (/ 1)%R; [|lra]. apply Rinv_le_contravar; [lra|]. apply pow_R1_Rle. lra.
Qed.
Lemma cosp_decr n u v : (0 <= u <= v -> v <= PI / 2 -> cosp n v <= cosp n u)%R.
Proof.
  intros U V. induction n as [|n IH]; [unfold cosp; cbn; lra|]. rewrite !cosp_S.
  assert (P : (0 < / 2 ^ S n <= 1)%R).
  { split; [apply Rinv_0_lt_compat, pow_lt; lra|]. apply Rle_trans with (/ 1)%R; [|lra]. apply Rinv_le_contravar; [lra|]. apply pow_R1_Rle. lra. }
  assert (UV : (0 <= u / 2 ^ S n <= v / 2 ^ S n /\ v / 2 ^ S n <= PI / 2)%R) by (unfold Rdiv; nra).
  apply Rmult_le_compat; auto.
  - apply cosp_pos. lra.
  - apply cos_ge_0; lra.
  - pose proof PI_RGT_0. apply cos_decr_1; lra.
Qed.
Lemma cosp_half n : (2 / PI <= cosp n (PI / 2))%R.
Proof.
  pose proof PI_RGT_0 as P. pose proof (cosp_sin n (PI / 2)) as S. rewrite sin_PI2 in S.
  assert (N : (0 < 2 ^ n)%R) by (apply pow_lt; lra).
  assert (A : (0 < PI / 2 / 2 ^ n)%R) by (apply Rdiv_lt_0_compat; lra).
  pose proof (sin_lt_x _ A) as L. pose proof (cosp_pos n (PI / 2) ltac:(lra)) as Q.
  assert (B : (2 ^ n * sin (PI / 2 / 2 ^ n) <= PI / 2)%R).
  { apply Rle_trans with (2 ^ n * (PI / 2 / 2 ^ n))%R; [apply Rmult_le_compat_l; lra|]. right. field. lra. }
  apply Rmult_le_reg_l with (PI / 2)%R; [lra|]. replace (PI / 2 * (2 / PI))%R with 1%R by (field; lra). rewrite S at 1. apply Rmult_le_compat_r; auto.
Qed.
Lemma cosp_even n u : cosp n (- u) = cosp n u.
Proof. unfold cosp. apply rprod_ext. intros j _. replace (- u / 2 ^ S j)%R with (- (u / 2 ^ S j))%R by (field; apply pow2_neq). apply cos_neg. Qed.
Lemma cosp_abs n u : cosp n (Rabs u) = cosp n u.
Proof. unfold Rabs. destruct (Rcase_abs u); auto. apply cosp_even. Qed.

Lemma qpe_dist_near n phi y z : (Rabs (2 ^ n * (phi + IZR z) - INR y) <= / 2)%R -> (4 / PI ^ 2 <= qpe_dist n phi y)%R.
Proof.
  intros H. rewrite <- (qpe_dist_period n phi y z), qpe_dist_cosp, <- cosp_abs, Rabs_mult.
  pose proof PI_RGT_0 as P. rewrite (Rabs_right PI) by lra.
  pose proof (Rabs_pos (2 ^ n * (phi + IZR z) - INR y)) as Q.
  pose proof (cosp_half n) as C. pose proof (cosp_decr n (PI * Rabs (2 ^ n * (phi + IZR z) - INR y)) (PI / 2)) as D.
  assert (E : (2 / PI <= cosp n (PI * Rabs (2 ^ n * (phi + IZR z) - INR y)))%R) by (eapply Rle_trans; [exact C|apply D; nra]).
  replace (4 / PI ^ 2)%R with ((2 / PI) ^ 2)%R by (field; lra). apply pow_incr. split; auto. apply Rlt_le, Rdiv_lt_0_compat; lra.
Qed.
(** A nearest outcome exists. *)
Lemma near_exists n phi : exists m z, (Rabs (2 ^ n * (phi + IZR z) - INR (outcome n m)) <= / 2)%R.
Proof.
  set (r := roundR (2 ^ n * phi)). assert (H : (Rabs (2 ^ n * phi - IZR r) <= / 2)%R).
  { unfold r, roundR, floorR. destruct (archimed (2 ^ n * phi + / 2)) as [A B]. rewrite minus_IZR. apply Rabs_le. lra. }
  set (y := (r mod 2 ^ Z.of_nat n)%Z). exists (fun i => Z.testbit y (Z.of_nat i)), (- (r / 2 ^ Z.of_nat n))%Z.
  assert (P : (0 < 2 ^ Z.of_nat n)%Z) by (apply Z.pow_pos_nonneg; lia).
  assert (Y : (0 <= y < 2 ^ Z.of_nat n)%Z) by (apply Z.mod_pos_bound; auto).
  assert (O : Z.of_nat (outcome n (fun i => Z.testbit y (Z.of_nat i))) = y).
  { rewrite outcome_le. transitivity (y mod 2 ^ Z.of_nat n)%Z; [|apply Z.mod_small; auto]. clear. generalize y. clear. intros y. induction n as [|n IH].
    - cbn. now rewrite Z.mod_1_r.
    - rewrite levalue_S, Nat2Z.inj_add, IH. rewrite Nat2Z.inj_succ, Z.pow_succ_r by lia. rewrite (Z.mul_comm 2), Z.rem_mul_r by lia.
      rewrite Zmod_odd, <- Z.bit0_odd, <- Z.shiftr_div_pow2, Z.shiftr_spec by lia. cbn [Z.add].
      destruct (Z.testbit y (Z.of_nat n)); cbn [Z.of_nat]; rewrite ?Nat2Z.inj_pow; cbn [Z.of_nat Pos.of_succ_nat]; cbn; lia. }
  rewrite opp_IZR. rewrite INR_IZR_INZ, O. replace (2 ^ n * (phi + - IZR (r / 2 ^ Z.of_nat n)) - IZR y)%R with (2 ^ n * phi - IZR r)%R; auto.
  rewrite (Z.div_mod r (2 ^ Z.of_nat n)) at 1 by lia. fold y. rewrite plus_IZR, mult_IZR, <- pow_IZR. ring.
Qed.

(** ** Phases with [n] bits *)
Lemma value_lt l : value l < 2 ^ length l.
Proof. induction l as [|a l IH]; cbn [value length Nat.pow]; [lia|]. destruct a; lia. Qed.
Lemma outcome_lt n m : outcome n m < 2 ^ n.
Proof. unfold outcome. pose proof (value_lt (rev (map m (seq 0 n)))) as H. now rewrite rev_length, map_length, seq_length in H. Qed.
Lemma outcome_inj n m m' : outcome n m = outcome n m' <-> same_bits n m m' = true.
Proof.
  rewrite (outcome_le n m), (outcome_le n m'). induction n as [|n IH]; [cbn; tauto|]. rewrite !levalue_S. cbn [same_bits]. rewrite andb_true_iff, <- IH.
  pose proof (outcome_lt n m) as A. pose proof (outcome_lt n m') as B. rewrite outcome_le in A, B.
  destruct (m n), (m' n); cbn [Bool.eqb]; (split; [intros H|intros [H1 H2]]); try split; try discriminate; auto; try lia; exfalso; lia.
Qed.
Lemma cosp_0 n : cosp n 0 = 1%R.
Proof. induction n as [|n IH]; [reflexivity|]. rewrite cosp_S, IH. unfold Rdiv. rewrite Rmult_0_l, cos_0. ring. Qed.
Lemma sin_PI_Z z : sin (PI * IZR z) = 0%R.
Proof. apply sin_eq_0_1. exists z. ring. Qed.
Lemma qpe_dist_exact n m m' : qpe_dist n (INR (outcome n m') / 2 ^ n) (outcome n m) = if same_bits n m m' then 1%R else 0%R.
Proof.
  rewrite qpe_dist_cosp. pose proof (pow2_neq n) as N0. assert (N : (0 < 2 ^ n)%R) by (apply pow_lt; lra).
  replace (2 ^ n * (INR (outcome n m') / 2 ^ n))%R with (INR (outcome n m')) by (field; auto).
  destruct (same_bits n m m') eqn:S.
  - apply outcome_inj in S. rewrite S, Rminus_diag_eq by auto. rewrite Rmult_0_r, cosp_0. ring.
  - assert (D : outcome n m' <> outcome n m) by (intros E; symmetry in E; apply outcome_inj in E; congruence).
    set (d := (Z.of_nat (outcome n m') - Z.of_nat (outcome n m))%Z).
    replace (INR (outcome n m') - INR (outcome n m))%R with (IZR d) by (unfold d; rewrite minus_IZR, <- !INR_IZR_INZ; auto).
    pose proof (cosp_sin n (PI * IZR d)) as C. rewrite sin_PI_Z in C. symmetry in C. apply Rmult_integral in C. destruct C as [C|C]; [|rewrite C; ring].
    exfalso. apply Rmult_integral in C. destruct C as [C|C]; [auto|].
    pose proof (outcome_lt n m) as A. pose proof (outcome_lt n m') as B.
    assert (DB : (- 2 ^ n < IZR d < 2 ^ n)%R).
    { unfold d. rewrite minus_IZR, <- !INR_IZR_INZ. apply lt_INR in A, B. rewrite INR_pow2 in A, B. pose proof (pos_INR (outcome n m)). pose proof (pos_INR (outcome n m')). lra. }
    assert (DZ : d <> 0%Z) by (unfold d; lia).
    pose proof PI_RGT_0 as P. destruct (Rlt_le_dec (IZR d) 0) as [L|L].
    + assert (0 < sin (- (PI * IZR d / 2 ^ n)))%R; [|rewrite sin_neg in H; lra]. replace (- (PI * IZR d / 2 ^ n))%R with (PI * (- IZR d / 2 ^ n))%R by (field; auto).
      assert (0 < - IZR d / 2 ^ n < 1)%R.
      { split; [apply Rdiv_lt_0_compat; lra|]. apply Rmult_lt_reg_r with (2 ^ n)%R; auto. unfold Rdiv. rewrite Rmult_assoc, Rinv_l by auto. lra. }
      apply sin_gt_0; nra.
    + assert (0 < IZR d)%R by (destruct L as [L|L]; auto; exfalso; apply DZ; apply eq_IZR; auto).
      assert (0 < sin (PI * IZR d / 2 ^ n))%R; [|lra]. replace (PI * IZR d / 2 ^ n)%R with (PI * (IZR d / 2 ^ n))%R by (field; auto).
      assert (0 < IZR d / 2 ^ n < 1)%R.
      { split; [apply Rdiv_lt_0_compat; lra|]. apply Rmult_lt_reg_r with (2 ^ n)%R; auto. unfold Rdiv. rewrite Rmult_assoc, Rinv_l by auto. lra. }
      apply sin_gt_0; nra.
Qed.

(** ** The generated phases *)
Lemma phase_sum n theta : (fold_left (fun l i => if N.testbit theta (N.of_nat (n - i - 1)) then (l + 1 / 2 ^ i)%R else l) (seq 0 n) 0 / 2 =
  INR (outcome n (fun i => N.testbit theta (N.of_nat i))) / 2 ^ n)%R.
Proof.
  set (f := fun i => N.testbit theta (N.of_nat i)).
  assert (G : forall l a, fold_left (fun l i => if N.testbit theta (N.of_nat (n - i - 1)) then (l + 1 / 2 ^ i)%R else l) l a =
    (a + fold_right (fun i a => (if f (n - i - 1)%nat then 1 / 2 ^ i else 0) + a) 0 l)%R).
  { induction l as [|i l IH]; intros a; cbn [fold_left fold_right]; [ring|]. rewrite IH. unfold f. destruct (N.testbit theta _); ring. }
  rewrite G, Rplus_0_l. rewrite outcome_le. clear G. generalize f. clear. intros f.
  assert (H : forall k, k <= n -> (fold_right (fun i a => (if f (n - i - 1)%nat then 1 / 2 ^ i else 0) + a) 0 (seq (n - k) k) * 2 ^ n = 2 * INR (levalue k f))%R).
  { induction k as [|k IH]; intros K; [cbn; ring|]. rewrite levalue_S, plus_INR. cbn [seq fold_right]. replace (S (n - S k)) with (n - k) by lia.
    rewrite Rmult_plus_distr_r, IH by lia. replace (n - (n - S k) - 1) with k by lia. rewrite Rmult_plus_distr_l. f_equal.
    destruct (f k); [|cbn; ring]. rewrite INR_pow2, (pow_sub (n - S k) n) by lia. replace (n - (n - S k)) with (S k) by lia. cbn [pow]. field. apply pow2_neq. }
  specialize (H n (Nat.le_refl n)). rewrite Nat.sub_diag in H. pose proof (pow2_neq n).
  apply Rmult_eq_reg_r with (2 ^ n * 2)%R; [|apply Rmult_integral_contrapositive; split; auto; lra].
  replace (INR (levalue n f) / 2 ^ n * (2 ^ n * 2))%R with (2 * INR (levalue n f))%R by (field; auto). rewrite <- H. field.
Qed.
Lemma exact_phase_half n theta : (exact_phase n theta / 2 = INR (outcome n (fun i => N.testbit theta (N.of_nat i))) / 2 ^ n)%R.
Proof. unfold exact_phase. rewrite range_0. apply phase_sum. Qed.
Lemma inexact_phase_half n theta : (inexact_phase n theta / 2 = INR (outcome (n + 1) (fun i => N.testbit theta (N.of_nat i))) / 2 ^ (n + 1))%R.
Proof.
  unfold inexact_phase. rewrite range_0, <- phase_sum. f_equal. generalize (seq 0 (n + 1)) 0%R. induction l as [|i l IH]; intros a; cbn [fold_left]; auto.
  rewrite IH. replace (n + 1 - i - 1) with (n - i) by lia. auto.
Qed.
