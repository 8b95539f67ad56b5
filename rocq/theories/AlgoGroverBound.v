(** The success probability of Grover's algorithm. *)
From Coq Require Import Reals Lra List Arith Bool Lia NArith ZArith Permutation FunctionalExtensionality.
From Verif Require Import Cplx Qsem GateModel IRModel IRSpec OutcomeSpec AlgoModel AlgoSpec AlgoQftProofs AlgoGroverProofs.
Local Open Scope R_scope.

Lemma PI_31 : 3.1 < PI.
Proof.
  assert (C : 0 < cos 1.55).
  { destruct (pre_cos_bound 1.55 1) as [L _]; [lra|lra|]. eapply Rlt_le_trans; [|exact L]. unfold cos_approx, cos_term. cbn. lra. }
  destruct (Rle_lt_dec PI 3.1) as [H|H]; auto. exfalso. pose proof PI2_3_2. assert (cos 1.55 <= 0); [|lra]. apply cos_le_0; lra.
Qed.
Lemma sin_lower x : 0 <= x <= 4 -> x - x ^ 3 / 6 <= sin x.
Proof.
  intros X. destruct (pre_sin_bound x 0) as [L _]; [lra|lra|]. eapply Rle_trans; [|exact L]. unfold sin_approx, sin_term. cbn. lra.
Qed.

Section Bound.
Variable n : nat.
Hypothesis N3 : (3 <= n)%nat.
Let s := / sqrt (2 ^ n).
Let th := gangle n.
Lemma s_facts : 0 < s /\ s * s = / 2 ^ n /\ s * s <= / 8 /\ s <= 0.3536.
Proof.
  destruct (inv_sqrt n) as [[A B] E]; [lia|]. fold s in A, B, E. split; [auto|]. split; [auto|].
  assert (P : 8 <= 2 ^ n). { replace 8 with (2 ^ 3) by (cbn; ring). apply Rle_pow; [lra|auto]. }
  assert (Q : s * s <= / 8). { rewrite E. apply Rinv_le_contravar; lra. }
  split; [auto|]. destruct (Rle_lt_dec s 0.3536); auto. exfalso. nra.
Qed.
Lemma th_facts : s <= th <= s + s ^ 3 / 5 /\ 0 < th.
Proof.
  destruct s_facts as (S0 & S1 & S2 & S3). destruct (gangle_range n) as [T0 T1]; [lia|]. fold th in T0, T1.
  assert (E : sin th = s) by (apply sin_gangle; lia). split; [|auto]. split.
  - rewrite <- E. left. now apply sin_lt_x.
  - destruct (Rle_lt_dec th (s + s ^ 3 / 5)) as [H|H]; auto. exfalso.
    set (u := s + s ^ 3 / 5) in *. assert (U : 0 <= u <= 1) by (unfold u; nra).
    assert (I : sin u < sin th) by (apply sin_increasing_1; lra). rewrite E in I. pose proof (sin_lower u ltac:(lra)) as L.
    assert (Q : u = s * (1 + s * s / 5)) by (unfold u; field). set (q := s * s) in *. assert (Q0 : 0 < q) by (unfold q; nra).
    assert (W : u ^ 3 = s * q * (1 + q / 5) ^ 3) by (rewrite Q; unfold q; ring).
    assert (V : (1 + q / 5) ^ 3 <= 1.1).
    { apply Rle_trans with ((1 + / 40) ^ 3); [apply pow_incr; lra|lra]. }
    assert (Z : u - u ^ 3 / 6 > s); [|lra]. rewrite W, Q. set (r := (1 + q / 5) ^ 3) in *. assert (0 < s * q) by nra. nra.
Qed.
Lemma iter_bounds : PI / 4 / s - / 2 <= INR (iterations n) <= PI / 4 / s + / 2.
Proof.
  destruct s_facts as (S0 & S1 & S2 & S3). pose proof PI_31 as P.
  assert (X : iterations n = Z.to_nat (roundR (PI / 4 / s))).
  { unfold iterations. destruct (Nat.leb_spec n 2); [lia|]. assert (SQ : / s = sqrt (2 ^ n)) by (unfold s; rewrite Rinv_inv; auto).
    change (PI / 4 / s) with (PI / 4 * / s). assert (R2 : forall k, Rpower 2 (INR k / 2) = sqrt (2 ^ k)).
    { intros k. rewrite <- Rpower_pow, <- Rpower_sqrt, Rpower_mult by (try apply exp_pos; try apply Rpower_pos; lra). f_equal. }
    destruct (Nat.eqb_spec (n mod 2) 1).
    - f_equal. f_equal. rewrite SQ, <- R2. rewrite Rmult_assoc. f_equal. rewrite <- Rpower_sqrt, <- Rpower_plus by lra. f_equal. rewrite plus_INR. cbn. field.
    - f_equal. f_equal. now rewrite SQ, <- R2. }
  rewrite X. set (x := PI / 4 / s). assert (X0 : 0 < x). { unfold x. apply Rdiv_lt_0_compat; lra. }
  unfold roundR, floorR. destruct (archimed (x + / 2)) as [A B].
  assert (0 < up (x + / 2))%Z by (apply lt_IZR; lra). rewrite INR_IZR_INZ, Z2Nat.id, minus_IZR by lia. lra.
Qed.
Lemma deviation : exists d, INR (2 * iterations n + 1) * th = PI / 2 + d /\ 0 <= d <= 2 * s + 0.4 * (s * s) + 0.4 * (s * s * s).
Proof.
  destruct s_facts as (S0 & S1 & S2 & S3). destruct th_facts as [[T0 T1] T2]. destruct iter_bounds as [I0 I1]. pose proof PI_31 as P. pose proof PI_4 as P4.
  exists (INR (2 * iterations n + 1) * th - PI / 2). split; [ring|]. rewrite plus_INR, mult_INR. cbn [INR].
  set (k := INR (iterations n)) in *. set (v := PI / 4 / s) in *. assert (V : v * s = PI / 4) by (unfold v; field; lra). assert (V0 : 0 < v) by (unfold v; apply Rdiv_lt_0_compat; lra).
  split.
  - assert (v * s <= v * th) by nra. assert (2 * v * th <= (2 * k + 1) * th) by nra. lra.
  - assert (A : (2 * k + 1) * th <= (2 * v + 2) * (s + s ^ 3 / 5)) by (apply Rmult_le_compat; lra).
    assert (B : (2 * v + 2) * (s + s ^ 3 / 5) = 2 * (v * s) + 2 * (v * s) * (s * s) / 5 + 2 * s + 2 * (s * s * s) / 5) by (field).
    rewrite B, V in A. assert (0 < s * s) by nra. assert (0 < s * s * s) by nra. nra.
Qed.
Lemma success_large : 1 - 5 / 2 ^ n <= sin (INR (2 * iterations n + 1) * th) ^ 2 /\ / 2 <= sin (INR (2 * iterations n + 1) * th) ^ 2.
Proof.
  destruct s_facts as (S0 & S1 & S2 & S3). destruct deviation as (d & E & D0 & D1). rewrite E. rewrite sin_plus, sin_PI2, cos_PI2.
  replace (1 * cos d + 0 * sin d) with (cos d) by ring. pose proof PI_31 as P.
  assert (D2 : d <= s * 2.2) by nra. assert (D3 : d <= 0.775) by nra. split.
  - pose proof (sin2_cos2 d) as H. unfold Rsqr in H. assert (Q : 0 <= sin d <= d).
    { split; [apply sin_ge_0; lra|]. destruct D0 as [D0|D0]; [left; now apply sin_lt_x|]. rewrite <- D0, sin_0. lra. }
    unfold Rdiv. rewrite <- S1. cbn [pow]. assert (sin d * sin d <= d * d) by nra. assert (d * d <= (s * 2.2) * (s * 2.2)) by nra. nra.
  - assert (C : cos (PI / 4) <= cos d) by (apply cos_decr_1; lra). rewrite cos_PI4 in C.
    assert (Q : 0 < 1 / sqrt 2) by (apply Rdiv_lt_0_compat; [lra|apply sqrt_lt_R0; lra]).
    apply Rle_trans with ((1 / sqrt 2) ^ 2); [|apply pow_incr; lra]. right. unfold Rdiv. rewrite Rmult_1_l. cbn [pow]. rewrite Rmult_1_r, <- Rinv_mult, sqrt_sqrt; lra.
Qed.
End Bound.

Lemma gangle_1 : gangle 1 = PI / 4.
Proof.
  unfold gangle. rewrite <- (asin_sin (PI / 4)) by (pose proof PI_RGT_0; lra). rewrite sin_PI4. f_equal. cbn. rewrite Rmult_1_r. field.
  apply Rgt_not_eq, sqrt_lt_R0. lra.
Qed.
Lemma gangle_2 : gangle 2 = PI / 6.
Proof.
  unfold gangle. rewrite <- (asin_sin (PI / 6)) by (pose proof PI_RGT_0; lra). rewrite sin_PI6. f_equal. cbn. rewrite Rmult_1_r, sqrt_square by lra. field.
Qed.
Lemma success n : (0 < n)%nat -> / 2 <= sin (INR (2 * iterations n + 1) * gangle n) ^ 2.
Proof.
  intros P. destruct (le_lt_dec 3 n) as [L|L]; [now apply success_large|].
  assert (n = 1 \/ n = 2)%nat as [->| ->] by lia.
  - rewrite gangle_1. unfold iterations. cbn [Nat.leb]. replace (INR (2 * 1 + 1) * (PI / 4)) with (PI / 2 + PI / 4) by (cbn; field).
    rewrite sin_plus, sin_PI2, cos_PI2, cos_PI4. right. replace (1 * (1 / sqrt 2) + 0 * sin (PI / 4)) with (/ sqrt 2) by (unfold Rdiv; ring).
    cbn [pow]. rewrite Rmult_1_r, <- Rinv_mult, sqrt_sqrt; lra.
  - rewrite gangle_2. unfold iterations. cbn [Nat.leb]. replace (INR (2 * 1 + 1) * (PI / 6)) with (PI / 2) by (cbn; field). rewrite sin_PI2. lra.
Qed.
