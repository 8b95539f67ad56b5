(** One round of the state preparation. *)
From Coq Require Import Reals Lra Lia List Arith Bool FunctionalExtensionality.
From Verif Require Import Cplx Qsem GateModel GateSpec IRModel IRSpec OutcomeSpec AlgoModel AlgoSpec AlgoBaseProofs AlgoStateProofs.
From Verif Require Import PrepModel PrepSpec PrepNormProofs PrepMuxProofs.
Import ListNotations.
Local Open Scope R_scope.

(** ** Arguments and moduli *)
Lemma polar_carg z : polar (Cmod z) (carg z) = z.
Proof.
  unfold polar, carg. destruct (Ceq_dec z C0) as [->|N].
  - unfold Cmod. rewrite Cnorm2_0, sqrt_0. apply Ceq; cbn; ring.
  - destruct z as [a b]. set (m := Cmod (a, b)). assert (M : 0 < m).
    { destruct (Cmod_pos (a, b)) as [H|H]; auto. exfalso. apply N, Cmod_zero. auto. }
    assert (S : m * m = a * a + b * b) by apply Cmod_sq. cbn [fst snd].
    assert (Q : a * a <= m * m) by nra.
    assert (B : -1 <= a / m <= 1).
    { split; apply Rmult_le_reg_r with m; auto; unfold Rdiv; rewrite Rmult_assoc, Rinv_l, Rmult_1_r by lra; nra. }
    assert (E : sqrt (1 - (a / m)²) * m = Rabs b).
    { rewrite <- (sqrt_square m) at 2 by lra. rewrite <- sqrt_mult_alt; [|unfold Rsqr; nra].
      replace ((1 - (a / m)²) * (m * m)) with (b * b); [|unfold Rsqr; field_simplify; [|lra]; nra]. apply sqrt_Rsqr_abs. }
    destruct (Rle_dec 0 b) as [P|P]; unfold Cexp; apply Ceq; cbn; rewrite ?cos_neg, ?sin_neg, cos_acos, sin_acos by auto; try (field; lra).
    + rewrite Rabs_right in E by lra. lra.
    + rewrite Rabs_left in E by lra. lra.
Qed.
Lemma Cmod_polar r t : 0 <= r -> Cmod (polar r t) = r.
Proof. intros P. unfold polar, Cmod. rewrite Cnorm2_mul, Cnorm2_RtoC, Cexp_norm2, Rmult_1_r. now apply sqrt_square. Qed.
Lemma Cnorm2_polar r t : Cnorm2 (polar r t) = r * r.
Proof. unfold polar. rewrite Cnorm2_mul, Cnorm2_RtoC, Cexp_norm2. ring. Qed.
Lemma sin_abs_le x : Rabs (sin x) <= Rabs x.
Proof.
  assert (P : forall y, 0 <= y -> sin y <= y /\ - y <= sin y).
  { intros y [Y|Y]; [|rewrite <- Y, sin_0; lra]. pose proof (sin_lt_x y Y). split; [lra|].
    destruct (Rle_dec 1 y) as [L|L]; [pose proof (SIN_bound y); lra|].
    assert (0 < sin y); [|lra]. apply sin_gt_0; auto. pose proof PI2_3_2. unfold PI2 in *. lra. }
  destruct (Rle_dec 0 x) as [L|L].
  - destruct (P x L). rewrite (Rabs_right x) by lra. apply Rabs_le. lra.
  - destruct (P (- x)) as [A B]; [lra|]. rewrite sin_neg in A, B. rewrite (Rabs_left x) by lra. apply Rabs_le. lra.
Qed.
Lemma cos_dist x : 2 - 2 * cos x <= x * x.
Proof.
  replace x with (2 * (x / 2)) at 1 by field. rewrite cos_2a_sin. pose proof (sin_abs_le (x / 2)) as H.
  assert (0 <= Rabs (sin (x / 2))) by apply Rabs_pos. assert (S : Rabs (sin (x / 2)) * Rabs (sin (x / 2)) <= Rabs (x / 2) * Rabs (x / 2)) by (apply Rmult_le_compat; auto).
  rewrite <- !Rabs_mult, !Rabs_right in S by (apply Rle_ge; apply Rle_0_sqr). nra.
Qed.
Lemma Cexp_near x : Cnorm2 (Cexp x - C1)%C <= x * x.
Proof.
  eapply Rle_trans; [|apply cos_dist]. right. unfold Cexp, Cnorm2, C1. cbn. pose proof (sin2_cos2' x). nra.
Qed.

(** ** Rotations on a pair of amplitudes *)
Lemma rz_false a q psi x : rzst a q psi (setb x q false) = ((cos (a / 2), - sin (a / 2))%R * psi (setb x q false))%C.
Proof. unfold rzst, op1. rewrite setb_same, !setb_setb. ring. Qed.
Lemma rz_true a q psi x : rzst a q psi (setb x q true) = ((cos (a / 2), sin (a / 2))%R * psi (setb x q true))%C.
Proof. unfold rzst, op1. rewrite setb_same, !setb_setb. ring. Qed.
Lemma ry_false a q psi x : ryst a q psi (setb x q false) = (RtoC (cos (a / 2)) * psi (setb x q false) - RtoC (sin (a / 2)) * psi (setb x q true))%C.
Proof. unfold ryst, op1. rewrite setb_same, !setb_setb, RtoC_opp. ring. Qed.
Lemma ry_true a q psi x : ryst a q psi (setb x q true) = (RtoC (sin (a / 2)) * psi (setb x q false) + RtoC (cos (a / 2)) * psi (setb x q true))%C.
Proof. unfold ryst, op1. rewrite setb_same, !setb_setb. ring. Qed.

Ltac both t := destruct t; try (match goal with H : _ |- _ => exact H end).
Lemma rot_pair t a q psi x : pairsum q (fun y => Cnorm2 (rot t a q psi y)) x = pairsum q (fun y => Cnorm2 (psi y)) x.
Proof.
  pose proof (sin2_cos2' (a / 2)) as S.
  assert (Y : pairsum q (fun y => Cnorm2 (ryst a q psi y)) x = pairsum q (fun y => Cnorm2 (psi y)) x).
  { unfold pairsum. rewrite ry_false, ry_true. destruct (psi (setb x q false)) as [p p'], (psi (setb x q true)) as [r r'].
    unfold Cnorm2, RtoC. cbn. set (c := cos (a / 2)) in *. set (s := sin (a / 2)) in *.
    transitivity ((s * s + c * c) * (p * p + p' * p' + (r * r + r' * r'))); [ring|rewrite S; ring]. }
  destruct t; try exact Y. unfold pairsum, rot. rewrite rz_false, rz_true, !Cnorm2_mul. unfold Cnorm2 at 1 3. cbn [fst snd].
  replace (cos (a / 2) * cos (a / 2) + - sin (a / 2) * - sin (a / 2)) with 1 by (rewrite <- S; ring).
  replace (cos (a / 2) * cos (a / 2) + sin (a / 2) * sin (a / 2)) with 1 by (rewrite <- S; ring). ring.
Qed.
Lemma rot_near t a q psi x : pairsum q (fun y => Cnorm2 (rot t a q psi y - psi y)%C) x = (2 - 2 * cos (a / 2)) * pairsum q (fun y => Cnorm2 (psi y)) x.
Proof.
  pose proof (sin2_cos2' (a / 2)) as S.
  assert (Y : pairsum q (fun y => Cnorm2 (ryst a q psi y - psi y)%C) x = (2 - 2 * cos (a / 2)) * pairsum q (fun y => Cnorm2 (psi y)) x).
  { unfold pairsum. rewrite ry_false, ry_true. destruct (psi (setb x q false)) as [p p'], (psi (setb x q true)) as [r r'].
    unfold Cnorm2, RtoC. cbn. set (c := cos (a / 2)) in *. set (s := sin (a / 2)) in *.
    transitivity (((s * s + c * c) + 1 - 2 * c) * (p * p + p' * p' + (r * r + r' * r'))); [ring|rewrite S; ring]. }
  destruct t; try exact Y. unfold pairsum, rot. rewrite rz_false, rz_true.
  destruct (psi (setb x q false)) as [p p'], (psi (setb x q true)) as [r r'].
  unfold Cnorm2. cbn. set (c := cos (a / 2)) in *. set (s := sin (a / 2)) in *.
  transitivity (((s * s + c * c) + 1 - 2 * c) * (p * p + p' * p' + (r * r + r' * r'))); [ring|rewrite S; ring].
Qed.
Lemma rot_sub t a q psi phi x : rot t a q (fun y => psi y - phi y)%C x = (rot t a q psi x - rot t a q phi x)%C.
Proof. destruct t; unfold rot, ryst, rzst, op1; destruct (x q); ring. Qed.
Lemma rot_scal t a q c psi x : rot t a q (sscal c psi) x = (c * rot t a q psi x)%C.
Proof. destruct t; unfold rot, ryst, rzst, op1, sscal; destruct (x q); ring. Qed.

(** ** Isometries *)
Definition iso (n : nat) (F : state -> state) : Prop :=
  (forall psi, weight n (F psi) = weight n psi) /\
  (forall psi phi, F (fun y => psi y - phi y)%C = fun y => (F psi y - F phi y)%C) /\
  (forall c psi, F (sscal c psi) = sscal c (F psi)).
Lemma iso_id n : iso n (fun psi => psi).
Proof. repeat split; auto. Qed.
Lemma iso_comp n F G : iso n F -> iso n G -> iso n (fun psi => G (F psi)).
Proof.
  intros (A & B & D) (A' & B' & D'). split; [|split].
  - intros psi. now rewrite A', A.
  - intros psi phi. now rewrite B, B'.
  - intros c psi. now rewrite D, D'.
Qed.
Lemma iso_distance n F psi phi : iso n F -> distance n (F psi) (F phi) = distance n psi phi.
Proof. intros (A & B & _). unfold distance. rewrite <- (A (fun y => psi y - phi y)%C), B. reflexivity. Qed.
Lemma weight_pairs n q psi phi : (q < n)%nat -> (forall x, pairsum q (fun y => Cnorm2 (psi y)) x = pairsum q (fun y => Cnorm2 (phi y)) x) ->
  weight n psi = weight n phi.
Proof. intros Q H. unfold weight. rewrite !weight_sumw, (sumw_pair n q (fun x => Cnorm2 (psi x))), (sumw_pair n q (fun x => Cnorm2 (phi x))) by auto. f_equal. now apply sumw_ext. Qed.
Lemma mux_pairsum t f q psi x : indep f q -> pairsum q (fun y => Cnorm2 (mux t f q psi y)) x = pairsum q (fun y => Cnorm2 (rot t (f x) q psi y)) x.
Proof. intros I. unfold pairsum. now rewrite !mux_set. Qed.
Lemma iso_mux n t f q : (q < n)%nat -> indep f q -> iso n (mux t f q).
Proof.
  intros Q I. split; [|split].
  - intros psi. apply (weight_pairs n q); auto. intros x. now rewrite mux_pairsum, rot_pair.
  - intros psi phi. apply functional_extensionality. intros x. apply rot_sub.
  - intros c psi. apply functional_extensionality. intros x. apply rot_scal.
Qed.
Lemma mux_near n t f q psi e : (q < n)%nat -> indep f q -> 0 <= e -> (forall x, Rabs (f x) <= e) ->
  distance n (mux t f q psi) psi <= e / 2 * sqrt (weight n psi).
Proof.
  intros Q I E B. assert (W : 0 <= weight n psi) by (unfold weight; rewrite weight_sumw; apply sumw_pos; intros; apply Cnorm2_pos).
  apply distance_le. { apply Rmult_le_pos; [lra|apply sqrt_pos]. }
  replace (e / 2 * sqrt (weight n psi) * (e / 2 * sqrt (weight n psi))) with ((e / 2 * (e / 2)) * (sqrt (weight n psi) * sqrt (weight n psi))) by ring.
  rewrite sqrt_sqrt by auto. unfold weight. rewrite !weight_sumw, (sumw_pair n q (fun x => Cnorm2 (psi x))), (sumw_pair n q (fun x => Cnorm2 (mux t f q psi x - psi x)%C)) by auto.
  rewrite <- Rmult_assoc, (Rmult_comm _ (/ 2)), Rmult_assoc. apply Rmult_le_compat_l; [lra|]. rewrite <- sumw_scal. apply sumw_le. intros x.
  apply Rle_trans with (pairsum q (fun y => Cnorm2 (rot t (f x) q psi y - psi y)%C) x). { right. unfold pairsum. now rewrite !mux_set. }
  rewrite rot_near. apply Rmult_le_compat_r. { unfold pairsum. apply Rplus_le_le_0_compat; apply Cnorm2_pos. }
  eapply Rle_trans; [apply cos_dist|]. specialize (B x).
  assert (H : Rabs (f x / 2) * Rabs (f x / 2) <= e / 2 * (e / 2)).
  { assert (Rabs (f x / 2) <= e / 2); [|apply Rmult_le_compat; auto using Rabs_pos]. unfold Rdiv. rewrite Rabs_mult, (Rabs_right (/ 2)) by lra. lra. }
  rewrite <- Rabs_mult, Rabs_right in H by (apply Rle_ge, Rle_0_sqr). exact H.
Qed.

(** ** The states between the rounds *)
(** The qubits below [i] are zero, the [k] qubits from [i] on carry [w]. *)
Definition stage (i k : nat) (w : list C) : state := fun b => if low0 i b then nth (idx k i b) w C0 else C0.
Lemma stage_set i k w x v : stage i (S k) w (setb x i v) = if low0 i x then nth ((if v then 1 else 0) + 2 * idx k (S i) x)%nat w C0 else C0.
Proof. unfold stage. rewrite low0_set by lia. cbn [idx]. rewrite setb_same, idx_set by lia. reflexivity. Qed.
Lemma stage_set0 i k w x : stage i (S k) w (setb x i false) = if low0 i x then nth (2 * idx k (S i) x)%nat w C0 else C0.
Proof. exact (stage_set i k w x false). Qed.
Lemma stage_set1 i k w x : stage i (S k) w (setb x i true) = if low0 i x then nth (2 * idx k (S i) x + 1)%nat w C0 else C0.
Proof. rewrite Nat.add_comm. exact (stage_set i k w x true). Qed.
Lemma stage_next i k w x v : stage (S i) k w (setb x i v) = if low0 i x && negb v then nth (idx k (S i) x) w C0 else C0.
Proof. unfold stage. rewrite low0_S, low0_set, setb_same, idx_set by lia. reflexivity. Qed.

Lemma nth_map_seqC {A} (f : nat -> A) h j d : (j < h)%nat -> nth j (map f (seq 0 h)) d = f j.
Proof. intros L. rewrite (nth_indep _ d (f O)) by (now rewrite map_length, seq_length). rewrite map_nth, seq_nth by auto. reflexivity. Qed.
Section Step.
Variables (n i k : nat) (w : list C) (eps : R).
Hypothesis N : (i + S k = n)%nat.
Hypothesis L : length w = (2 ^ S k)%nat.
Hypothesis EPS : 0 <= eps.
Let rest := fst (fst (rotationsToDisentangle w eps)).
Let thetas := snd (fst (rotationsToDisentangle w eps)).
Let phis := snd (rotationsToDisentangle w eps).
Let A (x : bits) := nth (2 * idx k (S i) x) w C0.
Let B (x : bits) := nth (2 * idx k (S i) x + 1) w C0.
Let bl (x : bits) := blochAngles (A x) (B x) eps.

Lemma half : (length w / 2 = 2 ^ k)%nat.
Proof. rewrite L. cbn [Nat.pow]. rewrite Nat.mul_comm, Nat.div_mul; lia. Qed.
Lemma rest_at x : nth (idx k (S i) x) rest C0 = fst (fst (bl x)).
Proof.
  unfold rest, rotationsToDisentangle. cbn [fst snd]. rewrite half, map_map, nth_map_seqC by apply idx_lt. reflexivity.
Qed.
Lemma thetas_at x : ang k i thetas x = - snd (fst (bl x)).
Proof.
  unfold ang, thetas, rotationsToDisentangle. cbn [fst snd]. rewrite half, map_map, nth_map_seqC by apply idx_lt. reflexivity.
Qed.
Lemma phis_at x : ang k i phis x = - snd (bl x).
Proof.
  unfold ang, phis, rotationsToDisentangle. cbn [fst snd]. rewrite half, map_map, nth_map_seqC by apply idx_lt. reflexivity.
Qed.
Lemma rest_len : length rest = (2 ^ k)%nat.
Proof. unfold rest, rotationsToDisentangle. cbn [fst snd]. now rewrite !map_length, seq_length, half. Qed.
Lemma thetas_len : length thetas = (2 ^ k)%nat.
Proof. unfold thetas, rotationsToDisentangle. cbn [fst snd]. now rewrite !map_length, seq_length, half. Qed.
Lemma phis_len : length phis = (2 ^ k)%nat.
Proof. unfold phis, rotationsToDisentangle. cbn [fst snd]. now rewrite !map_length, seq_length, half. Qed.

Lemma mags_sq a b : sqrt (Cmod a ^ 2 + Cmod b ^ 2) * sqrt (Cmod a ^ 2 + Cmod b ^ 2) = Cnorm2 a + Cnorm2 b.
Proof.
  rewrite sqrt_sqrt by (pose proof (Rle_0_sqr (Cmod a)); pose proof (Rle_0_sqr (Cmod b)); unfold Rsqr in *; cbn; nra).
  rewrite <- !Cmod_sq. ring.
Qed.
Lemma rest_norm x : Cnorm2 (fst (fst (bl x))) = Cnorm2 (A x) + Cnorm2 (B x).
Proof.
  unfold bl, blochAngles. rewrite <- mags_sq. destruct (Rlt_dec eps _); cbn [fst snd]; apply Cnorm2_polar.
Qed.
Lemma stage_weight : weight n (stage (S i) k rest) = weight n (stage i (S k) w).
Proof.
  apply (weight_pairs n i); [lia|]. intros x. unfold pairsum. rewrite !stage_next, stage_set0, stage_set1. cbn [negb].
  rewrite andb_true_r, andb_false_r, Cnorm2_0, rest_at. destruct (low0 i x); [|rewrite Cnorm2_0; ring]. now rewrite rest_norm, Rplus_0_r.
Qed.

(** Both rotations with all angles. *)
Definition Ufull (psi : state) : state := mux gRY (ang k i thetas) i (mux gRZ (ang k i phis) i psi).
Lemma Ufull_false x : Ufull (stage i (S k) w) (setb x i false) = if low0 i x then
  (RtoC (cos (snd (fst (bl x)) / 2)) * ((Cexp (snd (bl x) / 2)) * A x) + RtoC (sin (snd (fst (bl x)) / 2)) * (Cexp (- (snd (bl x) / 2)) * B x))%C else C0.
Proof.
  unfold Ufull. rewrite mux_set by apply ang_indep. unfold rot. rewrite ry_false, !mux_set by apply ang_indep. unfold rot. rewrite rz_false, rz_true, stage_set0, stage_set1.
  rewrite thetas_at, phis_at, !half_opp, !cos_neg, !sin_neg, !Ropp_involutive. unfold A, B, Cexp. rewrite cos_neg, sin_neg. rewrite RtoC_opp.
  destruct (low0 i x); ring.
Qed.
Lemma Ufull_true x : Ufull (stage i (S k) w) (setb x i true) = if low0 i x then
  (- RtoC (sin (snd (fst (bl x)) / 2)) * ((Cexp (snd (bl x) / 2)) * A x) + RtoC (cos (snd (fst (bl x)) / 2)) * (Cexp (- (snd (bl x) / 2)) * B x))%C else C0.
Proof.
  unfold Ufull. rewrite mux_set by apply ang_indep. unfold rot. rewrite ry_true, !mux_set by apply ang_indep. unfold rot. rewrite rz_false, rz_true, stage_set0, stage_set1.
  rewrite thetas_at, phis_at, !half_opp, !cos_neg, !sin_neg, !Ropp_involutive. unfold A, B, Cexp. rewrite cos_neg, sin_neg. rewrite RtoC_opp.
  destruct (low0 i x); ring.
Qed.
Lemma acos_parts p q r : 0 <= p -> 0 <= q -> 0 < r -> r * r = p * p + q * q -> cos (acos (p / r)) = p / r /\ sin (acos (p / r)) = q / r.
Proof.
  intros P Q R E. assert (D : 0 <= p / r <= 1).
  { split; [apply Rmult_le_pos; auto; left; now apply Rinv_0_lt_compat|]. apply Rmult_le_reg_r with r; auto. unfold Rdiv. rewrite Rmult_assoc, Rinv_l by lra. nra. }
  rewrite cos_acos, sin_acos by lra. split; auto. apply sqrt_lem_1.
  - unfold Rsqr. assert (p / r * (p / r) <= 1 * 1) by (apply Rmult_le_compat; lra). lra.
  - apply Rmult_le_pos; auto. left. now apply Rinv_0_lt_compat.
  - unfold Rsqr. apply Rmult_eq_reg_r with (r * r); [|nra]. field_simplify; [|lra..]. nra.
Qed.
Lemma step_pair x : pairsum i (fun y => Cnorm2 (Ufull (stage i (S k) w) y - stage (S i) k rest y)%C) x <= 4 * (eps * eps) * (if low0 i x then 1 else 0).
Proof.
  unfold pairsum. rewrite Ufull_false, Ufull_true, !stage_next, rest_at. cbn [negb]. rewrite andb_true_r, andb_false_r.
  destruct (low0 i x); [|right; replace (C0 - C0)%C with C0 by ring; rewrite Cnorm2_0; ring].
  unfold bl, blochAngles. set (r := sqrt (Cmod (A x) ^ 2 + Cmod (B x) ^ 2)).
  assert (RR : r * r = Cmod (A x) * Cmod (A x) + Cmod (B x) * Cmod (B x)) by (unfold r; rewrite mags_sq, !Cmod_sq; auto).
  assert (R0 : 0 <= r) by apply sqrt_pos. pose proof (Cmod_pos (A x)) as A0. pose proof (Cmod_pos (B x)) as B0.
  destruct (Rlt_dec eps r) as [H|H]; cbn [fst snd].
  - replace (2 * acos (Cmod (A x) / r) / 2) with (acos (Cmod (A x) / r)) by field.
    destruct (acos_parts (Cmod (A x)) (Cmod (B x)) r) as [-> ->]; auto; [lra|].
    set (al := carg (A x)). set (be := carg (B x)).
    assert (EA : (Cexp ((be - al) / 2) * A x)%C = (RtoC (Cmod (A x)) * Cexp ((al + be) / 2))%C).
    { rewrite <- (polar_carg (A x)) at 1. unfold polar. fold al. replace ((al + be) / 2) with ((be - al) / 2 + al) by field. rewrite Cexp_add. ring. }
    assert (EB : (Cexp (- ((be - al) / 2)) * B x)%C = (RtoC (Cmod (B x)) * Cexp ((al + be) / 2))%C).
    { rewrite <- (polar_carg (B x)) at 1. unfold polar. fold be. replace ((al + be) / 2) with (- ((be - al) / 2) + be) by field. rewrite Cexp_add. ring. }
    rewrite EA, EB. unfold polar. apply Rle_trans with 0; [right|nra].
    set (a := Cmod (A x)) in *. set (b := Cmod (B x)) in *. set (e := Cexp ((al + be) / 2)).
    replace (RtoC (a / r) * (RtoC a * e) + RtoC (b / r) * (RtoC b * e) - RtoC r * e)%C with (RtoC (a / r * a + b / r * b - r) * e)%C
      by (unfold Rminus; rewrite !RtoC_add, !RtoC_mul, RtoC_opp; ring).
    replace (- RtoC (b / r) * (RtoC a * e) + RtoC (a / r) * (RtoC b * e) - C0)%C with (RtoC (- (b / r * a) + a / r * b) * e)%C
      by (rewrite !RtoC_add, RtoC_opp, !RtoC_mul; ring).
    rewrite !Cnorm2_mul, !Cnorm2_RtoC. replace (a / r * a + b / r * b - r) with 0. 2: { field_simplify_eq; [|lra]. nra. }
    replace (- (b / r * a) + a / r * b) with 0 by (field; lra). ring.
  - apply Rnot_lt_le in H. replace (0 / 2) with 0 by field. rewrite cos_0, sin_0, Ropp_0, Cexp_0. unfold polar. rewrite Cexp_0.
    replace (RtoC 1 * (C1 * A x) + RtoC 0 * (C1 * B x) - RtoC r * C1)%C with (A x - RtoC r)%C by (unfold RtoC; fold C0; fold C1; ring).
    replace (- RtoC 0 * (C1 * A x) + RtoC 1 * (C1 * B x) - C0)%C with (B x) by (unfold RtoC; fold C0; fold C1; ring).
    rewrite !Cmod_sq in RR. destruct (A x) as [a a'], (B x) as [b b']. unfold Cnorm2 in *. cbn in *. rewrite Rmult_1_r.
    assert (AR : - r <= a). { assert (a * a <= r * r) by nra. nra. }
    assert (r * r <= eps * eps) by (apply Rmult_le_compat; auto). nra.
Qed.
Lemma step_full : distance n (Ufull (stage i (S k) w)) (stage (S i) k rest) <= 2 * eps * sqrt (2 ^ k).
Proof.
  apply distance_le. { apply Rmult_le_pos; [lra|apply sqrt_pos]. }
  replace (2 * eps * sqrt (2 ^ k) * (2 * eps * sqrt (2 ^ k))) with (4 * (eps * eps) * (sqrt (2 ^ k) * sqrt (2 ^ k))) by ring.
  rewrite sqrt_sqrt by (apply pow_le; lra). unfold weight. rewrite weight_sumw, (sumw_pair n i) by lia.
  apply Rle_trans with (/ 2 * sumw n (fun x => 4 * (eps * eps) * (if low0 i x then 1 else 0)) (fun _ => false)).
  - apply Rmult_le_compat_l; [lra|]. apply sumw_le. intros x. apply step_pair.
  - rewrite sumw_scal, count_low by lia. replace (n - i)%nat with (S k) by lia. cbn [pow]. right. field.
Qed.
End Step.
