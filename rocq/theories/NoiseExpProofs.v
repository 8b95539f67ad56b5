(* Expectations of programs with uniform draws. *)
From Coq Require Import Reals Lra List Bool Arith Lia FunctionalExtensionality.
From Verif Require Import Cplx Qsem GateModel DDModel DDSpec NoiseSpec NoiseModel.
Import ListNotations.
Local Open Scope R_scope.

Lemma const_step V a b c : a <= b -> (forall u, a < u < b -> V u = c) -> IsStepFun V a b.
Proof.
  intros H E. exists [a; b]. exists [c]. unfold adapted_couple. repeat split.
  - intros i L. cbn in L. assert (i = 0%nat) by lia. subst. cbn. auto.
  - cbn. unfold Rmin. destruct (Rle_dec a b); [auto|lra].
  - cbn. unfold Rmax. destruct (Rle_dec a b); [auto|lra].
  - intros i L. cbn in L. assert (i = 0%nat) by lia. subst. cbn. intros x [X Y]. cbn in *. apply E. lra.
Qed.
Lemma step_integrable V a b : IsStepFun V a b -> Riemann_integrable V a b.
Proof.
  intros H. set (phi := mkStepFun H). intros eps. exists phi. exists (mkStepFun (StepFun_P4 a b 0)). split.
  - intros t _. cbn. unfold fct_cte. rewrite Rminus_diag_eq by auto. rewrite Rabs_R0. lra.
  - rewrite StepFun_P18. rewrite Rmult_0_l, Rabs_R0. apply eps.
Qed.
Definition integral (V : R -> R) (a b x : R) : Prop := exists pr : Riemann_integrable V a b, RiemannInt pr = x.
Lemma integral_const V a b c : a <= b -> (forall u, a < u < b -> V u = c) -> integral V a b (c * (b - a)).
Proof.
  intros H E. exists (step_integrable V a b (const_step V a b c H E)).
  rewrite <- (RiemannInt_P15 (RiemannInt_P14 a b c)). apply RiemannInt_P18; auto.
Qed.
Lemma integral_join V a b c x y : a <= b <= c -> integral V a b x -> integral V b c y -> integral V a c (x + y).
Proof.
  intros [A B] (p & P) (q & Q). exists (RiemannInt_P24 p q). rewrite <- P, <- Q. symmetry. apply RiemannInt_P26.
Qed.
Lemma integral_unique V W x y : integral V 0 1 x -> integral W 0 1 y -> (forall u, 0 < u < 1 -> V u = W u) -> x = y.
Proof. intros (p & <-) (q & <-) E. apply RiemannInt_P18; [lra|auto]. Qed.

Section E.
Context {A : Type}.
Variable f : dres A -> R.
Lemma expect_draw k V x : integral V 0 1 x -> (forall u, 0 < u < 1 -> expect f (k u) (V u)) -> expect f (UDraw k) x.
Proof. intros (p & <-) H. constructor. auto. Qed.
(* an expectation is unique *)
Lemma expect_unique m : forall x y, expect f m x -> expect f m y -> x = y.
Proof.
  induction m as [r|k IH]; intros x y X Y; inversion X; inversion Y; subst; auto.
  match goal with |- RiemannInt ?a = RiemannInt ?b => apply (RiemannInt_P18 a b); [lra|] end. intros u U. apply (IH u); auto.
Qed.

(* a threshold *)
Lemma expect_threshold k t lo hi : 0 <= t <= 1 -> (0 < t -> exists m, expect f m lo /\ forall u, 0 < u < t -> k u = m) ->
  (t < 1 -> exists m, expect f m hi /\ forall u, t < u < 1 -> k u = m) -> (exists m mid, expect f m mid /\ (0 < t < 1 -> k t = m)) ->
  expect f (UDraw k) (t * lo + (1 - t) * hi).
Proof.
  intros T L H (m & mid & EM & KM).
  set (V := fun u => if Rlt_dec u t then lo else if Rlt_dec t u then hi else mid).
  apply (expect_draw k V).
  - replace (t * lo + (1 - t) * hi) with (lo * (t - 0) + hi * (1 - t)) by ring. apply (integral_join V 0 t 1); [lra| |].
    + apply integral_const; [lra|]. intros u U. unfold V. destruct (Rlt_dec u t); [auto|lra].
    + apply integral_const; [lra|]. intros u U. unfold V. destruct (Rlt_dec u t); [lra|]. destruct (Rlt_dec t u); [auto|lra].
  - intros u U. unfold V. destruct (Rlt_dec u t).
    + destruct L as (m' & E & K); [lra|]. rewrite K by lra. auto.
    + destruct (Rlt_dec t u).
      * destruct H as (m' & E & K); [lra|]. rewrite K by lra. auto.
      * assert (u = t) by lra. subst u. rewrite KM by lra. auto.
Qed.

Variable s : stoch.
Variable multi : bool.
Lemma expect_ident (K : option ntype -> rndu A) v : expect f (K (Some tI)) v ->
  expect f (UDraw (fun u => K (return_noise s nIdent u multi))) v.
Proof.
  intros E. apply (expect_draw _ (fun _ => v)); [|intros; auto]. 
  pose proof (integral_const (fun _ => v) 0 1 v) as H. rewrite Rminus_0_r, Rmult_1_r in H. apply H; [lra|auto].
Qed.
Lemma expect_phase (K : option ntype -> rndu A) vi vz : 0 <= noise_prob s multi <= 1 ->
  expect f (K (Some tI)) vi -> expect f (K (Some tZ)) vz ->
  expect f (UDraw (fun u => K (return_noise s nPhase u multi))) ((1 - noise_prob s multi) * vi + noise_prob s multi * vz).
Proof.
  intros P EI EZ. set (p := noise_prob s multi) in *.
  set (V := fun u => if rltb p u then vi else vz). apply (expect_draw _ V).
  - replace ((1 - p) * vi + p * vz) with (vz * (p - 0) + vi * (1 - p)) by ring. apply (integral_join V 0 p 1); [lra| |].
    + apply integral_const; [lra|]. intros u U. unfold V, rltb. destruct (Rlt_dec p u); [lra|auto].
    + apply integral_const; [lra|]. intros u U. unfold V, rltb. destruct (Rlt_dec p u); [auto|lra].
  - intros u U. unfold V, return_noise. fold p. destruct (rltb p u); auto.
Qed.
Lemma expect_depol (K : option ntype -> rndu A) vi vx vy vz : 0 <= noise_prob s multi <= 1 ->
  expect f (K (Some tI)) vi -> expect f (K (Some tX)) vx -> expect f (K (Some tY)) vy -> expect f (K (Some tZ)) vz ->
  expect f (UDraw (fun u => K (return_noise s nDepol u multi)))
    ((1 - noise_prob s multi * (3 / 4)) * vi + (noise_prob s multi / 4 * vx + (noise_prob s multi / 4 * vy + noise_prob s multi / 4 * vz))).
Proof.
  intros P EI EX EY EZ. set (p := noise_prob s multi) in *.
  set (V := fun u => if rleb (p * (75 / 100)) u then vi else if rltb u (p * (25 / 100)) then vx else if rltb u (p * (5 / 10)) then vy else vz).
  apply (expect_draw _ V).
  - replace ((1 - p * (3 / 4)) * vi + (p / 4 * vx + (p / 4 * vy + p / 4 * vz)))
      with (vx * (p * (25 / 100) - 0) + (vy * (p * (5 / 10) - p * (25 / 100)) + (vz * (p * (75 / 100) - p * (5 / 10)) + vi * (1 - p * (75 / 100))))) by field.
    assert (B : forall u, V u = if rleb (p * (75 / 100)) u then vi else if rltb u (p * (25 / 100)) then vx else if rltb u (p * (5 / 10)) then vy else vz) by reflexivity.
    unfold rleb, rltb in B.
    apply (integral_join V 0 (p * (25 / 100)) 1); [lra| |].
    { apply integral_const; [lra|]. intros u U. rewrite B. repeat destruct Rle_dec; repeat destruct Rlt_dec; lra. }
    apply (integral_join V (p * (25 / 100)) (p * (5 / 10)) 1); [lra| |].
    { apply integral_const; [lra|]. intros u U. rewrite B. repeat destruct Rle_dec; repeat destruct Rlt_dec; lra. }
    apply (integral_join V (p * (5 / 10)) (p * (75 / 100)) 1); [lra| |].
    { apply integral_const; [lra|]. intros u U. rewrite B. repeat destruct Rle_dec; repeat destruct Rlt_dec; lra. }
    apply integral_const; [lra|]. intros u U. rewrite B. repeat destruct Rle_dec; repeat destruct Rlt_dec; lra.
  - intros u U. unfold V, return_noise. fold p. destruct (rleb _ u); auto. destruct (rltb u _); auto. destruct (rltb u _); auto.
Qed.
End E.
Lemma ubind_draw {A B} k (g : A -> rndu B) : ubind (UDraw k) g = UDraw (fun u => ubind (k u) g).
Proof. reflexivity. Qed.
