(** Grover's algorithm. *)
From Coq Require Import Reals Lra List Arith Bool Lia NArith ZArith Permutation FunctionalExtensionality.
From Verif Require Import Cplx Qsem GateModel IRModel IRSpec OutcomeSpec SimNormProofs AlgoModel AlgoSpec AlgoBaseProofs AlgoStateProofs AlgoQftProofs AlgoMeasProofs AlgoIterProofs AlgoQpeProofs.
Import ListNotations.
Local Open Scope nat_scope.

(** ** Layers of gates *)
Lemma cprod_one l : cprod (fun _ => C1) l = C1.
Proof. induction l as [|j l IH]; unfold cprod in *; cbn [fold_right]; auto. rewrite IH. ring. Qed.
Lemma hst_comm q r psi : q <> r -> hst q (hst r psi) = hst r (hst q psi).
Proof.
  intros N. apply functional_extensionality. intros b. unfold hst.
  assert (A : forall v, setb b q v r = b r) by (intros; apply setb_other; auto). assert (B : forall v, setb b r v q = b q) by (intros; apply setb_other; auto).
  rewrite !A, !B. assert (D : forall v w, setb (setb b q v) r w = setb (setb b r w) q v) by (intros; apply setb_comm; auto). rewrite !D. ring.
Qed.
Lemma hst_hst q psi : hst q (hst q psi) = psi.
Proof.
  apply functional_extensionality. intros b. unfold hst. rewrite !setb_same, !setb_setb.
  assert (Q : (RtoC sq2 * RtoC sq2 = RtoC (/ 2))%C) by (apply Ceq; cbn; rewrite ?sq2_sq; ring).
  assert (H : (RtoC (/ 2) + RtoC (/ 2) = C1)%C) by (apply Ceq; cbn; field).
  destruct (b q) eqn:B.
  - replace (setb b q true) with b by (rewrite <- B, setb_id; auto). transitivity ((RtoC sq2 * RtoC sq2 + RtoC sq2 * RtoC sq2) * psi b)%C; [ring|]. rewrite Q, H. ring.
  - replace (setb b q false) with b by (rewrite <- B, setb_id; auto). transitivity ((RtoC sq2 * RtoC sq2 + RtoC sq2 * RtoC sq2) * psi b)%C; [ring|]. rewrite Q, H. ring.
Qed.
Definition hs (l : list nat) (psi : state) : state := fold_left (fun p q => hst q p) l psi.
Lemma hs_perm l l' : Permutation l l' -> NoDup l -> forall psi, hs l psi = hs l' psi.
Proof.
  induction 1 as [|q l l' P IH|q r l|l l' l'' P IH P' IH']; intros ND psi; auto.
  - cbn. apply IH. now inversion ND.
  - cbn. unfold hs. rewrite hst_comm; auto. inversion ND as [|? ? NI _]; subst. intros E. apply NI. left. auto.
  - rewrite IH, IH'; auto. apply (Permutation_NoDup P); auto.
Qed.
Lemma hs_rev_cancel l psi : hs (rev l) (hs l psi) = psi.
Proof.
  revert psi. induction l as [|q l IH]; intros psi; auto. cbn [rev]. unfold hs. rewrite fold_left_app. cbn [fold_left].
  change (hst q (hs (rev l) (hs l (hst q psi))) = psi). now rewrite IH, hst_hst.
Qed.
Lemma hs_app l l' psi : hs (l ++ l') psi = hs l' (hs l psi).
Proof. unfold hs. apply fold_left_app. Qed.
Lemma hst_lin q a c psi phi : hst q (fun b => a * psi b + c * phi b)%C = (fun b => a * hst q psi b + c * hst q phi b)%C.
Proof. apply functional_extensionality. intros b. unfold hst. ring. Qed.
Lemma hs_lin l a c psi phi : hs l (fun b => a * psi b + c * phi b)%C = (fun b => a * hs l psi b + c * hs l phi b)%C.
Proof.
  revert psi phi. induction l as [|q l IH]; intros psi phi; auto. unfold hs. cbn [fold_left]. rewrite hst_lin. apply (IH (hst q psi) (hst q phi)).
Qed.
(** Sign of x and the bits below n. *)
Definition sgn (n : nat) (x : list bool) (b : bits) : C :=
  cprod (fun i => if nth i x false && b i then - C1 else C1)%C (seq 0 n).
Lemma hs_sum n psi b : hs (seq 0 n) psi b = csum (allb n) (fun x => RtoC (sq2 ^ n) * sgn n x b * psi (setl b (seq 0 n) x))%C.
Proof.
  revert b. induction n as [|n IH]; intros b.
  - cbn. unfold sgn, cprod. cbn. change (RtoC 1) with C1. ring.
  - rewrite seq_S, hs_app, csum_allb_snoc. cbn [plus]. unfold hs at 1. cbn [fold_left]. unfold hst. rewrite !IH.
    rewrite <- csum_scal, <- csum_add, <- csum_scal. apply csum_ext. intros x X. apply allb_In in X.
    assert (SG : forall v, sgn n x (setb b n v) = sgn n x b).
    { intros v. unfold sgn. apply cprod_ext. intros i I. apply in_seq in I. rewrite setb_other by lia. auto. }
    assert (S' : forall v, sgn (S n) (x ++ [v]) b = (sgn n x b * (if v && b n then - C1 else C1))%C).
    { intros v. unfold sgn. rewrite seq_S, cprod_app. cbn [plus]. f_equal.
      - apply cprod_ext. intros i I. apply in_seq in I. rewrite app_nth1 by lia. auto.
      - unfold cprod. cbn [fold_right]. rewrite app_nth2, X, Nat.sub_diag by lia. cbn [nth]. ring. }
    rewrite !SG, !S', !setl_snoc by (rewrite seq_length; lia). cbn [pow]. rewrite RtoC_mul. cbn [andb]. destruct (b n); ring.
Qed.
Definition flipl (l : list nat) (b : bits) : bits := fun q => if existsb (Nat.eqb q) l then negb (b q) else b q.
Lemma xs_fold l psi : NoDup l -> fold_left (fun p q => xst q p) l psi = fun b => psi (flipl l b).
Proof.
  revert psi. induction l as [|q l IH]; intros psi ND; [reflexivity|]. inversion ND as [|? ? NI ND']; subst. cbn [fold_left]. rewrite IH by auto.
  apply functional_extensionality. intros b. unfold xst. f_equal. apply functional_extensionality. intros r. unfold setb, flipl. cbn [existsb].
  assert (X : existsb (Nat.eqb q) l = false).
  { apply not_true_is_false. intros X. apply existsb_exists in X. destruct X as (y & Y & E). apply Nat.eqb_eq in E. subst. auto. }
  destruct (Nat.eqb_spec r q) as [->|N]; cbn [orb]; auto. now rewrite X.
Qed.
Lemma existsb_seq n q : existsb (Nat.eqb q) (seq 0 n) = (q <? n).
Proof.
  apply eq_iff_eq_true. rewrite existsb_exists, Nat.ltb_lt. split.
  - intros (x & X & E). apply Nat.eqb_eq in E. apply in_seq in X. lia.
  - intros H. exists q. rewrite in_seq, Nat.eqb_refl. split; auto. lia.
Qed.
Lemma existsb_rev {A} (f : A -> bool) l : existsb f (rev l) = existsb f l.
Proof. apply eq_iff_eq_true. rewrite !existsb_exists. split; intros (x & X & E); exists x; split; auto; apply in_rev; auto. now rewrite rev_involutive. Qed.

Lemma setl_seq_nth b n x i : length x = n -> i < n -> setl b (seq 0 n) x i = nth i x false.
Proof.
  intros L I. pose proof (setl_map b (seq 0 n) x (seq_NoDup n 0)) as H. rewrite seq_length in H. specialize (H L).
  rewrite <- H at 2. rewrite (nth_indep _ false (setl b (seq 0 n) x 0)) by (rewrite map_length, seq_length; auto).
  rewrite map_nth, seq_nth by auto. reflexivity.
Qed.
Lemma setl_repeat_in b n q : In q (seq 0 n) -> setl b (seq 0 n) (repeat false n) q = false.
Proof. intros Q. apply in_seq in Q. rewrite setl_seq_nth by (rewrite ?repeat_length; lia). apply nth_repeat. Qed.

(** ** The diffusion operator *)
Definition zero_on (n : nat) (b : bits) : bool := forallb (fun q => negb (b q)) (seq 0 n).
Definition psum (n : nat) (psi : state) (b : bits) : C := csum (allb n) (fun x => psi (setl b (seq 0 n) x)).
Lemma pattern_zero n b : 0 < n -> sat (map (fun j => (j, true)) (range 1 n)) (flipl (seq 0 n) b) && flipl (seq 0 n) b 0 = zero_on n b.
Proof.
  intros P. apply eq_iff_eq_true. unfold zero_on, sat. rewrite andb_true_iff, !forallb_forall. split.
  - intros [H H0] q Q. apply in_seq in Q. destruct (Nat.eq_dec q 0) as [->|N].
    + unfold flipl in H0. rewrite existsb_seq, (proj2 (Nat.ltb_lt 0 n)) in H0 by auto. auto.
    + specialize (H (q, true)). cbn [fst snd] in H. unfold flipl in H. rewrite existsb_seq, (proj2 (Nat.ltb_lt q n)) in H by lia.
      assert (X : Bool.eqb (negb (b q)) true = true) by (apply H, in_map_iff; exists q; rewrite range_In; split; auto; lia). now apply eqb_prop in X.
  - intros H. assert (F : forall q, q < n -> flipl (seq 0 n) b q = true).
    { intros q Q. unfold flipl. rewrite existsb_seq, (proj2 (Nat.ltb_lt q n)) by auto. apply H, in_seq. lia. }
    split; [|apply F; auto]. intros c C. apply in_map_iff in C. destruct C as (q & <- & Q). apply range_In in Q. cbn [fst snd]. rewrite F by lia. auto.
Qed.
Lemma diffusion_eq n psi : 0 < n ->
  hs (rev (seq 0 n)) (dg (fun x => if zero_on n x then - C1 else C1)%C (hs (seq 0 n) psi)) =
  fun b => (psi b - RtoC (2 / 2 ^ n) * psum n psi b)%C.
Proof.
  intros P. set (phi := hs (seq 0 n) psi).
  assert (E : dg (fun x => if zero_on n x then - C1 else C1)%C phi = (fun b => C1 * phi b + (- RtoC 2) * (if zero_on n b then phi b else C0))%C).
  { apply functional_extensionality. intros b. unfold dg. destruct (zero_on n b); [|ring]. apply Ceq; cbn; ring. }
  rewrite E, hs_lin. unfold phi at 1. rewrite hs_rev_cancel. apply functional_extensionality. intros b.
  rewrite (hs_perm (rev (seq 0 n)) (seq 0 n)) by (first [symmetry; apply Permutation_rev|apply NoDup_rev, seq_NoDup]).
  rewrite hs_sum. rewrite (csum_single _ (repeat false n)).
  - assert (Z : zero_on n (setl b (seq 0 n) (repeat false n)) = true).
    { apply forallb_forall. intros q Q. rewrite setl_repeat_in; auto. }
    rewrite Z. unfold phi. rewrite hs_sum.
    assert (S0 : sgn n (repeat false n) b = C1).
    { unfold sgn. rewrite (cprod_ext _ (fun _ => C1)); [apply cprod_one|]. intros i I. apply in_seq in I. rewrite nth_repeat. auto. }
    rewrite S0. unfold psum. rewrite (csum_ext _ _ (fun x => RtoC (sq2 ^ n) * psi (setl b (seq 0 n) x))%C).
    + rewrite csum_scal. pose proof (sq2_pow n) as SP.
      assert (Q : (RtoC (sq2 ^ n) * RtoC (sq2 ^ n) = RtoC (/ 2 ^ n))%C).
      { apply Ceq; cbn; rewrite ?SP; [|ring]. rewrite Rmult_0_l, Rminus_0_r, <- Rinv_mult, sqrt_sqrt; auto. apply pow_le. lra. }
      replace (RtoC (2 / 2 ^ n)) with (RtoC 2 * RtoC (/ 2 ^ n))%C by (apply Ceq; cbn; unfold Rdiv; ring). rewrite <- Q. ring.
    + intros x X. apply allb_In in X. assert (S1 : sgn n x (setl b (seq 0 n) (repeat false n)) = C1).
      { unfold sgn. rewrite (cprod_ext _ (fun _ => C1)); [apply cprod_one|]. intros i I. rewrite setl_repeat_in by auto.
        now rewrite andb_false_r. }
      rewrite S1, setl_setl by (rewrite ?repeat_length, ?seq_length; auto using seq_NoDup). ring.
  - apply allb_NoDup.
  - apply allb_In. now rewrite repeat_length.
  - intros x X NE. apply allb_In in X. replace (zero_on n (setl b (seq 0 n) x)) with false; [ring|]. symmetry. apply not_true_is_false. intros Z.
    apply NE. apply nth_ext with (d := false) (d' := false); [now rewrite repeat_length|]. intros i I. rewrite nth_repeat.
    unfold zero_on in Z. rewrite forallb_forall in Z. specialize (Z i ltac:(apply in_seq; lia)). rewrite setl_seq_nth in Z by lia.
    destruct (nth i x false); auto; discriminate.
Qed.
Lemma acts_diffusion n : 0 < n -> acts (grover_diffusion n) (fun psi b => (psi b - RtoC (2 / 2 ^ n) * psum n psi b)%C).
Proof.
  intros P. unfold grover_diffusion. eapply acts_ext.
  { apply acts_app; [apply acts_hlayer|]. apply acts_app; [apply (acts_map _ xst); intros; apply acts_x|].
    apply acts_app; [apply acts_mcz|]. apply acts_app; [apply (acts_map _ xst); intros; apply acts_x|apply (acts_map _ hst); intros; apply acts_h]. }
  intros psi. cbv beta. rewrite <- diffusion_eq by auto. rewrite range_0.
  change (fold_left (fun p q => hst q p) (seq 0 n) psi) with (hs (seq 0 n) psi). generalize (hs (seq 0 n) psi). intros phi. unfold hs. f_equal.
  rewrite !xs_fold by (try apply NoDup_rev; apply seq_NoDup). apply functional_extensionality. intros b. unfold dg.
  assert (F : flipl (rev (seq 0 n)) b = flipl (seq 0 n) b) by (apply functional_extensionality; intros q; unfold flipl; now rewrite existsb_rev).
  rewrite F, pattern_zero by auto. f_equal. f_equal. apply functional_extensionality. intros q. unfold flipl. destruct (existsb _ _); auto. apply negb_involutive.
Qed.

(** ** One iteration *)
Definition tgt (n : nat) (t b : bits) : bool := forallb (fun q => Bool.eqb (b q) (t q)) (seq 0 n).
Definition gst (n : nat) (t : bits) (al be : R) : state := fun b => if b n then (if tgt n t b then RtoC al else RtoC be) else C0.
Lemma csum_const {A} (l : list A) c : csum l (fun _ => c) = (RtoC (INR (length l)) * c)%C.
Proof.
  induction l as [|a l IH]; [cbn; apply Ceq; cbn; ring|]. cbn [csum length]. rewrite IH, S_INR, RtoC_add. change (RtoC 1) with C1. ring.
Qed.
Lemma allb_length n : length (allb n) = 2 ^ n.
Proof. induction n as [|n IH]; [reflexivity|]. cbn [allb]. rewrite app_length, !map_length, IH. cbn. lia. Qed.
Lemma psum_gst n t al be b : psum n (gst n t al be) b = if b n then RtoC (al + (2 ^ n - 1) * be) else C0.
Proof.
  unfold psum, gst. assert (E : forall x, setl b (seq 0 n) x n = b n) by (intros x; apply setl_other; rewrite in_seq; lia).
  rewrite (csum_ext _ _ (fun x => RtoC (if b n then be else 0) + (if b n && tgt n t (setl b (seq 0 n) x) then RtoC (al - be) else C0))%C).
  2: { intros x X. rewrite E. destruct (b n); cbn [andb]; [destruct (tgt n t _)|]; apply Ceq; cbn; ring. }
  rewrite csum_add, csum_const, allb_length, INR_pow2. rewrite (csum_single _ (map t (seq 0 n))).
  - replace (tgt n t (setl b (seq 0 n) (map t (seq 0 n)))) with true.
    + destruct (b n); cbn [andb]; apply Ceq; cbn; ring.
    + symmetry. apply forallb_forall. intros q Q. apply in_seq in Q. rewrite setl_seq_nth by (rewrite ?map_length, ?seq_length; lia).
      rewrite (nth_indep _ false (t 0)) by (rewrite map_length, seq_length; lia). rewrite map_nth, seq_nth by lia. apply eqb_reflx.
  - apply allb_NoDup.
  - apply allb_In. now rewrite map_length, seq_length.
  - intros x X NE. apply allb_In in X. destruct (b n); auto. cbn [andb]. destruct (tgt n t (setl b (seq 0 n) x)) eqn:T; auto. exfalso. apply NE.
    apply nth_ext with (d := false) (d' := t 0); [now rewrite map_length, seq_length|]. intros i I. rewrite map_nth, seq_nth by lia. cbn [plus].
    unfold tgt in T. rewrite forallb_forall in T. specialize (T i ltac:(apply in_seq; lia)). rewrite setl_seq_nth in T by lia. now apply eqb_prop.
Qed.
Lemma acts_oracle n t : acts (grover_oracle n t) (dg (fun x => if tgt n t x && x n then (- C1)%C else C1)).
Proof.
  unfold grover_oracle. eapply acts_ext; [apply acts_mcz|]. intros psi. cbv beta. f_equal. apply functional_extensionality. intros x.
  rewrite range_0. replace (sat (map (fun i => (i, t i)) (seq 0 n)) x) with (tgt n t x); auto.
  unfold sat, tgt. generalize (seq 0 n). induction l as [|i l IH]; auto. cbn [map forallb fst snd]. now rewrite IH.
Qed.
Lemma iteration n t al be psi m : 0 < n -> psi = gst n t al be -> run (grover_oracle n t ++ grover_diffusion n) (psi, m) =
  [(gst n t (- al - 2 / 2 ^ n * (- al + (2 ^ n - 1) * be)) (be - 2 / 2 ^ n * (- al + (2 ^ n - 1) * be)), m)].
Proof.
  intros P ->. rewrite run_app, acts_oracle. cbn [flat_map]. rewrite app_nil_r, acts_diffusion by auto. f_equal. f_equal.
  assert (E : dg (fun x => if tgt n t x && x n then (- C1)%C else C1) (gst n t al be) = gst n t (- al) be).
  { apply functional_extensionality. intros b. unfold dg, gst. destruct (b n), (tgt n t b); cbn [andb]; apply Ceq; cbn; ring. }
  rewrite E. apply functional_extensionality. intros b. rewrite psum_gst. unfold gst. destruct (b n); [|apply Ceq; cbn; ring].
  destruct (tgt n t b); apply Ceq; cbn; ring.
Qed.

(** ** Angles *)
Definition gangle (n : nat) : R := asin (/ sqrt (2 ^ n)).
Lemma two_n n : 0 < n -> (2 <= 2 ^ n)%R.
Proof. intros P. destruct n; [lia|]. cbn [pow]. pose proof (pow_R1_Rle 2 n ltac:(lra)). lra. Qed.
Lemma inv_sqrt n : 0 < n -> (0 < / sqrt (2 ^ n) < 1 /\ / sqrt (2 ^ n) * / sqrt (2 ^ n) = / 2 ^ n)%R.
Proof.
  intros P. pose proof (two_n n P) as T. assert (S : (1 < sqrt (2 ^ n))%R).
  { apply Rle_lt_trans with (sqrt 1); [rewrite sqrt_1; lra|]. apply sqrt_lt_1; lra. }
  split; [split; [apply Rinv_0_lt_compat; lra|]|].
  - apply Rlt_le_trans with (/ 1)%R; [|lra]. apply Rinv_lt_contravar; lra.
  - rewrite <- Rinv_mult, sqrt_sqrt by lra. auto.
Qed.
Lemma sin_gangle n : 0 < n -> sin (gangle n) = (/ sqrt (2 ^ n))%R.
Proof. intros P. destruct (inv_sqrt n P) as [H _]. unfold gangle. apply sin_asin. lra. Qed.
Lemma cos_gangle n : 0 < n -> (cos (gangle n) * cos (gangle n) = 1 - / 2 ^ n)%R.
Proof.
  intros P. pose proof (sin2_cos2 (gangle n)) as H. unfold Rsqr in H. rewrite sin_gangle in H by auto. destruct (inv_sqrt n P) as [_ E]. lra.
Qed.
Lemma gangle_range n : 0 < n -> (0 < gangle n < PI / 2)%R.
Proof.
  intros P. destruct (inv_sqrt n P) as [H _]. pose proof (asin_bound (/ sqrt (2 ^ n))) as B. pose proof (sin_gangle n P) as S. fold (gangle n) in B.
  pose proof PI_RGT_0. split.
  - destruct (Rle_lt_dec (gangle n) 0) as [L|L]; auto. exfalso.
    assert (0 <= sin (- gangle n))%R by (apply sin_ge_0; lra). rewrite sin_neg in H1. lra.
  - destruct (Rle_lt_dec (PI / 2) (gangle n)) as [L|L]; auto. assert (gangle n = PI / 2)%R by lra. rewrite H1, sin_PI2 in S. lra.
Qed.
Lemma cos_gangle_pos n : 0 < n -> (0 < cos (gangle n))%R.
Proof. intros P. pose proof (gangle_range n P). apply cos_gt_0; lra. Qed.
(** cos theta = sqrt (N - 1) / sqrt N *)
Definition sgnk (k : nat) : R := ((-1) ^ k)%R.
Definition al (n k : nat) : R := (sgnk k * sin (INR (2 * k + 1) * gangle n))%R.
Definition be (n k : nat) : R := (sgnk k * cos (INR (2 * k + 1) * gangle n) * (sin (gangle n) / cos (gangle n)))%R.
Lemma INR_step k : INR (2 * S k + 1) = (INR (2 * k + 1) + 2)%R.
Proof. replace (2 * S k + 1) with (2 * k + 1 + 2) by lia. now rewrite plus_INR. Qed.
Lemma step_al n k : 0 < n -> (- al n k - 2 / 2 ^ n * (- al n k + (2 ^ n - 1) * be n k) = al n (S k))%R.
Proof.
  intros P. unfold al, be, sgnk. rewrite INR_step.
  replace ((INR (2 * k + 1) + 2) * gangle n)%R with (INR (2 * k + 1) * gangle n + 2 * gangle n)%R by ring. set (x := (INR (2 * k + 1) * gangle n)%R).
  rewrite sin_plus, cos_2a_sin, sin_2a. pose proof (sin2_cos2 (gangle n)) as SC. unfold Rsqr in SC.
  pose proof (cos_gangle n P) as CC. pose proof (cos_gangle_pos n P) as CP. pose proof (pow2_neq n) as N0.
  assert (SS : (sin (gangle n) * sin (gangle n) = / 2 ^ n)%R) by (rewrite CC in SC; lra).
  set (s := sin (gangle n)) in *. set (c := cos (gangle n)) in *. set (sx := sin x). set (cx := cos x). cbn [pow]. clearbody s c sx cx.
  assert (E : (2 / 2 ^ n = 2 * (s * s))%R) by (rewrite SS; field; auto). rewrite E.
  assert (E2 : (s * s * (2 ^ n - 1) = c * c)%R) by (rewrite SS, CC; field; auto).
  set (g := ((-1) ^ k)%R). clearbody g.
  transitivity (- (g * sx) + 2 * (s * s) * (g * sx) - 2 * (s * s * (2 ^ n - 1)) * (g * cx * (s / c)))%R; [ring|]. rewrite E2. field. lra.
Qed.
Lemma step_be n k : 0 < n -> (be n k - 2 / 2 ^ n * (- al n k + (2 ^ n - 1) * be n k) = be n (S k))%R.
Proof.
  intros P. unfold al, be, sgnk. rewrite INR_step.
  replace ((INR (2 * k + 1) + 2) * gangle n)%R with (INR (2 * k + 1) * gangle n + 2 * gangle n)%R by ring. set (x := (INR (2 * k + 1) * gangle n)%R).
  rewrite cos_plus, cos_2a_sin, sin_2a. pose proof (sin2_cos2 (gangle n)) as SC. unfold Rsqr in SC.
  pose proof (cos_gangle n P) as CC. pose proof (cos_gangle_pos n P) as CP. pose proof (pow2_neq n) as N0.
  assert (SS : (sin (gangle n) * sin (gangle n) = / 2 ^ n)%R) by (rewrite CC in SC; lra).
  set (s := sin (gangle n)) in *. set (c := cos (gangle n)) in *. set (sx := sin x). set (cx := cos x). cbn [pow]. clearbody s c sx cx.
  assert (E : (2 / 2 ^ n = 2 * (s * s))%R) by (rewrite SS; field; auto). rewrite E.
  assert (E2 : (s * s * (2 ^ n - 1) = c * c)%R) by (rewrite SS, CC; field; auto).
  set (g := ((-1) ^ k)%R). clearbody g.
  transitivity (g * cx * (s / c) + 2 * (s * s) * (g * sx) - 2 * (s * s * (2 ^ n - 1)) * (g * cx * (s / c)))%R; [ring|]. rewrite E2.
  assert (CS : (c * c = 1 - s * s)%R) by lra. 
  transitivity ((g * cx * s * (1 - 2 * (c * c)) + 2 * (s * s) * (g * sx) * c) / c)%R; [field; lra|]. rewrite CS. field. lra.
Qed.
Lemma iterate n t k m : 0 < n -> run (concat (repeat (grover_oracle n t ++ grover_diffusion n) k)) (gst n t (al n 0) (be n 0), m) = [(gst n t (al n k) (be n k), m)].
Proof.
  intros P. replace (concat (repeat (grover_oracle n t ++ grover_diffusion n) k)) with (flat_map (fun _ : nat => grover_oracle n t ++ grover_diffusion n) (seq 0 k)).
  - induction k as [|k IH]; [reflexivity|]. rewrite seq_S, flat_map_app, run_app, IH. cbn [flat_map]. rewrite !app_nil_r, (iteration n t _ _ _ _ P eq_refl).
    now rewrite step_al, step_be by auto.
  - generalize 0. induction k as [|k IH]; intros a; auto. cbn [seq flat_map repeat concat]. now rewrite IH.
Qed.
Lemma ginit n t m : 0 < n -> run (grover_init n) (basis (n + 1) zeros, m) = [(gst n t (al n 0) (be n 0), m)].
Proof.
  intros P. unfold grover_init. rewrite (acts_cons _ _ _ _ (acts_x n) (acts_hlayer 0 n)). f_equal. f_equal.
  rewrite xst_basis, basis_prod, fold_h_prod by lia. apply functional_extensionality. intros b.
  replace (n + 1) with (S n) by lia. cbn [prodst]. rewrite (proj2 (Nat.ltb_ge n n)), andb_false_r by lia.
  assert (E : forall k, k <= n -> prodst k (fun i => if (0 <=? i) && (i <? n) then hbit (dbit (setb zeros n (negb (zeros n)) i)) else dbit (setb zeros n (negb (zeros n)) i)) b = RtoC (sq2 ^ k)).
  { induction k as [|k IH]; intros K; [reflexivity|]. cbn [prodst]. rewrite IH by lia. rewrite (proj2 (Nat.ltb_lt k n)) by lia. cbn [Nat.leb andb pow].
    rewrite setb_other by lia. unfold zeros, hbit, dbit. cbn [Bool.eqb]. rewrite RtoC_mul. ring. }
  rewrite E by lia. rewrite setb_same. unfold zeros, dbit. cbn [negb]. unfold gst.
  assert (A : al n 0 = (sq2 ^ n)%R). { unfold al, sgnk. cbn [pow Nat.mul plus INR]. rewrite !Rmult_1_l, sin_gangle, sq2_pow by auto. auto. }
  assert (B : be n 0 = (sq2 ^ n)%R).
  { unfold be, sgnk. cbn [pow Nat.mul plus INR]. rewrite !Rmult_1_l, sq2_pow, <- sin_gangle by auto. field. pose proof (cos_gangle_pos n P). lra. }
  rewrite A, B. destruct (b n); cbn [Bool.eqb]; [|ring]. destruct (tgt n t b); ring.
Qed.

Lemma grover_run n t c m0 m : createGrover n t = Some c ->
  prob (n + 1) n m (run_qc c (basis (n + 1) zeros, m0)) =
  if same_bits n m t then (sin (INR (2 * iterations n + 1) * gangle n) ^ 2)%R
  else (cos (INR (2 * iterations n + 1) * gangle n) ^ 2 / (2 ^ n - 1))%R.
Proof.
  unfold createGrover. destruct (n =? 0) eqn:E0; [discriminate|]. destruct (grover_bits <? n); [discriminate|]. cbn [orb].
  intros E. injection E as <-. apply Nat.eqb_neq in E0. assert (P : 0 < n) by lia. unfold run_qc. cbn [plain_qc qc_ops qc_phase]. rewrite weight_phase. unfold grover_ops.
  rewrite run_app, (ginit n t) by auto. cbn [flat_map]. rewrite app_nil_r, run_app, iterate by auto. cbn [flat_map]. rewrite app_nil_r.
  set (k := iterations n).
  replace (map (fun i => meas i i) (range 0 n)) with (map (fun p => meas (fst p) (snd p)) (map (fun i => (i, i)) (range 0 n))) by (now rewrite map_map).
  assert (SN : map snd (map (fun i => (i, i)) (range 0 n)) = seq 0 n) by (rewrite map_map, range_0; apply map_id).
  rewrite prob_meas.
  - rewrite settled_full by auto. set (x := fun q => if q =? n then true else m q).
    rewrite (weight_cut_full _ _ _ _ x).
    + unfold gst. assert (M : mask (n + 1) x n = true) by (unfold mask, x; rewrite (proj2 (Nat.ltb_lt n (n + 1))), Nat.eqb_refl by lia; auto).
      rewrite M. replace (tgt n t (mask (n + 1) x)) with (same_bits n m t).
      2: { apply eq_iff_eq_true. unfold tgt. rewrite same_bits_iff, forallb_forall.
           assert (X : forall q, q < n -> mask (n + 1) x q = m q).
           { intros q Q. unfold mask, x. rewrite (proj2 (Nat.ltb_lt q (n + 1))) by lia. destruct (Nat.eqb_spec q n); [lia|auto]. }
           split.
           - intros H q Q. apply in_seq in Q. rewrite X, H by lia. apply eqb_reflx.
           - intros H q Q. rewrite <- X by lia. apply eqb_prop, H, in_seq. lia. }
      assert (G : (sgnk k * sgnk k = 1)%R) by (unfold sgnk; rewrite <- Rpow_mult_distr; replace (-1 * -1)%R with 1%R by ring; apply pow1).
      destruct (same_bits n m t); unfold Cnorm2, RtoC; cbn [fst snd]; rewrite ?Rmult_0_l, ?Rplus_0_r.
      * unfold al. transitivity ((sgnk k * sgnk k) * sin (INR (2 * k + 1) * gangle n) ^ 2)%R; [ring|]. rewrite G. cbn [pow]. ring.
      * unfold be. set (y := cos (INR (2 * k + 1) * gangle n)). 
        assert (T : (sin (gangle n) / cos (gangle n) * (sin (gangle n) / cos (gangle n)) = / (2 ^ n - 1))%R).
        { pose proof (cos_gangle n P) as CC. pose proof (cos_gangle_pos n P) as CP. pose proof (sin2_cos2 (gangle n)) as SC. unfold Rsqr in SC.
          pose proof (two_n n P). pose proof (pow2_neq n).
          transitivity ((sin (gangle n) * sin (gangle n)) / (cos (gangle n) * cos (gangle n)))%R; [field; lra|].
          replace (sin (gangle n) * sin (gangle n))%R with (/ 2 ^ n)%R by lra. rewrite CC. field. split; auto. lra. }
        transitivity ((sgnk k * sgnk k) * y ^ 2 * (sin (gangle n) / cos (gangle n) * (sin (gangle n) / cos (gangle n))))%R; [cbn [pow]; ring|]. rewrite G, T. cbn [pow]. unfold Rdiv. ring.
    + intros p Q. apply in_map_iff in Q. destruct Q as (i & <- & I). apply range_In in I. cbn [fst snd]. split; [lia|]. unfold x. destruct (Nat.eqb_spec i n); [lia|auto].
    + intros d M (q & Q & N). unfold matches in M. rewrite forallb_forall in M. destruct (Nat.eq_dec q n) as [->|NQ].
      * unfold gst. unfold x in N. rewrite Nat.eqb_refl in N. destruct (d n); [congruence|auto].
      * exfalso. apply N. specialize (M (q, q)). cbn [fst snd] in M. unfold x. destruct (Nat.eqb_spec q n); [lia|].
        apply eqb_prop, M. apply in_map_iff. exists q. split; auto. apply range_In. lia.
  - rewrite SN. apply seq_NoDup.
  - intros p Q. apply in_map_iff in Q. destruct Q as (i & <- & I). apply range_In in I. cbn [snd]. lia.
Qed.
