(** GHZ and W states. *)
From Coq Require Import Reals Lra List Arith Bool Lia FunctionalExtensionality.
From Verif Require Import Cplx Qsem GateModel IRModel IRSpec AlgoModel AlgoSpec AlgoBaseProofs.
Import ListNotations.
Local Open Scope nat_scope.

Lemma sscal_C1 psi : sscal C1 psi = psi.
Proof. apply functional_extensionality. intros b. unfold sscal. ring. Qed.
Lemma run_plain n ops f psi m : acts ops f -> run_qc (plain_qc n ops) (psi, m) = [(f psi, m)].
Proof. intros A. unfold run_qc. cbn [plain_qc qc_ops qc_phase]. rewrite A. cbn. now rewrite Cexp_0, sscal_C1. Qed.

Lemma forallb_ext_in {A} (f g : A -> bool) l : (forall x, In x l -> f x = g x) -> forallb f l = forallb g l.
Proof. induction l as [|a l IH]; cbn; intros H; auto. rewrite H, IH; auto. Qed.
Lemma seq_split n k : k < n -> seq 0 n = seq 0 k ++ k :: seq (S k) (n - S k).
Proof. intros H. replace n with (k + (1 + (n - S k))) at 1 by lia. rewrite !seq_app. cbn. repeat f_equal; lia. Qed.
Lemma forallb_seq_split f n k : k < n -> forallb f (seq 0 n) = forallb f (seq 0 k) && (f k && forallb f (seq (S k) (n - S k))).
Proof. intros H. rewrite (seq_split n k H), forallb_app. reflexivity. Qed.

(** ** GHZ *)
Lemma fold_cx_fan t k psi : k <= t -> fold_left (fun p i => cxst t i p) (seq 0 k) psi =
  fun b => psi (fun q => if q <? k then xorb (b q) (b t) else b q).
Proof.
  induction k as [|k IH]; intros H; [reflexivity|].
  rewrite seq_S, fold_left_app. cbn [fold_left plus]. rewrite IH by lia.
  apply functional_extensionality. intros b. unfold cxst. f_equal. apply functional_extensionality. intros q.
  rewrite (setb_other _ k _ t) by lia. destruct (Nat.eq_dec q k) as [->|N].
  - rewrite setb_same, (proj2 (Nat.ltb_ge k k)), (proj2 (Nat.ltb_lt k (S k))) by lia. auto.
  - rewrite setb_other by auto. destruct (Nat.ltb_spec q k), (Nat.ltb_spec q (S k)); auto; lia.
Qed.

Lemma ghz_run n c m : createGHZState n = Some c -> run_qc c (basis n zeros, m) = [(ghz_state n, m)].
Proof.
  unfold createGHZState. destruct (Nat.eqb_spec n 0) as [|N]; [discriminate|]. intros E. injection E as <-.
  destruct n as [|t]; [lia|]. clear N. unfold ghz_ops. replace (S t - 1) with t by lia. rewrite range_0.
  erewrite run_plain. 2: { apply acts_cons; [apply acts_h|]. apply (acts_map _ (cxst t)). intros; apply acts_cx. }
  cbv beta. do 2 f_equal. rewrite fold_cx_fan by lia. apply functional_extensionality. intros b.
  assert (H : forall x, hst t (basis (S t) zeros) x = if forallb (fun q => negb (x q)) (seq 0 t) then RtoC sq2 else C0).
  { intros x. unfold hst, basis.
    assert (S0 : forall v, forallb (fun q => Bool.eqb (setb x t v q) (zeros q)) (seq 0 (S t)) = forallb (fun q => negb (x q)) (seq 0 t) && negb v).
    { intros v. rewrite seq_S, forallb_app. cbn [forallb plus]. rewrite setb_same. unfold zeros. f_equal; [|destruct v; auto].
      apply forallb_ext_in. intros q Q. apply in_seq in Q. rewrite setb_other by lia. destruct (x q); auto. }
    rewrite !S0. destruct (forallb _ (seq 0 t)); cbn [andb negb]; destruct (x t); ring. }
  rewrite H. unfold ghz_state. fold sq2.
  rewrite (forallb_ext_in _ (fun q => Bool.eqb (b q) (b t))).
  2: { intros q Q. apply in_seq in Q. rewrite (proj2 (Nat.ltb_lt q t)) by lia. destruct (b q), (b t); auto. }
  rewrite seq_S, !forallb_app. cbn [forallb plus]. rewrite !andb_true_r.
  assert (Z : forallb b (seq 0 t) && b t || forallb (fun q => negb (b q)) (seq 0 t) && negb (b t) = forallb (fun q => Bool.eqb (b q) (b t)) (seq 0 t)).
  { destruct (b t); cbn [negb]; rewrite ?andb_false_r, ?andb_true_r, ?orb_false_r; cbn [orb]; apply forallb_ext_in; intros q _; destruct (b q); auto. }
  now rewrite Z.
Qed.

(** ** W state *)
(** The combined gate RY(theta) Z RY(-theta), controlled on [i]. *)
Definition fst_ (t : R) (i j : nat) (psi : state) : state := fun x =>
  if x i then op1 (RtoC (cos t)) (RtoC (sin t)) (RtoC (sin t)) (RtoC (- cos t)) j psi x else psi x.
Lemma op1_op1 a b c d a' b' c' d' q psi : op1 a b c d q (op1 a' b' c' d' q psi) =
  op1 (a * a' + b * c')%C (a * b' + b * d')%C (c * a' + d * c')%C (c * b' + d * d')%C q psi.
Proof.
  apply functional_extensionality. intros x. unfold op1. rewrite !setb_same, !setb_setb. destruct (x q); ring.
Qed.
Lemma op1_restrict a b c d q psi phi x : (forall v, psi (setb x q v) = phi (setb x q v)) -> op1 a b c d q psi x = op1 a b c d q phi x.
Proof. intros H. unfold op1. now rewrite !H. Qed.
Lemma op1_id q psi x : op1 C1 C0 C0 C1 q psi x = psi x.
Proof. rewrite op1_diag. destruct (x q); ring. Qed.
Lemma cos2_half t : (cos t = cos (t / 2) * cos (t / 2) - sin (t / 2) * sin (t / 2))%R.
Proof. rewrite <- cos_plus. f_equal. lra. Qed.
Lemma sin2_half t : (sin t = 2 * sin (t / 2) * cos (t / 2))%R.
Proof. replace t with (t / 2 + t / 2)%R at 1 by lra. rewrite sin_plus. lra. Qed.
Lemma sin2_cos2' x : (sin x * sin x + cos x * cos x = 1)%R.
Proof. generalize (sin2_cos2 x). unfold Rsqr. auto. Qed.

Lemma acts_f t i j : i <> j -> acts [g1p gRY (- t) j; cg1 gZ i j; g1p gRY t j] (fst_ t i j).
Proof.
  intros N. eapply acts_ext.
  { apply acts_cons; [apply acts_ry|]. apply acts_cons; [apply acts_cz|]. apply acts_ry. }
  intros psi. apply functional_extensionality. intros x. cbv beta.
  assert (Z : forall v, cph PI i j (ryst (- t) j psi) (setb x j v) =
     (if x i then op1 C1 C0 C0 (- C1)%C j (ryst (- t) j psi) (setb x j v) else ryst (- t) j psi (setb x j v))).
  { intros v. rewrite op1_diag. unfold cph, dg. rewrite setb_same, (setb_other _ j _ i) by auto. rewrite Cexp_PI.
    destruct (x i), v; cbn [andb]; ring. }
  unfold ryst at 1. unfold fst_. replace (- t / 2)%R with (- (t / 2))%R in Z by lra.
  pose proof (sin2_cos2' (t / 2)) as P.
  destruct (x i) eqn:I.
  - rewrite (op1_restrict _ _ _ _ _ _ (op1 C1 C0 C0 (- C1)%C j (ryst (- t) j psi))) by auto.
    unfold ryst. rewrite !op1_op1. replace (- t / 2)%R with (- (t / 2))%R by lra. rewrite cos_neg, sin_neg, (cos2_half t), (sin2_half t).
    assert (E : forall a b c d a' b' c' d', a = a' -> b = b' -> c = c' -> d = d' -> op1 a b c d j psi x = op1 a' b' c' d' j psi x) by (intros; subst; auto).
    apply E; apply Ceq; cbn; lra.
  - rewrite (op1_restrict _ _ _ _ _ _ (ryst (- t) j psi)) by auto.
    unfold ryst. rewrite !op1_op1. replace (- t / 2)%R with (- (t / 2))%R by lra. rewrite cos_neg, sin_neg.
    transitivity (op1 C1 C0 C0 C1 j psi x); [|apply op1_id].
    assert (E : forall a b c d a' b' c' d', a = a' -> b = b' -> c = c' -> d = d' -> op1 a b c d j psi x = op1 a' b' c' d' j psi x) by (intros; subst; auto).
    apply E; apply Ceq; cbn; nra.
Qed.

(** The bits below [n] are 0 below [p] and 1 from [p] on. *)
Definition stepb (n p : nat) (b : bits) : bool := forallb (fun q => Bool.eqb (b q) (p <=? q)) (seq 0 n).
Definition dl (b : bool) : C := if b then C1 else C0.
Lemma stepb_at n p b q : stepb n p b = true -> q < n -> b q = (p <=? q).
Proof.
  unfold stepb. rewrite forallb_forall. intros H Q. apply eqb_prop, H, in_seq. lia.
Qed.
Lemma stepb_iff n p b : stepb n p b = true <-> forall q, q < n -> b q = (p <=? q).
Proof.
  split; [intros H q; now apply stepb_at|]. intros H. apply forallb_forall. intros q Q. apply in_seq in Q. rewrite H by lia. apply eqb_reflx.
Qed.

(** The state after [m] rounds. *)
Definition wst (n m : nat) : state := fun b =>
  (csum (range (n - m) n) (fun p => RtoC (sqrt (1 / INR n)) * dl (stepb n p b))
   + RtoC (sqrt (INR (n - m) / INR n)) * dl (stepb n (n - 1 - m) b))%C.

Lemma csum_0 {A} (l : list A) f : (forall a, In a l -> f a = C0) -> csum l f = C0.
Proof. intros H. rewrite (csum_ext _ _ (fun _ => C0)); [apply csum_zero|auto]. Qed.

Lemma acos_range x : (0 <= x <= 1)%R -> (cos (acos x) = x /\ sin (acos x) = sqrt (1 - x * x))%R.
Proof.
  intros H. split; [apply cos_acos; lra|]. rewrite sin_acos by lra. reflexivity.
Qed.

Lemma w_round n m : m + 1 < n -> forall t, t = acos (sqrt (1 / INR (n - m))) ->
  fst_ t (n - 1 - m) (n - 2 - m) (wst n m) = wst n (S m).
Proof.
  intros H t ->. set (i := n - 1 - m). set (j := n - 2 - m).
  assert (Hn : (0 < INR n)%R) by (apply lt_0_INR; lia).
  assert (Hm : (1 <= INR (n - m - 1))%R) by (change 1%R with (INR 1); apply le_INR; lia).
  assert (Hk : (INR (n - m) = INR (n - m - 1) + 1)%R) by (rewrite <- S_INR; f_equal; lia).
  assert (R1 : (0 <= 1 / INR (n - m) <= 1)%R).
  { rewrite Hk. split; [apply Rlt_le, Rdiv_lt_0_compat; lra|]. apply (Rmult_le_reg_r (INR (n - m - 1) + 1)); [lra|]. unfold Rdiv. rewrite Rmult_assoc, Rinv_l by lra. lra. }
  assert (S1 : (0 <= sqrt (1 / INR (n - m)) <= 1)%R).
  { split; [apply sqrt_pos|]. apply Rle_trans with (sqrt 1); [apply sqrt_le_1; lra|rewrite sqrt_1; lra]. }
  destruct (acos_range _ S1) as [Cc Ss]. rewrite sqrt_sqrt in Ss by lra.
  assert (CC : (cos (acos (sqrt (1 / INR (n - m)))) * sqrt (INR (n - m) / INR n) = sqrt (1 / INR n))%R).
  { rewrite Cc, <- sqrt_mult_alt by lra. f_equal. field. split; lra. }
  assert (SS : (sin (acos (sqrt (1 / INR (n - m)))) * sqrt (INR (n - m) / INR n) = sqrt (INR (n - S m) / INR n))%R).
  { rewrite Ss, <- sqrt_mult_alt.
    - f_equal. replace (n - S m) with (n - m - 1) by lia. rewrite Hk. field. split; lra.
    - lra. }
  set (t := acos (sqrt (1 / INR (n - m)))) in *.
  apply functional_extensionality. intros b. unfold fst_.
  assert (RG : range (n - S m) n = i :: range (n - m) n).
  { unfold range, i. replace (n - (n - S m)) with (S (n - (n - m))) by lia. cbn [seq]. f_equal; [lia|]. f_equal; lia. }
  assert (I1 : wst n (S m) b = (RtoC (sqrt (1 / INR n)) * dl (stepb n i b) + csum (range (n - m) n) (fun p => RtoC (sqrt (1 / INR n)) * dl (stepb n p b))
      + RtoC (sqrt (INR (n - S m) / INR n)) * dl (stepb n j b))%C).
  { unfold wst. rewrite RG. unfold csum. cbn [fold_right]. replace (n - 1 - S m) with j by (unfold j; lia). reflexivity. }
  rewrite I1. clear I1.
  destruct (b i) eqn:Bi.
  - assert (Z1 : wst n m (setb b j true) = C0).
    { unfold wst. rewrite csum_0.
      - replace (stepb n (n - 1 - m) (setb b j true)) with false; [cbn [dl]; ring|].
        symmetry. apply not_true_is_false. intros X. pose proof (stepb_at _ _ _ j X) as Y. rewrite setb_same in Y.
        specialize (Y ltac:(unfold j; lia)). symmetry in Y. apply Nat.leb_le in Y. unfold j in Y. lia.
      - intros p P. apply range_In in P. replace (stepb n p (setb b j true)) with false; [cbn [dl]; ring|].
        symmetry. apply not_true_is_false. intros X. pose proof (stepb_at _ _ _ j X) as Y. rewrite setb_same in Y.
        specialize (Y ltac:(unfold j; lia)). symmetry in Y. apply Nat.leb_le in Y. unfold j in Y. lia. }
    assert (ZP : forall c, c i = true -> csum (range (n - m) n) (fun p => RtoC (sqrt (1 / INR n)) * dl (stepb n p c))%C = C0).
    { intros c Ci. apply csum_0. intros p P. apply range_In in P. replace (stepb n p c) with false; [cbn [dl]; ring|].
      symmetry. apply not_true_is_false. intros X. pose proof (stepb_at _ _ _ i X) as Y. rewrite Ci in Y.
      specialize (Y ltac:(unfold i; lia)). symmetry in Y. apply Nat.leb_le in Y. unfold i in Y. lia. }
    assert (Z0 : wst n m (setb b j false) = (RtoC (sqrt (INR (n - m) / INR n)) * dl (stepb n i (setb b j false)))%C).
    { unfold wst. rewrite ZP; [unfold i; ring|]. rewrite setb_other; auto. unfold i, j. lia. }
    unfold op1. rewrite Z0, Z1, ZP by auto.
    assert (D : stepb n i (setb b j false) = if b j then stepb n j b else stepb n i b).
    { apply eq_iff_eq_true. rewrite stepb_iff. destruct (b j) eqn:Bj; rewrite stepb_iff; split; intros X q Q; specialize (X q Q).
      - destruct (Nat.eq_dec q j) as [->|NE]; [rewrite Bj; symmetry; apply Nat.leb_le; lia|]. rewrite setb_other in X by auto. rewrite X.
        destruct (Nat.leb_spec i q), (Nat.leb_spec j q); auto; unfold i, j in *; lia.
      - destruct (Nat.eq_dec q j) as [->|NE]; [rewrite setb_same; symmetry; apply Nat.leb_gt; unfold i, j; lia|]. rewrite setb_other by auto. rewrite X.
        destruct (Nat.leb_spec i q), (Nat.leb_spec j q); auto; unfold i, j in *; lia.
      - destruct (Nat.eq_dec q j) as [->|NE]; [rewrite Bj; symmetry; apply Nat.leb_gt; unfold i, j; lia|]. now rewrite setb_other in X by auto.
      - destruct (Nat.eq_dec q j) as [->|NE]; [rewrite setb_same; symmetry; apply Nat.leb_gt; unfold i, j; lia|]. now rewrite setb_other by auto. }
    rewrite D. destruct (b j) eqn:Bj.
    + replace (stepb n i b) with false.
      2: { symmetry. apply not_true_is_false. intros X. pose proof (stepb_at _ _ _ j X) as Y. rewrite Bj in Y.
        specialize (Y ltac:(unfold j; lia)). symmetry in Y. apply Nat.leb_le in Y. unfold i, j in Y. lia. }
      rewrite <- SS, RtoC_mul. cbn [dl]. ring.
    + replace (stepb n j b) with false.
      2: { symmetry. apply not_true_is_false. intros X. pose proof (stepb_at _ _ _ j X) as Y. rewrite Bj in Y.
        specialize (Y ltac:(unfold j; lia)). symmetry in Y. apply Nat.leb_gt in Y. lia. }
      rewrite <- CC, RtoC_mul. cbn [dl]. ring.
  - assert (N : forall p, p <= i -> stepb n p b = false).
    { intros p P. apply not_true_is_false. intros X. pose proof (stepb_at _ _ _ i X) as Y. rewrite Bi in Y.
      specialize (Y ltac:(unfold i; lia)). symmetry in Y. apply Nat.leb_gt in Y. lia. }
    unfold wst. fold i. rewrite (N i), (N j) by (unfold i, j; lia). cbn [dl]. ring.
Qed.

Lemma w_rounds n m : m < n -> fold_left (fun p k => fst_ (acos (sqrt (1 / INR (n - k + 1)))) (n - k) (n - k - 1) p) (range 1 (S m)) (wst n 0) = wst n m.
Proof.
  induction m as [|m IH]; intros H; [reflexivity|].
  rewrite range_S by lia. rewrite fold_left_app, IH by lia. cbn [fold_left].
  replace (n - S m) with (n - 1 - m) by lia. replace (n - 1 - m - 1) with (n - 2 - m) by lia.
  apply w_round; [lia|]. do 4 f_equal. lia.
Qed.

Fixpoint parity (b : bits) (q : nat) : bool := match q with 0 => b 0 | S q' => xorb (b q) (parity b q') end.
Lemma fold_cx_chain n psi : fold_left (fun p k => cxst (k - 1) k p) (rev (range 1 (S n))) psi =
  fun b => psi (fun q => if q <=? n then parity b q else b q).
Proof.
  revert psi. induction n as [|n IH]; intros psi.
  - cbn. apply functional_extensionality. intros b. f_equal. apply functional_extensionality. intros [|q]; auto.
  - rewrite range_S by lia. rewrite rev_app_distr. cbn [rev app fold_left]. rewrite IH. apply functional_extensionality. intros b.
    unfold cxst. f_equal. apply functional_extensionality. intros q. replace (S n - 1) with n by lia.
    destruct (Nat.eq_dec q (S n)) as [->|N].
    + rewrite setb_same, (proj2 (Nat.leb_gt (S n) n)), (proj2 (Nat.leb_le n n)), (proj2 (Nat.leb_le (S n) (S n))) by lia. reflexivity.
    + rewrite setb_other by auto. destruct (Nat.leb_spec q n), (Nat.leb_spec q (S n)); auto; lia.
Qed.

(** A step of the prefix parities is a single 1. *)
Lemma parity_step n p b : p < n -> stepb n p (fun q => if q <=? n - 1 then parity b q else b q) = true <-> (forall q, q < n -> b q = (q =? p)).
Proof.
  intros P. rewrite stepb_iff. split.
  - intros H q Q. assert (X : parity b q = (p <=? q)) by (rewrite <- H by auto; rewrite (proj2 (Nat.leb_le q (n - 1))) by lia; auto).
    destruct q as [|q].
    + cbn in X. rewrite X. destruct p; auto.
    + cbn [parity] in X. assert (Y : parity b q = (p <=? q)) by (rewrite <- H by lia; rewrite (proj2 (Nat.leb_le q (n - 1))) by lia; auto).
      rewrite Y in X. destruct (Nat.leb_spec p q), (Nat.leb_spec p (S q)), (Nat.eqb_spec (S q) p), (b (S q)); auto; try lia; discriminate X.
  - intros H q Q. rewrite (proj2 (Nat.leb_le q (n - 1))) by lia. induction q as [|q IH].
    + cbn. rewrite H by lia. destruct p; auto.
    + cbn [parity]. rewrite IH, H by lia. destruct (Nat.leb_spec p q), (Nat.leb_spec p (S q)), (Nat.eqb_spec (S q) p); auto; lia.
Qed.

Lemma filter_one n p (b : bits) : p < n -> (forall q, q < n -> b q = (q =? p)) -> filter b (seq 0 n) = [p].
Proof.
  intros P H. rewrite (seq_split n p P), filter_app. cbn [filter]. rewrite H, Nat.eqb_refl by lia.
  assert (Z : forall l, (forall q, In q l -> q < n /\ q <> p) -> filter b l = []).
  { induction l as [|a l IH]; intros A; auto. cbn [filter]. destruct (A a) as [A1 A2]; [left; auto|]. rewrite H by auto.
    apply Nat.eqb_neq in A2. rewrite A2. apply IH. intros; apply A; right; auto. }
  rewrite !Z; auto; intros q Q; apply in_seq in Q; lia.
Qed.

Lemma w_run n c m : createWState n = Some c -> run_qc c (basis n zeros, m) = [(w_state n, m)].
Proof.
  unfold createWState. destruct (Nat.eqb_spec n 0) as [|N]; [discriminate|]. intros E. injection E as <-.
  unfold wstate_ops. erewrite run_plain.
  2: { apply acts_cons; [apply acts_x|]. apply acts_app.
       - apply (acts_flat_map _ (fun k => fst_ (acos (sqrt (1 / INR (n - k + 1)))) (n - k) (n - k - 1))).
         intros k K. apply range_In in K. apply acts_f. lia.
       - apply (acts_map _ (fun k => cxst (k - 1) k)). intros; apply acts_cx. }
  cbv beta.
  do 2 f_equal. destruct n as [|t]; [lia|].
  assert (W0 : xst (S t - 1) (basis (S t) zeros) = wst (S t) 0).
  { apply functional_extensionality. intros b. unfold xst, wst, basis. rewrite range_nil by lia. cbn [csum fold_right]. unfold csum. cbn [fold_right].
    replace (INR (S t - 0) / INR (S t))%R with 1%R by (rewrite Nat.sub_0_r; field; apply not_0_INR; lia).
    rewrite sqrt_1. replace (S t - 1 - 0) with t by lia. replace (S t - 1) with t by lia.
    assert (X : forallb (fun q => Bool.eqb (setb b t (negb (b t)) q) (zeros q)) (seq 0 (S t)) = stepb (S t) t b).
    { apply forallb_ext_in. intros q Q. apply in_seq in Q. unfold zeros. destruct (Nat.eq_dec q t) as [->|NE].
      - rewrite setb_same, (proj2 (Nat.leb_le t t)) by lia. destruct (b t); auto.
      - rewrite setb_other by auto. rewrite (proj2 (Nat.leb_gt t q)) by lia. auto. }
    rewrite X. destruct (stepb (S t) t b); cbn [dl]; change (RtoC 1) with C1; ring. }
  rewrite W0, (w_rounds (S t) t) by lia. rewrite fold_cx_chain. apply functional_extensionality. intros b.
  set (b' := fun q => if q <=? t then parity b q else b q).
  assert (F : wst (S t) t b' = csum (seq 0 (S t)) (fun p => RtoC (sqrt (1 / INR (S t))) * dl (stepb (S t) p b'))%C).
  { unfold wst. replace (S t - t) with 1 by lia. replace (S t - 1 - t) with 0 by lia. change (INR 1) with 1%R.
    unfold range. replace (S t - 1) with t by lia. cbn [seq]. unfold csum. cbn [fold_right]. ring. }
  rewrite F. unfold w_state.
  assert (SN : sqrt (1 / INR (S t)) = (/ sqrt (INR (S t)))%R).
  { unfold Rdiv. rewrite Rmult_1_l. rewrite sqrt_inv. auto. }
  assert (ST : forall p, p < S t -> stepb (S t) p b' = true <-> (forall q, q < S t -> b q = (q =? p))).
  { intros p P. generalize (parity_step (S t) p b P). replace (S t - 1) with t by lia. auto. }
  destruct (Nat.eqb_spec (length (filter b (seq 0 (S t)))) 1) as [L|L].
  - destruct (filter b (seq 0 (S t))) as [|p [|? ?]] eqn:FE; try discriminate L.
    assert (Pin : In p (seq 0 (S t)) /\ b p = true) by (apply filter_In; rewrite FE; left; auto).
    destruct Pin as [Pin Bp]. apply in_seq in Pin.
    assert (OH : forall q, q < S t -> b q = (q =? p)).
    { intros q Q. destruct (b q) eqn:Bq.
      - assert (In q [p]) by (rewrite <- FE; apply filter_In; split; auto; apply in_seq; lia). destruct H as [->|[]]. now rewrite Nat.eqb_refl.
      - symmetry. apply Nat.eqb_neq. intros ->. congruence. }
    rewrite (csum_single _ p).
    + rewrite (proj2 (ST p ltac:(lia)) OH), SN. cbn [dl]. ring.
    + apply seq_NoDup.
    + apply in_seq; lia.
    + intros q Q NE. apply in_seq in Q. replace (stepb (S t) q b') with false; [cbn [dl]; ring|]. symmetry. apply not_true_is_false. intros X.
      rewrite (ST q) in X by lia. specialize (X p ltac:(lia)). rewrite Bp in X. symmetry in X. apply Nat.eqb_eq in X. congruence.
  - apply csum_0. intros p P. apply in_seq in P. replace (stepb (S t) p b') with false; [cbn [dl]; ring|]. symmetry. apply not_true_is_false. intros X.
    rewrite (ST p) in X by lia. apply L. rewrite (filter_one (S t) p); auto. lia.
Qed.
