(** The quantum Fourier transform. *)
From Coq Require Import Reals Lra List Arith Bool Lia FunctionalExtensionality.
From Verif Require Import Cplx Qsem GateModel IRModel IRSpec AlgoModel AlgoSpec AlgoBaseProofs AlgoStateProofs.
Import ListNotations.
Local Open Scope nat_scope.

(** ** Bit strings, last bit first *)
Lemma csum_allb_snoc k f : csum (allb (S k)) f = csum (allb k) (fun x => f (x ++ [false]) + f (x ++ [true]))%C.
Proof.
  revert f. induction k as [|k IH]; intros f; [unfold csum; cbn; ring|].
  change (allb (S (S k))) with (map (cons false) (allb (S k)) ++ map (cons true) (allb (S k))).
  rewrite csum_app, !csum_map, (IH (fun a => f (false :: a))), (IH (fun a => f (true :: a))).
  change (allb (S k)) with (map (cons false) (allb k) ++ map (cons true) (allb k)). rewrite csum_app, !csum_map. reflexivity.
Qed.
Lemma setl_snoc b ts t vs v : length vs = length ts -> setl b (ts ++ [t]) (vs ++ [v]) = setl (setb b t v) ts vs.
Proof.
  revert vs. induction ts as [|u ts IH]; intros [|w vs] L; cbn in L; try lia; auto. cbn [app setl]. rewrite IH by lia. auto.
Qed.
Lemma value_snoc l v : value (l ++ [v]) = 2 * value l + (if v then 1 else 0).
Proof.
  induction l as [|a l IH]; cbn [app value]; [destruct v; auto|]. rewrite IH, app_length. cbn [length].
  replace (length l + 1) with (S (length l)) by lia. cbn [Nat.pow]. destruct a; lia.
Qed.

(** ** Diagonal gates in a row *)
Lemma fold_dg_cexp {A} (f : A -> bits -> R) (g : bits -> bool) l psi :
  fold_left (fun p j => dg (fun x => if g x then Cexp (f j x) else C1) p) l psi =
  dg (fun x => if g x then Cexp (fold_right (fun j a => f j x + a)%R 0%R l) else C1) psi.
Proof.
  revert psi. induction l as [|j l IH]; intros psi; cbn [fold_left fold_right].
  - apply functional_extensionality. intros x. unfold dg. rewrite Cexp_0. destruct (g x); ring.
  - rewrite IH. apply functional_extensionality. intros x. unfold dg. rewrite Cexp_add. destruct (g x); ring.
Qed.
Lemma cph_as a c q : cph a c q = dg (fun x => if x c then Cexp (if x q then a else 0%R) else C1).
Proof.
  unfold cph. f_equal. apply functional_extensionality. intros x. destruct (x c), (x q); cbn [andb]; rewrite ?Cexp_0; auto.
Qed.

(** The phase that the rotations before the Hadamard gate of qubit [i] apply. *)
Fixpoint ph (i : nat) (x : bits) : R :=
  match i with 0 => 0%R | S k => ((ph k x + (if x k then PI else 0)) / 2)%R end.

Lemma acts_rot i j : 1 <= j <= i -> acts [qft_rot i j] (cph (PI / 2 ^ j) i (i - j)).
Proof.
  intros H. unfold qft_rot. destruct (Nat.eqb_spec j 1) as [->|]; [|destruct (Nat.eqb_spec j 2) as [->|]].
  - replace (PI / 2 ^ 1)%R with (PI / 2)%R by (cbn; field). apply acts_cs.
  - replace (PI / 2 ^ 2)%R with (PI / 4)%R by (cbn; field). apply acts_ct.
  - apply acts_cp.
Qed.
Lemma fold_sum_app {A} (f : A -> R) l l' : fold_right (fun j a => f j + a)%R 0%R (l ++ l') = (fold_right (fun j a => f j + a)%R 0%R l + fold_right (fun j a => f j + a)%R 0%R l')%R.
Proof. induction l as [|a l IH]; cbn; [ring|]. rewrite IH. ring. Qed.
Lemma fold_sum_rev {A} (f : A -> R) l : fold_right (fun j a => f j + a)%R 0%R (rev l) = fold_right (fun j a => f j + a)%R 0%R l.
Proof. induction l as [|a l IH]; cbn [rev]; auto. rewrite fold_sum_app, IH. cbn. ring. Qed.
Lemma fold_sum_ext {A} (f g : A -> R) l : (forall a, In a l -> f a = g a) -> fold_right (fun j a => f j + a)%R 0%R l = fold_right (fun j a => g j + a)%R 0%R l.
Proof. induction l as [|a l IH]; cbn; intros H; auto. rewrite H, IH by auto. auto. Qed.
Lemma fold_sum_scal {A} c (f : A -> R) l : fold_right (fun j a => c * f j + a)%R 0%R l = (c * fold_right (fun j a => f j + a)%R 0%R l)%R.
Proof. induction l as [|a l IH]; cbn; [ring|]. rewrite IH. ring. Qed.

Lemma rot_sum i (x : bits) : fold_right (fun j a => (if x (i - j)%nat then PI / 2 ^ j else 0) + a)%R 0%R (range 1 (i + 1)) = ph i x.
Proof.
  induction i as [|i IH]; [reflexivity|]. unfold range in *. replace (S i + 1 - 1) with (S i) by lia. replace (i + 1 - 1) with i in IH by lia.
  cbn [seq fold_right ph]. replace (S i - 1) with i by lia. rewrite <- seq_shift.
  assert (E : fold_right (fun j a => (if x (S i - j)%nat then PI / 2 ^ j else 0) + a)%R 0%R (map S (seq 1 i)) = (/ 2 * ph i x)%R).
  { rewrite <- IH, <- fold_sum_scal. generalize (seq 1 i). induction l as [|j l IHl]; cbn [map fold_right]; auto. rewrite IHl.
    replace (S i - S j) with (i - j) by lia. destruct (x (i - j)); cbn [pow]; [|ring]. f_equal. field. apply pow_nonzero. lra. }
  rewrite E. destruct (x i); cbn [pow]; field.
Qed.

(** ** One stage *)
Definition stage (i : nat) (psi : state) : state := hst i (dg (fun x => if x i then Cexp (ph i x) else C1) psi).
Lemma acts_stage i : acts (qft_stage i) (stage i).
Proof.
  unfold qft_stage. eapply acts_ext.
  { apply acts_app; [|apply acts_h]. apply (acts_map _ (fun j => cph (PI / 2 ^ j) i (i - j))).
    intros j J. apply in_rev in J. apply range_In in J. apply acts_rot. lia. }
  intros psi. cbv beta. unfold stage. f_equal.
  transitivity (fold_left (fun p j => dg (fun x => if x i then Cexp ((fun j (x : bits) => if x (i - j)%nat then (PI / 2 ^ j)%R else 0%R) j x) else C1) p) (rev (range 1 (i + 1))) psi).
  - generalize (rev (range 1 (i + 1))) psi. induction l as [|j l IH]; intros p; cbn [fold_left]; auto. rewrite IH, cph_as. auto.
  - rewrite fold_dg_cexp. f_equal. apply functional_extensionality. intros x. rewrite fold_sum_rev. now rewrite rot_sum.
Qed.

Lemma ph_ext i x y : (forall q, q < i -> x q = y q) -> ph i x = ph i y.
Proof. induction i as [|i IH]; intros H; cbn; auto. rewrite IH, H by auto. auto. Qed.

Definition twice (k : nat) (x : list bool) (b : bits) : R :=
  fold_right (fun i a => (if nth i x false then 2 * ph (S i) b else 0) + a)%R 0%R (seq 0 k).

Lemma twice_snoc k x v b : length x = k -> twice (S k) (x ++ [v]) b = (twice k x b + (if v then 2 * ph (S k) b else 0))%R.
Proof.
  intros L. unfold twice. rewrite seq_S, fold_sum_app. cbn [plus fold_right]. rewrite app_nth2, L, Nat.sub_diag by lia. cbn [nth]. rewrite Rplus_0_r.
  f_equal. apply fold_sum_ext. intros i I. apply in_seq in I. rewrite app_nth1 by lia. auto.
Qed.
Lemma twice_ext k x b c : (forall q, q < k -> b q = c q) -> twice k x b = twice k x c.
Proof.
  intros H. unfold twice. apply fold_sum_ext. intros i I. apply in_seq in I. rewrite (ph_ext (S i) b c); auto. intros; apply H; lia.
Qed.

Definition stages (k : nat) (psi : state) : state := fun b =>
  csum (allb k) (fun x => RtoC (sq2 ^ k) * Cexp (twice k x b) * psi (setl b (seq 0 k) x))%C.
Lemma stages_S k psi : stage k (stages k psi) = stages (S k) psi.
Proof.
  apply functional_extensionality. intros b. unfold stages at 2. rewrite csum_allb_snoc.
  unfold stage, hst, dg. rewrite !setb_same. unfold stages.
  rewrite <- !csum_scal, <- csum_add, <- csum_scal. apply csum_ext. intros x X. apply allb_In in X.
  rewrite !twice_snoc by auto. rewrite seq_S, !setl_snoc by (rewrite seq_length; auto). cbn [plus].
  rewrite !(twice_ext k x (setb b k _) b) by (intros; apply setb_other; lia).
  rewrite (ph_ext k (setb b k true) b) by (intros; apply setb_other; lia). cbn [ph].
  replace (2 * ((ph k b + (if b k then PI else 0)) / 2))%R with (ph k b + (if b k then PI else 0))%R by field.
  rewrite !Cexp_add, Cexp_0. cbn [pow]. rewrite RtoC_mul. destruct (b k); [rewrite Cexp_PI|rewrite Cexp_0]; ring.
Qed.

Lemma acts_core n : acts (qft_core n) (stages n).
Proof.
  unfold qft_core. rewrite range_0. eapply acts_ext. { apply (acts_flat_map _ stage). intros; apply acts_stage. }
  intros psi. induction n as [|n IH].
  - cbn. apply functional_extensionality. intros b. unfold stages, csum, twice. cbn. rewrite Cexp_0. change (RtoC 1) with C1. ring.
  - rewrite seq_S, fold_left_app, IH. apply stages_S.
Qed.

(** ** The Fourier transform with reversed output *)
Lemma Cexp_2PI_nat k x : Cexp (x + 2 * PI * INR k) = Cexp x.
Proof.
  induction k as [|k IH]; [f_equal; cbn; ring|]. rewrite S_INR. replace (x + 2 * PI * (INR k + 1))%R with (x + 2 * PI * INR k + 2 * PI)%R by ring.
  now rewrite Cexp_2PI.
Qed.
Definition levalue (n : nat) (b : bits) : nat := value (rev (map b (seq 0 n))).
Lemma levalue_S n b : levalue (S n) b = (if b n then 2 ^ n else 0) + levalue n b.
Proof. unfold levalue. rewrite seq_S, map_app, rev_app_distr. cbn [map rev app plus value]. now rewrite rev_length, map_length, seq_length. Qed.
Lemma pow2_neq n : (2 ^ n <> 0)%R. Proof. apply pow_nonzero. lra. Qed.
Lemma INR_pow2 n : INR (2 ^ n) = (2 ^ n)%R. Proof. rewrite pow_INR. auto. Qed.
Lemma ph_value n b : ph n b = (PI * INR (levalue n b) / 2 ^ n)%R.
Proof.
  induction n as [|n IH]; [cbn; field|]. rewrite levalue_S. cbn [ph]. rewrite IH, plus_INR. cbn [pow]. pose proof (pow2_neq n).
  destruct (b n); rewrite ?INR_pow2; cbn [INR]; field; auto.
Qed.
Lemma twice_value n x b : length x = n -> Cexp (twice n x b) = Cexp (2 * PI * (INR (levalue n b) * INR (value x)) / 2 ^ n).
Proof.
  revert x. induction n as [|n IH]; intros x L.
  - destruct x; [|discriminate]. cbn. f_equal. field.
  - destruct (exists_last (l := x) ltac:(intros ->; discriminate)) as (y & v & ->). rewrite app_length in L. cbn in L.
    rewrite twice_snoc by lia. rewrite Cexp_add, IH by lia. rewrite <- Cexp_add, value_snoc, levalue_S, ph_value, levalue_S.
    pose proof (pow2_neq n). rewrite !plus_INR, mult_INR. change (INR 2) with 2%R. cbn [pow].
    set (X := INR (value y)). set (Y := INR (levalue n b)).
    destruct (b n).
    + rewrite INR_pow2, <- (Cexp_2PI_nat (value y)). fold X. f_equal. destruct v; cbn [INR]; field; auto.
    + f_equal. destruct v; cbn [INR]; field; auto.
Qed.
Lemma sq2_pow n : (sq2 ^ n = / sqrt (2 ^ n))%R.
Proof.
  unfold sq2. induction n as [|n IH]; cbn [pow]; [now rewrite sqrt_1, Rinv_1|]. rewrite IH, sqrt_mult_alt, Rinv_mult by lra. auto.
Qed.
Definition rdft (n : nat) : mat := fun r c => dft n (rev r) c.
Lemma stages_dft n psi : stages n psi = apply (rdft n) (seq 0 n) psi.
Proof.
  apply functional_extensionality. intros b. unfold stages, apply. rewrite seq_length. apply csum_ext. intros x X. apply allb_In in X.
  rewrite twice_value by auto. unfold rdft, dft, levalue. rewrite sq2_pow. auto.
Qed.

(** ** Reversing the order of the qubits *)
Definition revb (n : nat) (b : bits) : bits := fun q => if q <? n then b (n - 1 - q) else b q.
Definition revk (n k : nat) (b : bits) : bits := fun q => if (q <? n) && ((q <? k) || (n - 1 - q <? k)) then b (n - 1 - q) else b q.
Lemma fold_swaps n k psi : 2 * k <= n -> fold_left (fun p i => swst i (n - 1 - i) p) (seq 0 k) psi = fun b => psi (revk n k b).
Proof.
  induction k as [|k IH]; intros H.
  - cbn. apply functional_extensionality. intros b. f_equal. apply functional_extensionality. intros q. unfold revk.
    rewrite (proj2 (Nat.ltb_ge q 0)), (proj2 (Nat.ltb_ge (n - 1 - q) 0)) by lia. now rewrite andb_false_r.
  - rewrite seq_S, fold_left_app, IH by lia. cbn [fold_left plus]. apply functional_extensionality. intros b. unfold swst. f_equal.
    apply functional_extensionality. intros q. unfold revk, setb.
    destruct (Nat.ltb_spec q n), (Nat.ltb_spec q k), (Nat.ltb_spec (n - 1 - q) k), (Nat.ltb_spec q (S k)), (Nat.ltb_spec (n - 1 - q) (S k));
    cbn [andb orb]; try lia; repeat match goal with |- context [?a =? ?b] => destruct (Nat.eqb_spec a b); try lia end; auto; f_equal; lia.
Qed.
Lemma revk_half n b : revk n (n / 2) b = revb n b.
Proof.
  apply functional_extensionality. intros q. unfold revk, revb. pose proof (Nat.div_mod n 2 ltac:(lia)). pose proof (Nat.mod_upper_bound n 2 ltac:(lia)).
  destruct (Nat.ltb_spec q n); cbn [andb]; auto. destruct (Nat.ltb_spec q (n / 2)), (Nat.ltb_spec (n - 1 - q) (n / 2)); cbn [orb]; auto. f_equal. lia.
Qed.
Lemma acts_swaps n : acts (qft_swaps n) (fun psi b => psi (revb n b)).
Proof.
  unfold qft_swaps. rewrite range_0. pose proof (Nat.div_mod n 2 ltac:(lia)). eapply acts_ext.
  { apply (acts_map _ (fun i => swst i (n - 1 - i))). intros i I. apply in_seq in I. apply acts_swap. lia. }
  intros psi. cbv beta. rewrite fold_swaps by lia. apply functional_extensionality. intros b. now rewrite revk_half.
Qed.
Lemma map_revb n b : map (revb n b) (seq 0 n) = rev (map b (seq 0 n)).
Proof.
  apply nth_ext with (d := false) (d' := false); [now rewrite rev_length, !map_length|].
  intros i I. rewrite map_length, seq_length in I. rewrite rev_nth by (rewrite map_length, seq_length; auto). rewrite map_length, seq_length.
  rewrite !(nth_indep _ false (revb n b 0)) by (rewrite map_length, seq_length; lia). rewrite map_nth, seq_nth by auto.
  rewrite (nth_indep _ (revb n b 0) (b 0)) by (rewrite map_length, seq_length; lia). rewrite map_nth, seq_nth by lia.
  unfold revb. cbn [plus]. rewrite (proj2 (Nat.ltb_lt i n)) by auto. f_equal. lia.
Qed.
Lemma setl_all_ext (b c : bits) n x : length x = n -> (forall q, n <= q -> b q = c q) -> setl b (seq 0 n) x = setl c (seq 0 n) x.
Proof.
  intros L H. apply functional_extensionality. intros q. destruct (le_lt_dec n q) as [G|G].
  - rewrite !setl_other by (rewrite in_seq; lia). auto.
  - assert (E : map (setl b (seq 0 n) x) (seq 0 n) = map (setl c (seq 0 n) x) (seq 0 n)) by (rewrite !setl_map; auto using seq_NoDup; rewrite seq_length; auto).
    assert (F : forall f : bits, nth q (map f (seq 0 n)) (f 0) = f q) by (intros f; rewrite map_nth, seq_nth by auto; auto).
    rewrite <- (F (setl b (seq 0 n) x)), <- (F (setl c (seq 0 n) x)), E. apply nth_indep. rewrite map_length, seq_length. auto.
Qed.
Lemma rdft_revb n psi b : apply (rdft n) (seq 0 n) psi (revb n b) = apply (dft n) (seq 0 n) psi b.
Proof.
  unfold apply. rewrite seq_length. apply csum_ext. intros x X. apply allb_In in X. rewrite map_revb. unfold rdft. rewrite rev_involutive.
  rewrite (setl_all_ext (revb n b) b); auto. intros q Q. unfold revb. now rewrite (proj2 (Nat.ltb_ge q n)).
Qed.

Lemma qft_run n psi m : run_qc (createQFT n false) (psi, m) = [(apply (dft n) (seq 0 n) psi, m)].
Proof.
  assert (A : acts (qft_core n ++ qft_swaps n) (apply (dft n) (seq 0 n))).
  { eapply acts_ext; [apply acts_app; [apply acts_core|apply acts_swaps]|]. intros phi. cbv beta. apply functional_extensionality. intros b.
    rewrite stages_dft. apply rdft_revb. }
  unfold createQFT. destruct (Nat.eqb_spec n 0) as [->|N].
  - unfold run_qc, plain_qc. cbn [qc_ops qc_phase run map fst snd]. rewrite Cexp_0, sscal_C1.
    exact (A psi m).
  - unfold run_qc. cbn [qc_ops qc_phase]. rewrite A. cbn [map fst snd]. now rewrite Cexp_0, sscal_C1.
Qed.
