From Coq Require Import Reals Lra List Bool Arith Lia.
From Verif Require Import Cplx Qsem DDModel DDSpec DDProofs TravModel TravSpec TravProofs FidModel FidSpec.
Import ListNotations.
Local Open Scope R_scope.

Lemma Cmod_0 : Cmod C0 = 0.
Proof. now apply Cmod_zero. Qed.
Lemma Rsum_app l1 l2 : Rsum (l1 ++ l2) = Rsum l1 + Rsum l2.
Proof. unfold Rsum. induction l1 as [|x l IH]; cbn [app fold_right]; [lra|]. rewrite IH. lra. Qed.
Lemma Rsum_scal {A} a (f : A -> R) l : Rsum (map (fun i => a * f i) l) = a * Rsum (map f l).
Proof. induction l as [|x l IH]; cbn; [ring|]. unfold Rsum in IH. rewrite IH. ring. Qed.
Lemma Rsum_ext {A} (f g : A -> R) l : (forall i, In i l -> f i = g i) -> Rsum (map f l) = Rsum (map g l).
Proof. intros H. f_equal. now apply map_ext_in. Qed.
Lemma Rsum_zero {A} (f : A -> R) l : (forall i, In i l -> f i = 0) -> Rsum (map f l) = 0.
Proof. induction l as [|x l IH]; intros H; cbn; [reflexivity|]. unfold Rsum in IH. rewrite H by now left. rewrite IH; [ring|]. intros i I. apply H. now right. Qed.
Lemma Rsum_plus {A} (f g : A -> R) l : Rsum (map (fun i => f i + g i) l) = Rsum (map f l) + Rsum (map g l).
Proof. induction l as [|x l IH]; cbn; [ring|]. unfold Rsum in IH. rewrite IH. ring. Qed.
Lemma Rsum_nonneg {A} (f : A -> R) l : (forall i, In i l -> 0 <= f i) -> 0 <= Rsum (map f l).
Proof. induction l as [|x l IH]; intros H; cbn; [lra|]. unfold Rsum in IH. pose proof (H x (or_introl eq_refl)). specialize (IH (fun i I => H i (or_intror I))). lra. Qed.
Lemma Rsum_all0 {A} (f : A -> R) l : (forall i, In i l -> 0 <= f i) -> Rsum (map f l) = 0 -> forall i, In i l -> f i = 0.
Proof.
  induction l as [|x l IH]; intros H E i I; [destruct I|]. cbn in E. fold (Rsum (map f l)) in E.
  pose proof (H x (or_introl eq_refl)). pose proof (Rsum_nonneg f l (fun i I => H i (or_intror I))).
  destruct I as [<-|I]; [lra|]. apply IH; auto; [intros; apply H; now right|lra].
Qed.

Lemma seq_halves d h : seq (2 ^ S d * h) (2 ^ S d) = seq (2 ^ d * (2 * h)) (2 ^ d) ++ seq (2 ^ d * (2 * h + 1)) (2 ^ d).
Proof.
  replace (2 ^ S d)%nat with (2 ^ d + 2 ^ d)%nat by (cbn; lia). rewrite seq_app. f_equal; f_equal; lia.
Qed.
Lemma in_block d h k : In k (seq (2 ^ d * h) (2 ^ d)) <-> (k / 2 ^ d = h)%nat.
Proof.
  rewrite in_seq. assert (P : (2 ^ d <> 0)%nat) by (apply Nat.pow_nonzero; lia). split.
  - intros H. symmetry. apply (Nat.div_unique k (2 ^ d) h (k - 2 ^ d * h)); lia.
  - intros <-. pose proof (Nat.div_mod k (2 ^ d) P). pose proof (Nat.mod_upper_bound k (2 ^ d) P). lia.
Qed.

Section Sum.
Variables (key : nat -> option nat) (g : nat -> nat) (probs : list (nat * R)).
Definition term (a : C) (i : nat) : R := Cmod a * sqrt (prob probs (g i)).

Lemma rec_sum : forall t n w h, vcan n w t -> w <> C0 -> (forall i, (i / 2 ^ n = h)%nat -> key i = Some (g i)) ->
  fidRec key probs t w (2 ^ n * h) = Some (Rsum (map (fun i => term (w * vden t (Nat.testbit i)) i) (seq (2 ^ n * h) (2 ^ n)))).
Proof.
  induction t as [|q ws s IH]; intros n w h H W K; cbn [fidRec vden].
  - destruct H as [-> | ->]; [|congruence]. rewrite Nat.pow_0_r, Nat.mul_1_l. rewrite K by now rewrite Nat.pow_0_r, Nat.div_1_r.
    cbn [seq map Rsum fold_right]. unfold term, prob. replace (w * C1)%C with w by ring.
    destruct (look Nat.eq_dec (g h) probs); f_equal; [ring|rewrite sqrt_0; ring].
  - destruct H as (_ & -> & _ & Kc). rewrite idx_right, seq_halves, map_app, Rsum_app, idx_left.
    assert (B : forall b i, In i (seq (2 ^ q * (2 * h + Nat.b2n b)) (2 ^ q)) -> Nat.testbit i q = b /\ (i / 2 ^ S q = h)%nat).
    { intros b i I. apply in_block in I. apply idx_split in I. tauto. }
    assert (Half : forall b, (if ezero (ws b) then Some 0 else fidRec key probs (s b) (ws b) (2 ^ q * (2 * h + Nat.b2n b))) =
      Some (Rsum (map (fun i => term (ws b * vden (s b) (Nat.testbit i)) i) (seq (2 ^ q * (2 * h + Nat.b2n b)) (2 ^ q))))).
    { intros b. unfold ezero. destruct (Ceq_dec (ws b) C0) as [Z|Z].
      - f_equal. symmetry. apply Rsum_zero. intros i _. unfold term. rewrite Z. replace (C0 * _)%C with C0 by ring.
        rewrite Cmod_0. ring.
      - apply IH; auto. intros i I. apply K. apply idx_split in I. tauto. }
    pose proof (Half false) as L. pose proof (Half true) as R. cbn [Nat.b2n] in L, R. rewrite Nat.add_0_r in L. rewrite L, R. f_equal.
    rewrite Rmult_plus_distr_l. f_equal.
    + rewrite <- Rsum_scal. apply Rsum_ext. intros i I. pose proof (B false i) as [T _]; [cbn [Nat.b2n]; now rewrite Nat.add_0_r|].
      rewrite T. unfold term. rewrite !Cmod_mul. ring.
    + rewrite <- Rsum_scal. apply Rsum_ext. intros i I. pose proof (B true i I) as [T _].
      rewrite T. unfold term. rewrite !Cmod_mul. ring.
Qed.
End Sum.

Lemma vvar_top n e : vcanon (S n) e -> fst e <> C0 -> vvar (snd e) = n.
Proof. unfold vcanon. destruct e as [w [|q ws s]]; cbn; intros H W; [destruct H; congruence|]. destruct H as (_ & E & _). lia. Qed.
Lemma fid_sum n e probs perm g : vcanon (S n) e -> (forall i, (i < 2 ^ S n)%nat -> outcomeKey (S n) perm i = Some (g i)) ->
  fidelityOfMeasurementOutcomes e probs perm = Some (sumBelow (2 ^ S n) (fun i => Cmod (ventry e i) * sqrt (prob probs (g i)))).
Proof.
  intros H K. unfold fidelityOfMeasurementOutcomes, ezero. destruct (Ceq_dec (fst e) C0) as [Z|Z].
  - f_equal. symmetry. apply Rsum_zero. intros i _. unfold ventry, veden. rewrite Z. replace (C0 * _)%C with C0 by ring. rewrite Cmod_0. ring.
  - rewrite (vvar_top n e H Z). pose proof (rec_sum (outcomeKey (S n) perm) g probs (snd e) (S n) (fst e) 0 H Z) as R.
    rewrite Nat.mul_0_r in R. rewrite R; [reflexivity|]. intros i I. apply K. now apply idx_top in I.
Qed.

(** Distances *)
Lemma overlap m (a p : nat -> R) : (forall i, (i < m)%nat -> 0 <= a i) -> (forall i, (i < m)%nat -> 0 <= p i) ->
  sumBelow m (fun i => a i * a i) = 1 -> sumBelow m p = 1 ->
  sumBelow m (fun i => a i * sqrt (p i)) <= 1 /\
  (sumBelow m (fun i => a i * sqrt (p i)) = 1 <-> forall i, (i < m)%nat -> p i = a i * a i).
Proof.
  intros Ha Hp Sa Sp. unfold sumBelow in *.
  assert (I : forall i, In i (seq 0 m) <-> (i < m)%nat) by (intros i; rewrite in_seq; lia).
  assert (E : Rsum (map (fun i => (a i - sqrt (p i)) * (a i - sqrt (p i))) (seq 0 m)) = 2 - 2 * Rsum (map (fun i => a i * sqrt (p i)) (seq 0 m))).
  { rewrite (Rsum_ext _ (fun i => (a i * a i + p i) + (-2) * (a i * sqrt (p i)))).
    - rewrite Rsum_plus, Rsum_scal, Rsum_plus, Sa, Sp. ring.
    - intros i J. apply I in J. pose proof (sqrt_sqrt (p i) (Hp i J)). nra. }
  pose proof (Rsum_nonneg (fun i => (a i - sqrt (p i)) * (a i - sqrt (p i))) (seq 0 m) (fun i _ => Rle_0_sqr (a i - sqrt (p i)))) as N. split; [lra|]. split.
  - intros O i J. assert (Z : (a i - sqrt (p i)) * (a i - sqrt (p i)) = 0).
    { apply (Rsum_all0 (fun i => (a i - sqrt (p i)) * (a i - sqrt (p i))) (seq 0 m)); [intros k _; apply Rle_0_sqr|lra|now apply I]. }
    assert (D : a i = sqrt (p i)) by nra. rewrite D. symmetry. apply sqrt_sqrt. auto.
  - intros O. rewrite <- Sa. apply Rsum_ext. intros i J. apply I in J. rewrite (O i J), sqrt_square by auto. reflexivity.
Qed.

(** Keys *)
Lemma stoull_snoc s b : stoull2 (s ++ [b]) = (2 * stoull2 s + Nat.b2n b)%nat.
Proof. unfold stoull2. rewrite fold_left_app. reflexivity. Qed.
Lemma stoull_bit : forall s j, (j < length s)%nat -> Nat.testbit (stoull2 s) j = nth (length s - 1 - j) s false.
Proof.
  induction s as [|b s IH] using rev_ind; intros j H; [cbn in H; lia|]. rewrite stoull_snoc. rewrite app_length in *. cbn [length] in *.
  destruct j as [|j].
  - replace (length s + 1 - 1 - 0)%nat with (length s) by lia. rewrite app_nth2, Nat.sub_diag by lia. cbn [nth].
    destruct b; cbn [Nat.b2n]; [apply Nat.testbit_odd_0|rewrite Nat.add_0_r; apply Nat.testbit_even_0].
  - replace (length s + 1 - 1 - S j)%nat with (length s - 1 - j)%nat by lia. rewrite app_nth1 by lia. rewrite <- IH by lia.
    destruct b; cbn [Nat.b2n]; [apply Nat.testbit_odd_succ'|rewrite Nat.add_0_r; apply Nat.testbit_even_succ'].
Qed.
Lemma stoull_bound s : (stoull2 s < 2 ^ length s)%nat.
Proof.
  induction s as [|b s IH] using rev_ind; [cbn; lia|]. rewrite stoull_snoc, app_length. cbn [length]. rewrite Nat.add_1_r, Nat.pow_succ_r'.
  destruct b; cbn [Nat.b2n]; lia.
Qed.
Lemma bin_nth i n p : (p < n)%nat -> nth_error (intToBinaryString i n) p = Some (Nat.testbit i (n - 1 - p)).
Proof.
  intros H. unfold intToBinaryString. rewrite <- (rev_involutive (map _ _)) at 1.
  rewrite (nth_error_nth' _ false); [|rewrite !rev_length, map_length, seq_length; exact H]. f_equal.
  rewrite rev_involutive, rev_nth by (rewrite map_length, seq_length; exact H). rewrite map_length, seq_length.
  rewrite (nth_indep _ false (Nat.testbit i 0)) by (rewrite map_length, seq_length; lia). rewrite map_nth, seq_nth by lia. f_equal. lia.
Qed.
Lemma filter_ok bin : forall perm s, (forall p l, In (p, l) perm -> (p < length bin)%nat /\ (l < length s)%nat) -> NoDup (map snd perm) ->
  exists s', filterString bin perm s = Some s' /\ length s' = length s /\
    (forall p l, In (p, l) perm -> nth l s' false = nth p bin false) /\ forall l, ~ In l (map snd perm) -> nth l s' false = nth l s false.
Proof.
  induction perm as [|[p l] r IH]; intros s B N; cbn [filterString].
  - exists s. repeat split; auto. intros p l [].
  - destruct (B p l (or_introl eq_refl)) as [B1 B2]. rewrite (nth_error_nth' bin false B1).
    destruct (set_at_ok s l (nth p bin false) B2) as (s1 & -> & L1 & N1). cbn [map snd] in N. inversion N as [|? ? Q1 Q2]; subst.
    destruct (IH s1) as (s' & E & L & F & G); [intros p' l' I; rewrite L1; apply B; now right|exact Q2|].
    exists s'. split; [exact E|]. split; [lia|]. split.
    + intros p' l' [I|I]; [injection I as <- <-|now apply F]. rewrite G by exact Q1. rewrite N1, Nat.eqb_refl. reflexivity.
    + intros l' Hn. cbn [map snd In] in Hn. rewrite G by tauto. rewrite N1. destruct (Nat.eqb_spec l' l); [subst; tauto|reflexivity].
Qed.
Lemma bin_length i n : length (intToBinaryString i n) = n.
Proof. unfold intToBinaryString. now rewrite rev_length, map_length, seq_length. Qed.
(** What the key is: both sides are counted from the other end *)
Lemma key_spec n perm i : perm <> [] -> (forall p l, In (p, l) perm -> (p < n)%nat /\ (l < length perm)%nat) -> NoDup (map snd perm) ->
  exists j, outcomeKey n perm i = Some j /\ (j < 2 ^ length perm)%nat /\
    forall p l, In (p, l) perm -> Nat.testbit j (length perm - 1 - l) = Nat.testbit i (n - 1 - p).
Proof.
  intros E B N. unfold outcomeKey.
  destruct (filter_ok (intToBinaryString i n) perm (repeat false (length perm))) as (s & F & L & G & _);
    [intros p l I; rewrite bin_length, repeat_length; now apply B|exact N|].
  rewrite repeat_length in L. rewrite F. exists (stoull2 s). split; [destruct perm; [congruence|reflexivity]|].
  split; [rewrite <- L; apply stoull_bound|]. intros p l I. destruct (B p l I) as [B1 B2].
  rewrite stoull_bit by lia. rewrite L. replace (length perm - 1 - (length perm - 1 - l))%nat with l by lia.
  rewrite (G p l I). pose proof (bin_nth i n p B1) as Q. now apply nth_error_nth with (d := false) in Q.
Qed.
Lemma full_onto n perm l : full n perm -> (l < n)%nat -> exists p, In (p, l) perm.
Proof.
  intros (L & _ & N & B) H. assert (I : In l (map snd perm)).
  { apply (NoDup_length_incl N (l' := seq 0 n)); [rewrite seq_length, map_length; lia| |apply in_seq; lia].
    intros x I. apply in_map_iff in I as ([p x'] & <- & I). apply in_seq. cbn. destruct (B _ _ I). lia. }
  apply in_map_iff in I as ([p l'] & <- & I). now exists p.
Qed.
Lemma bits_eq n i j : (i < 2 ^ n)%nat -> (j < 2 ^ n)%nat -> (forall k, (k < n)%nat -> Nat.testbit i k = Nat.testbit j k) -> i = j.
Proof.
  intros Hi Hj H. apply Nat.bits_inj. intros k. destruct (Nat.lt_ge_cases k n) as [L|L]; [auto|].
  assert (Z : forall x, (x < 2 ^ n)%nat -> Nat.testbit x k = false).
  { intros x Hx. destruct (Nat.eq_dec x 0) as [->|]; [apply Nat.bits_0|]. apply Nat.bits_above_log2. apply Nat.log2_lt_pow2; [lia|].
    eapply Nat.lt_le_trans; [exact Hx|]. apply Nat.pow_le_mono_r; lia. }
  now rewrite !Z.
Qed.
(** Permutations that look the same from both ends *)
Lemma key_mirror n perm i j : (0 < n)%nat -> full n perm -> (forall p l, In (p, l) perm -> In (n - 1 - p, n - 1 - l)%nat perm) ->
  (j < 2 ^ n)%nat -> outcome_of perm i j -> outcomeKey n perm i = Some j.
Proof.
  intros Hn F M Hj O. pose proof F as (L & _ & N & B).
  destruct (key_spec n perm i) as (j' & E & Hj' & K); [intros ->; cbn in L; lia|intros p l I; rewrite L; now apply B|exact N|].
  rewrite E. f_equal. rewrite L in *. apply (bits_eq n); auto. intros k Hk.
  destruct (full_onto n perm k F Hk) as [p I]. destruct (B _ _ I) as [B1 _]. pose proof (M _ _ I) as I'.
  pose proof (K _ _ I') as K'. replace (n - 1 - (n - 1 - k))%nat with k in K' by lia. replace (n - 1 - (n - 1 - p))%nat with p in K' by lia.
  rewrite K'. symmetry. apply (O _ _ I).
Qed.
