(* PiRational arithmetic: C56. *)
From Coq Require Import QArith ZArith Bool List Lia Lqa.
From Verif Require Import PiModel.
Local Open Scope Q_scope.

(* values in (-1, 1], in lowest terms *)
Definition in_range (x : Q) : Prop := - (1) < x /\ x <= 1.
Definition reduced (x : Q) : Prop := Qred x = x.
(* equal up to a multiple of 2 *)
Definition mod2 (x y : Q) : Prop := exists k : Z, x == y + 2 * inject_Z k.

Lemma qltb_true x y : qltb x y = true <-> x < y.
Proof.
  unfold qltb. rewrite negb_true_iff. split; intros H.
  - apply Qnot_le_lt. intros L. apply Qle_bool_iff in L. congruence.
  - destruct (Qle_bool y x) eqn:E; auto. apply Qle_bool_iff in E. apply Qle_not_lt in E. tauto.
Qed.
Lemma qltb_false x y : qltb x y = false <-> y <= x.
Proof. unfold qltb. rewrite negb_false_iff. apply Qle_bool_iff. Qed.
Lemma Qred_inv x : Qred (Qred x) = Qred x.
Proof. apply Qred_complete, Qred_correct. Qed.
Lemma modPi_red x : reduced (modPi x).
Proof. unfold modPi, reduced. destruct (qltb 1 x); [apply Qred_inv|]. destruct Qle_bool; apply Qred_inv. Qed.
(* What a single correction can do: the value always stays the same modulo 2, and it is brought into the range
   exactly when it was in (-3, 3]. *)
Theorem C56_modPi : forall x, reduced (modPi x) /\ mod2 (modPi x) x /\ (in_range (modPi x) <-> - (3) < x /\ x <= 3).
Proof.
  intros x. split; [apply modPi_red|]. unfold modPi, in_range, mod2. destruct (qltb 1 x) eqn:A.
  - apply qltb_true in A. split; [exists (-1)%Z; rewrite Qred_correct; change (inject_Z (-1)) with (- (1)); ring|]. rewrite Qred_correct. lra.
  - apply qltb_false in A. destruct (Qle_bool x (- (1))) eqn:B.
    + apply Qle_bool_iff in B. split; [exists 1%Z; rewrite Qred_correct; change (inject_Z 1) with 1; ring|]. rewrite Qred_correct. lra.
    + assert (~ x <= - (1)). { intros L. apply Qle_bool_iff in L. congruence. }
      split; [exists 0%Z; rewrite Qred_correct; change (inject_Z 0) with 0; ring|]. rewrite Qred_correct. lra.
Qed.
Print Assumptions C56_modPi.

Lemma mul_range x y : in_range x -> in_range y -> - (1) <= x * y /\ x * y <= 1.
Proof. unfold in_range. intros [A B] [D E]. nra. Qed.
(* addition, subtraction, negation and multiplication of two PiRationals *)
Theorem C56_field_ops_partial : forall x y, in_range x -> in_range y ->
  (in_range (pi_add x y) /\ mod2 (pi_add x y) (x + y)) /\ (in_range (pi_sub x y) /\ mod2 (pi_sub x y) (x - y)) /\
  (in_range (pi_neg x) /\ mod2 (pi_neg x) (- x)) /\ (in_range (pi_mul x y) /\ mod2 (pi_mul x y) (x * y)).
Proof.
  intros x y X Y. pose proof (mul_range x y X Y) as M. unfold in_range in X, Y. unfold pi_add, pi_sub, pi_neg, pi_mul.
  split; [|split; [|split]]; (split; [apply C56_modPi|try apply C56_modPi]); try lra.
  - rewrite Qred_correct. lra.
  - destruct (C56_modPi (- Qred x)) as (_ & (k & K) & _). exists k. rewrite K, Qred_correct. reflexivity.
Qed.
Print Assumptions C56_field_ops_partial.
Lemma inj_le a b : (a <= b)%Z -> inject_Z a <= inject_Z b.
Proof. rewrite <- Zle_Qle. auto. Qed.
(* with integers: exact modulo 2 always, in range for small integers *)
Theorem C56_integer_ops_partial : forall x n, in_range x ->
  mod2 (pi_addz x n) (x + inject_Z n) /\ ((-2 <= n <= 2)%Z -> in_range (pi_addz x n)) /\
  mod2 (pi_subz x n) (x - inject_Z n) /\ ((-2 <= n <= 2)%Z -> in_range (pi_subz x n)) /\
  mod2 (pi_mulz x n) (x * inject_Z n) /\ ((-2 <= n <= 3)%Z -> in_range (pi_mulz x n)) /\
  ((n <> 0)%Z -> exists r, pi_divz x n = Some r /\ in_range r /\ mod2 r (x / inject_Z n)).
Proof.
  intros x n X. unfold in_range in X. unfold pi_addz, pi_subz, pi_mulz, pi_divz.
  assert (B : forall k, (-2 <= n <= k)%Z -> - (2) <= inject_Z n /\ inject_Z n <= inject_Z k).
  { intros k N. split; [change (- (2)) with (inject_Z (-2))|]; apply inj_le; lia. }
  split; [apply C56_modPi|]. split; [intros N; apply C56_modPi; apply B in N; change (inject_Z 2) with 2 in N; lra|].
  split; [apply C56_modPi|]. split; [intros N; apply C56_modPi; apply B in N; change (inject_Z 2) with 2 in N; lra|].
  split; [apply C56_modPi|]. split; [intros N; apply C56_modPi; apply B in N; change (inject_Z 3) with 3 in N; nra|].
  intros N. destruct (Z.eqb_spec n 0) as [|_]; [contradiction|]. eexists. split; [reflexivity|]. split; [|apply C56_modPi].
  apply C56_modPi. assert (N0 : ~ inject_Z n == 0). { intros E. apply N. unfold Qeq in E. cbn in E. lia. }
  set (q := x / inject_Z n). assert (E : q * inject_Z n == x) by (unfold q; field; exact N0).
  assert (L : (1 <= n \/ n <= -1)%Z) by lia. destruct L as [L|L]; apply inj_le in L.
  - change (inject_Z 1) with 1 in L. split; nra.
  - change (inject_Z (-1)) with (- (1)) in L. split; nra.
Qed.
Print Assumptions C56_integer_ops_partial.
(* division of two PiRationals: whenever the quotient is at most 3 *)
Theorem C56_division_partial : forall x y, ~ y == 0 -> exists r, pi_div x y = Some r /\ mod2 r (x / y) /\ (in_range r <-> - (3) < x / y /\ x / y <= 3).
Proof.
  intros x y Y. unfold pi_div. destruct (Qeq_bool y 0) eqn:E; [apply Qeq_bool_iff in E; contradiction|]. eexists. split; [reflexivity|]. apply C56_modPi.
Qed.
Print Assumptions C56_division_partial.
(* the order and the predicates agree with the exact values *)
Theorem C56_comparisons : forall x y, reduced x -> reduced y ->
  (pi_ltb x y = true <-> x < y) /\ (pi_leb x y = true <-> x <= y) /\ (pi_eqb x y = true <-> x == y) /\ (pi_isZero x = true <-> x == 0) /\
  (pi_isInteger x = true <-> exists k, x == inject_Z k).
Proof.
  intros x y X Y. unfold pi_ltb, pi_leb, pi_eqb, pi_isZero, pi_isInteger, Qlt, Qle.
  split; [apply Z.ltb_lt|]. split; [apply Z.leb_le|]. split; [|split].
  - split.
    + intros H. apply andb_true_iff in H as [A B]. apply Z.eqb_eq in A. apply Pos.eqb_eq in B. unfold Qeq. now rewrite A, B.
    + intros H. apply Qred_complete in H. rewrite X, Y in H. subst y. now rewrite Z.eqb_refl, Pos.eqb_refl.
  - rewrite Z.eqb_eq. unfold Qeq. cbn. lia.
  - split.
    + intros H. apply Pos.eqb_eq in H. exists (Qnum x). destruct x as [n d]. cbn in *. now subst d.
    + intros (k & H). apply Qred_complete in H. rewrite X in H. rewrite H.
      assert (R : Qred (inject_Z k) = inject_Z k).
      { unfold inject_Z, Qred. pose proof (Z.ggcd_gcd k 1) as G. pose proof (Z.ggcd_correct_divisors k 1) as Dv. destruct (Z.ggcd k 1) as [g [a b]]. cbn in G.
        rewrite Z.gcd_1_r in G. subst g. destruct Dv as [-> Hb]. replace b with 1%Z by lia. cbn. f_equal. destruct a; reflexivity. }
      now rewrite R.
Qed.
Print Assumptions C56_comparisons.

(* ---- Refutations ----------------------------------------------------------------------------------------------- *)
Theorem C56_constructor_refuted : exists n, ~ in_range (mkPiInt n).
Proof. exists 5%Z. intros [_ H]. vm_compute in H. now apply H. Qed.
Print Assumptions C56_constructor_refuted.
Theorem C56_multiplication_range_refuted : exists x n, in_range x /\ ~ in_range (pi_mulz x n).
Proof. exists (1 # 2), 10%Z. split; [split; now vm_compute|]. intros [_ H]. vm_compute in H. now apply H. Qed.
Print Assumptions C56_multiplication_range_refuted.
Theorem C56_division_range_refuted : exists x y r, in_range x /\ in_range y /\ pi_div x y = Some r /\ ~ in_range r.
Proof. exists 1, (1 # 4), 2. split; [split; now vm_compute|]. split; [split; now vm_compute|]. split; [reflexivity|]. intros [_ H]. vm_compute in H. now apply H. Qed.
Print Assumptions C56_division_range_refuted.
(* an integer minus a PiRational computes the opposite difference *)
Theorem C56_left_subtraction_refuted : exists n x, in_range x /\ ~ mod2 (z_sub_pi n x) (inject_Z n - x).
Proof.
  exists 1%Z, (1 # 4). split; [split; now vm_compute|]. intros (k & H). change (z_sub_pi 1 (1 # 4)) with (- 3 # 4) in H.
  assert (E : inject_Z (4 * k) == inject_Z (-3)). { rewrite inject_Z_mult. change (inject_Z 4) with 4. change (inject_Z (-3)) with (- (3)). change (inject_Z 1) with 1 in H. lra. }
  apply (proj1 (inject_Z_injective _ _)) in E. lia.
Qed.
Print Assumptions C56_left_subtraction_refuted.
(* an integer divided by a PiRational computes the reciprocal quotient *)
Theorem C56_left_division_refuted : exists n x r, in_range x /\ z_div_pi n x = Some r /\ ~ mod2 r (inject_Z n / x).
Proof.
  exists 1%Z, (1 # 2), (1 # 2). split; [split; now vm_compute|]. split; [reflexivity|]. intros (k & H). change (inject_Z 1 / (1 # 2)) with (2 # 1) in H.
  assert (E : inject_Z (4 * k) == inject_Z (-3)). { rewrite inject_Z_mult. change (inject_Z 4) with 4. change (inject_Z (-3)) with (- (3)). lra. }
  apply (proj1 (inject_Z_injective _ _)) in E. lia.
Qed.
Print Assumptions C56_left_division_refuted.

(* Example: 3/4 + 1/2 wraps round to -3/4, and 1 is its own negative. *)
Example wraps : pi_add (3 # 4) (1 # 2) = - 3 # 4 /\ pi_neg 1 = 1 /\ pi_sub (- 3 # 4) (3 # 4) = 1 # 2.
Proof. repeat split. Qed.
