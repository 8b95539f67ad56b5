(* Values of phases. *)
From Coq Require Import Reals QArith Qreals ZArith Bool List Arith Lia Lra.
From Verif Require Import Cplx Qsem PiModel PiProps ZXModel ZXSpec.
Import ListNotations.
Local Close Scope Q_scope.
Local Open Scope nat_scope.

Section Phases.
Variable rho : nat -> R.
Definition sval (s : list (nat * Q)) : R := fold_right (fun t acc => Q2R (snd t) * rho (fst t) + acc)%R 0%R s.
Lemma Q2R_red q : Q2R (Qred q) = Q2R q.
Proof. apply Qeq_eqR, Qred_correct. Qed.
Lemma Q2R_zero q : Qeq_bool q 0 = true -> Q2R q = 0%R.
Proof. intros H. apply Qeq_bool_iff in H. rewrite (Qeq_eqR _ _ H). unfold Q2R. cbn. lra. Qed.
Lemma sval_add v k s : sval (s_add v k s) = (Q2R k * rho v + sval s)%R.
Proof.
  induction s as [|[w l] s IH]; cbn [s_add sval fold_right fst snd].
  - destruct (Qeq_bool k 0) eqn:E; cbn; rewrite ?Q2R_red; [rewrite (Q2R_zero _ E)|]; lra.
  - destruct (Nat.eqb_spec v w) as [->|].
    + cbn zeta. destruct (Qeq_bool (Qred (k + l)) 0) eqn:E; cbn [fold_right fst snd].
      * apply Q2R_zero in E. rewrite Q2R_red, Q2R_plus in E. fold (sval s). replace (Q2R k) with (- Q2R l)%R by lra. lra.
      * rewrite Q2R_red, Q2R_plus. lra.
    + destruct (v <? w).
      * destruct (Qeq_bool k 0) eqn:E; cbn [fold_right fst snd]; rewrite ?Q2R_red; [rewrite (Q2R_zero _ E)|]; lra.
      * cbn [fold_right fst snd]. fold (sval (s_add v k s)) (sval s). rewrite IH. lra.
Qed.
Lemma sval_fold t s : sval (fold_left (fun s t => s_add (fst t) (snd t) s) t s) = (sval s + sval t)%R.
Proof. revert s. induction t as [|a t IH]; intros s; cbn [fold_left]; [cbn; lra|]. rewrite IH, sval_add. cbn. fold (sval t). lra. Qed.
Lemma sval_neg s : sval (map (fun t => (fst t, (- snd t)%Q)) s) = (- sval s)%R.
Proof. induction s; cbn; [lra|]. fold (sval s) (sval (map (fun t => (fst t, (- snd t)%Q)) s)). rewrite IHs, Q2R_opp. lra. Qed.
Lemma pval_eq p : pval rho p = (PI * Q2R (fst p) + sval (snd p))%R.
Proof. reflexivity. Qed.
Lemma Cexp_2PIk x (k : Z) : Cexp (x + 2 * PI * IZR k) = Cexp x.
Proof.
  assert (N : forall n y, Cexp (y + 2 * PI * INR n) = Cexp y).
  { induction n; intros y. - cbn. f_equal. lra. - rewrite S_INR. replace (y + 2 * PI * (INR n + 1))%R with (y + 2 * PI * INR n + 2 * PI)%R by ring. now rewrite Cexp_2PI. }
  destruct (Z_le_gt_dec 0 k) as [P|P].
  - rewrite <- (Z2Nat.id k) by auto. rewrite <- INR_IZR_INZ. apply N.
  - rewrite <- (N (Z.to_nat (- k)) (x + 2 * PI * IZR k)%R). f_equal. rewrite INR_IZR_INZ, Z2Nat.id by lia. rewrite opp_IZR. ring.
Qed.
Lemma Cexp_mod2 a b r : mod2 a b -> Cexp (PI * Q2R a + r) = Cexp (PI * Q2R b + r).
Proof.
  intros (k & E). rewrite (Qeq_eqR _ _ E), Q2R_plus, Q2R_mult. rewrite <- (Cexp_2PIk (PI * Q2R b + r) k). f_equal.
  unfold Q2R at 2 3. cbn. rewrite Rinv_1. unfold inject_Z. cbn. lra.
Qed.
Lemma modPi_mod2 x : mod2 (modPi x) x.
Proof. apply C56_modPi. Qed.
Lemma p_isZero_val p : p_isZero p = true -> pval rho p = 0%R.
Proof.
  unfold p_isZero, pi_isZero. destruct p as [c [|]]; cbn; [|discriminate]. intros H. apply Z.eqb_eq in H. rewrite pval_eq. cbn. unfold Q2R. rewrite H. lra.
Qed.
Lemma pexp_zero p : p_isZero p = true -> pexp rho p = C1.
Proof. intros H. unfold pexp. rewrite p_isZero_val by auto. apply Cexp_0. Qed.
Lemma pexp_p_zero : pexp rho p_zero = C1.
Proof. now apply pexp_zero. Qed.
Lemma pexp_add p q : pexp rho (p_add p q) = (pexp rho p * pexp rho q)%C.
Proof.
  unfold p_add. destruct (p_isZero p) eqn:P; [rewrite (pexp_zero p P); ring|]. destruct (p_isZero q) eqn:Q; [rewrite (pexp_zero q Q); ring|].
  unfold pexp. rewrite <- Cexp_add. rewrite !pval_eq. cbn [fst snd]. rewrite sval_fold. unfold pi_add.
  rewrite (Cexp_mod2 _ _ _ (modPi_mod2 _)), Q2R_plus. f_equal. ring.
Qed.
Lemma pexp_neg p : pexp rho (p_neg p) = Cconj (pexp rho p).
Proof.
  unfold p_neg, pexp. rewrite Cexp_conj, !pval_eq. cbn [fst snd]. rewrite sval_neg. unfold pi_neg. rewrite (Cexp_mod2 _ _ _ (modPi_mod2 _)).
  rewrite Q2R_opp, Q2R_red. f_equal. ring.
Qed.
Lemma pexp_const q : pexp rho (p_const q) = Cexp (PI * Q2R q).
Proof. unfold p_const, pexp. rewrite pval_eq. cbn. rewrite (Cexp_mod2 _ _ _ (modPi_mod2 _)). f_equal. ring. Qed.
Lemma pexp_pi : pexp rho p_pi = (- C1)%C.
Proof. unfold p_pi. rewrite pexp_const. rewrite <- Cexp_PI. f_equal. unfold Q2R. cbn. lra. Qed.
Lemma pexp_const0 : pexp rho (p_const 0) = C1.
Proof. now apply pexp_zero. Qed.
Lemma pexp_neq0 p : pexp rho p <> C0.
Proof. apply Cexp_neq0. Qed.
Lemma pexp_conj_mul p : (Cconj (pexp rho p) * pexp rho p)%C = C1.
Proof. unfold pexp. rewrite Cexp_conj. apply Cexp_opp. Qed.
Lemma Cexp_PIk (k : Z) : Cexp (PI * IZR k) = if Z.even k then C1 else (- C1)%C.
Proof.
  destruct (Z.even k) eqn:E.
  - apply Z.even_spec in E as (m & ->). rewrite mult_IZR. replace (PI * (2 * IZR m))%R with (0 + 2 * PI * IZR m)%R by ring. now rewrite Cexp_2PIk, Cexp_0.
  - assert (O : Z.odd k = true) by (rewrite <- Z.negb_even, E; auto). apply Z.odd_spec in O as (m & ->). rewrite plus_IZR, mult_IZR.
    replace (PI * (2 * IZR m + 1))%R with (PI + 2 * PI * IZR m)%R by ring. now rewrite Cexp_2PIk, Cexp_PI.
Qed.
Lemma pauli_val p : p_isPauli p = true -> pexp rho p = if Z.even (Qnum (Qred (fst p))) then C1 else (- C1)%C.
Proof.
  unfold p_isPauli, p_isConstant, pi_isInteger. destruct p as [c [|]]; cbn [fst snd]; [|discriminate]. intros H. apply Pos.eqb_eq in H.
  unfold pexp. rewrite pval_eq. cbn [fst snd]. rewrite <- (Q2R_red c). rewrite <- Cexp_PIk. f_equal. unfold Q2R. rewrite H. cbn. lra.
Qed.
Lemma pauli_cases p : p_isPauli p = true -> pexp rho p = C1 \/ pexp rho p = (- C1)%C.
Proof. intros H. rewrite pauli_val by auto. destruct Z.even; auto. Qed.
Lemma Qden2_odd q : Qden (Qred q) = 2%positive -> Z.even (Qnum (Qred q)) = false.
Proof.
  intros H. destruct (Z.even _) eqn:E; auto. exfalso. apply Z.even_spec in E as (m & E).
  assert (R : Qred (Qred q) = Qred q) by apply Qred_inv.
  destruct (Qred q) as [n dd]. cbn [Qnum Qden] in *. subst dd n.
  assert (Q : (2 * m # 2 == m # 1)%Q). { unfold Qeq. cbn [Qnum Qden]. lia. }
  apply Qred_complete in Q. rewrite R in Q. apply (f_equal Qden) in Q. cbn [Qden] in Q.
  unfold Qred in Q. pose proof (Z.ggcd_gcd m 1) as G. pose proof (Z.ggcd_correct_divisors m 1) as Dv. destruct (Z.ggcd m 1) as [g [a b]]. cbn in G, Q.
  rewrite Z.gcd_1_r in G. subst g. destruct Dv as [_ Hb]. assert (b = 1%Z) by lia. subst b. cbn in Q. discriminate.
Qed.
Lemma clifford_cases p : p_isProperClifford p = true -> pexp rho p = Ci \/ pexp rho p = (- Ci)%C.
Proof.
  unfold p_isProperClifford, p_isConstant. destruct p as [c [|]]; cbn [fst snd]; [|discriminate]. intros H. cbn [andb] in H. apply Pos.eqb_eq in H.
  pose proof (Qden2_odd c H) as O. assert (O' : Z.odd (Qnum (Qred c)) = true) by (rewrite <- Z.negb_even, O; auto). apply Z.odd_spec in O' as (m & O').
  unfold pexp. rewrite pval_eq. cbn [fst snd sval fold_right]. rewrite <- (Q2R_red c).
  replace (PI * Q2R (Qred c) + 0)%R with (PI / 2 + PI * IZR m)%R.
  - rewrite Cexp_add, Cexp_PIk. assert (E : Cexp (PI / 2) = Ci). { unfold Cexp, Ci. now rewrite cos_PI2, sin_PI2. } rewrite E. destruct (Z.even m); [left|right]; ring.
  - unfold Q2R. rewrite H, O', plus_IZR, mult_IZR. cbn. field.
Qed.
End Phases.
