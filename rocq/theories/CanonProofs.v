(** Canonicalisation of gate parameters changes the matrix by a few tolerances at most. *)
From Coq Require Import Reals Lra List Arith Bool Lia Psatz.
From Verif Require Import Cplx Qsem GateModel GateSpec GateProofs.
Import ListNotations.
Local Open Scope R_scope.
Local Open Scope list_scope.

(** ** Trigonometric bounds *)
Lemma sin_le x : 0 <= x -> sin x <= x.
Proof.
  intros [H|<-]; [|rewrite sin_0; lra]. left. now apply sin_lt_x.
Qed.
Lemma sin_abs_le x : Rabs (sin x) <= Rabs x.
Proof.
  assert (P : forall y, 0 <= y -> Rabs (sin y) <= y).
  { intros y Hy. apply Rabs_le. split; [|now apply sin_le].
    destruct (Rle_dec y PI) as [H|H].
    - pose proof (sin_ge_0 y Hy H). lra.
    - pose proof (SIN_bound y). pose proof PI2_3_2. lra. }
  destruct (Rle_dec 0 x) as [H|H].
  - rewrite (Rabs_pos_eq x) by auto. auto.
  - replace (sin x) with (- sin (- x)) by (rewrite sin_neg; ring).
    rewrite Rabs_Ropp. rewrite (Rabs_left x) by lra. apply P. lra.
Qed.

Lemma Cmod_le x e : 0 <= e -> Cnorm2 x <= e * e -> Cmod x <= e.
Proof.
  intros He H. unfold Cmod. rewrite <- (sqrt_square e) by auto. now apply sqrt_le_1_alt.
Qed.
Lemma Cnorm2_sq x : Cnorm2 x = Cmod x * Cmod x.
Proof. symmetry. apply Cmod_sq. Qed.

Lemma Cmod_triangle x y : Cmod (x + y)%C <= Cmod x + Cmod y.
Proof.
  pose proof (Cmod_pos x). pose proof (Cmod_pos y).
  apply Cmod_le; [lra|].
  pose proof (Cmod_sq x) as Sx. pose proof (Cmod_sq y) as Sy.
  replace ((Cmod x + Cmod y) * (Cmod x + Cmod y)) with (Cmod x * Cmod x + Cmod y * Cmod y + 2 * (Cmod x * Cmod y)) by ring.
  rewrite Sx, Sy.
  assert (K : fst x * fst y + snd x * snd y <= Cmod x * Cmod y).
  { apply Rsqr_incr_0_var; [|apply Rmult_le_pos; auto]. unfold Rsqr.
    replace (Cmod x * Cmod y * (Cmod x * Cmod y)) with ((Cmod x * Cmod x) * (Cmod y * Cmod y)) by ring.
    rewrite Sx, Sy. unfold Cnorm2. pose proof (Rle_0_sqr (fst x * snd y - snd x * fst y)) as Q. unfold Rsqr in Q. lra. }
  unfold Cnorm2, Cadd in *. simpl. lra.
Qed.

Lemma Cexp_lip a b : Cmod (Cexp a - Cexp b)%C <= Rabs (a - b).
Proof.
  apply Cmod_le; [apply Rabs_pos|].
  assert (E : Cnorm2 (Cexp a - Cexp b)%C = 4 * (sin ((a - b) / 2) * sin ((a - b) / 2))).
  { unfold Cnorm2, Cexp, Csub, Cadd, Copp. simpl.
    replace ((cos a + - cos b) * (cos a + - cos b) + (sin a + - sin b) * (sin a + - sin b))
      with (2 - 2 * (cos a * cos b + sin a * sin b)).
    - rewrite <- cos_minus. replace (a - b) with (2 * ((a - b) / 2)) at 1 by lra.
      rewrite cos_2a_sin. ring.
    - pose proof (sc2 a). pose proof (sc2 b). lra. }
  rewrite E. pose proof (sin_abs_le ((a - b) / 2)) as L.
  assert (SQ : sin ((a - b) / 2) * sin ((a - b) / 2) <= ((a - b) / 2) * ((a - b) / 2)).
  { replace (sin ((a - b) / 2) * sin ((a - b) / 2)) with (Rabs (sin ((a - b) / 2)) * Rabs (sin ((a - b) / 2))).
    - replace ((a - b) / 2 * ((a - b) / 2)) with (Rabs ((a - b) / 2) * Rabs ((a - b) / 2)).
      + apply Rmult_le_compat; auto using Rabs_pos.
      + rewrite <- Rabs_mult. apply Rabs_pos_eq. apply Rle_0_sqr.
    - rewrite <- Rabs_mult. apply Rabs_pos_eq. apply Rle_0_sqr. }
  replace (Rabs (a - b) * Rabs (a - b)) with ((a - b) * (a - b)).
  - lra.
  - rewrite <- Rabs_mult. symmetry. apply Rabs_pos_eq. apply Rle_0_sqr.
Qed.

Lemma cos_lip a b : Rabs (cos a - cos b) <= Rabs (a - b).
Proof.
  pose proof (Cexp_lip a b) as H. pose proof (Cmod_sq (Cexp a - Cexp b)%C) as S. pose proof (Cmod_pos (Cexp a - Cexp b)%C).
  eapply Rle_trans; [|exact H]. unfold Cnorm2 in S. unfold Cexp, Csub, Cadd, Copp in *. simpl in *.
  apply Rsqr_incr_0_var; auto. rewrite <- Rsqr_abs. unfold Rsqr. pose proof (Rle_0_sqr (sin a + - sin b)) as Q. unfold Rsqr in Q. unfold Rminus. lra.
Qed.
Lemma sin_lip a b : Rabs (sin a - sin b) <= Rabs (a - b).
Proof.
  pose proof (Cexp_lip a b) as H. pose proof (Cmod_sq (Cexp a - Cexp b)%C) as S. pose proof (Cmod_pos (Cexp a - Cexp b)%C).
  eapply Rle_trans; [|exact H]. unfold Cnorm2 in S. unfold Cexp, Csub, Cadd, Copp in *. simpl in *.
  apply Rsqr_incr_0_var; auto. rewrite <- Rsqr_abs. unfold Rsqr. pose proof (Rle_0_sqr (cos a + - cos b)) as Q. unfold Rsqr in Q. unfold Rminus. lra.
Qed.

Lemma Cmod_RtoC x : Cmod (RtoC x) = Rabs x.
Proof. unfold Cmod. rewrite Cnorm2_RtoC. apply sqrt_Rsqr_abs. Qed.
Lemma Cmod_Cexp x : Cmod (Cexp x) = 1.
Proof. unfold Cmod. rewrite Cexp_norm2. apply sqrt_1. Qed.

(** Product of a phase and a bounded real factor. *)
Lemma phase_factor_near a a' x x' e1 e2 :
  Rabs (a - a') <= e1 -> Rabs (x - x') <= e2 -> Rabs x <= 1 ->
  Cmod (Cexp a * RtoC x - Cexp a' * RtoC x')%C <= e1 + e2.
Proof.
  intros H1 H2 B.
  replace (Cexp a * RtoC x - Cexp a' * RtoC x')%C with ((Cexp a - Cexp a') * RtoC x + Cexp a' * RtoC (x - x'))%C.
  - eapply Rle_trans; [apply Cmod_triangle|]. rewrite !Cmod_mul, !Cmod_RtoC, Cmod_Cexp.
    pose proof (Cexp_lip a a'). pose proof (Cmod_pos (Cexp a - Cexp a')%C). pose proof (Rabs_pos x). nra.
  - unfold Rminus. rewrite RtoC_add, RtoC_opp. ring.
Qed.

Lemma cos_abs x : Rabs (cos x) <= 1.
Proof. apply Rabs_le. pose proof (COS_bound x). lra. Qed.
Lemma sin_abs x : Rabs (sin x) <= 1.
Proof. apply Rabs_le. pose proof (SIN_bound x). lra. Qed.

Lemma half_diff a b : Rabs (a / 2 - b / 2) = Rabs (a - b) / 2.
Proof. replace (a / 2 - b / 2) with ((a - b) * / 2) by lra. rewrite Rabs_mult. rewrite (Rabs_pos_eq (/2)) by lra. reflexivity. Qed.

(** Total change of the three angles. *)
Definition adist (l p t l' p' t' : R) : R := Rabs (l - l') + Rabs (p - p') + Rabs (t - t').

Lemma uMat_near l p t l' p' t' : mat_near 1 (adist l p t l' p' t') (uMat l p t) (uMat l' p' t').
Proof.
  intros r c Hr Hc. unfold adist.
  pose proof (Rabs_pos (l - l')) as A1. pose proof (Rabs_pos (p - p')) as A2. pose proof (Rabs_pos (t - t')) as A3.
  pose proof (half_diff t t') as HD.
  pose proof (cos_lip (t / 2) (t' / 2)) as LC. pose proof (sin_lip (t / 2) (t' / 2)) as LS. rewrite HD in LC, LS.
  split1 r Hr; split1 c Hc; destruct b, b0; cbv [uMat m2 mat_of bidx fold_left List.nth Nat.mul Nat.add].
  - replace (cos (l + p) * cos (t / 2), sin (l + p) * cos (t / 2)) with (Cexp (l + p) * RtoC (cos (t / 2)))%C by (apply Ceq; simpl; ring).
    replace (cos (l' + p') * cos (t' / 2), sin (l' + p') * cos (t' / 2)) with (Cexp (l' + p') * RtoC (cos (t' / 2)))%C by (apply Ceq; simpl; ring).
    eapply Rle_trans; [apply (phase_factor_near _ _ _ _ (Rabs (l - l') + Rabs (p - p')) (Rabs (t - t') / 2))|].
    + replace (l + p - (l' + p')) with ((l - l') + (p - p')) by ring. apply Rabs_triang.
    + exact LC.
    + apply cos_abs.
    + lra.
  - replace (cos p * sin (t / 2), sin p * sin (t / 2)) with (Cexp p * RtoC (sin (t / 2)))%C by (apply Ceq; simpl; ring).
    replace (cos p' * sin (t' / 2), sin p' * sin (t' / 2)) with (Cexp p' * RtoC (sin (t' / 2)))%C by (apply Ceq; simpl; ring).
    eapply Rle_trans; [apply (phase_factor_near _ _ _ _ (Rabs (p - p')) (Rabs (t - t') / 2))|]; auto using sin_abs; lra.
  - replace (- cos l * sin (t / 2), - sin l * sin (t / 2)) with (Cexp l * RtoC (- sin (t / 2)))%C by (apply Ceq; simpl; ring).
    replace (- cos l' * sin (t' / 2), - sin l' * sin (t' / 2)) with (Cexp l' * RtoC (- sin (t' / 2)))%C by (apply Ceq; simpl; ring).
    eapply Rle_trans; [apply (phase_factor_near _ _ _ _ (Rabs (l - l')) (Rabs (t - t') / 2))|]; [lra| | |lra].
    + replace (- sin (t / 2) - - sin (t' / 2)) with (- (sin (t / 2) - sin (t' / 2))) by ring. now rewrite Rabs_Ropp.
    + rewrite Rabs_Ropp. apply sin_abs.
  - replace ((cos (t / 2), 0) - (cos (t' / 2), 0))%C with (RtoC (cos (t / 2) - cos (t' / 2))) by (apply Ceq; simpl; ring).
    rewrite Cmod_RtoC. lra.
Qed.

(** ** The other gates as special cases of U *)
Lemma sq2_val : sq2 = cos (PI / 4).
Proof. unfold sq2. rewrite cos_PI4. field. apply Rgt_not_eq, sqrt_lt_R0; lra. Qed.

Ltac uspec :=
  intros r c Hr Hc; split1 r Hr; split1 c Hc; allbools;
  cbv [uMat u2Mat pMat rxMat ryMat rzMat m2 mat_of bidx fold_left List.nth Nat.mul Nat.add];
  apply Ceq; cbv [RtoC C0 C1 fst snd].

Lemma u_p l : meq 1 (pMat l) (uMat l 0 0).
Proof. uspec; replace (0 / 2) with 0 by lra; rewrite ?Rplus_0_r, ?cos_0, ?sin_0; ring. Qed.
Lemma pi2_2 : PI / 2 / 2 = PI / 4. Proof. lra. Qed.
Lemma u_u2 l p : meq 1 (u2Mat l p) (uMat l p (PI / 2)).
Proof. uspec; rewrite ?pi2_2; rewrite ?sq2_val, ?sin_PI4, ?cos_PI4; ring. Qed.
Lemma u_ry t : meq 1 (ryMat t) (uMat 0 0 t).
Proof. uspec; rewrite ?Rplus_0_r, ?cos_0, ?sin_0; ring. Qed.
Lemma u_rx t : meq 1 (rxMat t) (uMat (PI / 2) (- (PI / 2)) t).
Proof.
  uspec; replace (PI / 2 + - (PI / 2)) with 0 by lra; rewrite ?cos_neg, ?sin_neg, ?cos_0, ?sin_0, ?cos_PI2, ?sin_PI2; ring.
Qed.
Lemma u_rx' t : meq 1 (rxMat (- t)) (uMat (- (PI / 2)) (PI / 2) t).
Proof.
  uspec; replace (- t / 2) with (- (t / 2)) by lra; replace (- (PI / 2) + PI / 2) with 0 by lra;
    rewrite ?cos_neg, ?sin_neg, ?cos_0, ?sin_0, ?cos_PI2, ?sin_PI2; ring.
Qed.

Ltac mspec :=
  intros r c Hr Hc; split1 r Hr; split1 c Hc; allbools;
  cbv [uMat u2Mat pMat rxMat ryMat rzMat m2 mat_of bidx fold_left List.nth Nat.mul Nat.add];
  apply Ceq; cbv [RtoC C0 C1 fst snd].
Ltac sm M := cbv [single_matrix] in M; inversion M; subst; clear M.

Lemma meq_trans k A B D : meq k A B -> meq k B D -> meq k A D.
Proof. intros H1 H2 r c Hr Hc. now rewrite H1, H2. Qed.

(** [is_u t ps l p th]: the gate is U(th, p, l). *)
Definition is_u (t : optype) (ps : list R) (l p th : R) : Prop :=
  exists M, single_matrix t ps = Some M /\ meq 1 M (uMat l p th).

Lemma isu_I : is_u gI [] 0 0 0.
Proof. eexists; split; [reflexivity|]. eapply meq_trans; [|apply u_p]. mspec; rewrite ?cos_0, ?sin_0; ring. Qed.
Lemma isu_Z : is_u gZ [] PI 0 0.
Proof. eexists; split; [reflexivity|]. eapply meq_trans; [|apply u_p]. mspec; rewrite ?cos_PI, ?sin_PI; ring. Qed.
Lemma isu_Z' : is_u gZ [] (- PI) 0 0.
Proof. eexists; split; [reflexivity|]. eapply meq_trans; [|apply u_p]. mspec; rewrite ?cos_neg, ?sin_neg, ?cos_PI, ?sin_PI; ring. Qed.
Lemma isu_S : is_u gS [] (PI / 2) 0 0.
Proof. eexists; split; [reflexivity|]. eapply meq_trans; [|apply u_p]. mspec; rewrite ?cos_PI2, ?sin_PI2; ring. Qed.
Lemma isu_Sdg : is_u gSdg [] (- (PI / 2)) 0 0.
Proof. eexists; split; [reflexivity|]. eapply meq_trans; [|apply u_p]. mspec; rewrite ?cos_neg, ?sin_neg, ?cos_PI2, ?sin_PI2; ring. Qed.
Lemma isu_T : is_u gT [] (PI / 4) 0 0.
Proof. eexists; split; [reflexivity|]. eapply meq_trans; [|apply u_p]. mspec; rewrite ?sq2_val, ?sin_PI4, ?cos_PI4; ring. Qed.
Lemma isu_Tdg : is_u gTdg [] (- (PI / 4)) 0 0.
Proof. eexists; split; [reflexivity|]. eapply meq_trans; [|apply u_p]. mspec; rewrite ?cos_neg, ?sin_neg, ?sq2_val, ?sin_PI4, ?cos_PI4; ring. Qed.
Lemma isu_P l : is_u gP [l] l 0 0.
Proof. eexists; split; [reflexivity|]. apply u_p. Qed.
Lemma isu_H : is_u gH [] PI 0 (PI / 2).
Proof. eexists; split; [reflexivity|]. eapply meq_trans; [|apply u_u2]. mspec; rewrite ?Rplus_0_r, ?cos_0, ?sin_0, ?cos_PI, ?sin_PI; ring. Qed.
Lemma isu_H' : is_u gH [] (- PI) 0 (PI / 2).
Proof. eexists; split; [reflexivity|]. eapply meq_trans; [|apply u_u2]. mspec; rewrite ?Rplus_0_r, ?cos_neg, ?sin_neg, ?cos_0, ?sin_0, ?cos_PI, ?sin_PI; ring. Qed.
Lemma isu_V : is_u gV [] (PI / 2) (- (PI / 2)) (PI / 2).
Proof. eexists; split; [reflexivity|]. eapply meq_trans; [|apply u_u2]. mspec; replace (PI / 2 + - (PI / 2)) with 0 by lra; rewrite ?cos_neg, ?sin_neg, ?cos_0, ?sin_0, ?cos_PI2, ?sin_PI2; ring. Qed.
Lemma isu_Vdg : is_u gVdg [] (- (PI / 2)) (PI / 2) (PI / 2).
Proof. eexists; split; [reflexivity|]. eapply meq_trans; [|apply u_u2]. mspec; replace (- (PI / 2) + PI / 2) with 0 by lra; rewrite ?cos_neg, ?sin_neg, ?cos_0, ?sin_0, ?cos_PI2, ?sin_PI2; ring. Qed.
Lemma isu_U2 p l : is_u gU2 [p; l] l p (PI / 2).
Proof. eexists; split; [reflexivity|]. apply u_u2. Qed.
Lemma isu_U t p l : is_u gU [t; p; l] l p t.
Proof. eexists; split; [reflexivity|]. intros r c _ _; reflexivity. Qed.
Lemma isu_RY t : is_u gRY [t] 0 0 t.
Proof. eexists; split; [reflexivity|]. apply u_ry. Qed.
Lemma isu_RX t : is_u gRX [t] (PI / 2) (- (PI / 2)) t.
Proof. eexists; split; [reflexivity|]. apply u_rx. Qed.
Lemma isu_RX' t : is_u gRX [- t] (- (PI / 2)) (PI / 2) t.
Proof. eexists; split; [reflexivity|]. apply u_rx'. Qed.
Lemma isu_Y : is_u gY [] (PI / 2) (PI / 2) PI.
Proof. eexists; split; [reflexivity|]. mspec; replace (PI / 2 + PI / 2) with PI by lra; rewrite ?cos_PI, ?sin_PI, ?cos_PI2, ?sin_PI2; ring. Qed.
Lemma isu_X : is_u gX [] PI 0 PI.
Proof. eexists; split; [reflexivity|]. mspec; rewrite ?Rplus_0_r, ?cos_0, ?sin_0, ?cos_PI, ?sin_PI, ?cos_PI2, ?sin_PI2; ring. Qed.

(** ** The canonicalisation *)
Section Near.
Variable tol : R.
Hypothesis tol_pos : 0 < tol.
Hypothesis tol_small : tol <= 1 / 100.

Lemma close_lt x y : close tol x y = true -> Rabs (x - y) < tol.
Proof. unfold close. destruct (Rlt_dec (Rabs (x - y)) tol); congruence. Qed.

Lemma snap (b : bool) x v : (b = true -> close tol x v = true) -> Rabs (x - (if b then v else x)) <= tol.
Proof.
  intros H. destruct b.
  - left. apply close_lt. auto.
  - replace (x - x) with 0 by ring. rewrite Rabs_R0. lra.
Qed.

Lemma check_integer_near x : Rabs (x - check_integer tol x) <= tol.
Proof.
  unfold check_integer. apply snap. auto.
Qed.

Lemma Rxx x : Rabs (x - x) = 0.
Proof. replace (x - x) with 0 by ring. apply Rabs_R0. Qed.

Lemma IZR_abs_ge1 n : (n <> 0)%Z -> 1 <= Rabs (IZR n).
Proof. intros H. rewrite <- abs_IZR. apply IZR_le. lia. Qed.

Lemma check_fraction_near x x' : check_fraction_pi tol x = Some x' -> Rabs (x - x') <= 5 * tol.
Proof.
  unfold check_fraction_pi. destruct (Req_EM_T x 0) as [->|NZ].
  { intros E. inversion E; subst. rewrite Rxx. lra. }
  destruct (close tol (PI / x) (IZR (nearby (PI / x)))) eqn:CL.
  - destruct (Z.eqb_spec (nearby (PI / x)) 0) as [Z|Z]; [discriminate|]. intros E. inversion E; subst; clear E.
    apply close_lt in CL. pose proof (IZR_abs_ge1 _ Z) as G1. set (n := IZR (nearby (PI / x))) in *.
    set (d := PI / x) in *. pose proof PI_RGT_0 as PP.
    assert (Dn : d <> 0). { unfold d, Rdiv. apply Rmult_integral_contrapositive. split; [lra|]. now apply Rinv_neq_0_compat. }
    assert (Nn : n <> 0). { intros N0. rewrite N0, Rabs_R0 in G1. lra. }
    assert (X : x = PI / d). { unfold d. field. split; lra. }
    assert (E : x - PI / n = PI * (n - d) * / (n * d)). { rewrite X. field. split; auto. }
    rewrite E. rewrite !Rabs_mult. rewrite Rabs_inv, Rabs_mult. rewrite (Rabs_pos_eq PI) by lra.
    assert (GD : 99 / 100 <= Rabs d).
    { pose proof (Rabs_triang_inv n d) as T. rewrite (Rabs_minus_sym n d) in T. lra. }
    pose proof PI_4 as P4.
    assert (ND : 99 / 100 <= Rabs n * Rabs d) by nra.
    assert (I : / (Rabs n * Rabs d) <= 100 / 99).
    { replace (100 / 99) with (/ (99 / 100)) by lra. apply Rinv_le_contravar; lra. }
    assert (I0 : 0 < / (Rabs n * Rabs d)) by (apply Rinv_0_lt_compat; lra).
    rewrite (Rabs_minus_sym n d).
    assert (Q : PI * Rabs (d - n) <= 4 * tol) by (pose proof (Rabs_pos (d - n)); nra).
    assert (0 <= PI * Rabs (d - n)) by (apply Rmult_le_pos; [lra|apply Rabs_pos]).
    nra.
  - intros E. inversion E; subst. rewrite Rxx. lra.
Qed.

Lemma tri x y z : Rabs (x - z) <= Rabs (x - y) + Rabs (y - z).
Proof. replace (x - z) with ((x - y) + (y - z)) by ring. apply Rabs_triang. Qed.

Lemma check_par_near x x' : check_par tol x = Some x' -> Rabs (x - x') <= 6 * tol.
Proof.
  unfold check_par. intros H. apply check_fraction_near in H.
  pose proof (check_integer_near x). pose proof (tri x (check_integer tol x) x'). lra.
Qed.

Lemma abs_close_cases l v : close tol (Rabs l) v = true -> 0 < v ->
  (0 <= l /\ Rabs (l - v) < tol) \/ (l < 0 /\ Rabs (l - - v) < tol).
Proof.
  intros H V. apply close_lt in H. destruct (Rle_dec 0 l) as [L|L].
  - left. split; auto. now rewrite (Rabs_pos_eq l) in H.
  - right. split; [lra|]. rewrite (Rabs_left l) in H by lra. rewrite <- (Rabs_Ropp (l - - v)).
    replace (- (l - - v)) with (- l - v) by ring. auto.
Qed.

Definition result_near (r : option (optype * list R)) (l p th e : R) : Prop :=
  forall t' ps', r = Some (t', ps') -> exists l' p' th', is_u t' ps' l' p' th' /\ adist l p th l' p' th' <= e.

Lemma R0_0 : Rabs (0 - 0) = 0.
Proof. replace (0 - 0) with 0 by ring. apply Rabs_R0. Qed.
Lemma pi_pos : 0 < PI /\ 0 < PI / 2 /\ 0 < PI / 4.
Proof. pose proof PI_RGT_0. lra. Qed.

Lemma parse_u1_near l : result_near (parse_u1 tol l) l 0 0 (6 * tol).
Proof.
  intros t' ps' H. unfold parse_u1 in H. unfold adist. destruct pi_pos as (P1 & P2 & P4).
  destruct (close tol l 0) eqn:E0.
  { inversion H; subst. exists 0, 0, 0. split; [apply isu_I|]. apply close_lt in E0. rewrite R0_0. lra. }
  destruct (close tol (Rabs l) PI) eqn:E1.
  { inversion H; subst. destruct (abs_close_cases _ _ E1 P1) as [[L K]|[L K]].
    - exists PI, 0, 0. split; [apply isu_Z|]. rewrite R0_0. lra.
    - exists (- PI), 0, 0. split; [apply isu_Z'|]. rewrite R0_0. lra. }
  destruct (close tol (Rabs l) (PI / 2)) eqn:E2.
  { destruct (abs_close_cases _ _ E2 P2) as [[L K]|[L K]]; destruct (Rlt_dec l 0); try lra; inversion H; subst.
    - exists (PI / 2), 0, 0. split; [apply isu_S|]. rewrite R0_0. lra.
    - exists (- (PI / 2)), 0, 0. split; [apply isu_Sdg|]. rewrite R0_0. lra. }
  destruct (close tol (Rabs l) (PI / 4)) eqn:E4.
  { destruct (abs_close_cases _ _ E4 P4) as [[L K]|[L K]]; destruct (Rlt_dec l 0); try lra; inversion H; subst.
    - exists (PI / 4), 0, 0. split; [apply isu_T|]. rewrite R0_0. lra.
    - exists (- (PI / 4)), 0, 0. split; [apply isu_Tdg|]. rewrite R0_0. lra. }
  destruct (check_par tol l) as [l'|] eqn:EC; [|discriminate]. inversion H; subst.
  apply check_par_near in EC. exists l', 0, 0. split; [apply isu_P|]. rewrite R0_0. lra.
Qed.

Lemma parse_u2_near p l : result_near (parse_u2 tol p l) l p (PI / 2) (15 * tol).
Proof.
  intros t' ps' H. unfold parse_u2 in H. unfold adist. destruct pi_pos as (P1 & P2 & P4).
  destruct (close tol p 0) eqn:E0; cbn [andb] in H.
  - pose proof (close_lt _ _ E0) as K0. destruct (close tol (Rabs l) PI) eqn:E1.
    { inversion H; subst. destruct (abs_close_cases _ _ E1 P1) as [[L K]|[L K]].
      - exists PI, 0, (PI / 2). split; [apply isu_H|]. rewrite Rxx. lra.
      - exists (- PI), 0, (PI / 2). split; [apply isu_H'|]. rewrite Rxx. lra. }
    destruct (close tol l 0) eqn:E2.
    { inversion H; subst. exists 0, 0, (PI / 2). split; [apply isu_RY|]. apply close_lt in E2. rewrite Rxx. lra. }
    destruct (close tol l (PI / 2) && close tol 0 (- (PI / 2))) eqn:E3.
    { exfalso. apply andb_true_iff in E3. destruct E3 as [_ E3]. apply close_lt in E3.
      pose proof PI2_3_2. replace (0 - - (PI / 2)) with (PI / 2) in E3 by ring. rewrite Rabs_pos_eq in E3 by lra. lra. }
    set (l1 := if close tol l (PI / 2) then PI / 2 else l) in *.
    destruct (close tol l1 (- (PI / 2)) && close tol 0 (PI / 2)) eqn:E4.
    { exfalso. apply andb_true_iff in E4. destruct E4 as [_ E4]. apply close_lt in E4.
      pose proof PI2_3_2. rewrite Rabs_minus_sym in E4. replace (PI / 2 - 0) with (PI / 2) in E4 by ring.
      rewrite Rabs_pos_eq in E4 by lra. lra. }
    set (l2 := if close tol l1 (- (PI / 2)) then - (PI / 2) else l1) in *.
    pose proof (snap (close tol l (PI / 2)) l (PI / 2) (fun e => e)) as S1. fold l1 in S1.
    pose proof (snap (close tol l1 (- (PI / 2))) l1 (- (PI / 2)) (fun e => e)) as S2. fold l2 in S2.
    destruct (check_par tol l2) as [l'|] eqn:C1; [|discriminate].
    destruct (check_par tol 0) as [p'|] eqn:C2; [|discriminate]. inversion H; subst.
    apply check_par_near in C1. apply check_par_near in C2.
    exists l', p', (PI / 2). split; [apply isu_U2|]. rewrite Rxx.
    pose proof (tri l l1 l'). pose proof (tri l1 l2 l'). pose proof (tri p 0 p'). lra.
  - destruct (close tol l (PI / 2) && close tol p (- (PI / 2))) eqn:E3.
    { inversion H; subst. apply andb_true_iff in E3. destruct E3 as [A B]. apply close_lt in A. apply close_lt in B.
      exists (PI / 2), (- (PI / 2)), (PI / 2). split; [apply isu_V|]. rewrite Rxx. lra. }
    set (l1 := if close tol l (PI / 2) then PI / 2 else l) in *.
    pose proof (snap (close tol l (PI / 2)) l (PI / 2) (fun e => e)) as S1. fold l1 in S1.
    destruct (close tol l1 (- (PI / 2)) && close tol p (PI / 2)) eqn:E4.
    { inversion H; subst. apply andb_true_iff in E4. destruct E4 as [A B]. apply close_lt in A. apply close_lt in B.
      exists (- (PI / 2)), (PI / 2), (PI / 2). split; [apply isu_Vdg|]. rewrite Rxx. pose proof (tri l l1 (- (PI / 2))). lra. }
    set (l2 := if close tol l1 (- (PI / 2)) then - (PI / 2) else l1) in *.
    pose proof (snap (close tol l1 (- (PI / 2))) l1 (- (PI / 2)) (fun e => e)) as S2. fold l2 in S2.
    destruct (check_par tol l2) as [l'|] eqn:C1; [|discriminate].
    destruct (check_par tol p) as [p'|] eqn:C2; [|discriminate]. inversion H; subst.
    apply check_par_near in C1. apply check_par_near in C2.
    exists l', p', (PI / 2). split; [apply isu_U2|]. rewrite Rxx.
    pose proof (tri l l1 l'). pose proof (tri l1 l2 l'). lra.
Qed.

Lemma andb_close x v y w : close tol x v && close tol y w = true -> Rabs (x - v) < tol /\ Rabs (y - w) < tol.
Proof. intros H. apply andb_true_iff in H. destruct H. split; now apply close_lt. Qed.

Lemma parse_u3_near t p l : result_near (parse_u3 tol t p l) l p t (24 * tol).
Proof.
  intros t' ps' H. unfold parse_u3 in H.
  destruct (close tol t 0 && close tol p 0) eqn:E1.
  { destruct (andb_close _ _ _ _ E1) as [A B].
    destruct (parse_u1_near l t' ps' H) as (l' & p' & th' & U & D). exists l', p', th'. split; auto.
    unfold adist in *. pose proof (tri p 0 p'). pose proof (tri t 0 th'). lra. }
  destruct (close tol t (PI / 2)) eqn:E2.
  { apply close_lt in E2. destruct (parse_u2_near p l t' ps' H) as (l' & p' & th' & U & D). exists l', p', th'. split; auto.
    unfold adist in *. pose proof (tri t (PI / 2) th'). lra. }
  destruct (close tol l 0 && close tol p 0) eqn:E3.
  { destruct (andb_close _ _ _ _ E3) as [A B]. destruct (check_par tol t) as [x|] eqn:C; [|discriminate].
    inversion H; subst. apply check_par_near in C. exists 0, 0, x. split; [apply isu_RY|]. unfold adist. lra. }
  unfold adist.
  set (l1 := if close tol l 0 then 0 else l) in *.
  pose proof (snap (close tol l 0) l 0 (fun e => e)) as S1. fold l1 in S1.
  destruct (close tol l1 (PI / 2) && close tol p (- (PI / 2))) eqn:E4.
  { destruct (andb_close _ _ _ _ E4) as [A B]. destruct (check_par tol t) as [x|] eqn:C; [|discriminate].
    inversion H; subst. apply check_par_near in C. exists (PI / 2), (- (PI / 2)), x. split; [apply isu_RX|].
    pose proof (tri l l1 (PI / 2)). lra. }
  destruct (close tol l1 (PI / 2) && close tol p (PI / 2) && close tol t PI) eqn:E5.
  { apply andb_true_iff in E5. destruct E5 as [E5 E6]. destruct (andb_close _ _ _ _ E5) as [A B]. apply close_lt in E6.
    inversion H; subst. exists (PI / 2), (PI / 2), PI. split; [apply isu_Y|]. pose proof (tri l l1 (PI / 2)). lra. }
  set (p1 := if close tol l1 (PI / 2) && close tol p (PI / 2) then PI / 2 else p) in *.
  pose proof (snap (close tol l1 (PI / 2) && close tol p (PI / 2)) p (PI / 2) ltac:(intros K; apply andb_true_iff in K; tauto)) as T1. fold p1 in T1.
  set (l2 := if close tol l1 (PI / 2) then PI / 2 else l1) in *.
  pose proof (snap (close tol l1 (PI / 2)) l1 (PI / 2) (fun e => e)) as S2. fold l2 in S2.
  destruct (close tol l2 (- (PI / 2)) && close tol p1 (PI / 2)) eqn:E6.
  { destruct (andb_close _ _ _ _ E6) as [A B]. inversion H; subst. exists (- (PI / 2)), (PI / 2), t. split; [apply isu_RX'|].
    rewrite Rxx. pose proof (tri l l1 (- (PI / 2))). pose proof (tri l1 l2 (- (PI / 2))). pose proof (tri p p1 (PI / 2)). lra. }
  set (l3 := if close tol l2 (- (PI / 2)) then - (PI / 2) else l2) in *.
  pose proof (snap (close tol l2 (- (PI / 2))) l2 (- (PI / 2)) (fun e => e)) as S3. fold l3 in S3.
  destruct (close tol l3 PI && close tol p1 0 && close tol t PI) eqn:E7.
  { apply andb_true_iff in E7. destruct E7 as [E7 E8]. destruct (andb_close _ _ _ _ E7) as [A B]. apply close_lt in E8.
    inversion H; subst. exists PI, 0, PI. split; [apply isu_X|].
    pose proof (tri l l1 PI). pose proof (tri l1 l2 PI). pose proof (tri l2 l3 PI). pose proof (tri p p1 0). lra. }
  set (p2 := if close tol l3 PI && close tol p1 0 then 0 else p1) in *.
  pose proof (snap (close tol l3 PI && close tol p1 0) p1 0 ltac:(intros K; apply andb_true_iff in K; tauto)) as T2. fold p2 in T2.
  set (l4 := if close tol l3 PI then PI else l3) in *.
  pose proof (snap (close tol l3 PI) l3 PI (fun e => e)) as S4. fold l4 in S4.
  destruct (check_par tol l4) as [l'|] eqn:C1; [|discriminate].
  destruct (check_par tol p2) as [p'|] eqn:C2; [|discriminate].
  destruct (check_par tol t) as [th'|] eqn:C3; [|discriminate].
  inversion H; subst. apply check_par_near in C1. apply check_par_near in C2. apply check_par_near in C3.
  exists l', p', th'. split; [apply isu_U|].
  pose proof (tri l l1 l'). pose proof (tri l1 l2 l'). pose proof (tri l2 l3 l'). pose proof (tri l3 l4 l').
  pose proof (tri p p1 p'). pose proof (tri p1 p2 p'). lra.
Qed.

Lemma near_transfer t ps l p th M e t' ps' l' p' th' :
  is_u t ps l p th -> single_matrix t ps = Some M -> is_u t' ps' l' p' th' -> adist l p th l' p' th' <= e ->
  exists M', single_matrix t' ps' = Some M' /\ mat_near 1 e M M'.
Proof.
  intros (M0 & E0 & Q0) E (M' & E' & Q') D. exists M'. split; auto. rewrite E0 in E. inversion E; subst.
  intros r c Hr Hc. rewrite Q0, Q' by auto. eapply Rle_trans; [apply uMat_near|]; auto.
Qed.

Lemma canon_near t ps M t' ps' : single_matrix t ps = Some M ->
  check_ugate tol t ps = Some (t', ps') ->
  exists M', single_matrix t' ps' = Some M' /\ mat_near 1 (24 * tol) M M'.
Proof.
  intros E H.
  assert (TR : t = t' /\ ps = ps' -> exists M', single_matrix t' ps' = Some M' /\ mat_near 1 (24 * tol) M M').
  { intros [<- <-]. exists M. split; auto. intros r c _ _. replace (M r c - M r c)%C with C0 by ring.
    replace (Cmod C0) with 0; [lra|]. symmetry. now apply Cmod_zero. }
  destruct t; try (apply TR; simpl in H; inversion H; auto; fail); clear TR.
  - destruct ps as [|a [|b [|c [|]]]]; try discriminate. simpl in H.
    destruct (parse_u3_near a b c _ _ H) as (l' & p' & th' & U & D).
    eapply near_transfer; [apply isu_U|exact E|exact U|lra].
  - destruct ps as [|a [|b [|]]]; try discriminate. simpl in H.
    destruct (parse_u2_near a b _ _ H) as (l' & p' & th' & U & D).
    eapply near_transfer; [apply isu_U2|exact E|exact U|lra].
  - destruct ps as [|a [|]]; try discriminate. simpl in H.
    destruct (parse_u1_near a _ _ H) as (l' & p' & th' & U & D).
    eapply near_transfer; [apply isu_P|exact E|exact U|lra].
Qed.

(** ** When the parameters stay finite *)
Lemma nearby_0 d : nearby d = 0%Z -> -1/2 <= d < 1/2.
Proof.
  unfold nearby. intros H. destruct (base_Int_part (d + 1/2)) as [A B]. rewrite H in *. simpl in *. lra.
Qed.

Lemma check_fraction_finite x : Rabs x <= 3 / tol -> check_fraction_pi tol x <> None.
Proof.
  intros B. unfold check_fraction_pi. destruct (Req_EM_T x 0) as [->|NZ]; [discriminate|].
  destruct (close tol (PI / x) (IZR (nearby (PI / x)))) eqn:CL; [|discriminate].
  destruct (Z.eqb_spec (nearby (PI / x)) 0) as [Z|Z]; [|discriminate].
  exfalso. apply close_lt in CL. rewrite Z in CL. simpl in CL. rewrite Rminus_0_r in CL.
  unfold Rdiv in CL. rewrite Rabs_mult, Rabs_inv in CL. pose proof PI2_3_2. rewrite (Rabs_pos_eq PI) in CL by lra.
  assert (X : 0 < Rabs x) by now apply Rabs_pos_lt.
  assert (K : PI < tol * Rabs x).
  { apply (Rmult_lt_compat_r (Rabs x)) in CL; auto. rewrite Rmult_assoc, Rinv_l, Rmult_1_r in CL by lra. exact CL. }
  assert (tol * Rabs x <= 3).
  { apply (Rmult_le_compat_l tol) in B; [|lra]. replace (tol * (3 / tol)) with 3 in B by (field; lra). exact B. }
  lra.
Qed.

Lemma check_par_finite x : Rabs x <= 2 / tol -> check_par tol x <> None.
Proof.
  intros B. apply check_fraction_finite. pose proof (check_integer_near x) as N.
  pose proof (Rabs_triang_inv (check_integer tol x) x) as T. rewrite Rabs_minus_sym in N.
  assert (1 <= 1 / tol). { apply (Rmult_le_reg_l tol); auto. replace (tol * (1 / tol)) with 1 by (field; lra). lra. }
  replace (3 / tol) with (2 / tol + 1 / tol) by (field; lra). lra.
Qed.

Definition all_small (ps : list R) : Prop := forall p, In p ps -> Rabs p <= 1 / tol.

Lemma tol_inv : 100 <= 1 / tol.
Proof. apply (Rmult_le_reg_l tol); auto. replace (tol * (1 / tol)) with 1 by (field; lra). lra. Qed.

Lemma snap_small (b : bool) x v e : Rabs x <= e -> Rabs v <= e -> Rabs (if b then v else x) <= e.
Proof. destruct b; auto. Qed.
Lemma pi_small : Rabs PI <= 1 / tol /\ Rabs (PI / 2) <= 1 / tol /\ Rabs (- (PI / 2)) <= 1 / tol /\ Rabs 0 <= 1 / tol.
Proof.
  pose proof tol_inv. pose proof PI_4. pose proof PI_RGT_0.
  rewrite Rabs_Ropp, Rabs_R0, !Rabs_pos_eq by lra. lra.
Qed.
Lemma small_fin x : Rabs x <= 1 / tol -> exists x', check_par tol x = Some x'.
Proof.
  intros H. destruct (check_par tol x) as [x'|] eqn:E; eauto. exfalso. revert E. apply check_par_finite.
  replace (2 / tol) with (1 / tol + 1 / tol) by (field; lra). pose proof tol_inv. lra.
Qed.

Lemma parse_u1_finite l : Rabs l <= 1 / tol -> parse_u1 tol l <> None.
Proof.
  intros H. unfold parse_u1. destruct (close tol l 0); [discriminate|].
  destruct (close tol (Rabs l) PI); [discriminate|].
  destruct (close tol (Rabs l) (PI / 2)); [discriminate|].
  destruct (close tol (Rabs l) (PI / 4)); [discriminate|].
  destruct (small_fin l H) as (x & ->). discriminate.
Qed.

Lemma parse_u2_finite p l : Rabs p <= 1 / tol -> Rabs l <= 1 / tol -> parse_u2 tol p l <> None.
Proof.
  intros Hp Hl. destruct pi_small as (Q1 & Q2 & Q3 & Q0). unfold parse_u2.
  destruct (close tol p 0 && close tol (Rabs l) PI); [discriminate|].
  destruct (close tol p 0 && close tol l 0); [discriminate|].
  pose proof (snap_small (close tol p 0) p 0 _ Hp Q0) as Hp1. revert Hp1.
  generalize (if close tol p 0 then 0 else p). intros p1 Hp1.
  destruct (close tol l (PI / 2) && close tol p1 (- (PI / 2))); [discriminate|].
  pose proof (snap_small (close tol l (PI / 2)) l (PI / 2) _ Hl Q2) as Hl1. revert Hl1.
  generalize (if close tol l (PI / 2) then PI / 2 else l). intros l1 Hl1.
  destruct (close tol l1 (- (PI / 2)) && close tol p1 (PI / 2)); [discriminate|].
  pose proof (snap_small (close tol l1 (- (PI / 2))) l1 (- (PI / 2)) _ Hl1 Q3) as Hl2. revert Hl2.
  generalize (if close tol l1 (- (PI / 2)) then - (PI / 2) else l1). intros l2 Hl2.
  destruct (small_fin l2 Hl2) as (x & ->). destruct (small_fin p1 Hp1) as (y & ->). discriminate.
Qed.

Lemma parse_u3_finite t p l : Rabs t <= 1 / tol -> Rabs p <= 1 / tol -> Rabs l <= 1 / tol -> parse_u3 tol t p l <> None.
Proof.
  intros Ht Hp Hl. destruct pi_small as (Q1 & Q2 & Q3 & Q0). unfold parse_u3.
  destruct (close tol t 0 && close tol p 0); [now apply parse_u1_finite|].
  destruct (close tol t (PI / 2)); [now apply parse_u2_finite|].
  destruct (small_fin t Ht) as (x & Ex). rewrite Ex.
  destruct (close tol l 0 && close tol p 0); [discriminate|].
  pose proof (snap_small (close tol l 0) l 0 _ Hl Q0) as Hl1. revert Hl1.
  generalize (if close tol l 0 then 0 else l). intros l1 Hl1.
  destruct (close tol l1 (PI / 2) && close tol p (- (PI / 2))); [discriminate|].
  destruct (close tol l1 (PI / 2) && close tol p (PI / 2) && close tol t PI); [discriminate|].
  pose proof (snap_small (close tol l1 (PI / 2) && close tol p (PI / 2)) p (PI / 2) _ Hp Q2) as Hp1. revert Hp1.
  generalize (if close tol l1 (PI / 2) && close tol p (PI / 2) then PI / 2 else p). intros p1 Hp1.
  pose proof (snap_small (close tol l1 (PI / 2)) l1 (PI / 2) _ Hl1 Q2) as Hl2. revert Hl2.
  generalize (if close tol l1 (PI / 2) then PI / 2 else l1). intros l2 Hl2.
  destruct (close tol l2 (- (PI / 2)) && close tol p1 (PI / 2)); [discriminate|].
  pose proof (snap_small (close tol l2 (- (PI / 2))) l2 (- (PI / 2)) _ Hl2 Q3) as Hl3. revert Hl3.
  generalize (if close tol l2 (- (PI / 2)) then - (PI / 2) else l2). intros l3 Hl3.
  destruct (close tol l3 PI && close tol p1 0 && close tol t PI); [discriminate|].
  pose proof (snap_small (close tol l3 PI && close tol p1 0) p1 0 _ Hp1 Q0) as Hp2. revert Hp2.
  generalize (if close tol l3 PI && close tol p1 0 then 0 else p1). intros p2 Hp2.
  pose proof (snap_small (close tol l3 PI) l3 PI _ Hl3 Q1) as Hl4. revert Hl4.
  generalize (if close tol l3 PI then PI else l3). intros l4 Hl4.
  destruct (small_fin l4 Hl4) as (y & ->). destruct (small_fin p2 Hp2) as (z & ->). discriminate.
Qed.

Lemma canon_finite t ps M : single_matrix t ps = Some M -> all_small ps ->
  (t = gU -> length ps = 3%nat) -> (t = gU2 -> length ps = 2%nat) -> (t = gP -> length ps = 1%nat) ->
  exists r, check_ugate tol t ps = Some r.
Proof.
  intros E S L3 L2 L1. destruct (check_ugate tol t ps) as [r|] eqn:H; eauto. exfalso. revert H.
  destruct t; try discriminate.
  - specialize (L3 eq_refl). destruct ps as [|a [|b [|c [|]]]]; try discriminate. simpl.
    apply parse_u3_finite; apply S; simpl; auto.
  - specialize (L2 eq_refl). destruct ps as [|a [|b [|]]]; try discriminate. simpl.
    apply parse_u2_finite; apply S; simpl; auto.
  - specialize (L1 eq_refl). destruct ps as [|a [|]]; try discriminate. simpl.
    apply parse_u1_finite; apply S; simpl; auto.
Qed.
End Near.
