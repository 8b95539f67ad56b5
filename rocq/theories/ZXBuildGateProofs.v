(* The gates of FunctionalityConstruction.cpp as compositions of spider maps. *)
From Coq Require Import Reals QArith ZArith Bool List Arith Lia Lra FunctionalExtensionality.
From Verif Require Import Cplx Qsem GateModel GateSpec IRModel PiModel ZXModel ZXSpec ZXSemProofs ZXRule2Proofs ZXBuildModel ZXBuildSpec ZXBuildProofs ZXBuildStateProofs.
Import ListNotations.
Local Close Scope Q_scope.
Local Open Scope nat_scope.
Local Open Scope C_scope.

Lemma hf2' : (C1 + C1) * hf = C1. Proof. transitivity (hf + hf); [ring|exact hf2]. Qed.

Ltac cns := pose proof hf2' as HF; pose proof kaphf as KH; pose proof Ci2 as CI; ring [HF KH CI].
Ltac m2s := unfold m2, mat_of, bidx; cbn [fold_left nth Nat.mul Nat.add sg xorb andb negb].

(* ---- single spiders, edges and gadgets ------------------------------------------------------------------------------ *)
Lemma sp_z e q psi : u1 (spK false false e) q psi = zph e q psi.
Proof. apply (V1_eq q). intros y a. rewrite V1_u1, V1_z. unfold spK, bsum. cbn [xorb]. rewrite !wgt_id. destruct a; cbn [eqb]; ring. Qed.
Lemma sp_x e q psi : u1 (spK true false e) q psi = xph e q psi.
Proof.
  apply (V1_eq q). intros y a. rewrite V1_u1, V1_x. unfold spK, bsum. cbn [xorb]. rewrite !wgt_sg.
  destruct a; cbn [andb sg negb]; cns.
Qed.
Lemma sp_h q psi : u1 (spK false true C1) q psi = hdm q psi.
Proof. apply (V1_eq q). intros y a. rewrite V1_u1, V1_h. unfold spK, bsum. cbn [xorb]. rewrite !wgt_sg, !wgt_id. destruct a; cbn [andb eqb sg]; ring. Qed.
Section Two.
Variables p q : nat.
Hypothesis N : p <> q.
Lemma dg_cx psi : u2 false true (wgt true) p q psi = sscal kap (cxm p q psi).
Proof.
  apply (V2_eq p q). intros y a b. rewrite V2_u2, V2_sscal, V2_cpq by auto. unfold dgK, bsum. rewrite !wgt_sg, !wgt_id.
  destruct a, b; cbn [andb eqb sg xorb]; cns.
Qed.
Lemma dg_cz psi : u2 false false (wgt true) p q psi = sscal kap (czm p q psi).
Proof.
  apply (V2_eq p q). intros y a b. rewrite V2_u2, V2_sscal, V2_cz by auto. unfold dgK, bsum. rewrite !wgt_sg, !wgt_id.
  destruct a, b; cbn [andb eqb sg xorb]; ring.
Qed.
Lemma dg_rzz e psi : u2 false false (midG e) p q psi = sscal kap (rzzm e p q psi).
Proof.
  apply (V2_eq p q). intros y a b. rewrite V2_u2, V2_sscal, V2_rzz by auto. unfold dgK, bsum, midG. rewrite !wgt_id.
  destruct a, b; cbn [andb eqb sg xorb]; ring.
Qed.
Lemma dg_rxx e psi : u2 true true (midG e) p q psi = sscal kap (rxxm e p q psi).
Proof.
  apply (V2_eq p q). intros y a b. rewrite V2_u2, V2_sscal, V2_rxx by auto. unfold dgK, bsum, midG. rewrite !wgt_sg.
  destruct a, b; cbn [andb eqb sg xorb negb]; cns.
Qed.
Lemma dg_rzx e psi : u2 false true (midG e) p q psi = sscal kap (rzxm e p q psi).
Proof.
  apply (V2_eq p q). intros y a b. rewrite V2_u2, V2_sscal, V2_rzx by auto. unfold dgK, bsum, midG. rewrite !wgt_sg, !wgt_id.
  destruct a, b; cbn [andb eqb sg xorb negb]; cns.
Qed.
End Two.

(* ---- half angles ------------------------------------------------------------------------------------------------- *)
Definition uu (t : R) : C := Cexp (t / 2).
Definition cc (t : R) : C := RtoC (cos (t / 2)).
Definition ss (t : R) : C := RtoC (sin (t / 2)).
Lemma uu_sq t : uu t * uu t = Cexp t.
Proof. unfold uu. rewrite <- Cexp_add. f_equal. lra. Qed.
Lemma uu_cs t : uu t = cc t + Ci * ss t.
Proof. apply Ceq; cbn; ring. Qed.
Lemma cs_one t : cc t * cc t + ss t * ss t = C1.
Proof. unfold cc, ss. rewrite <- !RtoC_mul, <- RtoC_add, <- RtoC_1. f_equal. pose proof (sin2_cos2 (t / 2)) as H. unfold Rsqr in H. lra. Qed.
Lemma uu_neq t : uu t <> C0. Proof. apply Cexp_neq0. Qed.
Lemma ss_sq t : ss t * ss t = C1 - cc t * cc t.
Proof. transitivity (cc t * cc t + ss t * ss t - cc t * cc t); [ring|now rewrite cs_one]. Qed.
Ltac half t e E := rewrite <- (uu_sq t) in E; rewrite (uu_cs t) in *; subst e.
Ltac cnt t := pose proof (ss_sq t) as CS; pose proof hf2' as HF; pose proof kaphf as KH; pose proof Ci2 as CI; ring [HF KH CI CS].
Lemma e_is t : (0, - sin (t / 2))%R = - (Ci * ss t). Proof. apply Ceq; cbn; ring. Qed.
Lemma e_is' t : (0, sin (t / 2))%R = Ci * ss t. Proof. apply Ceq; cbn; ring. Qed.
Lemma e_ms t : (- sin (t / 2), 0)%R = - ss t. Proof. apply Ceq; cbn; ring. Qed.
Lemma e_s t : (sin (t / 2), 0)%R = ss t. Proof. reflexivity. Qed.
Lemma e_c t : (cos (t / 2), 0)%R = cc t. Proof. reflexivity. Qed.
Lemma e_c' t : RtoC (cos (t / 2))%R = cc t. Proof. reflexivity. Qed.
Lemma e_u t : (cos (t / 2), sin (t / 2))%R = cc t + Ci * ss t. Proof. apply Ceq; cbn; ring. Qed.
Lemma e_v t : (cos (t / 2), - sin (t / 2))%R = cc t - Ci * ss t. Proof. apply Ceq; cbn; ring. Qed.
Ltac ents := rewrite ?e_is, ?e_is', ?e_ms, ?e_s, ?e_c, ?e_c', ?e_u, ?e_v.

(* ---- one qubit ---------------------------------------------------------------------------------------------------- *)
Section One.
Variable q : nat.
Lemma g_diag e psi : zph e q psi = apply (m2 C1 C0 C0 e) [q] psi.
Proof. apply (V1_eq q). intros y a. rewrite V1_ap, V1_z. destruct a; m2s; ring. Qed.
Lemma g_rz t e psi : e = Cexp t -> zph e q psi = sscal (uu t) (apply (rzMat t) [q] psi).
Proof.
  intros E. apply (V1_eq q). intros y a. rewrite V1_sscal, V1_ap, V1_z. unfold rzMat. half t e E. destruct a; m2s; ents; cnt t.
Qed.
Lemma g_x psi : xph (- C1) q psi = apply (m2 C0 C1 C1 C0) [q] psi.
Proof. apply (V1_eq q). intros y a. rewrite V1_ap, V1_x. destruct a; m2s; cns. Qed.
Lemma g_rx t e psi : e = Cexp t -> xph e q psi = sscal (uu t) (apply (rxMat t) [q] psi).
Proof.
  intros E. apply (V1_eq q). intros y a. rewrite V1_sscal, V1_ap, V1_x. unfold rxMat. half t e E. destruct a; m2s; ents; cnt t.
Qed.
Lemma g_y psi : xph (- C1) q (zph (- C1) q psi) = sscal (- Ci) (apply (m2 C0 (0, -1)%R (0, 1)%R C0) [q] psi).
Proof.
  apply (V1_eq q). intros y a. rewrite V1_sscal, V1_ap, V1_x, !V1_z. replace (0, -1)%R with (- Ci) by (apply Ceq; cbn; ring). fold Ci.
  destruct a; m2s; cns.
Qed.
Lemma g_sx psi : xph Ci q psi = apply (m2 (1/2, 1/2)%R (1/2, -1/2)%R (1/2, -1/2)%R (1/2, 1/2)%R) [q] psi.
Proof.
  apply (V1_eq q). intros y a. rewrite V1_ap, V1_x. replace (1/2, 1/2)%R with (hf * (C1 + Ci)) by (apply Ceq; cbn; field).
  replace (1/2, -1/2)%R with (hf * (C1 - Ci)) by (apply Ceq; cbn; field). destruct a; m2s; ring.
Qed.
Lemma g_sxdg psi : xph (- Ci) q psi = apply (m2 (1/2, -1/2)%R (1/2, 1/2)%R (1/2, 1/2)%R (1/2, -1/2)%R) [q] psi.
Proof.
  apply (V1_eq q). intros y a. rewrite V1_ap, V1_x. replace (1/2, 1/2)%R with (hf * (C1 + Ci)) by (apply Ceq; cbn; field).
  replace (1/2, -1/2)%R with (hf * (C1 - Ci)) by (apply Ceq; cbn; field). destruct a; m2s; ring.
Qed.
Lemma g_h psi : hdm q psi = apply (m2 (RtoC sq2) (RtoC sq2) (RtoC sq2) (RtoC (- sq2))) [q] psi.
Proof. apply (V1_eq q). intros y a. rewrite V1_ap, V1_h. rewrite RtoC_opp. change (RtoC sq2) with kap. destruct a; m2s; ring. Qed.
Lemma g_ry t e psi : e = Cexp t -> zph (- C1) q (xph Ci q (zph (- e) q (xph Ci q psi))) = sscal (Ci * uu t) (apply (ryMat t) [q] psi).
Proof.
  intros E. apply (V1_eq q). intros y a. rewrite V1_sscal, V1_ap, V1_z, V1_x, !V1_z, !V1_x. unfold ryMat. half t e E. destruct a; m2s; ents; cnt t.
Qed.
Lemma g_u2 l f el ef psi : el = Cexp l -> ef = Cexp f ->
  zph (Ci * ef) q (xph Ci q (zph (- Ci * el) q psi)) = sscal ((C1 + Ci) * kap) (apply (u2Mat l f) [q] psi).
Proof.
  intros E F. apply (V1_eq q). intros y a. rewrite V1_sscal, V1_ap, V1_z, V1_x, !V1_z. unfold u2Mat.
  replace (- cos l * sq2, - sin l * sq2)%R with (- (el * kap)) by (subst; apply Ceq; cbn; unfold sq2; ring).
  replace (cos f * sq2, sin f * sq2)%R with (ef * kap) by (subst; apply Ceq; cbn; unfold sq2; ring).
  replace (cos (l + f) * sq2, sin (l + f) * sq2)%R with (el * ef * kap) by (subst; rewrite <- Cexp_add; apply Ceq; cbn; unfold sq2; ring).
  change (RtoC sq2) with kap. clear E F. destruct a; m2s; cns.
Qed.
Lemma g_u t l f e el ef psi : e = Cexp t -> el = Cexp l -> ef = Cexp f ->
  zph (- ef) q (xph Ci q (zph (- e) q (xph Ci q (zph el q psi)))) = sscal (Ci * uu t) (apply (uMat l f t) [q] psi).
Proof.
  intros E L F. apply (V1_eq q). intros y a. rewrite V1_sscal, V1_ap, V1_z, V1_x, !V1_z, !V1_x, !V1_z. unfold uMat.
  replace (- cos l * sin (t / 2), - sin l * sin (t / 2))%R with (- (el * ss t)) by (subst; apply Ceq; cbn; ring).
  replace (cos f * sin (t / 2), sin f * sin (t / 2))%R with (ef * ss t) by (subst; apply Ceq; cbn; ring).
  replace (cos (l + f) * cos (t / 2), sin (l + f) * cos (t / 2))%R with (el * ef * cc t) by (subst; rewrite <- Cexp_add; apply Ceq; cbn; ring).
  half t e E. clear L F. destruct a; m2s; ents; cnt t.
Qed.
End One.

(* ---- two qubits --------------------------------------------------------------------------------------------------- *)
Section Pair.
Variables p q : nat.
Hypothesis N : p <> q.
Lemma g_swap psi : swapq p q psi = apply (mat_of [[C1;C0;C0;C0];[C0;C0;C1;C0];[C0;C1;C0;C0];[C0;C0;C0;C1]]) [p; q] psi.
Proof. apply (V2_eq p q). intros y a b. rewrite V2_ap, V2_swap by auto. destruct a, b; m2s; ring. Qed.
Lemma g_iswap psi : hdm q (cxm q p (cxm p q (hdm p (zph Ci q (zph Ci p psi))))) =
  apply (mat_of [[C1;C0;C0;C0];[C0;C0;(0,1)%R;C0];[C0;(0,1)%R;C0;C0];[C0;C0;C0;C1]]) [p; q] psi.
Proof.
  apply (V2_eq p q). intros y a b. rewrite V2_ap, V2_hq by auto. rewrite !V2_cqp, !V2_cpq by auto. rewrite !V2_hp, !V2_zq, !V2_zp by auto. fold Ci.
  destruct a, b; m2s; cns.
Qed.
Lemma g_dcx psi : cxm q p (cxm p q psi) = apply (mat_of [[C1;C0;C0;C0];[C0;C0;C1;C0];[C0;C0;C0;C1];[C0;C1;C0;C0]]) [p; q] psi.
Proof. apply (V2_eq p q). intros y a b. rewrite V2_ap, V2_cqp, V2_cpq by auto. destruct a, b; m2s; ring. Qed.
Lemma g_rzz t e psi : e = Cexp t -> rzzm e p q psi = sscal (uu t) (apply (rzzMat t) [p; q] psi).
Proof.
  intros E. apply (V2_eq p q). intros y a b. rewrite V2_sscal, V2_ap, V2_rzz by auto. unfold rzzMat. half t e E. destruct a, b; m2s; ents; cnt t.
Qed.
Lemma g_rxx t e psi : e = Cexp t -> rxxm e p q psi = sscal (uu t) (apply (rxxMat t) [p; q] psi).
Proof.
  intros E. apply (V2_eq p q). intros y a b. rewrite V2_sscal, V2_ap, V2_rxx by auto. unfold rxxMat. half t e E. destruct a, b; m2s; ents; cnt t.
Qed.
Lemma g_rzx t e psi : e = Cexp t -> rzxm e p q psi = sscal (uu t) (apply (rzxMat t) [p; q] psi).
Proof.
  intros E. apply (V2_eq p q). intros y a b. rewrite V2_sscal, V2_ap, V2_rzx by auto. unfold rzxMat. half t e E. destruct a, b; m2s; ents; cnt t.
Qed.
Lemma g_ryy t e psi : e = Cexp t -> xph (- Ci) p (xph (- Ci) q (rzzm e p q (xph Ci q (xph Ci p psi)))) = sscal (uu t) (apply (ryyMat t) [p; q] psi).
Proof.
  intros E. apply (V2_eq p q). intros y a b. rewrite V2_sscal, V2_ap, V2_xp, !V2_xq, !V2_rzz, !V2_xq, !V2_xp by auto. unfold ryyMat. half t e E. destruct a, b; m2s; ents; cnt t.
Qed.
Lemma g_cx psi : cxm p q psi = capply [(p, true)] (m2 C0 C1 C1 C0) [q] psi.
Proof. apply (V2_eq p q). intros y a b. rewrite V2_cap, V2_cpq by auto. destruct a, b; m2s; ring. Qed.
Lemma g_cz psi : czm p q psi = capply [(p, true)] (m2 C1 C0 C0 (RtoC (-1))) [q] psi.
Proof. apply (V2_eq p q). intros y a b. rewrite V2_cap, V2_cz by auto. replace (RtoC (-1)) with (- C1) by (apply Ceq; cbn; ring). destruct a, b; m2s; ring. Qed.
Lemma g_cp h h' e psi : h * h = e -> h' * h = C1 ->
  zph h q (cxm p q (zph h' q (cxm p q (zph h p psi)))) = capply [(p, true)] (m2 C1 C0 C0 e) [q] psi.
Proof.
  intros E H. apply (V2_eq p q). intros y a b. rewrite V2_cap, V2_zq, V2_cpq, V2_zq, V2_cpq, V2_zp by auto. destruct a, b; m2s; ring [E H].
Qed.
Lemma g_ci psi : psi = capply [(p, true)] (m2 C1 C0 C0 C1) [q] psi.
Proof. apply (V2_eq p q). intros y a b. rewrite V2_cap by auto. destruct a, b; m2s; ring. Qed.
Lemma g_cx3 psi : cxm p q (cxm q p (cxm p q psi)) = swapq p q psi.
Proof. apply (V2_eq p q). intros y a b. rewrite V2_cpq, V2_cqp, V2_cpq, V2_swap by auto. destruct a, b; reflexivity. Qed.
End Pair.
Lemma g_i q psi : psi = apply (m2 C1 C0 C0 C1) [q] psi.
Proof. apply (V1_eq q). intros y a. rewrite V1_ap. destruct a; m2s; ring. Qed.

(* ---- three qubits ------------------------------------------------------------------------------------------------- *)
Section Triple.
Variables p q r : nat.
Hypotheses (N1 : p <> q) (N2 : p <> r) (N3 : q <> r).
Definition ccxm (w w' : C) (psi : state) : state :=
  cxm p q (hdm r (zph w' q (zph w p (cxm p q (zph w r (cxm p r (zph w' r (zph w q (cxm q r (zph w r (cxm p r (zph w' r (cxm q r (hdm r psi)))))))))))))).
Lemma g_ccx w w' psi : w * w = Ci -> w' * w = C1 -> ccxm w w' psi = capply [(p, true); (q, true)] (m2 C0 C1 C1 C0) [r] psi.
Proof.
  intros W W'. apply (V3_eq p q r). intros y a b c. unfold ccxm. rewrite V3_cap, V3_cpq by auto. rewrite !V3_hr by auto.
  repeat rewrite ?V3_zp, ?V3_zq, ?V3_zr, ?V3_cpq, ?V3_cpr, ?V3_cqr by auto. rewrite !V3_hr by auto.
  pose proof hf2' as HF; pose proof kaphf as KH; pose proof Ci2 as CI.
  assert (W2 : w' * w' = - Ci). { transitivity (- ((w' * w') * (Ci * Ci))); [rewrite CI; ring|]. rewrite <- W. transitivity (- ((w' * w) * (w' * w) * (w * w))); [ring|]. rewrite W', W. ring. }
  destruct a, b, c; m2s; ring [W W' W2 HF KH CI].
Qed.
Lemma g_ccz w w' psi : w * w = Ci -> w' * w = C1 -> hdm r (ccxm w w' (hdm r psi)) = capply [(p, true); (q, true)] (m2 C1 C0 C0 (RtoC (-1))) [r] psi.
Proof.
  intros W W'. apply (V3_eq p q r). intros y a b c. rewrite (g_ccx w w') by auto. rewrite V3_hr, !V3_cap by auto. rewrite !V3_hr by auto.
  replace (RtoC (-1)) with (- C1) by (apply Ceq; cbn; ring). destruct a, b, c; m2s; cns.
Qed.
End Triple.
