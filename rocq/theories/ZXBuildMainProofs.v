(* buildFunctionality gate by gate, then for whole circuits. *)
From Coq Require Import Reals QArith Qreals ZArith Bool List Arith Lia Lqa Lra FunctionalExtensionality.
From Verif Require Import Cplx Qsem GateModel GateSpec IRModel IRSpec IRProofs GateProofs PiModel PiProps ZXModel ZXSpec ZXSemProofs ZXPhaseProofs ZXUpdProofs ZXRuleProofs ZXRule2Proofs ZXBookProofs
  ZXBuildModel ZXBuildSpec ZXBuildProofs ZXBuildStateProofs ZXBuildGateProofs ZXBuildIOProofs.
Import ListNotations.
Local Close Scope Q_scope.
Local Open Scope nat_scope.
Local Open Scope C_scope.

(* ---- parameters ------------------------------------------------------------------------------------------------------ *)
Section Par.
Variable rho : nat -> R.
Lemma reduce_mod2 x : mod2 (fst (p_reduce x)) (fst x).
Proof.
  unfold p_reduce. cbn [fst]. set (k := Z.quot _ _). destruct (modPi_mod2 (fst x - 2 * inject_Z k)) as (j & E). exists (j - k)%Z. rewrite E.
  unfold Z.sub. rewrite inject_Z_plus, inject_Z_opp. ring.
Qed.
Lemma pexp_reduce x : pexp rho (p_reduce x) = Cexp (pval rho x).
Proof. unfold pexp. rewrite !pval_eq. rewrite (Cexp_mod2 _ _ _ (reduce_mod2 x)). reflexivity. Qed.
Lemma quot_near (a : Z) (b : positive) : (- (2) < (a # b) - 2 * inject_Z (Z.quot a (2 * Zpos b)) < 2)%Q.
Proof.
  pose proof (Z.quot_rem' a (2 * Zpos b)) as E. pose proof (Z.rem_bound_abs a (2 * Zpos b) ltac:(lia)) as B.
  set (k := Z.quot a (2 * Zpos b)) in *. set (r := Z.rem a (2 * Zpos b)) in *. 
  assert (X : ((a # b) - 2 * inject_Z k == (r # b))%Q) by (rewrite !Qmake_Qdiv, E, inject_Z_plus, !inject_Z_mult; change (inject_Z 2) with 2%Q; field; discriminate).
  rewrite X. unfold Qlt. cbn. lia.
Qed.
Lemma ph_reduce x : ph_ok (p_reduce x).
Proof.
  unfold ph_ok, p_reduce. cbn [fst]. destruct x as [[a b] s]. cbn [fst Qnum Qden]. pose proof (quot_near a b) as Q.
  destruct (C56_modPi ((a # b) - 2 * inject_Z (Z.quot a (2 * Zpos b)))) as (_ & _ & R). apply R. split; Lqa.lra.
Qed.
Lemma ph_modPi q s : (- (3) < q)%Q -> (q <= 3)%Q -> ph_ok (modPi q, s).
Proof. intros A B. destruct (C56_modPi q) as (_ & _ & R). apply R. split; auto. Qed.
Lemma ph_const q : (- (3) < q)%Q -> (q <= 3)%Q -> ph_ok (p_const q).
Proof. apply ph_modPi. Qed.
Lemma ph_addc p q : ph_ok p -> (- (3) < q)%Q -> (q <= 3)%Q -> ph_ok (p_addc p q).
Proof. intros [A B] C D. destruct (ph_const q C D) as [E F]. unfold p_const in E, F. cbn [fst] in E, F. unfold p_addc, pi_add. apply ph_modPi; Lqa.lra. Qed.
Lemma ph_subc p q : ph_ok p -> (- (3) < q)%Q -> (q <= 3)%Q -> ph_ok (p_subc p q).
Proof.
  intros [A B] C D. destruct (ph_const q C D) as [E F]. unfold p_const in E, F. cbn [fst] in E, F. unfold p_subc, pi_add.
  assert (X : ph_ok (pi_neg (modPi q), [])). { unfold pi_neg. apply ph_modPi; rewrite Qred_correct; Lqa.lra. } destruct X as [X Y]. cbn [fst] in X, Y. apply ph_modPi; Lqa.lra.
Qed.
Lemma pexp_addc p q : pexp rho (p_addc p q) = pexp rho p * Cexp (PI * Q2R q).
Proof.
  unfold p_addc, pexp, pi_add. rewrite !pval_eq. cbn [fst snd]. rewrite (Cexp_mod2 _ _ _ (modPi_mod2 _)), <- Cexp_add. rewrite Q2R_plus.
  transitivity (Cexp (PI * Q2R (modPi q) + (PI * Q2R (fst p) + sval rho (snd p)))); [f_equal; ring|]. rewrite (Cexp_mod2 _ _ _ (modPi_mod2 q)). f_equal. ring.
Qed.
Lemma pexp_subc p q : pexp rho (p_subc p q) = pexp rho p * Cexp (- (PI * Q2R q)).
Proof.
  unfold p_subc, pexp, pi_add, pi_neg. rewrite !pval_eq. cbn [fst snd]. rewrite (Cexp_mod2 _ _ _ (modPi_mod2 _)), <- Cexp_add. rewrite Q2R_plus.
  transitivity (Cexp (PI * Q2R (modPi (- Qred (modPi q))) + (PI * Q2R (fst p) + sval rho (snd p)))); [f_equal; ring|]. rewrite (Cexp_mod2 _ _ _ (modPi_mod2 _)).
  rewrite Q2R_opp, Q2R_red.
  transitivity (Cconj (Cexp (PI * Q2R (modPi q) + 0)) * Cexp (PI * Q2R (fst p) + sval rho (snd p))); [rewrite Cexp_conj, <- Cexp_add; f_equal; ring|].
  rewrite (Cexp_mod2 _ _ _ (modPi_mod2 q)). rewrite Cexp_conj, <- Cexp_add. f_equal. ring.
Qed.
Lemma Q2R_2 : Q2R 2 = 2%R. Proof. unfold Q2R. cbn. lra. Qed.
Lemma sval_half s : sval rho (map (fun t => (fst t, (snd t / 2)%Q)) s) = (sval rho s / 2)%R.
Proof.
  induction s as [|t s IH]; cbn; [lra|]. fold (sval rho s) (sval rho (map (fun t => (fst t, (snd t / 2)%Q)) s)). rewrite IH. rewrite Q2R_div, Q2R_2 by discriminate. lra.
Qed.
Lemma pexp_half p : pexp rho (p_half p) * pexp rho (p_half p) = pexp rho p.
Proof.
  unfold pexp, p_half. rewrite !pval_eq. cbn [fst snd]. rewrite sval_half, (Cexp_mod2 _ _ _ (modPi_mod2 _)), <- Cexp_add. f_equal. rewrite Q2R_div, Q2R_2 by discriminate. lra.
Qed.
Lemma ph_half p : ph_ok p -> ph_ok (p_half p).
Proof. intros [A B]. unfold p_half. apply ph_modPi; unfold Qdiv; change (/ 2)%Q with (1 # 2)%Q; Lqa.lra. Qed.
Lemma ph_neg p : ph_ok p -> ph_ok (p_neg p). Proof. apply ph_ok_neg. Qed.
Lemma Cexp_h : Cexp (PI * Q2R (1 # 2)) = Ci.
Proof. unfold Q2R. cbn. replace (PI * (1 * / 2))%R with (PI / 2)%R by lra. unfold Cexp. rewrite cos_PI2, sin_PI2. reflexivity. Qed.
Lemma Cexp_mh : Cexp (- (PI * Q2R (1 # 2))) = - Ci.
Proof. rewrite <- Cexp_conj, Cexp_h. apply Ceq; cbn; ring. Qed.
Lemma e_pi : pexp rho (p_const 1) = - C1. Proof. apply pexp_pi. Qed.
Lemma e_half : pexp rho (p_const (1 # 2)) = Ci. Proof. now rewrite pexp_const, Cexp_h. Qed.
Lemma e_mhalf : pexp rho (p_const (-1 # 2)) = - Ci.
Proof. rewrite pexp_const. rewrite <- Cexp_mh. f_equal. unfold Q2R. cbn. lra. Qed.
Lemma e_nhalf : pexp rho (pi_neg (modPi (1 # 2)), []) = - Ci.
Proof. rewrite <- e_mhalf. reflexivity. Qed.
Lemma e_quarter : pexp rho (p_const (1 # 4)) = (sq2, sq2).
Proof. rewrite pexp_const. unfold Q2R. cbn. replace (PI * (1 * / 4))%R with (PI / 4)%R by lra. unfold Cexp. rewrite cos_PI4, sin_PI4. apply Ceq; cbn; unfold sq2, Rdiv; ring. Qed.
Lemma e_mquarter : pexp rho (p_const (-1 # 4)) = (sq2, (- sq2)%R).
Proof.
  rewrite pexp_const. unfold Q2R. cbn. replace (PI * (-1 * / 4))%R with (- (PI / 4))%R by lra. unfold Cexp. rewrite cos_neg, sin_neg, cos_PI4, sin_PI4. apply Ceq; cbn; unfold sq2, Rdiv; ring.
Qed.
End Par.

(* ---- scalars go through every map -------------------------------------------------------------------------------------- *)
Ltac linx := apply functional_extensionality; intros y; unfold zph, xph, hdm, cxm, czm, rzzm, rxxm, rzxm, swapq, sscal; ring.
Lemma zph_lin e q c f : zph e q (sscal c f) = sscal c (zph e q f). Proof. linx. Qed.
Lemma xph_lin e q c f : xph e q (sscal c f) = sscal c (xph e q f). Proof. linx. Qed.
Lemma hdm_lin q c f : hdm q (sscal c f) = sscal c (hdm q f). Proof. linx. Qed.
Lemma cxm_lin p q c f : cxm p q (sscal c f) = sscal c (cxm p q f). Proof. linx. Qed.
Lemma czm_lin p q c f : czm p q (sscal c f) = sscal c (czm p q f). Proof. linx. Qed.
Lemma rzzm_lin e p q c f : rzzm e p q (sscal c f) = sscal c (rzzm e p q f). Proof. linx. Qed.
Lemma rxxm_lin e p q c f : rxxm e p q (sscal c f) = sscal c (rxxm e p q f). Proof. linx. Qed.
Lemma rzxm_lin e p q c f : rzxm e p q (sscal c f) = sscal c (rzxm e p q f). Proof. linx. Qed.
Lemma swapq_lin p q c f : swapq p q (sscal c f) = sscal c (swapq p q f). Proof. linx. Qed.
Lemma sscal_sscal c d f : sscal c (sscal d f) = sscal (c * d) f. Proof. apply functional_extensionality; intros y; unfold sscal; ring. Qed.
Lemma sscal_1 f : sscal C1 f = f. Proof. apply functional_extensionality; intros y; unfold sscal; ring. Qed.
Lemma kap_neq : kap <> C0. Proof. intros E. pose proof kaphf as K. rewrite E in K. assert (X : hf = C0) by (rewrite <- K; ring). injection X. lra. Qed.

Section Run.
Variable rho : nat -> R.
Variable n : nat.
(* the open diagram st is f up to a non-zero scalar *)
Definition run (st : bst) (f : bits -> state) : Prop := good n st /\ exists c, c <> C0 /\ forall b, T rho n st b = sscal c (f b).
Lemma run_conv st f g c : c <> C0 -> (forall b, f b = sscal c (g b)) -> run st f -> run st g.
Proof. intros N E (G & a & Na & H). split; auto. exists (a * c). split; [now apply Cmul_neq0|]. intros b. now rewrite H, E, sscal_sscal. Qed.
Lemma run_eq st f g : (forall b, f b = g b) -> run st f -> run st g.
Proof. intros E. apply (run_conv _ _ _ C1 C1_neq_C0). intros b. now rewrite sscal_1. Qed.
Lemma run_gp p st f : run st f -> run (addGP p st) f.
Proof.
  intros (G & a & Na & H). destruct (gp_step rho n p st G) as [G' E]. split; auto. exists (pexp rho p * a). split; [apply Cmul_neq0; auto; apply pexp_neq0|].
  intros b. now rewrite E, H, sscal_sscal.
Qed.
Lemma run_half p u st f : run st f -> run (addHalf p u st) f.
Proof. intros H. unfold addHalf. destruct u; now apply run_gp. Qed.
Lemma run_z q p st f : q < n -> ph_ok p -> run st f -> run (addZ q p st) (fun b => zph (pexp rho p) q (f b)).
Proof.
  intros Q P (G & a & Na & H). destruct (spider_step rho n q VZ p false st G Q ltac:(discriminate) P) as [G' E]. split; [apply (so_good _ _ _ _ _ G')|].
  exists a. split; auto. intros b. unfold addZ. rewrite E. cbn [tX vtype_eqb]. now rewrite sp_z, H, zph_lin.
Qed.
Lemma run_x q p st f : q < n -> ph_ok p -> run st f -> run (addX q p st) (fun b => xph (pexp rho p) q (f b)).
Proof.
  intros Q P (G & a & Na & H). destruct (spider_step rho n q VX p false st G Q ltac:(discriminate) P) as [G' E]. split; [apply (so_good _ _ _ _ _ G')|].
  exists a. split; auto. intros b. unfold addX. rewrite E. cbn [tX vtype_eqb]. now rewrite sp_x, H, xph_lin.
Qed.
Lemma run_h q st f : q < n -> run st f -> run (addH q st) (fun b => hdm q (f b)).
Proof.
  intros Q (G & a & Na & H). destruct (spider_step rho n q VZ p_zero true st G Q ltac:(discriminate) ph_ok_zero) as [G' E]. split; [apply (so_good _ _ _ _ _ G')|].
  exists a. split; auto. intros b. unfold addH. rewrite E. cbn [tX vtype_eqb]. now rewrite pexp_p_zero, sp_h, H, hdm_lin.
Qed.
(* two phase-free spiders *)
Lemma two_spiders t0 t1 c t st f : c < n -> t < n -> c <> t -> t0 = VZ \/ t0 = VX -> t1 = VZ \/ t1 = VX -> run st f ->
  let st' := addSpider t1 t p_zero false (addSpider t0 c p_zero false st) in
  run st' f /\ (2 * n <= nth c (snd st') 0)%nat /\ (2 * n <= nth t (snd st') 0)%nat /\ isX (fst st') (nth c (snd st') 0) = tX t0 /\
  isX (fst st') (nth t (snd st') 0) = tX t1 /\ hv (fst st') (nth c (snd st') 0) (nth t (snd st') 0) = None.
Proof.
  intros Hc Ht N A0 A1 (G & a & Na & H) st'.
  assert (B0 : t0 <> VBoundary) by (intros ->; destruct A0; discriminate). assert (B1 : t1 <> VBoundary) by (intros ->; destruct A1; discriminate).
  destruct (spider_step rho n c t0 p_zero false st G Hc B0 ph_ok_zero) as [S1 E1]. set (st1 := addSpider t0 c p_zero false st) in *.
  destruct (spider_step rho n t t1 p_zero false st1 (so_good _ _ _ _ _ S1) Ht B1 ph_ok_zero) as [S2 E2]. fold st' in S2, E2.
  destruct (so_isX _ _ _ _ _ S2 c Hc N) as [K1 K2]. assert (G2 := so_good _ _ _ _ _ S2).
  assert (K : forall ty psi q, ty = VZ \/ ty = VX -> u1 (spK (tX ty) false C1) q psi = psi).
  { intros ty psi q [-> | ->]; cbn [tX vtype_eqb]; [rewrite sp_z|rewrite sp_x].
    - apply functional_extensionality. intros y. unfold zph. destruct (y q); ring.
    - apply functional_extensionality. intros y. unfold xph. transitivity (((C1 + C1) * hf) * psi y); [ring|]. rewrite hf2'. ring. }
  split; [split; [exact G2|]|split; [|split; [|split; [|split]]]].
  - exists a. split; auto. intros b. rewrite E2, E1, pexp_p_zero, !K by auto. apply H.
  - rewrite K1. pose proof (so_len _ _ _ _ _ S1). lia.
  - pose proof (so_len _ _ _ _ _ S2). lia.
  - rewrite K1, K2. apply (so_ty _ _ _ _ _ S1).
  - apply (so_ty _ _ _ _ _ S2).
  - rewrite K1. rewrite hv_sym; [rewrite <- K1; pose proof (so_nbr _ _ _ _ _ S2 c Hc N) as X; now rewrite <- K1 in X|apply G2|rewrite <- K1; apply (g_live _ _ G2 c Hc)|apply (g_live _ _ G2 t Ht)].
Qed.
Lemma run_cx c t st f : c < n -> t < n -> c <> t -> run st f -> run (addCnot c t st) (fun b => cxm c t (f b)).
Proof.
  intros Hc Ht N R. destruct (two_spiders VZ VX c t st f Hc Ht N ltac:(auto) ltac:(auto) R) as ((G & a & Na & H) & U1 & U2 & X1 & X2 & E).
  unfold addCnot, addX, addZ. set (st' := addSpider VX t p_zero false (addSpider VZ c p_zero false st)) in *. clearbody st'.
  destruct (edge_step rho n c t false st' G Hc Ht N U1 U2 E) as [G' E']. split; auto. exists (a * kap). split; [apply Cmul_neq0; auto; apply kap_neq|].
  intros b. rewrite E'. unfold eh. rewrite X1, X2. cbn [tX vtype_eqb xorb]. rewrite dg_cx by auto. rewrite H, cxm_lin, sscal_sscal. f_equal. ring.
Qed.
Lemma run_cz c t st f : c < n -> t < n -> c <> t -> run st f -> run (joinE c t true (addZ t p_zero (addZ c p_zero st))) (fun b => czm c t (f b)).
Proof.
  intros Hc Ht N R. destruct (two_spiders VZ VZ c t st f Hc Ht N ltac:(auto) ltac:(auto) R) as ((G & a & Na & H) & U1 & U2 & X1 & X2 & E).
  unfold addZ. set (st' := addSpider VZ t p_zero false (addSpider VZ c p_zero false st)) in *. clearbody st'.
  destruct (edge_step rho n c t true st' G Hc Ht N U1 U2 E) as [G' E']. split; auto. exists (a * kap). split; [apply Cmul_neq0; auto; apply kap_neq|].
  intros b. rewrite E'. unfold eh. rewrite X1, X2. cbn [tX vtype_eqb xorb]. rewrite dg_cz by auto. rewrite H, czm_lin, sscal_sscal. f_equal. ring.
Qed.
Lemma run_rzz p a b u st f : a < n -> b < n -> a <> b -> ph_ok p -> run st f -> run (addRzz p a b u st) (fun x => rzzm (pexp rho p) a b (f x)).
Proof.
  intros Hc Ht N P R. destruct (two_spiders VZ VZ a b st f Hc Ht N ltac:(auto) ltac:(auto) R) as ((G & k & Na & H) & U1 & U2 & X1 & X2 & E).
  unfold addRzz, addZ. apply run_half. set (st' := addSpider VZ b p_zero false (addSpider VZ a p_zero false st)) in *. clearbody st'.
  destruct (mid_step rho n VX VZ false p a b st' G Hc Ht N U1 U2) as [G' E']; try discriminate; auto; rewrite ?X1, ?X2; auto. split; auto.
  exists (k * kap). split; [apply Cmul_neq0; auto; apply kap_neq|]. intros x. rewrite E', X1, X2. cbn [tX vtype_eqb]. rewrite dg_rzz by auto. rewrite H, rzzm_lin, sscal_sscal. f_equal. ring.
Qed.
Lemma run_rxx p a b u st f : a < n -> b < n -> a <> b -> ph_ok p -> run st f -> run (addRxx p a b u st) (fun x => rxxm (pexp rho p) a b (f x)).
Proof.
  intros Hc Ht N P R. destruct (two_spiders VX VX a b st f Hc Ht N ltac:(auto) ltac:(auto) R) as ((G & k & Na & H) & U1 & U2 & X1 & X2 & E).
  unfold addRxx, addX. apply run_half. set (st' := addSpider VX b p_zero false (addSpider VX a p_zero false st)) in *. clearbody st'.
  destruct (mid_step rho n VZ VX false p a b st' G Hc Ht N U1 U2) as [G' E']; try discriminate; auto; rewrite ?X1, ?X2; auto. split; auto.
  exists (k * kap). split; [apply Cmul_neq0; auto; apply kap_neq|]. intros x. rewrite E', X1, X2. cbn [tX vtype_eqb]. rewrite dg_rxx by auto. rewrite H, rxxm_lin, sscal_sscal. f_equal. ring.
Qed.
Lemma run_rzx p a b u st f : a < n -> b < n -> a <> b -> ph_ok p -> run st f -> run (addRzx p a b u st) (fun x => rzxm (pexp rho p) a b (f x)).
Proof.
  intros Hc Ht N P R. destruct (two_spiders VZ VX a b st f Hc Ht N ltac:(auto) ltac:(auto) R) as ((G & k & Na & H) & U1 & U2 & X1 & X2 & E).
  unfold addRzx, addX, addZ. apply run_half. set (st' := addSpider VX b p_zero false (addSpider VZ a p_zero false st)) in *. clearbody st'.
  destruct (mid_step rho n VX VZ true p a b st' G Hc Ht N U1 U2) as [G' E']; try discriminate; auto; rewrite ?X1, ?X2; auto. split; auto.
  exists (k * kap). split; [apply Cmul_neq0; auto; apply kap_neq|]. intros x. rewrite E', X1, X2. cbn [tX vtype_eqb]. rewrite dg_rzx by auto. rewrite H, rzxm_lin, sscal_sscal. f_equal. ring.
Qed.
Lemma run_swap a b st f : a < n -> b < n -> a <> b -> run st f -> run (addSwap a b st) (fun x => swapq a b (f x)).
Proof. intros Ha Hb N (G & k & Nk & H). destruct (swap_step rho n a b st G Ha Hb N) as [G' E]. split; auto. exists k. split; auto. intros x. now rewrite E, H, swapq_lin. Qed.
Lemma run_cphase p h c t st f : c < n -> t < n -> c <> t -> ph_ok p -> run st f -> h = pexp rho p ->
  run (addCphase p c t st) (fun b => capply [(c, true)] (m2 C1 C0 C0 h) [t] (f b)).
Proof.
  intros Hc Ht N P R ->. unfold addCphase. eapply run_eq; [|apply run_z; auto; [now apply ph_half|]; apply run_cx; auto; apply run_z; auto; [apply ph_neg; now apply ph_half|]; apply run_cx; auto; apply run_z; [auto|now apply ph_half|exact R]].
  intros b. cbn beta. apply g_cp; auto; [apply pexp_half|]. rewrite pexp_neg. apply pexp_conj_mul.
Qed.
Lemma run_ccx x y a st f : x < n -> y < n -> a < n -> x <> y -> x <> a -> y <> a -> run st f ->
  exists w w', w * w = Ci /\ w' * w = C1 /\ run (addCcx x y a st) (fun b => ccxm x y a w w' (f b)).
Proof.
  intros Hx Hy Ha N1 N2 N3 R. exists (pexp rho (p_const (1 # 4))), (pexp rho (p_const (-1 # 4))). split; [|split].
  - rewrite e_quarter. pose proof sq2_sq as S. apply Ceq; cbn; lra.
  - rewrite e_quarter, e_mquarter. pose proof sq2_sq as S. apply Ceq; cbn; lra.
  - unfold addCcx, ccxm. repeat first [apply run_cx; [assumption|assumption|assumption|] | apply run_h; [assumption|] | apply run_z; [assumption|apply ph_const; reflexivity || discriminate|]]. exact R.
Qed.
End Run.

(* ---- one gate ---------------------------------------------------------------------------------------------------------- *)
Section Gate.
Variable rho : nat -> R.
Variable n : nat.
Variable p : perm.
Hypothesis L : layout_ok p n.
Lemma lay_at q x : plookup p q = Some x -> at_ p q = RDone (lay p q) /\ lay p q < n.
Proof.
  intros E. unfold at_, lay. rewrite E. split; auto. apply L. change x with (snd (q, x)). apply in_map. now apply plookup_In.
Qed.
Lemma lay_inj q q' x x' : plookup p q = Some x -> plookup p q' = Some x' -> lay p q = lay p q' -> q = q'.
Proof.
  unfold lay. intros E E'. rewrite E, E'. intros ->. destruct L as [[_ N] _]. apply plookup_In in E. apply plookup_In in E'. clear L.
  induction p as [|[a b] l IH]; [destruct E|]. cbn in N. inversion N as [|? ? N1 N2]. subst. destruct E as [E|E], E' as [E'|E'].
  - congruence.
  - injection E as -> ->. destruct N1. change x' with (snd (q', x')). now apply in_map.
  - injection E' as -> ->. destruct N1. change x' with (snd (q, x')). now apply in_map.
  - auto.
Qed.
Lemma inq_ok st f q : run rho n st f -> q < n -> inq st q = RDone q.
Proof. intros [G _] Q. unfold inq. rewrite (g_len _ _ G). now rewrite (proj2 (Nat.ltb_lt q n)). Qed.
Lemma run_conv' st f g c : run rho n st f -> c <> C0 -> (forall b, f b = sscal c (g b)) -> run rho n st g.
Proof. intros. eapply run_conv; eauto. Qed.
Lemma run_eq' st f g : run rho n st f -> (forall b, f b = g b) -> run rho n st g.
Proof. intros. eapply run_eq; eauto. Qed.
Ltac phs := lazymatch goal with
  | |- ph_ok (p_const _) => apply ph_const; (reflexivity || discriminate)
  | |- ph_ok (p_reduce _) => apply ph_reduce
  | |- ph_ok (p_addc _ _) => apply ph_addc; [apply ph_reduce|reflexivity|discriminate]
  | |- ph_ok (p_subc _ _) => apply ph_subc; [apply ph_reduce|reflexivity|discriminate]
  | |- _ => apply ph_okb_ok; reflexivity
  end.
Ltac runs := first [eassumption | lazymatch goal with
  | |- run _ _ (addRzz _ _ _ _ _) _ => apply run_rzz; [assumption|assumption|congruence|phs|]
  | |- run _ _ (addRxx _ _ _ _ _) _ => apply run_rxx; [assumption|assumption|congruence|phs|]
  | |- run _ _ (addRzx _ _ _ _ _) _ => apply run_rzx; [assumption|assumption|congruence|phs|]
  | |- run _ _ (addCnot _ _ _) _ => apply run_cx; [assumption|assumption|congruence|]
  | |- run _ _ (joinE _ _ true _) _ => apply run_cz; [assumption|assumption|congruence|]
  | |- run _ _ (addH _ _) _ => apply run_h; [assumption|]
  | |- run _ _ (addZ _ _ _) _ => apply run_z; [assumption|phs|]
  | |- run _ _ (addX _ _ _) _ => apply run_x; [assumption|phs|]
  | |- run _ _ (addGP _ _) _ => apply run_gp
  | |- run _ _ (addHalf _ _ _) _ => apply run_half
  | |- run _ _ (addSwap _ _ _) _ => apply run_swap; [assumption|assumption|congruence|]
  end; runs].
Lemma m1 : RtoC (-1) = - C1. Proof. apply Ceq; cbn; ring. Qed.
Lemma mi : (0, -1)%R = - Ci. Proof. apply Ceq; cbn; ring. Qed.
Lemma pMat_e t : pMat t = m2 C1 C0 C0 (Cexp t). Proof. reflexivity. Qed.
Lemma Ci_neq : Ci <> C0. Proof. intros E. injection E. lra. Qed.
Lemma mCi_neq : - Ci <> C0. Proof. intros E. injection E. lra. Qed.
Lemma i1_neq : C1 + Ci <> C0. Proof. intros E. injection E. lra. Qed.
Section Plain1.
Variables (st : bst) (f : bits -> state) (t0 : nat).
Hypothesis R : run rho n st f.
Hypothesis A : at_ p t0 = RDone (lay p t0).
Hypothesis Q : lay p t0 < n.
Ltac go1 I := rewrite ?I; cbn [rbind]; eexists; split; [reflexivity|].
Ltac semu := unfold semf, std_of; cbn [map sem o_type o_par o_ctl o_tgt gate_matrix single_matrix two_matrix length Nat.eqb].
Definition ok1 t ps := exists st', parse_plain p t ps [t0] st = RDone st' /\ run rho n st' (fun b => semf (std_of rho p t ps [] [t0]) (f b)).
Ltac st1 := unfold ok1, parse_plain; cbn [front second rbind par nth_error]; rewrite A; cbn [rbind]; rewrite ?(inq_ok st f _ R Q); cbn [rbind]; eexists; split; [reflexivity|]; semu.
Lemma p1_i ps : ok1 gI ps. Proof. st1. eapply run_eq'; [exact R|]. intros b. apply g_i. Qed.
Lemma p1_h ps : ok1 gH ps. Proof. st1. eapply run_eq'; [runs|]. intros b. apply g_h. Qed.
Lemma p1_x ps : ok1 gX ps. Proof. st1. eapply run_eq'; [runs|]. intros b. cbn beta. rewrite e_pi. apply g_x. Qed.
Lemma p1_y ps : ok1 gY ps. Proof. st1. eapply run_conv'; [runs|apply mCi_neq|]. intros b. cbn beta. rewrite e_pi. apply g_y. Qed.
Lemma p1_z ps : ok1 gZ ps. Proof. st1. eapply run_eq'; [runs|]. intros b. cbn beta. rewrite e_pi, m1. apply g_diag. Qed.
Lemma p1_s ps : ok1 gS ps. Proof. st1. eapply run_eq'; [runs|]. intros b. cbn beta. rewrite e_half. apply g_diag. Qed.
Lemma p1_sdg ps : ok1 gSdg ps. Proof. st1. eapply run_eq'; [runs|]. intros b. cbn beta. rewrite e_mhalf, mi. apply g_diag. Qed.
Lemma p1_t ps : ok1 gT ps. Proof. st1. eapply run_eq'; [runs|]. intros b. cbn beta. rewrite e_quarter. apply g_diag. Qed.
Lemma p1_tdg ps : ok1 gTdg ps. Proof. st1. eapply run_eq'; [runs|]. intros b. cbn beta. rewrite e_mquarter. apply g_diag. Qed.
Lemma p1_sx ps : ok1 gSX ps. Proof. st1. eapply run_eq'; [runs|]. intros b. cbn beta. rewrite e_half. apply g_sx. Qed.
Lemma p1_sxdg ps : ok1 gSXdg ps. Proof. st1. eapply run_eq'; [runs|]. intros b. cbn beta. rewrite e_mhalf. apply g_sxdg. Qed.
Lemma p1_p x ps : ok1 gP (x :: ps). Proof. st1. eapply run_eq'; [runs|]. intros b. cbn beta. rewrite pexp_reduce, pMat_e. apply g_diag. Qed.
Lemma p1_rx x ps : ok1 gRX (x :: ps). Proof. st1. eapply run_conv'; [unfold addRx; runs|apply uu_neq|]. intros b. cbn beta. apply g_rx. apply pexp_reduce. Qed.
Lemma p1_rz x ps : ok1 gRZ (x :: ps). Proof. st1. eapply run_conv'; [unfold addRz; runs|apply uu_neq|]. intros b. cbn beta. apply g_rz. apply pexp_reduce. Qed.
Lemma addc1 x : pexp rho (p_addc (p_reduce x) 1) = - Cexp (pval rho x).
Proof. rewrite pexp_addc, pexp_reduce. replace (PI * Q2R 1)%R with PI by (unfold Q2R; cbn; lra). rewrite Cexp_PI. ring. Qed.
Lemma addc3 x : pexp rho (p_addc (p_reduce x) 3) = - Cexp (pval rho x).
Proof. rewrite pexp_addc, pexp_reduce. replace (PI * Q2R 3)%R with (PI + 2 * PI)%R by (unfold Q2R; cbn; lra). rewrite Cexp_2PI, Cexp_PI. ring. Qed.
Lemma addch x : pexp rho (p_addc (p_reduce x) (1 # 2)) = Ci * Cexp (pval rho x).
Proof. rewrite pexp_addc, pexp_reduce, Cexp_h. ring. Qed.
Lemma subch x : pexp rho (p_subc (p_reduce x) (1 # 2)) = - Ci * Cexp (pval rho x).
Proof. rewrite pexp_subc, pexp_reduce, Cexp_mh. ring. Qed.
Lemma p1_ry x ps : ok1 gRY (x :: ps).
Proof. st1. eapply run_conv'; [unfold addRy; runs| |intros b; cbn beta; rewrite addc1, e_half, e_pi; apply g_ry; reflexivity]. apply Cmul_neq0; [apply Ci_neq|apply uu_neq]. Qed.
Lemma p1_u2 x y ps : ok1 gU2 (x :: y :: ps).
Proof. st1. eapply run_conv'; [runs| |intros b; cbn beta; rewrite addch, subch, e_half; apply g_u2; reflexivity]. apply Cmul_neq0; [apply i1_neq|apply kap_neq]. Qed.
Lemma p1_u x y z ps : ok1 gU (x :: y :: z :: ps).
Proof. st1. eapply run_conv'; [runs| |intros b; cbn beta; rewrite addc1, addc3, pexp_reduce, e_half; apply g_u; reflexivity]. apply Cmul_neq0; [apply Ci_neq|apply uu_neq]. Qed.
End Plain1.
Section Plain2.
Variables (st : bst) (f : bits -> state) (t0 t1 : nat).
Hypothesis R : run rho n st f.
Hypothesis A : at_ p t0 = RDone (lay p t0).
Hypothesis A' : at_ p t1 = RDone (lay p t1).
Hypothesis Q : lay p t0 < n.
Hypothesis Q' : lay p t1 < n.
Hypothesis N : lay p t0 <> lay p t1.
Definition ok2 t ps := exists st', parse_plain p t ps [t0; t1] st = RDone st' /\ run rho n st' (fun b => semf (std_of rho p t ps [] [t0; t1]) (f b)).
Ltac semu := unfold semf, std_of; cbn [map sem o_type o_par o_ctl o_tgt gate_matrix single_matrix two_matrix length Nat.eqb].
Ltac st2 := unfold ok2, parse_plain; cbn [front second rbind par nth_error]; rewrite A, ?A'; cbn [rbind]; rewrite ?(inq_ok st f _ R Q), ?(inq_ok st f _ R Q'); cbn [rbind];
  rewrite ?(inq_ok st f _ R Q), ?(inq_ok st f _ R Q'); cbn [rbind]; eexists; split; [reflexivity|]; semu.
Lemma p2_swap ps : ok2 gSWAP ps. Proof. st2. eapply run_eq'; [runs|]. intros b. now apply g_swap. Qed.
Lemma p2_iswap ps : ok2 giSWAP ps. Proof. st2. eapply run_eq'; [runs|]. intros b. cbn beta. rewrite e_half. now apply g_iswap. Qed.
Lemma p2_dcx ps : ok2 gDCX ps. Proof. st2. eapply run_eq'; [unfold addDcx; runs|]. intros b. now apply g_dcx. Qed.
Lemma p2_rzz x ps : ok2 gRZZ (x :: ps). Proof. st2. eapply run_conv'; [runs|apply uu_neq|]. intros b. apply g_rzz; auto. apply pexp_reduce. Qed.
Lemma p2_rxx x ps : ok2 gRXX (x :: ps). Proof. st2. eapply run_conv'; [runs|apply uu_neq|]. intros b. apply g_rxx; auto. apply pexp_reduce. Qed.
Lemma p2_rzx x ps : ok2 gRZX (x :: ps). Proof. st2. eapply run_conv'; [runs|apply uu_neq|]. intros b. apply g_rzx; auto. apply pexp_reduce. Qed.
Lemma p2_ryy x ps : ok2 gRYY (x :: ps). Proof. st2. eapply run_conv'; [runs|apply uu_neq|]. intros b. cbn beta. rewrite e_half, e_nhalf. apply g_ryy; auto. apply pexp_reduce. Qed.
End Plain2.
Section Ctl1.
Variables (st : bst) (f : bits -> state) (c0 t0 : nat).
Hypothesis R : run rho n st f.
Hypothesis A : at_ p t0 = RDone (lay p t0).
Hypothesis A' : at_ p c0 = RDone (lay p c0).
Hypothesis Q : lay p t0 < n.
Hypothesis Q' : lay p c0 < n.
Hypothesis N : lay p c0 <> lay p t0.
Definition okc t ps := exists st', parse_ctl1 p t ps c0 t0 st = RDone st' /\ run rho n st' (fun b => semf (std_of rho p t ps [(c0, true)] [t0]) (f b)).
Ltac semu := unfold semf, std_of; cbn [map sem o_type o_par o_ctl o_tgt gate_matrix single_matrix two_matrix length Nat.eqb fst snd].
Ltac stc := unfold okc, parse_ctl1; cbn [front second rbind par nth_error]; rewrite A, ?A'; cbn [rbind]; rewrite ?(inq_ok st f _ R Q), ?(inq_ok st f _ R Q'); cbn [rbind];
  rewrite ?(inq_ok st f _ R Q), ?(inq_ok st f _ R Q'); cbn [rbind]; eexists; split; [reflexivity|]; semu.
Lemma c1_x ps : okc gX ps. Proof. stc. eapply run_eq'; [runs|]. intros b. now apply g_cx. Qed.
Lemma c1_z ps : okc gZ ps. Proof. stc. eapply run_eq'; [runs|]. intros b. now apply g_cz. Qed.
Lemma c1_i ps : okc gI ps. Proof. stc. eapply run_eq'; [exact R|]. intros b. now apply g_ci. Qed.
Lemma c1_p x ps : okc gP (x :: ps). Proof. stc. rewrite pMat_e. apply run_cphase; auto; [apply ph_reduce|now rewrite pexp_reduce]. Qed.
Lemma c1_s ps : okc gS ps. Proof. stc. apply run_cphase; auto; [phs|now rewrite e_half]. Qed.
Lemma c1_t ps : okc gT ps. Proof. stc. apply run_cphase; auto; [phs|now rewrite e_quarter]. Qed.
Lemma c1_sdg ps : okc gSdg ps. Proof. stc. apply run_cphase; auto; [phs|now rewrite e_mhalf, mi]. Qed.
Lemma c1_tdg ps : okc gTdg ps. Proof. stc. apply run_cphase; auto; [phs|now rewrite e_mquarter]. Qed.
End Ctl1.
Section Ctl2.
Variables (st : bst) (f : bits -> state) (c0 c1 t0 : nat).
Hypothesis R : run rho n st f.
Hypothesis A : at_ p t0 = RDone (lay p t0).
Hypothesis A' : at_ p c0 = RDone (lay p c0).
Hypothesis A'' : at_ p c1 = RDone (lay p c1).
Hypothesis Q : lay p t0 < n.
Hypothesis Q' : lay p c0 < n.
Hypothesis Q'' : lay p c1 < n.
Hypothesis N : lay p c0 <> lay p t0.
Hypothesis N' : lay p c1 <> lay p t0.
Hypothesis N'' : lay p c0 <> lay p c1.
Definition okcc t ps := exists st', parse_ctl2 p t c0 c1 [t0] st = RDone st' /\ run rho n st' (fun b => semf (std_of rho p t ps [(c0, true); (c1, true)] [t0]) (f b)).
Ltac semu := unfold semf, std_of; cbn [map sem o_type o_par o_ctl o_tgt gate_matrix single_matrix two_matrix length Nat.eqb fst snd].
Ltac stcc := unfold okcc, parse_ctl2; cbn [front rbind]; rewrite A, A', A''; cbn [rbind]; rewrite (inq_ok st f _ R Q), (inq_ok st f _ R Q'), (inq_ok st f _ R Q''); cbn [rbind];
  eexists; split; [reflexivity|]; semu.
Lemma c2_x ps : okcc gX ps.
Proof. stcc. destruct (run_ccx rho n (lay p c0) (lay p c1) (lay p t0) st f) as (w & w' & W & W' & H); auto. eapply run_eq'; [exact H|]. intros b. now apply g_ccx. Qed.
Lemma c2_z ps : okcc gZ ps.
Proof.
  stcc. destruct (run_ccx rho n (lay p c0) (lay p c1) (lay p t0) (addH (lay p t0) st) (fun b => hdm (lay p t0) (f b))) as (w & w' & W & W' & H); auto; [runs|].
  eapply run_eq'; [apply run_h; [exact Q|exact H]|]. intros b. now apply g_ccz.
Qed.
End Ctl2.
Lemma sem_arity t ps cs ts : t <> gBarrier -> (exists g, sem (std_of rho p t ps cs ts) = Some g) ->
  exists k M, gate_matrix t (map (pval rho) ps) = Some (k, M) /\ length ts = k.
Proof.
  intros N [g S]. unfold sem, std_of in S. cbn [o_type o_par o_ctl o_tgt] in S. assert (X : match gate_matrix t (map (pval rho) ps) with
    | Some (k, M) => if Nat.eqb (length (map (lay p) ts)) k then Some (capply (map (fun c => (lay p (fst c), snd c)) cs) M (map (lay p) ts)) else None | None => None end = Some g)
    by (destruct t; try exact S; congruence).
  clear S. destruct (gate_matrix t (map (pval rho) ps)) as [[k M]|]; [|discriminate]. exists k, M. split; auto. rewrite map_length in X. destruct (Nat.eqb_spec (length ts) k); [auto|discriminate].
Qed.
Definition npar (t : optype) : nat := match t with gU => 3 | gU2 => 2 | gP | gRX | gRY | gRZ | gRXX | gRYY | gRZZ | gRZX => 1 | _ => 0 end.
Definition ntgt (t : optype) : nat := match t with gSWAP | giSWAP | gDCX | gRXX | gRYY | gRZZ | gRZX => 2 | _ => 1 end.
Lemma sem_shape t ps cs ts : t <> gBarrier -> handled t = true -> t <> gMeasure -> transformable (ZGate t [] [] []) = true -> (exists g, sem (std_of rho p t ps cs ts) = Some g) ->
  length ts = ntgt t /\ npar t <= length ps.
Proof.
  intros N Hd Nm Tr S. destruct (sem_arity _ _ _ _ N S) as (k & M & E & <-). clear S.
  destruct t; try discriminate Tr; try discriminate Hd; try congruence; destruct ps as [|? [|? [|? ?]]]; cbn [map gate_matrix single_matrix two_matrix] in E;
    try discriminate E; injection E as E1 E2; split; cbn; lia.
Qed.
Ltac pick := match goal with
  | |- exists _, parse_plain _ ?t _ _ _ = _ /\ _ => match t with
    | gI => apply p1_i | gH => apply p1_h | gX => apply p1_x | gY => apply p1_y | gZ => apply p1_z | gS => apply p1_s | gSdg => apply p1_sdg | gT => apply p1_t
    | gTdg => apply p1_tdg | gSX => apply p1_sx | gSXdg => apply p1_sxdg | gP => apply p1_p | gRX => apply p1_rx | gRY => apply p1_ry | gRZ => apply p1_rz
    | gU2 => apply p1_u2 | gU => apply p1_u | gSWAP => apply p2_swap | giSWAP => apply p2_iswap | gDCX => apply p2_dcx
    | gRZZ => apply p2_rzz | gRXX => apply p2_rxx | gRZX => apply p2_rzx | gRYY => apply p2_ryy end
  | |- exists _, parse_ctl1 _ ?t _ _ _ _ = _ /\ _ => match t with
    | gX => apply c1_x | gZ => apply c1_z | gI => apply c1_i | gP => apply c1_p | gS => apply c1_s | gT => apply c1_t | gSdg => apply c1_sdg | gTdg => apply c1_tdg end
  | |- exists _, parse_ctl2 _ ?t _ _ _ _ = _ /\ _ => match t with gX => apply c2_x | gZ => apply c2_z end
  end.
Lemma list1 {A} (l : list A) : length l = 1 -> exists a, l = [a].
Proof. destruct l as [|a [|]]; try discriminate; eauto. Qed.
Lemma list2 {A} (l : list A) : length l = 2 -> exists a b, l = [a; b].
Proof. destruct l as [|a [|b [|]]]; try discriminate; eauto. Qed.
Definition keeps (o : stdop) (r : res bst) (f : bits -> state) : Prop := exists st', r = RDone st' /\ run rho n st' (fun b => semf o (f b)).
Lemma plain_main t ps ts st f : gate_ok rho p t ps [] ts -> run rho n st f -> keeps (std_of rho p t ps [] ts) (parse_gate p t ps [] ts st) f.
Proof.
  intros (Tr & Hd & Pos & Nd & Lk & S) R. cbn [map app] in *. clear Pos. unfold keeps.
  assert (LK : forall q, In q ts -> at_ p q = RDone (lay p q) /\ lay p q < n).
  { intros q I. destruct (Lk q I) as [x E]. eapply lay_at; eauto. }
  assert (INJ : forall q q', In q ts -> In q' ts -> q <> q' -> lay p q <> lay p q').
  { intros q q' I I' Ne E. apply Ne. destruct (Lk q I) as [x X], (Lk q' I') as [x' X']. eapply lay_inj; eauto. }
  clear Lk. assert (Cases : t = gBarrier \/ t = gMeasure \/ (t <> gBarrier /\ t <> gMeasure)) by (destruct t; auto; right; right; split; discriminate).
  destruct Cases as [-> | [-> | [Nb Nm]]].
  - exists st. split; auto.
  - destruct ts as [|t0 ts]; [congruence|]. destruct (LK t0 (or_introl eq_refl)) as [A Q]. cbn [parse_gate]. unfold parse_plain. cbn [front rbind]. rewrite A. cbn [rbind]. exists st. split; auto.
  - assert (Sh : length ts = ntgt t /\ npar t <= length ps).
    { apply (sem_shape t ps [] ts); auto; destruct t; auto; discriminate || congruence. }
    clear S. destruct Sh as [Lt Lp].
    destruct t; try discriminate Hd; try discriminate Tr; try congruence; cbn [parse_gate]; cbn [npar ntgt] in *;
      [idtac | ..]; try (apply list1 in Lt; destruct Lt as [t0 ->]; destruct (LK t0 (or_introl eq_refl)) as [A Q]);
      try (apply list2 in Lt; destruct Lt as (t0 & t1 & ->); destruct (LK t0 (or_introl eq_refl)) as [A Q]; destruct (LK t1 (or_intror (or_introl eq_refl))) as [A' Q'];
        assert (N : lay p t0 <> lay p t1) by (apply INJ; [now left|now right; left|]; inversion Nd as [|? ? X Y]; subst; intros ->; apply X; now left));
      try (destruct ps as [|x ps]; [exfalso; cbn in Lp; lia|]); try (destruct ps as [|y ps]; [exfalso; cbn in Lp; lia|]); try (destruct ps as [|z ps]; [exfalso; cbn in Lp; lia|]);
      pick; assumption.
Qed.
Lemma ctl1_main t ps c0 t0 st f : gate_ok rho p t ps [(c0, true)] [t0] -> run rho n st f -> keeps (std_of rho p t ps [(c0, true)] [t0]) (parse_gate p t ps [(c0, true)] [t0] st) f.
Proof.
  intros (Tr & Hd & _ & Nd & Lk & S) R. cbn [map app fst] in *. unfold keeps.
  destruct (Lk c0 (or_introl eq_refl)) as [xc Ec]. destruct (Lk t0 (or_intror (or_introl eq_refl))) as [xt Et].
  destruct (lay_at _ _ Ec) as [A' Q'], (lay_at _ _ Et) as [A Q].
  assert (N : lay p c0 <> lay p t0). { intros E. pose proof (lay_inj _ _ _ _ Ec Et E) as ->. inversion Nd as [|? ? X Y]. apply X. now left. }
  destruct t; try discriminate Tr; cbn [parse_gate fst]; try (exists st; split; [reflexivity|exact R]);
    try (destruct ps as [|x ps]; [exfalso; destruct S as [g S]; discriminate S|]); try (pick; assumption).
Qed.
Lemma ctl2_main t ps c0 c1 ts st f : gate_ok rho p t ps [(c0, true); (c1, true)] ts -> run rho n st f ->
  keeps (std_of rho p t ps [(c0, true); (c1, true)] ts) (parse_gate p t ps [(c0, true); (c1, true)] ts st) f.
Proof.
  intros (Tr & Hd & _ & Nd & Lk & S) R. cbn [map app fst] in *. unfold keeps.
  assert (C : t = gBarrier \/ t = gX \/ t = gZ) by (destruct t; try discriminate Tr; auto). destruct C as [->|C]; [exists st; split; [reflexivity|exact R]|].
  assert (Lt : length ts = 1).
  { assert (Nb : t <> gBarrier) by (destruct C as [-> | ->]; discriminate). assert (Nm : t <> gMeasure) by (destruct C as [-> | ->]; discriminate).
    destruct (sem_shape t ps [(c0, true); (c1, true)] ts) as [X _]; auto; destruct C as [-> | ->]; auto. }
  apply list1 in Lt. destruct Lt as [t0 ->].
  destruct (Lk c0 (or_introl eq_refl)) as [xc Ec]. destruct (Lk c1 (or_intror (or_introl eq_refl))) as [xd Ed]. destruct (Lk t0 (or_intror (or_intror (or_introl eq_refl)))) as [xt Et].
  destruct (lay_at _ _ Ec) as [A' Q'], (lay_at _ _ Ed) as [A'' Q''], (lay_at _ _ Et) as [A Q]. inversion Nd as [|? ? X Y]. inversion Y as [|? ? X' Y']. subst.
  assert (N : lay p c0 <> lay p t0). { intros E. pose proof (lay_inj _ _ _ _ Ec Et E) as ->. apply X. right. now left. }
  assert (N' : lay p c1 <> lay p t0). { intros E. pose proof (lay_inj _ _ _ _ Ed Et E) as ->. apply X'. now left. }
  assert (N'' : lay p c0 <> lay p c1). { intros E. pose proof (lay_inj _ _ _ _ Ec Ed E) as ->. apply X. now left. }
  destruct C as [-> | ->]; cbn [parse_gate fst]; pick; assumption.
Qed.
Lemma gate_main t ps cs ts st f : gate_ok rho p t ps cs ts -> run rho n st f -> keeps (std_of rho p t ps cs ts) (parse_gate p t ps cs ts st) f.
Proof.
  intros G R. destruct cs as [|[c0 b0] [|[c1 b1] [|? ?]]].
  - now apply plain_main.
  - assert (b0 = true) as -> by (apply (proj1 (proj2 (proj2 G)) (c0, b0)); now left). assert (C : t = gBarrier \/ length ts = 1).
    { destruct G as [Tr _]. cbn in Tr. destruct t; auto; right; destruct (Nat.eqb_spec (length ts) 1); auto; discriminate. }
    destruct C as [->|C]; [exists st; split; [reflexivity|exact R]|]. apply list1 in C. destruct C as [t0 ->]. now apply ctl1_main.
  - assert (b0 = true) as -> by (apply (proj1 (proj2 (proj2 G)) (c0, b0)); now left). assert (b1 = true) as -> by (apply (proj1 (proj2 (proj2 G)) (c1, b1)); right; now left).
    now apply ctl2_main.
  - destruct G as [Tr _]. cbn in Tr. destruct t; try discriminate Tr. exists st. split; [reflexivity|exact R].
Qed.

(* ---- circuits ------------------------------------------------------------------------------------------------------------- *)
Fixpoint parseL (l : list zop) (st : bst) : res bst :=
  match l with
  | [] => RDone st
  | o1 :: l1 =>
      match l1 with
      | o2 :: ((o3 :: l3) as l2) =>
          rbind (check_swap p o1 o2 o3) (fun s =>
          match s with
          | Some (c, t) => rbind (inq st c) (fun c => rbind (inq st t) (fun t => parseL l3 (addSwap t c st)))
          | None => rbind (parse p o1 st) (parseL l1)
          end)
      | _ => rbind (parse p o1 st) (parseL l1)
      end
  end.
Lemma parse_compound l st : parse p (ZCompound l) st = parseL l st. Proof. reflexivity. Qed.
Lemma zop_ok_list l : zop_ok rho p (ZCompound l) <-> Forall (zop_ok rho p) l.
Proof. induction l as [|o l IH]; cbn. - split; auto. - fold (zop_ok rho p (ZCompound l)). rewrite IH. split; [intros []; constructor; auto|intros H; inversion H; auto]. Qed.
Lemma zsem_cons o l psi : zsem rho p (ZCompound (o :: l)) psi = zsem rho p (ZCompound l) (zsem rho p o psi). Proof. reflexivity. Qed.
Lemma swapq_sym a b psi : a <> b -> swapq a b psi = swapq b a psi.
Proof. intros N. unfold swapq. apply functional_extensionality. intros y. now rewrite setb_comm by auto. Qed.
Definition fine (o : zop) : Prop := forall st f, zop_ok rho p o -> run rho n st f -> exists st', parse p o st = RDone st' /\ run rho n st' (fun b => zsem rho p o (f b)).
Fixpoint zop_ind' (P : zop -> Prop) (Hg : forall t ps cs ts, P (ZGate t ps cs ts)) (Hc : forall l, Forall P l -> P (ZCompound l)) (o : zop) : P o :=
  match o with
  | ZGate t ps cs ts => Hg t ps cs ts
  | ZCompound l => Hc l ((fix go l := match l return Forall P l with [] => Forall_nil P | o :: l' => Forall_cons o (zop_ind' P Hg Hc o) (go l') end) l)
  end.
Lemma cx_sem ps c t psi : gate_ok rho p gX ps [c] [t] -> zsem rho p (ZGate gX ps [c] [t]) psi = cxm (lay p (fst c)) (lay p t) psi /\ lay p (fst c) <> lay p t /\ lay p t < n /\ lay p (fst c) < n.
Proof.
  intros (Tr & Hd & Pos & Nd & Lk & S). destruct c as [c0 b0]. assert (b0 = true) as -> by (apply (Pos (c0, b0)); now left). cbn [map app fst] in *.
  destruct (Lk c0 (or_introl eq_refl)) as [xc Ec]. destruct (Lk t (or_intror (or_introl eq_refl))) as [xt Et].
  destruct (lay_at _ _ Ec) as [A' Q'], (lay_at _ _ Et) as [A Q].
  assert (N : lay p c0 <> lay p t). { intros E. pose proof (lay_inj _ _ _ _ Ec Et E) as ->. inversion Nd as [|? ? X Y]. apply X. now left. }
  split; [|split; [|split]; auto]. rewrite g_cx by auto. reflexivity.
Qed.
Lemma cx_len ps c ts : gate_ok rho p gX ps [c] ts -> exists t, ts = [t].
Proof. intros (Tr & _). cbn in Tr. apply list1. destruct (Nat.eqb_spec (length ts) 1); auto; discriminate. Qed.
Lemma at_lay q r x : at_ p q = RDone r -> r = x -> lay p q = x.
Proof. unfold at_, lay. destruct (plookup p q); [|discriminate]. intros E <-. now injection E. Qed.
Lemma check_shape o1 o2 o3 : check_swap p o1 o2 o3 = RDone None \/ exists ps1 c1 q1 ps2 c2 ts2 ps3 c3 ts3,
  o1 = ZGate gX ps1 [c1] [q1] /\ o2 = ZGate gX ps2 [c2] ts2 /\ o3 = ZGate gX ps3 [c3] ts3.
Proof.
  destruct o1 as [t1 ps1 cs1 ts1|]; [|now left]. destruct t1; try now left. destruct cs1 as [|c1 [|]]; try now left. destruct ts1 as [|q1 [|]]; try now left.
  destruct o2 as [t2 ps2 cs2 ts2|]; [|now left]. destruct t2; try now left. destruct cs2 as [|c2 [|]]; try now left.
  destruct o3 as [t3 ps3 cs3 ts3|]; [|now left]. destruct t3; try now left. destruct cs3 as [|c3 [|]]; try now left.
  right. repeat eexists.
Qed.
Lemma check_some o1 o2 o3 c t : zop_ok rho p o1 -> zop_ok rho p o2 -> zop_ok rho p o3 -> check_swap p o1 o2 o3 = RDone (Some (c, t)) ->
  c < n /\ t < n /\ c <> t /\ forall psi, zsem rho p o3 (zsem rho p o2 (zsem rho p o1 psi)) = swapq t c psi.
Proof.
  intros K1 K2 K3. destruct (check_shape o1 o2 o3) as [->|(ps1 & c1 & q1 & ps2 & c2 & ts2 & ps3 & c3 & ts3 & -> & -> & ->)]; [discriminate|].
  destruct (cx_len _ _ _ K2) as [q2 ->]. destruct (cx_len _ _ _ K3) as [q3 ->]. unfold check_swap. cbn [front rbind].
  destruct (at_ p q1) as [a1| |] eqn:E1; try discriminate. cbn [rbind]. destruct (at_ p (fst c1)) as [b1| |] eqn:F1; try discriminate. cbn [rbind].
  destruct (at_ p q2) as [a2| |] eqn:E2; try discriminate. cbn [rbind]. destruct (at_ p q3) as [a3| |] eqn:E3; try discriminate. cbn [rbind].
  destruct (at_ p (fst c2)) as [b2| |] eqn:F2; try discriminate. cbn [rbind]. destruct (at_ p (fst c3)) as [b3| |] eqn:F3; try discriminate. cbn [rbind].
  destruct ((b1 =? a2) && (a2 =? b3) && (a1 =? b2) && (b2 =? a3))%nat eqn:X; [|discriminate]. intros Y. injection Y as Y1 Y2. subst b1 a1.
  rewrite !andb_true_iff, !Nat.eqb_eq in X. destruct X as [[[-> X2] ->] X4].
  destruct (cx_sem ps1 c1 q1 (fun _ => C0) K1) as (_ & N & Q1 & Q2).
  pose proof (at_lay _ _ _ E1 eq_refl) as L1. pose proof (at_lay _ _ _ F1 eq_refl) as M1. pose proof (at_lay _ _ _ E2 eq_refl) as L2.
  pose proof (at_lay _ _ _ F2 eq_refl) as M2. pose proof (at_lay _ _ _ E3 (eq_sym X4)) as L3. pose proof (at_lay _ _ _ F3 (eq_sym X2)) as M3.
  rewrite L1 in *. rewrite M1 in *. split; [auto|split; [auto|split; [auto|]]]. intros psi.
  rewrite (proj1 (cx_sem ps3 c3 q3 _ K3)), (proj1 (cx_sem ps2 c2 q2 _ K2)), (proj1 (cx_sem ps1 c1 q1 _ K1)), L1, M1, L2, M2, L3, M3.
  rewrite g_cx3 by auto. now apply swapq_sym.
Qed.
Lemma check_done o1 o2 o3 : zop_ok rho p o1 -> zop_ok rho p o2 -> zop_ok rho p o3 -> exists r, check_swap p o1 o2 o3 = RDone r.
Proof.
  intros K1 K2 K3. destruct (check_shape o1 o2 o3) as [->|(ps1 & c1 & q1 & ps2 & c2 & ts2 & ps3 & c3 & ts3 & -> & -> & ->)]; [eauto|].
  destruct (cx_len _ _ _ K2) as [q2 ->]. destruct (cx_len _ _ _ K3) as [q3 ->]. unfold check_swap. cbn [front rbind].
  assert (D : forall ps c t, gate_ok rho p gX ps [c] [t] -> at_ p t = RDone (lay p t) /\ at_ p (fst c) = RDone (lay p (fst c))).
  { intros ps c t (_ & _ & _ & _ & Lk & _). destruct (Lk t) as [x X]; [cbn; auto|]. destruct (Lk (fst c)) as [x' X']; [cbn; auto|]. split; eapply lay_at; eauto. }
  destruct (D _ _ _ K1) as [-> ->], (D _ _ _ K2) as [-> ->], (D _ _ _ K3) as [-> ->]. cbn [rbind]. eauto.
Qed.
Lemma parseL_fine m : forall l, length l <= m -> Forall fine l -> Forall (zop_ok rho p) l -> forall st f, run rho n st f ->
  exists st', parseL l st = RDone st' /\ run rho n st' (fun b => zsem rho p (ZCompound l) (f b)).
Proof.
  induction m as [|m IH]; intros l Hl HF HO st f R.
  - destruct l; [|cbn in Hl; lia]. exists st. split; auto.
  - destruct l as [|o1 l1]; [exists st; split; auto|]. inversion HF as [|? ? F1 FT]. inversion HO as [|? ? O1 OT]. subst. cbn in Hl.
    assert (One : exists st', rbind (parse p o1 st) (parseL l1) = RDone st' /\ run rho n st' (fun b => zsem rho p (ZCompound (o1 :: l1)) (f b))).
    { destruct (F1 st f O1 R) as (st1 & E1 & R1). rewrite E1. cbn [rbind]. destruct (IH l1 ltac:(lia) FT OT st1 _ R1) as (st2 & E2 & R2). exists st2. split; auto. }
    destruct l1 as [|o2 [|o3 l3]]; [exact One|exact One|].
    inversion FT as [|? ? F2 FT2]. inversion OT as [|? ? O2 OT2]. inversion FT2 as [|? ? F3 FT3]. inversion OT2 as [|? ? O3 OT3]. subst. cbn in Hl.
    change (exists st', rbind (check_swap p o1 o2 o3) (fun s => match s with
          | Some (c, t) => rbind (inq st c) (fun c => rbind (inq st t) (fun t => parseL l3 (addSwap t c st)))
          | None => rbind (parse p o1 st) (parseL (o2 :: o3 :: l3)) end) = RDone st' /\ run rho n st' (fun b => zsem rho p (ZCompound (o1 :: o2 :: o3 :: l3)) (f b))).
    destruct (check_done o1 o2 o3 O1 O2 O3) as [[[c t]|] E]; rewrite E; cbn [rbind]; [|exact One].
    destruct (check_some _ _ _ _ _ O1 O2 O3 E) as (Qc & Qt & N & X). rewrite (inq_ok st f c R Qc), (inq_ok st f t R Qt). cbn [rbind].
    destruct (IH l3 ltac:(lia) FT3 OT3 (addSwap t c st) (fun b => swapq t c (f b))) as (st2 & E2 & R2); [apply run_swap; auto|]. exists st2. split; auto.
    eapply run_eq'; [exact R2|]. intros b. cbn beta. now rewrite !zsem_cons, X.
Qed.
Lemma all_fine o : fine o.
Proof.
  induction o as [t ps cs ts|l IH] using zop_ind'; intros st f K R.
  - exact (gate_main t ps cs ts st f K R).
  - rewrite parse_compound. apply (parseL_fine (length l)); auto. now apply zop_ok_list.
Qed.
Lemma build_main ops : Forall (zop_ok rho p) ops -> exists d, build p n ops = RDone d /\ wf d /\ represents rho n d (zrun rho p ops) /\
  (forall v, live d v = true -> isBoundary d v = true -> In v (d_in d) \/ In v (d_out d)).
Proof.
  intros K. apply zop_ok_list in K. destruct (all_fine (ZCompound ops) (start n, seq 0 n) (basis_in n) K) as ([d qs] & E & G & c & Nc & H).
  { split; [apply (start_good rho n)|]. exists C1. split; [apply C1_neq_C0|]. intros b. rewrite start_T. now rewrite sscal_1. }
  unfold build. fold (start n). rewrite E. cbn [rbind]. eexists. split; [reflexivity|]. now apply (close_rep rho n d qs (zrun rho p ops) c).
Qed.
End Gate.
