(* The stochastic noise simulation realises its channels. *)
From Coq Require Import Reals Lra List Bool Arith Lia FunctionalExtensionality.
From Verif Require Import Cplx Qsem GateModel GateSpec GateProofs OutcomeSpec DDModel DDSpec DDProofs DDOpsProofs DDGateProofs DDProps OptResetProofs SimModel SimOpProofs
  SimMeasProofs SimNormProofs NoiseSpec NoiseModel NoiseExpProofs NoiseChanProofs.
Import ListNotations.
Local Open Scope R_scope.

Definition apps (Ms : list mat2) (q : nat) (psi : state) : state := fold_left (fun psi M => app1 M q psi) Ms psi.

Section S.
Variables (n nq : nat) (s : stoch) (multi : bool).
Hypothesis NQ : (n <= nq)%nat.
Hypothesis PR : 0 <= noise_prob s multi <= 1.

(* the Kraus operators of an effect; with the choice `amp` made for amplitude damping *)
Definition krs (amp : bool) (e : noise) : kraus :=
  match e with
  | nAmp => [(1, amp_matrix s multi amp)]
  | nPhase => phase_flip (noise_prob s multi)
  | nDepol => depolarising (noise_prob s multi)
  | nIdent => [(1, mI)]
  end.
Fixpoint branches (amp : bool) (effs : list noise) : list (R * list mat2) :=
  match effs with
  | [] => [(1, [])]
  | e :: r => flat_map (fun wk => map (fun b => (fst wk * fst b, snd wk :: snd b)) (branches amp r)) (krs amp e)
  end.
Definition bval (l : list (R * list mat2)) (V : list mat2 -> R) : R := rsum l (fun b => fst b * V (snd b)).
Lemma rsum_scal' {A} k (l : list A) F : rsum l (fun x => k * F x) = k * rsum l F.
Proof. unfold rsum. induction l as [|x l IH]; cbn; [ring|]. rewrite IH. ring. Qed.
Lemma bval_cons amp e r V : bval (branches amp (e :: r)) V = rsum (krs amp e) (fun wk => fst wk * bval (branches amp r) (fun Ms => V (snd wk :: Ms))).
Proof.
  unfold bval. cbn [branches]. rewrite rsum_flat. apply rsum_ext. intros wk _. rewrite rsum_map, <- rsum_scal'.
  apply rsum_ext. intros b _. cbn [fst snd]. ring.
Qed.
Lemma branches_cons amp e r b wk : In wk (krs amp e) -> In b (branches amp r) -> In (fst wk * fst b, snd wk :: snd b) (branches amp (e :: r)).
Proof. intros A B. cbn [branches]. apply in_flat_map. exists wk. split; [auto|]. apply in_map_iff. exists b. auto. Qed.

Definition cache_ok (c : ncache) : Prop := forall t q g, (q < n)%nat -> c t q = Some g ->
  mcanon n g /\ forall psi, mact n g psi = app1 (noise_matrix s t) q psi.
Lemma ntype_eqb_eq a b : ntype_eqb a b = true -> a = b.
Proof. destruct a, b; cbn; congruence. Qed.
Lemma noise_amp amp : noise_matrix s (amp_type multi amp) = amp_matrix s multi amp.
Proof. destruct multi, amp; reflexivity. Qed.

Lemma stack_spec op t q c : mcanon n op -> cache_ok c -> (q < n)%nat ->
  exists r c', stack nq op q t (noise_matrix s t) c = DOk (r, c') /\ mcanon n r /\ cache_ok c' /\
    forall psi, mact n r psi = app1 (noise_matrix s t) q (mact n op psi).
Proof.
  intros O K Q. unfold stack. replace (Nat.ltb q nq) with true by (symmetry; apply Nat.ltb_lt; lia).
  destruct (c t q) as [g|] eqn:G.
  - destruct (K t q g Q G) as [Cg Ag]. destruct (mm_spec n g op Cg O) as (r & E & Cr & Dr). rewrite E. cbn [dbind].
    exists r, c. split; [auto|]. split; [auto|]. split; [auto|]. intros psi. rewrite Dr, Ag. auto.
  - destruct (C13_makeGateDD n nq (fun r c => match r, c with [i], [j] => noise_matrix s t i j | _, _ => C0 end) [] q) as (g & E & Cg & Dg); [lia| |].
    { split; [constructor|]. split; [constructor|]. split; [constructor; [lia|constructor]|]. intros x _ []. }
    change (makeGateDD nq (noise_matrix s t) [] q = DOk g) in E. rewrite E. cbn [dbind].
    destruct (mm_spec n g op Cg O) as (r & E' & Cr & Dr). rewrite E'. cbn [dbind]. do 2 eexists. split; [reflexivity|]. split; [auto|]. split.
    + intros t' q' g' Q'. unfold nc_set. destruct (ntype_eqb t t') eqn:T; cbn [andb]; [|apply K; auto].
      destruct (Nat.eqb_spec q q'); [|apply K; auto]. subst q'. apply ntype_eqb_eq in T. subst t'. intros H. injection H as <-.
      split; [auto|]. intros psi. rewrite Dg, app1_capply. reflexivity.
    + intros psi. rewrite Dr, Dg, app1_capply. reflexivity.
Qed.

Section G.
Context {A : Type}.
Variable f : dres A -> R.
Lemma gen_spec amp q effs : (q < n)%nat -> forall op c (k : medge * ncache -> rndu A) V, mcanon n op -> cache_ok c ->
  (forall b st c', In b (branches amp effs) -> mcanon n st -> cache_ok c' -> (forall psi, mact n st psi = apps (snd b) q (mact n op psi)) ->
     expect f (k (st, c')) (V (snd b))) ->
  expect f (ubind (generate nq s effs op q amp multi c) k) (bval (branches amp effs) V).
Proof.
  intros Q. induction effs as [|e r IH]; intros op c k V O K H.
  - cbn [generate ubind]. replace (bval (branches amp []) V) with (V []) by (unfold bval, rsum; cbn; ring).
    apply (H (1, []) op c); cbn; auto.
  - rewrite bval_cons.
    assert (ONE : forall t w, In (w, noise_matrix s t) (krs amp e) ->
      expect f (ubind (ubind (URet (stack nq op q t (noise_matrix s t) c)) (fun oc => generate nq s r (fst oc) q amp multi (snd oc))) k)
        (bval (branches amp r) (fun Ms => V (noise_matrix s t :: Ms)))).
    { intros t w I. destruct (stack_spec op t q c O K Q) as (st & c' & E & Cst & Kc & D). rewrite E. cbn [ubind fst snd].
      apply IH; auto. intros b st' c'' B Cs Kc' D'. apply (H (w * fst b, noise_matrix s t :: snd b) st' c''); auto.
      - apply (branches_cons amp e r b (w, noise_matrix s t)); auto.
      - intros psi. rewrite D', D. reflexivity. }
    assert (NONE : forall w, In (w, mI) (krs amp e) ->
      expect f (ubind (generate nq s r op q amp multi c) k) (bval (branches amp r) (fun Ms => V (mI :: Ms)))).
    { intros w I. apply IH; auto. intros b st' c'' B Cs Kc' D'. apply (H (w * fst b, mI :: snd b) st' c''); auto.
      - apply (branches_cons amp e r b (w, mI)); auto.
      - intros psi. rewrite D'. unfold apps. cbn [snd fold_left]. rewrite app1_mI. reflexivity. }
    destruct e; cbn [generate].
    + cbn [krs rsum fold_right fst snd]. rewrite Rplus_0_r, Rmult_1_l. rewrite <- noise_amp. apply (ONE (amp_type multi amp) 1).
      cbn [krs]. rewrite noise_amp. cbn. auto.
    + rewrite ubind_draw.
      pose (KK := fun o => ubind match o with
        | Some tI => generate nq s r op q amp multi c
        | Some t => ubind (URet (stack nq op q t (noise_matrix s t) c)) (fun oc => generate nq s r (fst oc) q amp multi (snd oc))
        | None => URet DThrow end k).
      cbn [krs phase_flip rsum fold_right fst snd]. rewrite Rplus_0_r.
      apply (expect_phase f s multi KK); auto.
      * apply (NONE (1 - noise_prob s multi)). cbn. auto.
      * apply (ONE tZ (noise_prob s multi)). cbn. auto.
    + rewrite ubind_draw.
      pose (KK := fun o => ubind match o with
        | Some tI => generate nq s r op q amp multi c
        | Some t => ubind (URet (stack nq op q t (noise_matrix s t) c)) (fun oc => generate nq s r (fst oc) q amp multi (snd oc))
        | None => URet DThrow end k).
      cbn [krs depolarising rsum fold_right fst snd]. rewrite Rplus_0_r.
      apply (expect_depol f s multi KK); auto.
      * apply (NONE (1 - noise_prob s multi * (3 / 4))). cbn. auto.
      * apply (ONE tX (noise_prob s multi / 4)). cbn. auto.
      * apply (ONE tY (noise_prob s multi / 4)). cbn. auto.
      * apply (ONE tZ (noise_prob s multi / 4)). cbn. auto.
    + rewrite ubind_draw.
      pose (KK := fun o => ubind match o with
        | Some tI => generate nq s r op q amp multi c
        | Some t => ubind (URet (stack nq op q t (noise_matrix s t) c)) (fun oc => generate nq s r (fst oc) q amp multi (snd oc))
        | None => URet DThrow end k).
      cbn [krs rsum fold_right fst snd]. rewrite Rplus_0_r, Rmult_1_l.
      apply (expect_ident f s multi KK). apply (NONE 1). cbn. auto.
Qed.
End G.

(* the sum over the branches is the chain of channels *)
Lemma bval_chain L amp q effs : linear L -> forall phi,
  bval (branches amp effs) (fun Ms => L (proj (apps Ms q phi))) = L (chain (map (krs amp) effs) q (proj phi)).
Proof.
  intros HL. induction effs as [|e r IH]; intros phi.
  - unfold bval, rsum, apps, chain. cbn. ring.
  - rewrite bval_cons. unfold chain. cbn [map fold_left]. fold (chain (map (krs amp) r) q (channel (krs amp e) q (proj phi))).
    rewrite (lin_channel (fun rho => L (chain (map (krs amp) r) q rho)) (linear_chain L _ q HL)).
    apply rsum_ext. intros wk _. f_equal. rewrite kact_proj, <- IH. reflexivity.
Qed.

(** ** Weights *)
Definition full (e : noise) : kraus :=
  match e with nAmp => [(1, amp_matrix s multi false); (1, amp_matrix s multi true)] | _ => krs false e end.
Lemma app1_unit q M psi : (q < n)%nat -> (forall i j, sum2 (fun k => (Cconj (M k i) * M k j)%C) = if eqb i j then C1 else C0) ->
  weight n (app1 M q psi) = weight n psi.
Proof.
  intros Q U. apply RtoC_inj. rewrite !weight_trace, <- kact_proj.
  assert (Co : complete [(1, M)]). { intros i j. cbn [fold_right fst snd]. rewrite U, RtoC_1. destruct (eqb i j); ring. }
  rewrite <- (trace_channel n _ q (proj psi) Co Q). f_equal. apply dext. intros b c. unfold channel. cbn [fold_right fst snd]. rewrite RtoC_1. ring.
Qed.
Definition unit2 (M : mat2) : Prop := forall i j, sum2 (fun k => (Cconj (M k i) * M k j)%C) = if eqb i j then C1 else C0.
Lemma krs_unit amp e wk : e <> nAmp -> In wk (krs amp e) -> unit2 (snd wk).
Proof.
  intros N I. assert (H : In (snd wk) [mI; mX; mY; mZ]).
  { destruct e; cbn in I; [tauto| | |]; repeat (destruct I as [<-|I]; [cbn; auto 10|]); destruct I. }
  cbn in H. repeat (destruct H as [<-|H]; [intros [] []; unfold sum2, mI, mX, mY, mZ, diag2, anti2; cbn; apply Ceq; cbn; ring|]). destruct H.
Qed.
Lemma branches_inv amp e r b : In b (branches amp (e :: r)) -> exists wk b', In wk (krs amp e) /\ In b' (branches amp r) /\ snd b = snd wk :: snd b'.
Proof.
  cbn [branches]. intros I. apply in_flat_map in I. destruct I as (wk & W & I). apply in_map_iff in I. destruct I as (b' & <- & B). eauto.
Qed.
Lemma weight_unit amp q effs : (q < n)%nat -> ~ In nAmp effs -> forall b phi, In b (branches amp effs) -> weight n (apps (snd b) q phi) = weight n phi.
Proof.
  intros Q N. induction effs as [|e r IH]; intros b phi I.
  - destruct I as [<-|[]]. reflexivity.
  - destruct (branches_inv _ _ _ _ I) as (wk & b' & W & B & E). rewrite E. unfold apps. cbn [fold_left]. fold (apps (snd b') q (app1 (snd wk) q phi)).
    rewrite IH; auto; [|cbn in N; tauto]. apply app1_unit; auto. apply (krs_unit amp e); auto. intros ->. apply N. cbn. auto.
Qed.
Lemma amp_z amp q phi : (q < n)%nat -> weight n (app1 (amp_matrix s multi amp) q (app1 mZ q phi)) = weight n (app1 (amp_matrix s multi amp) q phi).
Proof.
  intros Q. destruct amp.
  - transitivity (weight n (sscal (- C1)%C (app1 (amp_matrix s multi true) q phi))); [|rewrite weight_sscal; unfold Cnorm2; cbn; ring].
    f_equal. apply functional_extensionality. intros b. unfold sscal, app1, sum2, mZ, diag2, amp_matrix. rewrite !setb_eq, !setb_setb. cbn [eqb negb andb].
    destruct (b q); cbn [negb andb]; ring.
  - transitivity (weight n (app1 mZ q (app1 (amp_matrix s multi false) q phi))).
    + f_equal. apply functional_extensionality. intros b. unfold app1, sum2, mZ, diag2, amp_matrix. rewrite !setb_eq, !setb_setb. cbn [eqb].
      destruct (b q); cbn [eqb]; ring.
    + apply app1_unit; auto. intros [] []; unfold sum2, mZ, diag2; cbn; apply Ceq; cbn; ring.
Qed.
Lemma weight_amp amp q pre post : (q < n)%nat -> (forall e, In e pre -> e = nPhase \/ e = nIdent) -> ~ In nAmp post ->
  forall b phi, In b (branches amp (pre ++ nAmp :: post)) -> weight n (apps (snd b) q phi) = weight n (app1 (amp_matrix s multi amp) q phi).
Proof.
  intros Q P N. induction pre as [|e r IH]; intros b phi I; destruct (branches_inv _ _ _ _ I) as (wk & b' & W & B & E); rewrite E; unfold apps; cbn [fold_left];
    fold (apps (snd b') q (app1 (snd wk) q phi)).
  - destruct W as [<-|[]]. cbn [snd]. apply (weight_unit amp q post); auto.
  - rewrite IH; auto; [|intros x X; apply P; cbn; auto].
    assert (H : snd wk = mI \/ snd wk = mZ).
    { destruct (P e (or_introl eq_refl)) as [-> | ->]; cbn in W; repeat (destruct W as [<-|W]; [cbn; auto|]); destruct W. }
    destruct H as [-> | ->]; [rewrite app1_mI; auto|apply amp_z; auto].
Qed.
Hypothesis CO : complete (full nAmp).
Lemma amp_weights q phi : (q < n)%nat ->
  weight n (app1 (amp_matrix s multi false) q phi) + weight n (app1 (amp_matrix s multi true) q phi) = weight n phi.
Proof.
  intros Q. apply RtoC_inj. rewrite RtoC_add, !weight_trace, <- !kact_proj, <- (trace_channel n _ q (proj phi) CO Q).
  unfold trace. rewrite <- bsum_add. apply bsum_ext. intros b. unfold channel, full. cbn [fold_right fst snd]. rewrite RtoC_1. ring.
Qed.
Lemma weight_zero phi : local n phi -> weight n phi = 0 -> phi = fun _ => C0.
Proof.
  unfold weight. rewrite weight_wsum. intros Lo W.
  assert (G : forall m b, wsum m (fun b => Cnorm2 (phi b)) b = 0 -> forall c, (forall x, (m <= x)%nat -> c x = b x) -> phi c = C0).
  { induction m as [|m IH]; intros b H c E.
    - cbn in H. apply Cnorm2_zero in H. rewrite <- H. f_equal. apply functional_extensionality. intros x. apply E. lia.
    - cbn [wsum] in H. pose proof (wsum_nonneg m (fun b => Cnorm2 (phi b)) ltac:(intros; apply Cnorm2_pos) (setb b m false)).
      pose proof (wsum_nonneg m (fun b => Cnorm2 (phi b)) ltac:(intros; apply Cnorm2_pos) (setb b m true)).
      apply (IH (setb b m (c m))).
      + destruct (c m); lra.
      + intros x X. unfold setb. destruct (Nat.eqb_spec x m); [subst; auto|apply E; lia]. }
  apply functional_extensionality. intros b. rewrite (Lo b (fun x => if Nat.ltb x n then b x else false)).
  - apply (G n _ W). intros x X. destruct (Nat.ltb_spec x n); [lia|auto].
  - intros x X. destruct (Nat.ltb_spec x n); [auto|lia].
Qed.
Lemma apps_local q Ms : (q < n)%nat -> forall phi, local n phi -> local n (apps Ms q phi).
Proof.
  intros Q. induction Ms as [|M Ms IH]; intros phi H; [auto|]. unfold apps in *. cbn [fold_left]. apply IH. intros b b' E. unfold app1, sum2.
  rewrite (E q) by auto. rewrite (H (setb b q false) (setb b' q false)), (H (setb b q true) (setb b' q true)); auto;
    intros x X; unfold setb; destruct (Nat.eqb x q); auto.
Qed.

(** ** One target *)
Definition good_effects (effs : list noise) : Prop := ~ In nAmp effs \/
  exists pre post, effs = pre ++ nAmp :: post /\ (forall e, In e pre -> e = nPhase \/ e = nIdent) /\ ~ In nAmp post.

Lemma renorm L tmp : linear L -> vcanon n tmp -> 0 < Cnorm2 (fst tmp) ->
  vcanon n (C1, snd tmp) /\ L (proj (veden (C1, snd tmp))) = / Cnorm2 (fst tmp) * L (proj (veden tmp)).
Proof.
  intros HL Ct W. assert (N : fst tmp <> C0) by (intros E; rewrite E, Cnorm2_0 in W; lra). split.
  - replace C1 with (/ fst tmp * fst tmp)%C by (field; auto). apply vcanon_scale; [apply Cinv_neq0; auto|]. destruct tmp; auto.
  - rewrite <- (lin_scal L HL). f_equal. apply dext. intros b c. unfold proj, veden. cbn [fst snd]. rewrite !Cconj_mul.
    transitivity ((RtoC (/ Cnorm2 (fst tmp)) * RtoC (Cnorm2 (fst tmp))) * (vden (snd tmp) b * Cconj (vden (snd tmp) c)))%C.
    + rewrite <- RtoC_mul, Rinv_l by lra. rewrite RtoC_1, Cconj_1. ring.
    + rewrite <- Cconj_norm2. ring.
Qed.
Lemma expect_accept {A} (f : dres A -> R) w lo hi vl vh : 0 <= w <= 1 -> (0 < w -> expect f lo vl) -> (w < 1 -> expect f hi vh) ->
  expect f (UDraw (fun u => if rltb w u then hi else lo)) (w * vl + (1 - w) * vh).
Proof.
  intros W EL EH. set (V := fun u => if rltb w u then vh else vl). apply (expect_draw f _ V).
  - replace (w * vl + (1 - w) * vh) with (vl * (w - 0) + vh * (1 - w)) by ring. apply (integral_join V 0 w 1); [lra| |].
    + apply integral_const; [lra|]. intros u U. unfold V, rltb. destruct (Rlt_dec w u); [lra|auto].
    + apply integral_const; [lra|]. intros u U. unfold V, rltb. destruct (Rlt_dec w u); [auto|lra].
  - intros u U. unfold V, rltb. destruct (Rlt_dec w u); [apply EH|apply EL]; lra.
Qed.
Lemma chain_app k1 k2 q rho : chain (k1 ++ k2) q rho = chain k2 q (chain k1 q rho).
Proof. apply fold_left_app. Qed.
Lemma full_krs amp effs : ~ In nAmp effs -> map full effs = map (krs amp) effs.
Proof. intros N. apply map_ext_in. intros e I. destruct e; auto. tauto. Qed.

Lemma target_step {A} (f : dres A -> R) L (rest : vedge -> ncache -> rndu A) q op st c : linear L -> (q < n)%nat -> good_effects (s_effects s) ->
  vcanon n st -> mcanon n op -> cache_ok c -> weight n (mact n op (veden st)) = 1 ->
  (forall st' c', vcanon n st' -> Cnorm2 (fst st') = 1 -> cache_ok c' -> expect f (rest st' c') (L (proj (veden st')))) ->
  expect f
   (ubind (generate nq s (s_effects s) op q false multi c) (fun oc =>
    ubind (URet (multiplyMV (fst oc) st)) (fun tmp =>
    UDraw (fun u =>
      if rltb (Cnorm2 (fst tmp)) u then
        ubind (generate nq s (s_effects s) op q true multi (snd oc)) (fun oc' =>
        ubind (URet (multiplyMV (fst oc') st)) (fun tmp' => rest (C1, snd tmp') (snd oc')))
      else rest (C1, snd tmp) (snd oc)))))
   (L (chain (map full (s_effects s)) q (proj (mact n op (veden st))))).
Proof.
  intros HL Q GE Cs Co Kc W1 HR. set (phi := mact n op (veden st)) in *. set (effs := s_effects s) in *.
  assert (LP : local n phi).
  { destruct (mv_spec n op st Co Cs) as (r & _ & Cr & Dr). unfold phi. rewrite <- Dr. apply veden_local, vcanon_wf; auto. }
  assert (WT : exists w0, 0 <= w0 <= 1 /\ (forall b, In b (branches false effs) -> weight n (apps (snd b) q phi) = w0) /\
     (w0 < 1 -> forall b, In b (branches true effs) -> weight n (apps (snd b) q phi) = 1 - w0) /\
     L (chain (map full effs) q (proj phi)) = bval (branches false effs) (fun Ms => L (proj (apps Ms q phi))) +
       (if Rlt_dec w0 1 then bval (branches true effs) (fun Ms => L (proj (apps Ms q phi))) else 0)).
  { destruct GE as [N|(pre & post & E & P & N)].
    - exists 1. split; [lra|]. split; [intros b B; rewrite (weight_unit false q effs); auto|]. split; [lra|].
      destruct (Rlt_dec 1 1); [lra|]. rewrite (bval_chain L false q effs HL), (full_krs false) by auto. ring.
    - rewrite E. pose proof (amp_weights q phi Q) as AW. rewrite W1 in AW.
      pose proof (weight_nonneg n (app1 (amp_matrix s multi false) q phi)). pose proof (weight_nonneg n (app1 (amp_matrix s multi true) q phi)).
      exists (weight n (app1 (amp_matrix s multi false) q phi)). split; [lra|].
      split; [intros b B; apply (weight_amp false q pre post); auto|].
      assert (WT : forall b, In b (branches true (pre ++ nAmp :: post)) -> weight n (apps (snd b) q phi) = 1 - weight n (app1 (amp_matrix s multi false) q phi)).
      { intros b B. rewrite (weight_amp true q pre post) by auto. lra. }
      split; [auto|].
      assert (SUM : L (chain (map full (pre ++ nAmp :: post)) q (proj phi)) = bval (branches false (pre ++ nAmp :: post)) (fun Ms => L (proj (apps Ms q phi))) +
         bval (branches true (pre ++ nAmp :: post)) (fun Ms => L (proj (apps Ms q phi)))).
      { rewrite !(bval_chain L _ q _ HL), !map_app, !chain_app. cbn [map]. unfold chain at 1 3 5. cbn [fold_left].
        fold (chain (map full post) q (channel (full nAmp) q (chain (map full pre) q (proj phi)))).
        fold (chain (map (krs false) post) q (channel (krs false nAmp) q (chain (map (krs false) pre) q (proj phi)))).
        fold (chain (map (krs true) post) q (channel (krs true nAmp) q (chain (map (krs true) pre) q (proj phi)))).
        assert (NP : ~ In nAmp pre) by (intros I; destruct (P _ I); discriminate).
        rewrite <- !(full_krs false), <- !(full_krs true) by auto.
        rewrite !(lin_channel (fun rho => L (chain (map full post) q rho)) (linear_chain L _ q HL)). unfold full, krs. cbn [rsum fold_right fst snd]. ring. }
      rewrite SUM. f_equal. destruct Rlt_dec as [l|l]; [auto|].
      unfold bval. transitivity (rsum (branches true (pre ++ nAmp :: post)) (fun _ => 0)).
      + apply rsum_ext. intros b B. rewrite (weight_zero (apps (snd b) q phi)).
        * replace (proj (fun _ : bits => C0)) with (fun _ _ : bits => C0); [rewrite (lin_zero L HL); ring|]. apply dext. intros. unfold proj. ring.
        * apply apps_local; auto.
        * rewrite WT by auto. lra.
      + clear. induction (branches true (pre ++ nAmp :: post)); unfold rsum in *; cbn; lra. }
  destruct WT as (w0 & W0 & WF & WTr & SUM). rewrite SUM.
  set (second := if Rlt_dec w0 1 then bval (branches true effs) (fun Ms => L (proj (apps Ms q phi))) else 0) in *.
  assert (TOT : rsum (branches false effs) fst = 1).
  { clear. generalize false at 1. intros amp. induction effs as [|e r IH]; [cbn; ring|].
    assert (X : rsum (branches amp (e :: r)) fst = bval (branches amp (e :: r)) (fun _ => 1)).
    { unfold bval. apply rsum_ext. intros; ring. }
    rewrite X, bval_cons. assert (Y : bval (branches amp r) (fun _ => 1) = 1). { transitivity (rsum (branches amp r) fst); [|exact IH]. unfold bval. apply rsum_ext. intros; ring. }
    rewrite (rsum_ext _ _ fst) by (intros wk _; rewrite Y; ring). destruct e; unfold krs, phase_flip, depolarising, rsum; cbn; field. }
  replace (bval (branches false effs) (fun Ms => L (proj (apps Ms q phi))) + second)
    with (bval (branches false effs) (fun Ms => L (proj (apps Ms q phi)) + second)).
  2:{ unfold bval. transitivity (rsum (branches false effs) (fun b => fst b * L (proj (apps (snd b) q phi))) + second * rsum (branches false effs) fst); [|rewrite TOT; ring].
      generalize second. clear. intros x. generalize (branches false effs). intros l.
      induction l as [|b l IH]; unfold rsum in *; cbn [fold_right]; [ring|]. rewrite IH. ring. }
  apply (gen_spec f false q effs Q); auto.
  intros b st1 c1 B Cst Kc1 D1. cbn [fst snd].
  destruct (mv_spec n st1 st Cst Cs) as (tmp & Et & Ct & Dt). rewrite Et. cbn [ubind].
  rewrite D1 in Dt. fold phi in Dt. assert (NW : Cnorm2 (fst tmp) = w0). { rewrite <- (weight_veden n) by auto. rewrite Dt. auto. }
  rewrite NW.
  replace (L (proj (apps (snd b) q phi)) + second) with (w0 * (/ w0 * L (proj (apps (snd b) q phi))) + (1 - w0) * (/ (1 - w0) * second)).
  - apply expect_accept; [auto| |].
    + intros P. rewrite <- Dt, <- NW. rewrite <- NW in P. destruct (renorm L tmp HL Ct P) as [Cr <-]. apply HR; auto. cbn [fst]. apply Cnorm2_1.
    + intros P. unfold second. destruct (Rlt_dec w0 1) as [_|]; [|lra].
      replace (/ (1 - w0) * bval (branches true effs) (fun Ms => L (proj (apps Ms q phi))))
        with (bval (branches true effs) (fun Ms => / (1 - w0) * L (proj (apps Ms q phi)))).
      2:{ unfold bval. rewrite <- rsum_scal'. apply rsum_ext. intros; ring. }
      apply (gen_spec f true q effs Q); auto.
      intros b2 st2 c2 B2 Cst2 Kc2 D2. cbn [fst snd].
      destruct (mv_spec n st2 st Cst2 Cs) as (tmp2 & Et2 & Ct2 & Dt2). rewrite Et2. cbn [ubind].
      rewrite D2 in Dt2. fold phi in Dt2. assert (NW2 : Cnorm2 (fst tmp2) = 1 - w0). { rewrite <- (weight_veden n) by auto. rewrite Dt2. auto. }
      rewrite <- Dt2, <- NW2. destruct (renorm L tmp2 HL Ct2) as [Cr <-]; [lra|]. apply HR; auto. cbn [fst]. apply Cnorm2_1.
  - f_equal.
    + destruct (Req_dec w0 0) as [Z|Z]; [|field; auto].
      rewrite (weight_zero (apps (snd b) q phi)); [| |rewrite WF by auto; auto].
      * replace (proj (fun _ : bits => C0)) with (fun _ _ : bits => C0); [rewrite (lin_zero L HL); ring|]. apply dext. intros. unfold proj. ring.
      * apply apps_local; auto.
    + unfold second. destruct (Rlt_dec w0 1); [field; lra|ring].
Qed.

(** ** All targets *)
Lemma apply_noise_spec L targets : linear L -> good_effects (s_effects s) -> (forall q, In q targets -> (q < n)%nat) ->
  forall op st c, vcanon n st -> mcanon n op -> cache_ok c -> weight n (mact n op (veden st)) = 1 -> targets <> [] ->
  expect (fun r => match r with DOk (e, _) => L (proj (veden e)) | _ => 0 end) (apply_noise nq s multi targets op st c)
    (L (chains (map full (s_effects s)) targets (proj (mact n op (veden st))))).
Proof.
  intros HL GE. induction targets as [|q r IH]; intros T op st c Cs Co Kc W NE; [tauto|].
  unfold chains. cbn [fold_left apply_noise]. fold (chains (map full (s_effects s)) r (chain (map full (s_effects s)) q (proj (mact n op (veden st))))).
  apply (target_step _ (fun rho => L (chains (map full (s_effects s)) r rho)) (fun st c => apply_noise nq s multi r (C1, MT) st c)); auto.
  - apply linear_chains; auto.
  - apply T. cbn. auto.
  - intros st' c' Cs' W' Kc'. destruct r as [|q' r']; [apply (ex_ret (fun r => match r with DOk (e, _) => L (proj (veden e)) | _ => 0 end) (DOk (st', c')))|].
    rewrite <- (mact_mone n (veden st')). unfold mone. apply IH; auto; try discriminate.
    + intros x X. apply T. cbn. cbn in X. tauto.
    + exact Logic.I.
    + rewrite (mact_mone n). rewrite weight_veden; auto.
Qed.
End S.
