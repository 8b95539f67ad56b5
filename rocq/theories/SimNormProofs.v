(* Operations preserve norms; runs are homogeneous in the state. *)
From Coq Require Import Reals Lra List Bool Arith Lia FunctionalExtensionality Permutation.
From Verif Require Import Cplx Qsem GateModel GateSpec GateProofs OpProofs IRModel IRSpec IRProofs OutcomeSpec OptModel
  OptDagProofs OptElideProofs OptResetProofs DDModel DDSpec DDProofs DDCanonProofs DDOpsProofs DDGateProofs DDProps
  SimModel SimOpProofs SimPermProofs SimLoopProofs SimMeasProofs.
Import ListNotations.
Local Open Scope R_scope.

(** ** Unitary matrices preserve norms *)
Lemma Cnorm2_conj_mul x : RtoC (Cnorm2 x) = (x * Cconj x)%C.
Proof. destruct x as [a b]. unfold Cnorm2, RtoC, Cmul, Cconj. cbn. apply Ceq; cbn; ring. Qed.
Lemma rsum_csum {A} (l : list A) f : RtoC (rsum l f) = csum l (fun x => RtoC (f x)).
Proof. induction l as [|x l IH]; [reflexivity|]. cbn [csum]. rewrite <- IH. unfold rsum. cbn. apply Ceq; cbn; ring. Qed.
Lemma RtoC_inj x y : RtoC x = RtoC y -> x = y.
Proof. intros H. injection H. auto. Qed.

Lemma unitary_norm k M (x : list bool -> C) : unitary k M ->
  rsum (allb k) (fun v => Cnorm2 (csum (allb k) (fun w => (M v w * x w)%C))) = rsum (allb k) (fun w => Cnorm2 (x w)).
Proof.
  intros [U _]. apply RtoC_inj. rewrite !rsum_csum.
  rewrite (csum_ext _ _ (fun v => csum (allb k) (fun w => csum (allb k) (fun u => (x w * Cconj (x u) * (Cconj (M v u) * M v w))%C)))).
  2:{ intros v _. rewrite Cnorm2_conj_mul, csum_conj, <- csum_scal_r. apply csum_ext. intros w _. rewrite <- csum_scal.
      apply csum_ext. intros u _. rewrite Cconj_mul. ring. }
  rewrite csum_swap. apply csum_ext. intros w W. rewrite csum_swap.
  rewrite (csum_ext _ _ (fun u => (x w * Cconj (x u) * mid u w)%C)).
  2:{ intros u Hu. rewrite csum_scal. f_equal. rewrite <- (U u w) by (apply allb_In; auto). reflexivity. }
  rewrite (csum_single _ w); [|apply allb_NoDup|auto|].
  - unfold mid. rewrite leqb_refl, Cnorm2_conj_mul. ring.
  - intros u _ N. unfold mid. destruct (leqb u w) eqn:E; [apply leqb_eq in E; tauto|ring].
Qed.

Lemma sumq_ext qs F G : (forall b, F b = G b) -> forall b, sumq qs F b = sumq qs G b.
Proof. intros H. induction qs as [|q qs IH]; intros b; cbn; auto. now rewrite !IH. Qed.

Lemma sat_setl cs b ts v : (forall c, In c cs -> ~ In (fst c) ts) -> sat cs (setl b ts v) = sat cs b.
Proof.
  intros H. unfold sat. induction cs as [|c cs IH]; cbn; auto. rewrite IH by (intros; apply H; cbn; auto).
  rewrite setl_other by (apply H; cbn; auto). auto.
Qed.

Lemma weight_capply n cs M ts psi : unitary (length ts) M -> NoDup ts -> (forall t, In t ts -> (t < n)%nat) ->
  (forall c, In c cs -> ~ In (fst c) ts) -> weight n (capply cs M ts psi) = weight n psi.
Proof.
  intros U ND L CS. unfold weight. rewrite !weight_wsum, !wsum_sumq.
  set (rest := filter (fun q => negb (existsb (Nat.eqb q) ts)) (rev (seq 0 n))).
  assert (P : Permutation (rev (seq 0 n)) (rest ++ ts)).
  { assert (NS : NoDup (rev (seq 0 n))) by apply NoDup_rev, seq_NoDup.
    apply NoDup_Permutation; auto.
    - assert (NR : NoDup rest) by (apply NoDup_filter; auto). revert NR ND. clear. unfold rest.
      assert (D : forall x, In x (filter (fun q => negb (existsb (Nat.eqb q) ts)) (rev (seq 0 n))) -> ~ In x ts).
      { intros x X I. apply filter_In in X. destruct X as [_ X]. apply negb_true_iff in X.
        assert (E : existsb (Nat.eqb x) ts = true) by (apply existsb_exists; exists x; split; [auto|apply Nat.eqb_refl]). congruence. }
      revert D. generalize (filter (fun q => negb (existsb (Nat.eqb q) ts)) (rev (seq 0 n))). intros l D NR ND.
      induction l as [|x l IH]; cbn; auto. inversion NR; subst. constructor.
      + intros I. apply in_app_or in I. destruct I as [I|I]; [auto|]. apply (D x); cbn; auto.
      + apply IH; auto. intros y Y. apply D. cbn; auto.
    - intros x. split; intros X.
      + destruct (existsb (Nat.eqb x) ts) eqn:E.
        * apply existsb_exists in E. destruct E as (y & Y & E). apply Nat.eqb_eq in E. subst. apply in_or_app. auto.
        * apply in_or_app. left. apply filter_In. split; [auto|]. now rewrite E.
      + apply in_app_or in X. destruct X as [X|X]; [apply filter_In in X; tauto|]. apply -> in_rev. apply in_seq. specialize (L x X). lia. }
  rewrite !(sumq_perm _ _ _ P) by apply NoDup_rev, seq_NoDup. rewrite !sumq_app. apply sumq_ext. intros b.
  rewrite !sumq_setl by auto. unfold capply.
  destruct (sat cs b) eqn:S.
  - rewrite <- (unitary_norm (length ts) M (fun w => psi (setl b ts w))) by auto. apply rsum_ext. intros v V. rewrite sat_setl, S by auto. f_equal. unfold apply.
    apply csum_ext. intros w W. rewrite setl_map, setl_setl by (auto; apply allb_In; auto). auto.
  - apply rsum_ext. intros v V. rewrite sat_setl, S by auto. auto.
Qed.

Lemma weight_semf n s psi : dd_ok (OStd s) -> (forall q, In q (used (OStd s)) -> (q < n)%nat) -> weight n (semf s psi) = weight n psi.
Proof.
  intros ((W & f & F) & N & S & G) L. unfold semf. rewrite F. cbn [used] in L.
  destruct (sem_cases s f F) as [[B ->]|[(x & ps & GT & EP & T & ->)|[(M & t0 & EM & T & ->)|(M & t0 & t1 & EM & T & ->)]]].
  - auto.
  - apply weight_capply; [|constructor|intros t []|intros c _ []].
    split; intros r c R C; destruct r, c; try discriminate; unfold mmul, madj, mid, csum; cbn; apply Ceq; cbn;
      pose proof (sin2_cos2 x) as SC; unfold Rsqr in SC; lra.
  - apply weight_capply; [eapply single_unitary; eauto|constructor; [intros []|constructor]| |].
    + intros t [<-|[]]. apply L. rewrite T. cbn. auto.
    + intros c I. destruct W as [_ W]. specialize (W c I). now rewrite T in W.
  - apply weight_capply; [eapply two_unitary; eauto| | |].
    + destruct W as [W _]. now rewrite T in W.
    + intros t I. apply L. rewrite T. apply in_or_app. auto.
    + intros c I. destruct W as [_ W]. specialize (W c I). now rewrite T in W.
Qed.
Lemma weight_uact n o : dd_ok o -> (forall q, In q (used o) -> (q < n)%nat) -> forall psi, weight n (uact o psi) = weight n psi.
Proof.
  induction o as [s|qs cs|qs|c o IH|cu l H] using cop_rect'; intros K L psi; try (destruct K; fail).
  - apply weight_semf; auto.
  - rewrite uact_comp. apply dd_ok_comp in K. cbn [used] in L. unfold uacts. revert psi.
    induction l as [|x l IH]; intros psi; cbn; auto. inversion H; inversion K; subst.
    rewrite IH; auto; [|intros q Q; apply L; cbn; apply in_or_app; auto]. apply H2; auto. intros q Q. apply L. cbn. apply in_or_app; auto.
Qed.
Lemma weight_uacts n l : Forall dd_ok l -> (forall q, In q (flat_map used l) -> (q < n)%nat) -> forall psi, weight n (uacts l psi) = weight n psi.
Proof. intros K L psi. rewrite <- (uact_comp true). apply weight_uact; auto. apply dd_ok_comp. auto. Qed.
Lemma flip_flip q psi : flip q (flip q psi) = psi.
Proof.
  apply functional_extensionality. intros b. unfold flip. rewrite setb_same, negb_involutive, setb_setb, setb_id. auto.
Qed.

Lemma weight_flip n q psi : (q < n)%nat -> weight n (flip q psi) = weight n psi.
Proof.
  intros L. set (X := OStd {| o_type := gX; o_par := []; o_ctl := []; o_tgt := [q] |}).
  rewrite <- (weight_uact n X) with (psi := psi).
  - f_equal. cbn [uact X]. apply functional_extensionality. intros b. unfold semf, flip. cbn. unfold capply, apply, csum.
    cbn [sat forallb length allb map app setl]. destruct (b q); cbn; ring.
  - split; [split; [split; [repeat constructor; intros []|intros c []]|eexists; reflexivity]|].
    split; [constructor|]. split; [exact Logic.I|discriminate].
  - intros x [<-|[]]. auto.
Qed.

(** ** Homogeneity *)
Definition bscal (c : C) (x : branch) : branch := (sscal c (fst x), snd x).
Lemma project_scal q v c psi : project q v (sscal c psi) = sscal c (project q v psi).
Proof. apply functional_extensionality. intros b. unfold project, sscal. destruct (eqb _ _); auto. ring. Qed.
Lemma flip_scal q c psi : flip q (sscal c psi) = sscal c (flip q psi).
Proof. reflexivity. Qed.
Lemma semf_scal s c psi : semf s (sscal c psi) = sscal c (semf s psi).
Proof.
  unfold semf. destruct (sem s) as [f|] eqn:F; auto.
  destruct (sem_cases s f F) as [[B ->]|[(x & ps & GT & EP & T & ->)|[(M & t0 & EM & T & ->)|(M & t0 & t1 & EM & T & ->)]]]; auto;
    apply capply_scal.
Qed.
Lemma measure_scal l c : forall b, measure_all l (bscal c b) = map (bscal c) (measure_all l b).
Proof.
  induction l as [|[q k] l IH]; intros b; cbn; auto. rewrite !app_nil_r, map_app, !project_scal.
  f_equal; [apply (IH (project q false (fst b), _))|apply (IH (project q true (fst b), _))].
Qed.
Lemma reset_scal l c : forall b, reset_all l (bscal c b) = map (bscal c) (reset_all l b).
Proof.
  induction l as [|q l IH]; intros b; cbn; auto. rewrite !app_nil_r, map_app, !project_scal, flip_scal.
  f_equal; [apply (IH (project q false (fst b), _))|apply (IH (flip q (project q true (fst b)), _))].
Qed.
Lemma run_scal_gen l c : Forall (fun o => forall b, run_op o (bscal c b) = map (bscal c) (run_op o b)) l ->
  forall b, run l (bscal c b) = map (bscal c) (run l b).
Proof.
  intros H. induction H as [|o l H F IH]; intros b; cbn; auto. rewrite H. clear H.
  induction (run_op o b) as [|x r IHr]; cbn; auto. rewrite map_app, IH, IHr. auto.
Qed.
Lemma run_op_scal o c : forall b, run_op o (bscal c b) = map (bscal c) (run_op o b).
Proof.
  induction o as [s|qs cs|qs|k o IH|cu l H] using cop_rect'; intros b.
  - cbn. rewrite semf_scal. auto.
  - apply measure_scal.
  - apply reset_scal.
  - cbn. destruct (cond_holds k (snd b)); auto.
  - destruct b as [psi m]. change (bscal c (psi, m)) with (sscal c psi, m). rewrite !run_comp. apply (run_scal_gen l c H (psi, m)).
Qed.
Lemma run_scal l c b : run l (bscal c b) = map (bscal c) (run l b).
Proof. apply run_scal_gen. apply Forall_forall. intros o _ b'. apply run_op_scal. Qed.
