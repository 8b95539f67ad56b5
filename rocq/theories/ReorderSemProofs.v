(** Exchanging operations without common qubits, and isInverseOf. *)
From Coq Require Import Reals List Arith Bool Lia NArith Permutation FunctionalExtensionality.
From Verif Require Import Cplx Qsem GateModel GateSpec GateProofs OpProofs GraphModel IRModel IRSpec IRProofs OptModel OptSem OptDagProofs
  OptFuseProofs OutcomeSpec OptDiagSem OptFinalProofs ReorderModel ReorderSpec ReorderProofs.
Import ListNotations.
Local Open Scope list_scope.

(** ** Classical bits that are not written *)
Lemma measure_keeps l : forall b x c, In x (measure_all l b) -> ~ In c (map snd l) -> snd x c = snd b c.
Proof.
  induction l as [|[q d] l IH]; intros b x c I N; cbn [measure_all] in I.
  - destruct I as [<-|[]]. auto.
  - simpl in N. unfold measure1 in I. cbn [flat_map] in I. rewrite app_nil_r in I. apply in_app_iff in I.
    destruct I as [I|I]; apply (IH _ _ c) in I; try tauto; rewrite I; cbn [snd]; apply setb_other; intros ->; tauto.
Qed.
Lemma reset_keeps l : forall b x, In x (reset_all l b) -> snd x = snd b.
Proof.
  induction l as [|q l IH]; intros b x I; cbn [reset_all] in I.
  - destruct I as [<-|[]]. auto.
  - unfold reset1 in I. cbn [flat_map] in I. rewrite app_nil_r in I. apply in_app_iff in I.
    destruct I as [I|I]; apply IH in I; auto.
Qed.
Lemma run_keeps_list l : Forall (fun o => forall b x c, In x (run_op o b) -> ~ In c (cwrites o) -> snd x c = snd b c) l ->
  forall b x c, In x (run l b) -> ~ In c (flat_map cwrites l) -> snd x c = snd b c.
Proof.
  induction 1 as [|o l H _ IH]; intros b x c I N; cbn [run] in I.
  - destruct I as [<-|[]]. auto.
  - cbn [flat_map] in N. rewrite in_app_iff in N. apply in_flat_map in I. destruct I as (y & J & I).
    rewrite (IH _ _ _ I) by tauto. apply H; auto.
Qed.
Lemma run_keeps o : forall b x c, In x (run_op o b) -> ~ In c (cwrites o) -> snd x c = snd b c.
Proof.
  induction o as [s|qs cs|qs|k o IHo|cu l H] using cop_rect'; intros b x c I N.
  - destruct I as [<-|[]]. auto.
  - simpl in *. eapply measure_keeps; eauto. intros J. apply N. eapply combine_snd; eauto.
  - simpl in I. apply reset_keeps in I. now rewrite I.
  - simpl in I, N. destruct (cond_holds k (snd b)); [eauto|]. destruct I as [<-|[]]. auto.
  - rewrite run_comp in I. eapply run_keeps_list; eauto.
Qed.
Lemma regval_ext n : forall (m m' : store) s, (forall c, In c (seq s n) -> m c = m' c) -> regval m s n = regval m' s n.
Proof.
  induction n as [|n IH]; intros m m' s H; simpl; auto. rewrite (H s) by (simpl; auto). rewrite (IH m m'); auto.
  intros c I. apply H. simpl. auto.
Qed.
Lemma cond_ext k (m m' : store) : (forall c, In c (cond_bits k) -> m c = m' c) -> cond_holds k m = cond_holds k m'.
Proof. destruct k; unfold cond_bits, cond_holds; intros H; rewrite (regval_ext _ m m'); [reflexivity|exact H|reflexivity|exact H]. Qed.

(** ** Reset commutes with operations elsewhere *)
Lemma flip_project_lives q : lives_on (fun psi => flip q (project q true psi)) (eq q).
Proof.
  split; [|split].
  - intros r w psi N. apply functional_extensionality. intros b. unfold flip, project.
    assert (E : setb b q (negb (b q)) r = b r) by (apply setb_other; auto). rewrite E.
    destruct (Bool.eqb (b r) w), (Bool.eqb _ _); auto.
  - intros r psi N. apply functional_extensionality. intros b. unfold flip, project.
    assert (E1 : setb b r (negb (b r)) q = b q) by (apply setb_other; auto).
    assert (E2 : setb b q (negb (b q)) r = b r) by (apply setb_other; auto).
    rewrite E1, E2, (setb_comm b q r) by auto.
    assert (E3 : setb (setb b r (negb (b r))) q (negb (b q)) q = setb b q (negb (b q)) q) by (rewrite !setb_same; auto).
    rewrite E3. auto.
  - intros s psi H. assert (N : ~ In q (used (OStd s))) by (intros I; exact (H q I eq_refl)).
    rewrite <- std_flip, std_project by auto. auto.
Qed.
Lemma reset1_comm q o b : local o -> ~ In q (used o) -> Permutation (flat_map (run_op o) (reset1 q b)) (flat_map (reset1 q) (run_op o b)).
Proof.
  intros L N. unfold reset1 at 1. set (F := fun psi => flip q (project q true psi)).
  change [(project q false (fst b), snd b); (flip q (project q true (fst b)), snd b)] with
    [pushf (project q false) b; pushf F b]. cbn [flat_map]. rewrite app_nil_r.
  assert (D : forall x, In x (used o) -> q <> x) by (intros x I ->; contradiction).
  rewrite (lives_comm _ (eq q) o (project_lives q false) L D b), (lives_comm F (eq q) o (flip_project_lives q) L D b). apply two_maps.
Qed.
Lemma reset_comm l o b : local o -> (forall q, In q l -> ~ In q (used o)) ->
  Permutation (flat_map (run_op o) (reset_all l b)) (flat_map (reset_all l) (run_op o b)).
Proof.
  intros L. revert b. induction l as [|q l IH]; intros b D; cbn [reset_all].
  - simpl. rewrite app_nil_r. rewrite flat_map_one. auto.
  - rewrite flat_map_flat. eapply perm_trans; [apply perm_flat_map_ext; intros x; apply IH|].
    + intros r I. apply D. simpl; auto.
    + rewrite <- flat_map_flat. eapply perm_trans; [apply perm_flat_map; apply reset1_comm; auto; apply D; simpl; auto|].
      rewrite flat_map_flat. auto.
Qed.

(** ** Any two operations without common qubits and race *)
Lemma pair_run a b x : run [a; b] x = flat_map (run_op b) (run_op a x).
Proof. cbn [run]. apply flat_map_ext'. intros y. now rewrite flat_map_one. Qed.
Lemma used_class k a : local (OClass k a) -> used (OClass k a) = used a /\ local a.
Proof. simpl. destruct a; tauto. Qed.
Lemma flat_map_in_ext {A B} (f g : A -> list B) l : (forall x, In x l -> f x = g x) -> flat_map f l = flat_map g l.
Proof. apply flat_map_ext_in. Qed.

Lemma exchange a : local a -> forall b, local b -> disjoint a b -> no_race a b -> same_dist [a; b] [b; a].
Proof.
  induction a as [s|qs cs|qs|k a IHa|cu l H] using cop_rect'; intros La b Lb D NR.
  - apply sd_same. apply same_sym. apply (move_back (used (OStd s)) s [b]); [|apply incl_refl].
    constructor; auto. right. split; auto. intros q I J. exact (D q J I).
  - apply move_meas; auto. intros c I. exact (proj1 (NR c) I).
  - intros x. rewrite !pair_run. simpl run_op at 2. apply (reset_comm qs b x); auto.
  - destruct (used_class k a La) as [U La']. intros x. rewrite !pair_run.
    assert (K : forall y, In y (run_op b x) -> cond_holds k (snd y) = cond_holds k (snd x)).
    { intros y I. apply cond_ext. intros c J. apply (run_keeps b); auto. intros W.
      apply (proj2 (NR c)) in W. apply W. simpl. apply in_app_iff. auto. }
    simpl run_op at 2. destruct (cond_holds k (snd x)) eqn:CH.
    + rewrite (flat_map_in_ext (run_op (OClass k a)) (run_op a)).
      * rewrite <- !pair_run. apply IHa; auto.
        -- intros q I. apply D. rewrite U. auto.
        -- intros c. destruct (NR c) as [N1 N2]. split; auto. intros W. specialize (N2 W). intros J. apply N2. simpl. apply in_app_iff. auto.
      * intros y I. simpl. now rewrite (K y I).
    + rewrite (flat_map_in_ext (run_op (OClass k a)) (fun y => [y])).
      * rewrite flat_map_one. simpl. rewrite app_nil_r. auto.
      * intros y I. simpl. now rewrite (K y I).
  - apply local_comp in La. assert (G : same_dist (l ++ [b]) (b :: l)).
    { assert (W : Forall (fun a => disjoint a b /\ no_race a b) l).
      { apply Forall_forall. intros a I. split.
        - intros q J. apply D. simpl. apply in_flat_map. eauto.
        - intros c. destruct (NR c) as [N1 N2]. split.
          + intros J. apply N1. simpl. apply in_flat_map. eauto.
          + intros J K. apply (N2 J). simpl. apply in_flat_map. eauto. }
      clear D NR. induction l as [|a l IH]; [apply sd_refl|]. inversion H as [|? ? HA HL]; inversion La as [|? ? LA LL]; inversion W as [|? ? [WA WB] WL]; subst. simpl.
      eapply sd_trans; [apply sd_cons; apply IH; auto|]. apply (sd_app [a; b] [b; a] l l); [|apply sd_refl].
      apply HA; auto. }
    intros x. rewrite !pair_run, run_comp. specialize (G x). rewrite run_app in G. cbn [run] in G.
    eapply perm_trans; [|eapply perm_trans; [exact G|]].
    + apply perm_flat_map_ext. intros y. rewrite flat_map_one. auto.
    + apply perm_flat_map_ext. intros y. rewrite run_comp. auto.
Qed.

Lemma swaps_dist l m : swaps l m -> Forall local l -> race_free l -> same_dist l m.
Proof.
  induction 1 as [l|A a b B D|l m n H1 IH1 H2 IH2]; intros L R.
  - apply sd_refl.
  - apply sd_app; [apply sd_refl|]. apply (sd_app [a; b] [b; a] B B); [|apply sd_refl].
    rewrite Forall_forall in L. apply exchange; auto; try (apply L; apply in_app_iff; simpl; auto).
    apply R; auto; apply in_app_iff; simpl; auto.
  - pose proof (swaps_perm _ _ H1) as P. apply (sd_trans _ m); auto. apply IH2.
    + eapply Permutation_Forall; eauto.
    + intros a b I J. apply R; (eapply Permutation_in; [apply Permutation_sym; eauto|]; auto).
Qed.

(** ** Without measurements there is one branch *)
Lemma one_branch_list l : Forall (fun o => no_meas o -> forall b, exists x, run_op o b = [x]) l -> Forall no_meas l -> forall b, exists x, run l b = [x].
Proof.
  induction 1 as [|o l H _ IH]; intros N b; cbn [run]; eauto. inversion N; subst. destruct (H H2 b) as [x ->]. cbn [flat_map].
  rewrite app_nil_r. auto.
Qed.
Lemma one_branch o : no_meas o -> forall b, exists x, run_op o b = [x].
Proof.
  induction o as [s|qs cs|qs|k o IHo|cu l H] using cop_rect'; intros N b; try contradiction.
  - simpl. eauto.
  - simpl. destruct (cond_holds k (snd b)); eauto.
  - rewrite run_comp. apply no_meas_comp in N. now apply one_branch_list.
Qed.
Lemma dist_run l m : Forall no_meas l -> same_dist l m -> same_run l m.
Proof.
  intros N H b. destruct (one_branch_list l) with (b := b) as [x E]; auto.
  { apply Forall_forall. intros o _. apply one_branch. }
  specialize (H b). rewrite E in *. apply Permutation_length_1_inv in H. auto.
Qed.
Lemma no_meas_writes o : no_meas o -> cwrites o = [].
Proof.
  induction o as [s|qs cs|qs|k o IHo|cu l H] using cop_rect'; intros N; try contradiction; simpl; auto.
  apply no_meas_comp in N. induction l as [|x l IH]; simpl; auto. inversion H; inversion N; subst. rewrite H2, IH; auto.
Qed.
Lemma no_meas_race l : Forall no_meas l -> race_free l.
Proof.
  intros N a b I J _ c. rewrite Forall_forall in N. rewrite !no_meas_writes by auto. simpl. tauto.
Qed.

Lemma touching_id l : Forall (fun o => used o <> []) l -> touching l = l.
Proof. induction 1 as [|o l H _ IH]; simpl; auto. rewrite IH. destruct (used o); tauto. Qed.
