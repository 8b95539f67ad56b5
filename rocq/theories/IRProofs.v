(** Lemmas about circuits: induction, composition of runs, inversion, copies,
    comparison of classical values, permutations and registers. *)
From Coq Require Import Reals List Arith Bool NArith Lia FunctionalExtensionality.
From Verif Require Import Cplx Qsem GateModel GateSpec GateProofs OpProofs IRModel IRSpec.
Import ListNotations.

(** ** Induction over nested operations *)
Section CopInd.
Variable P : cop -> Prop.
Hypothesis HStd : forall o, P (OStd o).
Hypothesis HMeas : forall qs cs, P (OMeas qs cs).
Hypothesis HReset : forall qs, P (OReset qs).
Hypothesis HClass : forall c o, P o -> P (OClass c o).
Hypothesis HComp : forall cu l, Forall P l -> P (OComp cu l).
Fixpoint cop_rect' (o : cop) : P o :=
  match o with
  | OStd s => HStd s
  | OMeas qs cs => HMeas qs cs
  | OReset qs => HReset qs
  | OClass c o' => HClass c o' (cop_rect' o')
  | OComp cu l => HComp cu l ((fix go l : Forall P l :=
      match l with [] => Forall_nil _ | o :: l' => Forall_cons _ (cop_rect' o) (go l') end) l)
  end.
End CopInd.

Lemma flat_map_flat {A B C} (f : A -> list B) (g : B -> list C) l :
  flat_map g (flat_map f l) = flat_map (fun x => flat_map g (f x)) l.
Proof. induction l; simpl; auto. now rewrite flat_map_app, IHl. Qed.

Lemma flat_map_ext' {A B} (f g : A -> list B) l : (forall x, f x = g x) -> flat_map f l = flat_map g l.
Proof. intros H. induction l; simpl; auto. now rewrite H, IHl. Qed.

Lemma flat_map_one {A} (l : list A) : flat_map (fun x => [x]) l = l.
Proof. induction l; simpl; congruence. Qed.

Lemma run_comp cu l b : run_op (OComp cu l) b = run l b.
Proof. revert b. induction l; intros b; simpl; auto. Qed.

Lemma run_app l m b : run (l ++ m) b = flat_map (run m) (run l b).
Proof.
  revert b. induction l; intros b; simpl; [now rewrite app_nil_r|].
  rewrite flat_map_flat. apply flat_map_ext'. auto.
Qed.

Lemma run_one o b : run [o] b = run_op o b.
Proof. simpl. apply flat_map_one. Qed.

Lemma same_app l l' m m' : same_run l l' -> same_run m m' -> same_run (l ++ m) (l' ++ m').
Proof. intros H K b. rewrite !run_app, H. apply flat_map_ext'. auto. Qed.

Lemma same_refl l : same_run l l. Proof. intros b. auto. Qed.
Lemma same_trans l m n : same_run l m -> same_run m n -> same_run l n.
Proof. intros H K b. now rewrite H. Qed.
Lemma same_sym l m : same_run l m -> same_run m l.
Proof. intros H b. now rewrite H. Qed.
Lemma same_cons o l m : same_run l m -> same_run (o :: l) (o :: m).
Proof. intros H b. simpl. apply flat_map_ext'. auto. Qed.

Lemma op_ok_comp cu l : op_ok (OComp cu l) <-> Forall op_ok l.
Proof. induction l; simpl; split; auto; intros H; [constructor|inversion H]; tauto. Qed.
Lemma no_meas_comp cu l : no_meas (OComp cu l) <-> Forall no_meas l.
Proof. induction l; simpl; split; auto; intros H; [constructor|inversion H]; tauto. Qed.

(** ** Inversion *)
Lemma invert_comp cu l : invert_op (OComp cu l) =
  match invert_ops l with Some r => Some (OComp cu (rev r)) | None => None end.
Proof.
  simpl. assert (E : (fix go l := match l with [] => Some [] | o :: l' =>
     match invert_op o, go l' with Some i, Some r => Some (i :: r) | _, _ => None end end) l = invert_ops l).
  { induction l; simpl; auto. }
  now rewrite E.
Qed.

(** What it means that [o'] undoes [o], whatever the classical bits are. *)
Definition undoes (l m : list cop) : Prop :=
  forall s, exists f g, (forall psi, run l (psi, s) = [(f psi, s)]) /\ (forall psi, run m (psi, s) = [(g psi, s)]) /\
    inverse_maps f g.

Lemma undoes_app l l' m m' : undoes l l' -> undoes m m' -> undoes (l ++ m) (m' ++ l').
Proof.
  intros H K s. destruct (H s) as (f & g & F & G & I1 & I2). destruct (K s) as (f' & g' & F' & G' & J1 & J2).
  exists (fun x => f' (f x)), (fun x => g (g' x)). split; [|split].
  - intros psi. rewrite run_app, F. simpl. now rewrite F'.
  - intros psi. rewrite run_app, G'. simpl. now rewrite G.
  - split; intros psi; [now rewrite J1|now rewrite I2].
Qed.

Lemma undoes_nil : undoes [] [].
Proof. intros s. exists (fun x => x), (fun x => x). repeat split; auto. Qed.

Lemma undoes_list l r : Forall (fun o => op_ok o -> forall o', invert_op o = Some o' -> undoes [o] [o']) l ->
  Forall op_ok l -> invert_ops l = Some r -> undoes l (rev r).
Proof.
  revert r. induction l; intros r F O H; simpl in H.
  - inversion H; subst. apply undoes_nil.
  - destruct (invert_op a) eqn:E; [|discriminate]. destruct (invert_ops l) eqn:E2; [|discriminate].
    inversion H; subst. inversion F; inversion O; subst. simpl.
    change (a :: l) with ([a] ++ l). apply undoes_app; auto.
Qed.

Lemma undoes_op o : op_ok o -> forall o', invert_op o = Some o' -> undoes [o] [o'].
Proof.
  induction o using cop_rect'; intros O o' HI.
  - simpl in *. destruct O as [W [f S]]. destruct (invert_correct _ _ W S) as (i & g & E & WI & SI & INV).
    rewrite E in HI. inversion HI; subst. intros s. exists f, g. unfold semf. simpl. unfold semf. rewrite S, SI. auto.
  - discriminate.
  - discriminate.
  - simpl in *. destruct (invert_op o) eqn:E; [|discriminate]. inversion HI; subst.
    specialize (IHo O _ eq_refl). intros s. destruct (IHo s) as (f & g & F & G & INV).
    destruct (cond_holds c s) eqn:CH.
    + exists f, g. split; [|split]; auto; intros psi; rewrite run_one; simpl; rewrite CH;
      [specialize (F psi)|specialize (G psi)]; rewrite run_one in *; auto.
    + exists (fun x => x), (fun x => x). split; [|split]; try (split; auto); intros psi; rewrite run_one; simpl; now rewrite CH.
  - rewrite invert_comp in HI. destruct (invert_ops l) eqn:E; [|discriminate]. inversion HI; subst.
    apply op_ok_comp in O. pose proof (undoes_list _ _ H O E) as U.
    intros s. destruct (U s) as (f & g & F & G & INV). exists f, g.
    split; [|split]; auto; intros psi; rewrite run_one, run_comp; auto.
Qed.

Lemma undoes_ops l r : ops_ok l -> invert_ops l = Some r -> undoes l (rev r).
Proof. intros O. apply undoes_list; auto. apply Forall_forall. intros o _. apply undoes_op. Qed.

Lemma inverts_op o : op_ok o -> no_meas o -> exists o', invert_op o = Some o'.
Proof.
  induction o using cop_rect'; intros O N; try contradiction.
  - destruct O as [W [f S]]. destruct (invert_correct _ _ W S) as (i & g & E & _). simpl. rewrite E. eauto.
  - simpl in *. destruct IHo as [o' E]; auto. rewrite E. eauto.
  - apply op_ok_comp in O. apply no_meas_comp in N. rewrite invert_comp.
    assert (E : exists r, invert_ops l = Some r).
    { induction l; simpl; eauto. inversion H; inversion O; inversion N; subst. destruct H2 as [i ->]; auto.
      destruct IHl as [r ->]; eauto. }
    destruct E as [r ->]. eauto.
Qed.

Lemma inverts_ops l : ops_ok l -> Forall no_meas l -> exists r, invert_ops l = Some r.
Proof.
  intros O N. induction l; simpl; eauto. inversion O; inversion N; subst.
  destruct (inverts_op a) as [i ->]; auto. destruct IHl as [r ->]; eauto.
Qed.

Lemma invert_no_meas o o' : invert_op o = Some o' -> no_meas o.
Proof.
  revert o'. induction o using cop_rect'; intros o' E; simpl in *; auto; try discriminate.
  - destruct (invert_op o); [eauto|discriminate].
  - change (no_meas (OComp cu l)). apply no_meas_comp.
    change (invert_op (OComp cu l) = Some o') in E. rewrite invert_comp in E.
    destruct (invert_ops l) eqn:EL; [|discriminate]. clear E. revert l0 EL.
    induction l; intros r EL; constructor; simpl in EL; inversion H; subst;
    destruct (invert_op a) eqn:EA; try discriminate; destruct (invert_ops l) eqn:E2; try discriminate; eauto.
Qed.

(** The inverted circuit undoes everything but the global phase, which is
    applied twice. *)
Lemma invert_qc_run c c' b : ops_ok (qc_ops c) -> invert_qc c = Some c' ->
  flat_map (run_qc c') (run_qc c b) = [(sscal (Cexp (2 * qc_phase c)) (fst b), snd b)] /\
  flat_map (run_qc c) (run_qc c' b) = [(sscal (Cexp (2 * qc_phase c)) (fst b), snd b)].
Proof.
  intros O H. unfold invert_qc in H. destruct (invert_ops (qc_ops c)) as [r|] eqn:E; [|discriminate].
  inversion H; subst; clear H. pose proof (undoes_ops _ _ O E) as U.
  assert (LIN : forall l s f, (forall psi, run l (psi, s) = [(f psi, s)]) -> Forall no_meas l -> forall k psi, f (sscal k psi) = sscal k (f psi)).
  { clear. intros l s f F N k psi.
    assert (L : forall b, run l (sscal k (fst b), snd b) = map (fun x => (sscal k (fst x), snd x)) (run l b)).
    2: { specialize (L (psi, s)). simpl in L. rewrite !F in L. simpl in L. now inversion L. }
    clear f F psi s.
    assert (LO : forall o, no_meas o -> forall b, run_op o (sscal k (fst b), snd b) = map (fun x => (sscal k (fst x), snd x)) (run_op o b)).
    { induction o using cop_rect'; intros NM b; try contradiction.
      - simpl. unfold semf. destruct (sem o) eqn:S; auto. f_equal. f_equal.
        destruct (sem_split o _ S) as [->|(K & M & T & EQ & ->)]; auto. apply capply_scal.
      - simpl. destruct (cond_holds c (snd b)); auto.
      - rewrite !run_comp. apply no_meas_comp in NM. clear N. revert b. induction l0; intros b; simpl; auto.
        inversion H; inversion NM; subst. rewrite H2; auto. rewrite flat_map_concat_map, map_map, <- flat_map_concat_map.
        rewrite !flat_map_concat_map, concat_map, map_map. f_equal. apply map_ext. intros x. auto. }
    induction l; intros b; simpl; auto. inversion N; subst. rewrite LO; auto.
    rewrite flat_map_concat_map, map_map. rewrite !flat_map_concat_map, concat_map, map_map. f_equal. apply map_ext.
    intros x. auto. }
  assert (N1 : Forall no_meas (qc_ops c)).
  { clear - E. revert r E. induction (qc_ops c); intros r E; constructor; simpl in E;
    destruct (invert_op a) eqn:EA; try discriminate; destruct (invert_ops l) eqn:E2; try discriminate; eauto using invert_no_meas. }
  destruct b as [psi s]. destruct (U s) as (f & g & F & G & I1 & I2). simpl.
  assert (LF := LIN _ _ _ F N1).
  assert (LG : forall k phi, g (sscal k phi) = sscal k (g phi)).
  { intros k phi. rewrite <- (I2 phi) at 1. rewrite <- LF. apply I1. }
  assert (TW : forall phi, sscal (Cexp (qc_phase c)) (sscal (Cexp (qc_phase c)) phi) = sscal (Cexp (2 * qc_phase c)) phi).
  { intros phi. unfold sscal. apply functional_extensionality. intros x. replace (2 * qc_phase c)%R with (qc_phase c + qc_phase c)%R by ring.
    rewrite Cexp_add. ring. }
  unfold run_qc. simpl. split.
  - rewrite F. simpl. rewrite LF || rewrite LG || idtac. rewrite G. simpl. rewrite LG, I1, TW. auto.
  - rewrite G. simpl. rewrite F. simpl. rewrite LF, I2, TW. auto.
Qed.

(** ** Classical values *)
Lemma lor_pow2 a j : (a < 2 ^ j)%N -> N.lor a (N.shiftl 1 j) = (a + 2 ^ j)%N.
Proof.
  intros H. rewrite N.shiftl_1_l.
  assert (L : N.land a (2 ^ j) = 0%N).
  { apply N.bits_inj. intros i. rewrite N.land_spec, N.pow2_bits_eqb, N.bits_0.
    destruct (N.eqb_spec j i); [subst i|apply andb_false_r].
    destruct (N.eq_dec a 0) as [->|NZ]; [now rewrite N.bits_0|].
    rewrite N.bits_above_log2; auto. apply N.log2_lt_pow2; auto. lia. }
  rewrite <- N.lxor_lor by auto. symmetry. now apply N.add_nocarry_lxor.
Qed.

Lemma actual_value_ok m s len : forall j acc, (acc < 2 ^ N.of_nat j)%N -> j + len <= 64 ->
  actual_value m s j len acc = Some (acc + 2 ^ N.of_nat j * regval m (s + j) len)%N.
Proof.
  induction len; intros j acc A B.
  - cbn [actual_value regval]. f_equal. lia.
  - cbn [actual_value regval]. assert (P : (2 ^ N.of_nat (S j) = 2 * 2 ^ N.of_nat j)%N).
    { rewrite Nat2N.inj_succ, N.pow_succ_r'. auto. }
    destruct (m (s + j)) eqn:E.
    + replace (Nat.ltb j 64) with true by (symmetry; apply Nat.ltb_lt; lia).
      rewrite IHlen; [|rewrite lor_pow2 by auto; lia|lia]. rewrite lor_pow2 by auto.
      replace (s + S j) with (S (s + j)) by lia. f_equal. nia.
    + rewrite IHlen; [|lia|lia]. replace (s + S j) with (S (s + j)) by lia. f_equal. nia.
Qed.

Lemma compare_cmp k a v : compare_kind k a v = cmp_dec k a v.
Proof. destruct k; reflexivity. Qed.

Lemma cmp_dec_holds k a v : cmp_dec k a v = true <-> cmp_holds k a v.
Proof.
  destruct k; simpl.
  - apply N.eqb_eq.
  - rewrite negb_true_iff. apply N.eqb_neq.
  - apply N.ltb_lt.
  - apply N.leb_le.
  - apply N.ltb_lt.
  - apply N.leb_le.
Qed.

Definition cond_narrow (c : cond) : Prop := match c with CReg _ l _ _ => l <= 64 | _ => True end.

Lemma classic_control_ok c m : cond_narrow c -> classic_control c m = Some (cond_holds c m).
Proof.
  destruct c; simpl; intros H.
  - rewrite actual_value_ok by (simpl; auto; lia). rewrite Nat.add_0_r, compare_cmp. f_equal. f_equal. destruct (regval m start len); reflexivity.
  - rewrite compare_cmp. f_equal. f_equal. destruct (m bit); reflexivity.
Qed.

Lemma inv_kind_ok k a v : cmp_holds (inv_kind k) a v <-> ~ cmp_holds k a v.
Proof.
  destruct k; simpl; split; intros H; try lia; try tauto.
Qed.

(** Operations whose conditions, if any, are all outermost. *)
Fixpoint no_class (o : cop) : Prop :=
  match o with
  | OStd _ => True
  | OMeas _ _ | OReset _ => False
  | OClass _ _ => False
  | OComp _ l => (fix go l := match l with [] => True | o :: l' => no_class o /\ go l' end) l
  end.
Lemma no_class_comp cu l : no_class (OComp cu l) <-> Forall no_class l.
Proof. induction l; simpl; split; auto; intros H; [constructor|inversion H]; tauto. Qed.

Lemma dd_ops_ok o : no_class o -> exists l, dd_ops o = Some l /\ forall b, run (map OStd l) b = run_op o b.
Proof.
  induction o using cop_rect'; intros N; try contradiction.
  - simpl. eauto.
  - apply no_class_comp in N. 
    assert (K : exists r, dd_ops (OComp cu l) = Some r /\ forall b, run (map OStd r) b = run l b).
    { induction l; [simpl; eauto|]. inversion H; inversion N; subst.
      destruct H2 as (r1 & E1 & R1); auto. destruct IHl as (r2 & E2 & R2); auto.
      exists (r1 ++ r2). split.
      - simpl in *. now rewrite E1, E2.
      - intros b. rewrite map_app, run_app, R1. simpl. apply flat_map_ext'. auto. }
    destruct K as (r & E & R). exists r. split; auto.
Qed.

(** ** Copies *)
Definition cond_eq (c : cond) : Prop := match c with CReg _ _ _ k => k = kEq | CBit _ _ k => k = kEq end.
Fixpoint only_eq (o : cop) : Prop :=
  match o with
  | OClass c o' => cond_eq c /\ only_eq o'
  | OComp _ l => (fix go l := match l with [] => True | o :: l' => only_eq o /\ go l' end) l
  | _ => True
  end.

Lemma clone_ok o : only_eq o -> clone_op o = o.
Proof.
  induction o using cop_rect'; intros E; simpl; auto.
  - destruct E as [E1 E2]. rewrite IHo by auto. destruct c; simpl in *; subst; auto.
  - f_equal. induction l; simpl; auto. inversion H; subst. destruct E as [E1 E2]. f_equal; auto.
Qed.

(** ** Permutations and registers *)
Lemma plookup_In p q r : plookup p q = Some r -> In (q, r) p.
Proof.
  induction p as [|[a b] p IH]; simpl; [discriminate|]. destruct (Nat.eqb_spec q a); intros H.
  - inversion H; subst. auto.
  - auto.
Qed.
Lemma plookup_complete p q r : NoDup (map fst p) -> In (q, r) p -> plookup p q = Some r.
Proof.
  induction p as [|[a b] p IH]; simpl; [tauto|]. intros N [H|H].
  - inversion H; subst. now rewrite Nat.eqb_refl.
  - inversion N; subst. destruct (Nat.eqb_spec q a) as [->|]; [|auto]. exfalso. apply H2. apply (in_map fst) in H. exact H.
Qed.
Lemma plookup_pinv p q r : perm_ok p -> plookup p q = Some r -> plookup (pinv p) r = Some q.
Proof.
  intros [A B] H. apply plookup_complete.
  - unfold pinv. rewrite map_map. simpl. exact B.
  - apply plookup_In in H. unfold pinv. apply in_map_iff. exists (q, r). auto.
Qed.
Lemma papply_pinv p q r : perm_ok p -> papply p q = Some r -> papply (pinv p) r = Some q.
Proof.
  intros K. destruct p; simpl; [intros H; inversion H; auto|]. intros H. apply (plookup_pinv (p :: p0)); auto.
Qed.

Lemma papply_targets_inv p ts us : perm_ok p -> papply_targets p ts = Some us -> papply_targets (pinv p) us = Some ts.
Proof.
  intros K. revert us. unfold papply_targets. induction ts; intros us H; simpl in *.
  - inversion H; subst. reflexivity.
  - destruct (papply p a) eqn:E; [|discriminate]. destruct (map_opt (papply p) ts) eqn:E2; [|discriminate].
    inversion H; subst. simpl. rewrite (papply_pinv _ _ _ K E), (IHts _ eq_refl). auto.
Qed.

(** Sorted control sets. *)
Fixpoint csorted (l : list ctl) : Prop :=
  match l with
  | [] => True
  | x :: r => (forall y, In y r -> ctl_ltb x y = true) /\ csorted r
  end.

Lemma ctl_ltb_irrefl x : ctl_ltb x x = false.
Proof. unfold ctl_ltb. destruct x as [q []]; simpl; rewrite Nat.ltb_irrefl, Nat.eqb_refl; auto. Qed.
Lemma ctl_ltb_spec x y : ctl_ltb x y = true <-> fst x < fst y \/ (fst x = fst y /\ snd x = false /\ snd y = true).
Proof.
  unfold ctl_ltb. destruct x as [q p], y as [r o]; simpl. destruct (Nat.ltb_spec q r), (Nat.eqb_spec q r), p, o; simpl;
  split; intros; try lia; try discriminate; intuition (try lia; try discriminate; auto).
Qed.
Lemma ctl_ltb_trans x y z : ctl_ltb x y = true -> ctl_ltb y z = true -> ctl_ltb x z = true.
Proof.
  rewrite !ctl_ltb_spec. intros [A|(A & B & D)] [E|(E & F & G)]; try (left; lia). rewrite F in D. discriminate.
Qed.
Lemma ctl_ltb_total x y : ctl_ltb x y = false -> ctl_ltb y x = false -> x = y.
Proof.
  intros A B. destruct x as [q p], y as [r o].
  assert (NA : ~ (q < r \/ q = r /\ p = false /\ o = true)).
  { intros H. assert (ctl_ltb (q, p) (r, o) = true) by (apply ctl_ltb_spec; exact H). congruence. }
  assert (NB : ~ (r < q \/ r = q /\ o = false /\ p = true)).
  { intros H. assert (ctl_ltb (r, o) (q, p) = true) by (apply ctl_ltb_spec; exact H). congruence. }
  assert (q = r) by lia. subst. f_equal. destruct p, o; auto; exfalso; [apply NB|apply NA]; auto.
Qed.

Lemma ins_ctl_mem x l y : In y (ins_ctl x l) <-> y = x \/ In y l.
Proof.
  induction l as [|z l IH]; simpl; [intuition|].
  destruct (ctl_ltb x z) eqn:E1; simpl; [intuition|].
  destruct (ctl_ltb z x) eqn:E2; simpl; [rewrite IH; intuition|].
  assert (x = z) by (apply ctl_ltb_total; auto). subst. intuition.
Qed.
Lemma ins_ctl_sorted x l : csorted l -> csorted (ins_ctl x l).
Proof.
  induction l as [|z l IH]; simpl; [intuition|]. intros [A B].
  destruct (ctl_ltb x z) eqn:E1; simpl.
  - split; auto. intros y [<-|H]; auto. eapply ctl_ltb_trans; eauto.
  - destruct (ctl_ltb z x) eqn:E2; simpl; auto. split; [|auto]. intros y H. apply ins_ctl_mem in H. destruct H as [->|H]; auto.
Qed.
Lemma ctls_of_gen l acc : csorted acc -> csorted (fold_left (fun s x => ins_ctl x s) l acc) /\
  (forall y, In y (fold_left (fun s x => ins_ctl x s) l acc) <-> In y l \/ In y acc).
Proof.
  revert acc. induction l as [|x l IH]; intros acc S; simpl; [intuition|].
  destruct (IH (ins_ctl x acc) (ins_ctl_sorted x acc S)) as [A B]. split; auto.
  intros y. rewrite B, ins_ctl_mem. intuition.
Qed.
Lemma csorted_ext l m : csorted l -> csorted m -> (forall x, In x l <-> In x m) -> l = m.
Proof.
  revert m. induction l as [|x l IH]; intros [|y m] A B H; auto.
  - exfalso. apply (H y). now left.
  - exfalso. apply (H x). now left.
  - destruct A as [A1 A2], B as [B1 B2]. assert (E : x = y).
    { destruct (proj1 (H x) (or_introl eq_refl)) as [E|E]; auto.
      destruct (proj2 (H y) (or_introl eq_refl)) as [F|F]; auto.
      pose proof (ctl_ltb_trans _ _ _ (A1 _ F) (B1 _ E)) as K. rewrite ctl_ltb_irrefl in K. discriminate. }
    subst y. f_equal. apply IH; auto. intros z. split; intros K.
    + destruct (proj1 (H z) (or_intror K)) as [->|]; auto. rewrite (ctl_ltb_irrefl z) in A1 at 1 || idtac.
      specialize (A1 _ K). rewrite ctl_ltb_irrefl in A1. discriminate.
    + destruct (proj2 (H z) (or_intror K)) as [->|]; auto.
      specialize (B1 _ K). rewrite ctl_ltb_irrefl in B1. discriminate.
Qed.

Lemma map_opt_In {A B} (f : A -> option B) l m : map_opt f l = Some m ->
  forall y, In y m <-> exists x, In x l /\ f x = Some y.
Proof.
  revert m. induction l; intros m H; simpl in H.
  - inversion H; subst. simpl. split; [tauto|intros (x & [] & _)].
  - destruct (f a) eqn:E; [|discriminate]. destruct (map_opt f l) eqn:E2; [|discriminate]. inversion H; subst.
    intros y. simpl. rewrite (IHl _ eq_refl). split.
    + intros [<-|(x & I & F)]; [exists a|exists x]; auto.
    + intros (x & [<-|I] & F); [left; congruence|right; eauto].
Qed.
Lemma map_opt_some {A B} (f : A -> option B) l : (forall x, In x l -> exists y, f x = Some y) -> exists m, map_opt f l = Some m.
Proof.
  induction l; intros H; simpl; eauto. destruct (H a (or_introl eq_refl)) as [y ->].
  destruct IHl as [m ->]; eauto. intros x I. apply H. now right.
Qed.

Lemma papply_ctl_pinv p c d : perm_ok p -> papply_ctl p c = Some d -> papply_ctl (pinv p) d = Some c.
Proof.
  unfold papply_ctl. intros K. destruct (papply p (fst c)) eqn:E; [|discriminate]. intros H. inversion H; subst. simpl.
  rewrite (papply_pinv _ _ _ K E). now destruct c.
Qed.

Lemma papply_controls_inv p cs ds : perm_ok p -> csorted cs -> papply_controls p cs = Some ds ->
  papply_controls (pinv p) ds = Some cs.
Proof.
  intros K S. destruct p as [|a p]; [simpl; intros H; inversion H; auto|].
  remember (a :: p) as pp. assert (papply_controls pp cs = Some ds -> papply_controls (pinv pp) ds = Some cs); auto.
  unfold papply_controls. destruct pp as [|x pp'] eqn:E0; [discriminate|]. rewrite <- E0 in *.
  destruct (map_opt (papply_ctl pp) cs) as [l|] eqn:E; [|discriminate]. intros H; inversion H; subst ds; clear H.
  destruct (pinv pp) eqn:EP; [rewrite E0 in EP; discriminate|]. rewrite <- EP. clear EP.
  destruct (ctls_of_gen l [] I) as [A B].
  assert (M : exists m, map_opt (papply_ctl (pinv pp)) (ctls_of l) = Some m).
  { apply map_opt_some. intros d I. apply B in I. destruct I as [I|[]].
    apply (map_opt_In _ _ _ E) in I. destruct I as (c & _ & F). exists c. apply papply_ctl_pinv; auto. }
  destruct M as [m M]. rewrite M. f_equal. destruct (ctls_of_gen m [] I) as [A2 B2].
  apply csorted_ext; auto. intros c. unfold ctls_of at 1. rewrite B2. rewrite (map_opt_In _ _ _ M). simpl. split.
  - intros [(d & I & F)|[]]. apply B in I. destruct I as [I|[]]. apply (map_opt_In _ _ _ E) in I. destruct I as (c' & I & F').
    apply (papply_ctl_pinv _ _ _ K) in F'. congruence.
  - intros I. left. assert (X : exists d, papply_ctl pp c = Some d).
    { clear - E I. revert l E. induction cs; intros l E; [contradiction|]. simpl in E.
      destruct (papply_ctl pp a) eqn:EA; [|discriminate]. destruct (map_opt (papply_ctl pp) cs) eqn:EM; [|discriminate].
      destruct I as [->|I]; eauto. }
    destruct X as [d X]. exists d. split; [|now apply papply_ctl_pinv].
    apply B. left. apply (map_opt_In _ _ _ E). eauto.
Qed.

Lemma reg_round r l g : reg_global r l = Some g -> reg_local r g = Some l.
Proof.
  unfold reg_global, reg_local, reg_contains. destruct (Nat.leb_spec (r_size r) l); [discriminate|].
  intros E; inversion E; subst. replace (Nat.leb _ _) with true by (symmetry; apply Nat.leb_le; lia).
  replace (Nat.ltb _ _) with true by (symmetry; apply Nat.ltb_lt; lia). simpl. f_equal. lia.
Qed.
Lemma reg_round' r l g : reg_local r g = Some l -> reg_global r l = Some g.
Proof.
  unfold reg_global, reg_local, reg_contains. destruct (Nat.leb_spec (r_start r) g); [|discriminate].
  destruct (Nat.ltb_spec g (r_start r + r_size r)); [|discriminate]. simpl.
  intros E; inversion E; subst. replace (Nat.leb _ _) with false by (symmetry; apply Nat.leb_gt; lia). f_equal. lia.
Qed.
