(** isInverseOf for compound operations. *)
From Coq Require Import Reals List Arith Bool Lia NArith Permutation FunctionalExtensionality.
From Verif Require Import Cplx Qsem GateModel GateSpec GateProofs OpProofs GraphModel IRModel IRSpec IRProofs OptModel OptSem OptDagProofs
  OptFuseProofs OutcomeSpec OptDiagSem OptFinalProofs ReorderModel ReorderSpec ReorderProofs ReorderSemProofs.
Import ListNotations.
Local Open Scope list_scope.

Lemma equatable_comp cu l : equatable (OComp cu l) <-> Forall equatable l.
Proof. simpl. induction l; simpl; split; auto; intros H; [constructor|inversion H]; tauto. Qed.

(** ** Equality *)
Fixpoint equals_ops (l m : list cop) : bool :=
  match l, m with
  | [], [] => true
  | x :: l', y :: m' => equals_op x y && equals_ops l' m'
  | _, _ => false
  end.
Lemma equals_comp cu l cv m : equals_op (OComp cu l) (OComp cv m) = equals_ops l m.
Proof. simpl. revert m. induction l as [|x l IH]; intros [|y m]; simpl; auto; now rewrite IH. Qed.
Lemma cond_eqb_eq c d : cond_eqb c d = true <-> c = d.
Proof.
  split.
  - destruct c as [s n v k|b v k], d as [s' n' v' k'|b' v' k']; simpl; try discriminate; rewrite !andb_true_iff; intros H.
    + destruct H as [[[A B] D] K]. apply Nat.eqb_eq in A, B. apply N.eqb_eq in D. subst. f_equal. destruct k, k'; auto; discriminate.
    + destruct H as [[A D] K]. apply Nat.eqb_eq in A. apply N.eqb_eq in D. subst. f_equal. destruct k, k'; auto; discriminate.
  - intros <-. destruct c as [s n v k|b v k]; simpl; rewrite ?Nat.eqb_refl, N.eqb_refl; destruct k; auto.
Qed.
Lemma rename_id x : rename_op (fun q => q) x = x.
Proof.
  destruct x as [t ps cs ts]. unfold rename_op. simpl. rewrite map_id. f_equal.
  rewrite <- (map_id cs) at 2. apply map_ext. now intros [].
Qed.
Lemma equals_ops_run l : Forall (fun a => forall b, op_ok a -> op_ok b -> equatable a -> equatable b -> no_meas b -> equals_op a b = true ->
     no_meas a /\ forall x, run_op a x = run_op b x) l ->
  forall m, Forall op_ok l -> Forall op_ok m -> Forall equatable l -> Forall equatable m -> Forall no_meas m -> equals_ops l m = true ->
  Forall no_meas l /\ same_run l m.
Proof.
  induction 1 as [|a l Ha _ IH]; intros [|b m] O1 O2 E1 E2 N E; simpl in E; try discriminate.
  - split; [constructor|apply same_refl].
  - apply andb_true_iff in E. destruct E as [EA EL]. inversion O1; inversion O2; inversion E1; inversion E2; inversion N; subst.
    destruct (Ha b) as [NA RA]; auto. destruct (IH m) as [NL RL]; auto. split; auto.
    intros x. cbn [run]. rewrite RA. apply flat_map_ext'. auto.
Qed.
Lemma equals_op_run a : forall b, op_ok a -> op_ok b -> equatable a -> equatable b -> no_meas b -> equals_op a b = true ->
  no_meas a /\ forall x, run_op a x = run_op b x.
Proof.
  induction a as [s|qs cs|qs|k a IHa|cu l H] using cop_rect'; intros b Oa Ob Ea Eb N E; destruct b as [t|qs' cs'|qs'|k' b|cv m];
    try discriminate E; try contradiction.
  - split; [exact I|]. intros x. simpl. f_equal. f_equal. destruct Oa as [Wa [f F]], Ob as [Wb [g G]], Ea as [Ca Ra], Eb as [Cb Rb].
    unfold semf. rewrite F, G. assert (X : f = g); [|now rewrite X].
    eapply (equals_sound (fun q => q) (fun q => q) s t); eauto; try (intros ? ?; auto); rewrite rename_id; auto.
  - simpl in *. apply andb_true_iff in E. destruct E as [E1 E2]. apply cond_eqb_eq in E1. subst k'.
    destruct (IHa b) as [NA RA]; auto. split; auto. intros x. now rewrite RA.
  - rewrite equals_comp in E. apply op_ok_comp in Oa, Ob. apply equatable_comp in Ea, Eb. apply no_meas_comp in N.
    destruct (equals_ops_run l H m) as [NL RL]; auto. split; [now apply no_meas_comp|]. intros x. rewrite !run_comp. apply RL.
Qed.
Lemma equals_std_refl s : equals_std (fun q => q) (fun q => q) s s = true.
Proof.
  unfold equals_std. rewrite (proj2 (optype_eqb_eq _ _) eq_refl), Nat.eqb_refl, (proj2 (pars_eqb_eq _ _) eq_refl). cbn [negb].
  rewrite !(proj2 (nats_eqb_eq _ _) eq_refl), (proj2 (ctls_eqb_eq _ _) eq_refl). cbn [negb]. rewrite andb_false_r.
  now destruct (is_diag (o_type s)).
Qed.
Lemma pair_in_ok x l : In x l -> pair_in x l = true.
Proof. intros I. apply existsb_exists. exists x. now rewrite !Nat.eqb_refl. Qed.
Lemma equals_op_refl a : equals_op a a = true.
Proof.
  induction a as [s|qs cs|qs|k a IHa|cu l H] using cop_rect'.
  - apply equals_std_refl.
  - simpl. rewrite Nat.eqb_refl. assert (X : forallb (fun x => pair_in x (combine qs cs)) (combine qs cs) = true).
    { apply forallb_forall. intros x. apply pair_in_ok. }
    now rewrite X.
  - simpl. now apply nats_eqb_eq.
  - simpl. rewrite IHa, (proj2 (cond_eqb_eq _ _) eq_refl). auto.
  - rewrite equals_comp. induction H as [|x l Hx _ IH]; simpl; auto. now rewrite Hx, IH.
Qed.
Lemma equal3_refl l : equal3 l l = Some true.
Proof. induction l as [|x l IH]; simpl; auto. now rewrite equals_op_refl. Qed.
Lemma equal3_some l : forall m, length l = length m -> equal3 l m = Some (equals_ops l m).
Proof.
  induction l as [|x l IH]; intros [|y m] E; simpl in *; try discriminate; auto. inversion E. destruct (equals_op x y); simpl; auto.
Qed.

(** ** Inversion *)
Lemma invert_std_shape s s' : invert_std s = Some s' -> o_ctl s' = o_ctl s /\ (o_type s' = gRZ -> o_type s = gRZ) /\
  (o_type s' = gRZZ -> o_type s = gRZZ) /\ Permutation (o_tgt s) (o_tgt s').
Proof.
  destruct s as [t ps cs ts]. unfold invert_std. cbn [o_ctl o_type o_tgt o_par]. intros E.
  destruct t; try discriminate E;
    repeat match type of E with context [match ?x with _ => _ end] => destruct x eqn:?; try discriminate E end;
    inversion E; subst; cbn [o_ctl o_type o_tgt]; repeat split; auto; try discriminate.
  all: try constructor.
Qed.
Definition keepsp (o : cop) : Prop := forall o', invert_op o = Some o' ->
  (op_ok o -> op_ok o') /\ (local o -> local o') /\ (equatable o -> equatable o') /\ no_meas o' /\ (forall q, In q (used o) <-> In q (used o')).
Lemma keepsp_list l : Forall keepsp l -> forall r, invert_ops l = Some r ->
  (Forall op_ok l -> Forall op_ok r) /\ (Forall local l -> Forall local r) /\ (Forall equatable l -> Forall equatable r) /\
  Forall no_meas r /\ (forall q, In q (flat_map used l) <-> In q (flat_map used r)).
Proof.
  induction 1 as [|o l Ho _ IH]; intros r E; cbn [invert_ops] in E.
  - inversion E; subst. repeat split; auto.
  - destruct (invert_op o) as [i|] eqn:Ei; [|discriminate]. destruct (invert_ops l) as [r'|] eqn:Er; [|discriminate].
    inversion E; subst. destruct (Ho i Ei) as (A1 & A2 & A3 & A4 & A5). destruct (IH r' eq_refl) as (B1 & B2 & B3 & B4 & B5).
    repeat split.
    + intros F. inversion F; subst. constructor; auto.
    + intros F. inversion F; subst. constructor; auto.
    + intros F. inversion F; subst. constructor; auto.
    + constructor; auto.
    + cbn [flat_map]. rewrite !in_app_iff, A5, B5. tauto.
    + cbn [flat_map]. rewrite !in_app_iff, A5, B5. tauto.
Qed.
Lemma flat_rev l q : In q (flat_map used (rev l)) <-> In q (flat_map used l).
Proof. rewrite !in_flat_map. split; intros (x & I & U); exists x; split; auto; [apply in_rev|apply in_rev; rewrite rev_involutive]; auto. Qed.
Lemma keeps_op o : keepsp o.
Proof.
  induction o as [s|qs cs|qs|k o IHo|cu l H] using cop_rect'; intros o' E.
  - simpl in E. destruct (invert_std s) as [i|] eqn:Ei; [|discriminate]. inversion E; subst.
    destruct (invert_std_shape _ _ Ei) as (C & T1 & T2 & P). split; [|split; [|split; [|split]]].
    + intros [W [f F]]. destruct (invert_correct _ _ W F) as (i' & g & E' & W' & S' & _). rewrite Ei in E'. inversion E'; subst.
      split; eauto.
    + auto.
    + intros [D R]. split; rewrite C; auto. intros [X|X]; auto.
    + exact I.
    + intros q. simpl. rewrite C, !in_app_iff. split; intros [X|X]; auto; left;
        [eapply Permutation_in; [exact P|auto]|eapply Permutation_in; [apply Permutation_sym; exact P|auto]].
  - discriminate.
  - discriminate.
  - simpl in E. destruct (invert_op o) as [i|] eqn:Ei; [|discriminate]. inversion E; subst.
    destruct (IHo i Ei) as (A1 & A2 & A3 & A4 & A5). split; [exact A1|]. split; [|split; [exact A3|split; [exact A4|]]].
    + intros L. destruct o; simpl in Ei, L; try discriminate; try contradiction.
      * destruct (invert_std o) eqn:X; [|discriminate]. inversion Ei; subst. exact I.
      * destruct (invert_op o) eqn:X; [|discriminate]. inversion Ei; subst. apply A2. exact L.
    + intros q. destruct o; try discriminate Ei.
      * simpl in Ei. destruct (invert_std o) eqn:X; [|discriminate]. inversion Ei; subst. exact (A5 q).
      * simpl in Ei. destruct (invert_op o) eqn:X; [|discriminate]. inversion Ei; subst. exact (A5 q).
      * rewrite invert_comp in Ei. destruct (invert_ops l); [|discriminate]. inversion Ei; subst. simpl. tauto.
  - rewrite invert_comp in E. destruct (invert_ops l) as [r|] eqn:Er; [|discriminate]. inversion E; subst.
    destruct (keepsp_list l H r Er) as (B1 & B2 & B3 & B4 & B5).
    rewrite !op_ok_comp, !local_comp, !equatable_comp, no_meas_comp.
    split; [intros F; apply Forall_rev; auto|]. split; [intros F; apply Forall_rev; auto|]. split; [intros F; apply Forall_rev; auto|].
    split; [apply Forall_rev; auto|]. intros q. simpl. now rewrite flat_rev.
Qed.
Lemma invert_ops_len l : forall r, invert_ops l = Some r -> length r = length l.
Proof.
  induction l as [|o l IH]; intros r E; simpl in E; [now inversion E|].
  destruct (invert_op o); [|discriminate]. destruct (invert_ops l); [|discriminate]. inversion E; subst. simpl. rewrite IH; auto.
Qed.
Lemma plain_inverse l r : Forall plain l -> invert_ops l = Some r -> Forall plain (rev r) /\ Forall no_meas (rev r) /\ length (rev r) = length l /\
  forall q, In q (flat_map used l) <-> In q (flat_map used (rev r)).
Proof.
  intros P E. rewrite rev_length, (invert_ops_len _ _ E).
  assert (K : Forall keepsp l) by (apply Forall_forall; intros; apply keeps_op).
  destruct (keepsp_list l K r E) as (_ & _ & _ & N & U).
  split; [|split; [apply Forall_rev; auto|split; auto; intros q; now rewrite flat_rev]].
  apply Forall_rev. clear K N U. revert r E. induction P as [|o l Ho _ IH]; intros r E; simpl in E; [inversion E; auto|].
  destruct (invert_op o) as [i|] eqn:Ei; [|discriminate]. destruct (invert_ops l); [|discriminate]. inversion E; subst. constructor; auto.
  destruct (keeps_op o i Ei) as (A1 & A2 & A3 & A4 & A5). destruct Ho as [B1 B2 B3 B4]. split; auto.
  intros X. apply B3. destruct (used o) as [|q t]; auto. exfalso. specialize (A5 q). rewrite X in A5. apply A5. simpl. auto.
Qed.

(** ** The qubits *)
Lemma fold_max_ge l : forall a, a <= fold_left Nat.max l a /\ forall x, In x l -> x <= fold_left Nat.max l a.
Proof.
  induction l as [|y l IH]; intros a; simpl; [split; [auto|tauto]|]. destruct (IH (Nat.max a y)) as [A B]. split; [lia|].
  intros x [->|I]; [lia|auto].
Qed.
Lemma fold_max_in l : forall a, fold_left Nat.max l a = a \/ In (fold_left Nat.max l a) l.
Proof.
  induction l as [|y l IH]; intros a; simpl; auto. destruct (IH (Nat.max a y)) as [E|I]; auto. rewrite E.
  destruct (Nat.max_spec a y) as [[_ ->]|[_ ->]]; auto.
Qed.
Lemma max_used_some l a : max_used l = Some a -> In a (flat_map used l) /\ forall q, In q (flat_map used l) -> q <= a.
Proof.
  unfold max_used. destruct (flat_map used l) as [|x r]; [discriminate|]. intros E. inversion E; subst.
  destruct (fold_max_ge r x) as [A B]. split.
  - destruct (fold_max_in r x) as [->|I]; simpl; auto.
  - intros q [<-|I]; auto.
Qed.
Lemma max_used_within l a : max_used l = Some a -> within (S a) l.
Proof. intros E o q I U. apply max_used_some in E. destruct E as [_ E]. specialize (E q). rewrite in_flat_map in E. specialize (E (ex_intro _ o (conj I U))). lia. Qed.
Lemma max_used_plain l : Forall plain l -> l <> [] -> exists a, max_used l = Some a.
Proof.
  intros P N. destruct l as [|o l]; [tauto|]. inversion P as [|? ? H _]; subst. unfold max_used. cbn [flat_map].
  destruct H as [_ _ U _]. destruct (used o); [tauto|]. simpl. eauto.
Qed.
Lemma max_used_same l m a b : (forall q, In q (flat_map used l) <-> In q (flat_map used m)) -> max_used l = Some a -> max_used m = Some b -> a = b.
Proof.
  intros H A B. apply max_used_some in A, B. destruct A as [A1 A2], B as [B1 B2]. apply H in A1. apply H in B1.
  apply B2 in A1. apply A2 in B1. lia.
Qed.
Lemma map_clone l : Forall only_eq l -> map clone_op l = l.
Proof. induction 1 as [|o l H _ IH]; simpl; auto. now rewrite clone_ok, IH by auto. Qed.
Lemma plain_touching l : Forall plain l -> touching l = l.
Proof. intros P. apply touching_id. revert P. apply Forall_impl. intros o H. apply H. Qed.
Lemma plain_agree l : Forall plain l -> Forall agree (touching l).
Proof. intros P. rewrite plain_touching by auto. revert P. apply Forall_impl. intros o H. apply local_agree. apply H. Qed.

Lemma comp_inverse_cases l m r : Forall plain l -> Forall plain m -> Forall only_eq l -> Forall only_eq m -> invert_ops m = Some r ->
  length l = length m -> l <> [] -> exists a b l' m', max_used l = Some a /\ max_used m = Some b /\
    reorder (S a) (S (length l)) l = RDone l' /\ reorder (S b) (S (length m)) (rev r) = RDone m' /\
    swaps l l' /\ swaps (rev r) m' /\ comp_is_inverse l m = RDone (equals_ops l' m').
Proof.
  intros PL PM QL QM E LE NE.
  destruct (plain_inverse m r PM E) as (PR & NR & LR & UR).
  destruct (max_used_plain l PL NE) as [a A]. destruct (max_used_plain m PM) as [b B]; [intros ->; destruct l; [tauto|discriminate]|].
  destruct (reorder_done (S a) (S (length l)) l) as (l' & L1 & L2); auto using max_used_within, plain_agree.
  destruct (reorder_done (S b) (S (length m)) (rev r)) as (m' & M1 & M2); auto using plain_agree.
  { intros o q I U. apply max_used_some in B. destruct B as [_ B]. assert (X : In q (flat_map used (rev r))) by (apply in_flat_map; eauto).
    apply UR in X. apply B in X. lia. }
  { rewrite LR. lia. }
  rewrite plain_touching in L2, M2 by auto.
  exists a, b, l', m'. repeat (split; auto). unfold comp_is_inverse. rewrite LE, Nat.eqb_refl. cbn [negb].
  destruct l as [|o l0]; [tauto|]. rewrite A, B, <- LE. rewrite !map_clone by auto. rewrite L1, E. rewrite LE, M1.
  rewrite equal3_some; auto. apply swaps_perm in L2, M2. apply Permutation_length in L2, M2. congruence.
Qed.
Lemma plain_swaps l m : swaps l m -> Forall plain l -> Forall plain m.
Proof. intros H. apply Permutation_Forall. now apply swaps_perm. Qed.

Lemma comp_inverse_sound l m : Forall plain l -> Forall plain m -> Forall only_eq l -> Forall only_eq m ->
  comp_is_inverse l m = RDone true -> undoes m l.
Proof.
  intros PL PM QL QM E. destruct (Nat.eqb_spec (length l) (length m)) as [LE|LE].
  2:{ unfold comp_is_inverse in E. apply Nat.eqb_neq in LE. rewrite LE in E. discriminate. }
  destruct (Nat.eq_dec (length l) 0) as [Z|Z].
  { destruct l; [|discriminate]. destruct m; [|discriminate]. apply undoes_nil. }
  assert (NE : l <> []) by (intros ->; apply Z; reflexivity).
  destruct (invert_ops m) as [r|] eqn:IM.
  2:{ exfalso. unfold comp_is_inverse in E. rewrite LE, Nat.eqb_refl in E. cbn [negb] in E. destruct l as [|o l0]; [tauto|].
      rewrite (map_clone m), IM in E by auto. destruct (max_used (o :: l0)); [|discriminate]. destruct (max_used m); [|discriminate].
      destruct (reorder _ _ (map clone_op _)); discriminate. }
  destruct (comp_inverse_cases l m r) as (a & b & l' & m' & A & B & L1 & M1 & L2 & M2 & C); auto. rewrite C in E. inversion E as [E'].
  destruct (plain_inverse m r PM IM) as (PR & NR & LR & UR).
  assert (NM : Forall no_meas m') by (eapply Permutation_Forall; [apply swaps_perm; eauto|auto]).
  assert (PL' := plain_swaps _ _ L2 PL). assert (PM' := plain_swaps _ _ M2 PR).
  assert (OK : forall x, Forall plain x -> Forall op_ok x) by (intros x; apply Forall_impl; intros o H; apply H).
  assert (EQ : forall x, Forall plain x -> Forall equatable x) by (intros x; apply Forall_impl; intros o H; apply H).
  assert (NR' : Forall no_meas l' /\ same_run l' m').
  { apply equals_ops_run; auto. apply Forall_forall. intros x _. apply equals_op_run. }
  destruct NR' as [NL RL].
  assert (NL0 : Forall no_meas l) by (eapply Permutation_Forall; [apply Permutation_sym, swaps_perm; eauto|auto]).
  assert (S1 : same_run l l').
  { apply dist_run; auto. apply swaps_dist; auto using no_meas_race. revert PL. apply Forall_impl. intros o H. apply H. }
  assert (S2 : same_run (rev r) m').
  { apply dist_run; auto. apply swaps_dist; auto using no_meas_race. revert PR. apply Forall_impl. intros o H. apply H. }
  assert (U : undoes m (rev r)). { apply undoes_ops; auto. revert PM. apply Forall_impl. intros o H. apply H. }
  intros s. destruct (U s) as (f & g & F & G & I). exists f, g. split; auto. split; auto.
  intros psi. rewrite S1, RL, <- S2. auto.
Qed.
Lemma comp_inverse_complete l m r : Forall plain l -> Forall plain m -> Forall only_eq l -> Forall only_eq m ->
  invert_ops m = Some r -> swaps l (rev r) -> comp_is_inverse l m = RDone true.
Proof.
  intros PL PM QL QM IM SW. destruct (plain_inverse m r PM IM) as (PR & NR & LR & UR).
  pose proof (Permutation_length (swaps_perm _ _ SW)) as LE. rewrite LR in LE.
  destruct l as [|o l0] eqn:El; [destruct m; [reflexivity|discriminate]|]. rewrite <- El in *.
  destruct (comp_inverse_cases l m r) as (a & b & l' & m' & A & B & L1 & M1 & L2 & M2 & C); auto; [congruence|].
  rewrite C. f_equal. assert (X : l' = m').
  { assert (Eab : a = b).
    { apply (max_used_same l m); auto. intros q. rewrite UR. pose proof (swaps_perm _ _ SW) as P.
      rewrite !in_flat_map. split; intros (x & I & U); exists x; split; auto.
      - exact (Permutation_in x P I).
      - exact (Permutation_in x (Permutation_sym P) I). }
    subst b. assert (RC : reorder (S a) (S (length l)) l = reorder (S a) (S (length l)) (rev r)).
    { apply reorder_canonical; auto using plain_agree, max_used_within. }
    rewrite LE, M1, <- LE, L1 in RC. now inversion RC. }
  subst m'. clear. induction l' as [|x l IH]; simpl; auto. now rewrite equals_op_refl.
Qed.
Lemma comp_inverse_total l m : Forall plain l -> Forall plain m -> Forall only_eq l -> Forall only_eq m -> Forall no_meas m ->
  exists v, comp_is_inverse l m = RDone v.
Proof.
  intros PL PM QL QM NM. destruct (Nat.eqb_spec (length l) (length m)) as [LE|LE].
  2:{ unfold comp_is_inverse. apply Nat.eqb_neq in LE. rewrite LE. exists false. reflexivity. }
  assert (OM : ops_ok m) by (revert PM; apply Forall_impl; intros o H; apply H).
  destruct (inverts_ops m OM NM) as [r IM].
  destruct l as [|o l0] eqn:El; [destruct m; [eexists; reflexivity|discriminate]|]. rewrite <- El in *.
  destruct (comp_inverse_cases l m r) as (a & b & l' & m' & A & B & L1 & M1 & L2 & M2 & C); auto; [congruence|]. eauto.
Qed.
