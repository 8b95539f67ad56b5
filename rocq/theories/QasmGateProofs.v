(* Proofs for C67. *)
From Coq Require Import Reals Bool List String Ascii Arith Lia FunctionalExtensionality.
From Verif Require Import Cplx Qsem GateModel GateSpec GateProofs IRModel IRSpec IRProofs QasmEnvModel QasmIfModel QasmGateModel QasmGateSpec.
Import ListNotations.
Local Open Scope nat_scope.

(* ---- operations without measurements and conditions ---------------------------------------------------------------- *)
Fixpoint gd (o : cop) : Prop :=
  match o with
  | OStd s => o_type s = gBarrier \/ (wf_op s /\ exists f, sem s = Some f)
  | OComp _ l => (fix go l := match l with [] => True | o :: l' => gd o /\ go l' end) l
  | _ => False
  end.
Fixpoint opf (o : cop) : state -> state :=
  match o with
  | OStd s => semf s
  | OComp _ l => (fix go l psi := match l with [] => psi | o :: l' => go l' (opf o psi) end) l
  | _ => fun psi => psi
  end.
Fixpoint tq (o : cop) : list nat :=
  match o with
  | OStd s => o_tgt s
  | OComp _ l => (fix go l := match l with [] => [] | o :: l' => tq o ++ go l' end) l
  | _ => []
  end.
Definition opfs (l : list cop) (psi : state) : state := fold_left (fun p o => opf o p) l psi.
Lemma gd_comp cu l : gd (OComp cu l) <-> Forall gd l.
Proof. induction l; simpl; split; auto; intros H; [constructor|inversion H]; tauto. Qed.
Lemma opf_comp cu l : opf (OComp cu l) = opfs l.
Proof. apply functional_extensionality. unfold opfs. induction l; intros psi; simpl; auto. Qed.
Lemma tq_comp cu l : tq (OComp cu l) = flat_map tq l.
Proof. induction l; simpl; auto. Qed.
Lemma semf_barrier s : o_type s = gBarrier -> semf s = fun psi => psi.
Proof. intros E. unfold semf, sem. now rewrite E. Qed.
Lemma run_gd o : gd o -> forall psi m, run_op o (psi, m) = [(opf o psi, m)].
Proof.
  induction o using cop_rect'; intros A psi m; try contradiction.
  - reflexivity.
  - rewrite run_comp, opf_comp. apply gd_comp in A. unfold opfs. revert psi. induction l; intros psi; simpl; auto.
    inversion A; inversion H; subst. rewrite H6 by auto. simpl. rewrite app_nil_r. auto.
Qed.

(* ---- locality ------------------------------------------------------------------------------------------------------ *)
Definition agree (Q : list nat) (b b' : bits) : Prop := forall x, ~ In x Q -> b' x = b x.
Definition local (Q : list nat) (f : state -> state) : Prop := forall psi phi b, (forall b', agree Q b b' -> psi b' = phi b') -> f psi b = f phi b.
Lemma agree_refl Q b : agree Q b b. Proof. intros x _. auto. Qed.
Lemma agree_trans Q a b c : agree Q a b -> agree Q b c -> agree Q a c. Proof. intros H K x I. rewrite K, H; auto. Qed.
Lemma local_id Q : local Q (fun psi => psi). Proof. intros psi phi b H. apply H, agree_refl. Qed.
Lemma local_comp Q f g : local Q f -> local Q g -> local Q (fun psi => g (f psi)).
Proof. intros F K psi phi b H. apply K. intros b' A. apply F. intros b'' A'. apply H. eapply agree_trans; eauto. Qed.
Lemma local_sub Q Q' f : incl Q Q' -> local Q f -> local Q' f.
Proof. intros I F psi phi b H. apply F. intros b' A. apply H. intros x N. apply A. auto. Qed.
Lemma local_apply M ts : local ts (apply M ts).
Proof.
  intros psi phi b H. apply apply_restrict. intros v _. apply H. intros x N. now apply setl_other.
Qed.
Lemma sat_agree cs Q b b' : apart cs Q -> agree Q b b' -> sat cs b' = sat cs b.
Proof.
  intros A H. unfold sat. induction cs as [|c cs IH]; simpl; auto. rewrite IH by (intros x I; apply A; now right). rewrite H by (apply A; now left). reflexivity.
Qed.
Lemma local_controlled cs Q f : local Q f -> local Q (controlled cs f).
Proof. intros F psi phi b H. unfold controlled. destruct (sat cs b); [now apply F|apply H, agree_refl]. Qed.
Lemma controlled_comp cs Q f g : apart cs Q -> local Q g -> forall psi, controlled cs (fun psi => g (f psi)) psi = controlled cs g (controlled cs f psi).
Proof.
  intros A L psi. apply functional_extensionality. intros b. unfold controlled. destruct (sat cs b) eqn:S; auto.
  apply L. intros b' B. rewrite (sat_agree _ _ _ _ A B), S. auto.
Qed.
Lemma controlled_inv cs Q f g : apart cs Q -> local Q f -> local Q g -> inverse_maps f g -> inverse_maps (controlled cs f) (controlled cs g).
Proof.
  intros A F K [I J]. split; intros psi.
  - rewrite <- (controlled_comp cs Q f g) by auto. apply functional_extensionality. intros b. unfold controlled. rewrite I. now destruct (sat cs b).
  - rewrite <- (controlled_comp cs Q g f) by auto. apply functional_extensionality. intros b. unfold controlled. rewrite J. now destruct (sat cs b).
Qed.
Lemma controlled_app cs ds f : controlled cs (controlled ds f) = controlled (cs ++ ds) f.
Proof.
  apply functional_extensionality. intros psi. apply functional_extensionality. intros b. unfold controlled.
  replace (sat (cs ++ ds) b) with (sat cs b && sat ds b) by (unfold sat; now rewrite forallb_app). now destruct (sat cs b).
Qed.
Lemma controlled_nil f : controlled [] f = f. Proof. reflexivity. Qed.
Lemma controlled_sat cs ds f : (forall b, sat cs b = sat ds b) -> controlled cs f = controlled ds f.
Proof. intros H. apply functional_extensionality. intros psi. apply functional_extensionality. intros b. unfold controlled. now rewrite H. Qed.

Lemma sem_controlled s f : sem s = Some f -> o_type s <> gBarrier -> exists M, gate_matrix (o_type s) (o_par s) = Some (List.length (o_tgt s), M) /\ f = controlled (o_ctl s) (apply M (o_tgt s)).
Proof.
  unfold sem. intros E N.
  assert (E' : match gate_matrix (o_type s) (o_par s) with Some (k, M) => if Nat.eqb (List.length (o_tgt s)) k then Some (capply (o_ctl s) M (o_tgt s)) else None | None => None end = Some f)
    by (destruct (o_type s); auto; congruence).
  destruct (gate_matrix (o_type s) (o_par s)) as [[k M]|]; [|discriminate]. destruct (Nat.eqb_spec (List.length (o_tgt s)) k) as [->|]; [|discriminate].
  injection E' as <-. exists M. split; auto.
Qed.
Lemma sem_std t ps cs ts M : t <> gBarrier -> gate_matrix t ps = Some (List.length ts, M) ->
  sem {| o_type := t; o_par := ps; o_ctl := cs; o_tgt := ts |} = Some (controlled cs (apply M ts)).
Proof.
  intros N E. unfold sem. cbn [o_type o_par o_ctl o_tgt].
  transitivity (match gate_matrix t ps with Some (k, M) => if Nat.eqb (List.length ts) k then Some (capply cs M ts) else None | None => None end); [destruct t; auto; congruence|].
  rewrite E, Nat.eqb_refl. reflexivity.
Qed.
Lemma opf_local o : gd o -> local (tq o) (opf o).
Proof.
  induction o using cop_rect'; intros A; try contradiction.
  - simpl. destruct A as [A|[W [f S]]]; [rewrite semf_barrier by auto; apply local_id|]. unfold semf. rewrite S. destruct (optype_eq_dec (o_type o) gBarrier) as [E|E].
    + unfold sem in S. rewrite E in S. injection S as <-. apply local_id.
    + destruct (sem_controlled _ _ S E) as (M & _ & ->). apply local_controlled, local_apply.
  - rewrite opf_comp, tq_comp. apply gd_comp in A. induction l as [|a l IH]; simpl.
    + apply local_id.
    + inversion A; inversion H; subst. apply (local_comp (tq a ++ flat_map tq l) (opf a) (opfs l)).
      * apply (local_sub (tq a)); [apply incl_appl, incl_refl|auto].
      * apply (local_sub (flat_map tq l)); [apply incl_appr, incl_refl|apply IH; auto].
Qed.

(* ---- controls ------------------------------------------------------------------------------------------------------ *)
Lemma acts_off s q : acts_on s q = false -> ~ In q (o_tgt s).
Proof.
  unfold acts_on. intros E I. apply orb_false_elim in E. destruct E as [E _]. unfold memn in E.
  assert (X : existsb (Nat.eqb q) (o_tgt s) = true) by (apply existsb_exists; exists q; split; [auto|apply Nat.eqb_refl]). congruence.
Qed.
Lemma addControl_ok c o : gd o -> forall o', addControl c o = Some o' -> gd o' /\ tq o' = tq o /\ ~ In (fst c) (tq o) /\ opf o' = controlled [c] (opf o).
Proof.
  induction o using cop_rect'; intros A o' E; try contradiction.
  - simpl in E. destruct (acts_on o (fst c)) eqn:AO; [discriminate|]. injection E as <-. pose proof (acts_off _ _ AO) as N. destruct A as [A|[[W1 W2] [f S]]].
    { split; [left; exact A|]. split; [reflexivity|]. split; [exact N|]. simpl. rewrite !semf_barrier by auto. apply functional_extensionality. intros psi. apply functional_extensionality. intros b.
      unfold controlled. now destruct (sat [c] b). }
    assert (WF : wf_op {| o_type := o_type o; o_par := o_par o; o_ctl := o_ctl o ++ [c]; o_tgt := o_tgt o |}).
    { split; [exact W1|]. intros d I. apply in_app_iff in I. destruct I as [I|[<-|[]]]; auto. }
    assert (SS : exists f', sem {| o_type := o_type o; o_par := o_par o; o_ctl := o_ctl o ++ [c]; o_tgt := o_tgt o |} = Some f' /\ f' = controlled [c] f).
    { destruct (optype_eq_dec (o_type o) gBarrier) as [EB|EB].
      - unfold sem in *. cbn [o_type]. rewrite EB in *. injection S as <-. eexists. split; [reflexivity|]. apply functional_extensionality. intros psi. apply functional_extensionality. intros b.
        unfold controlled. now destruct (sat [c] b).
      - destruct (sem_controlled _ _ S EB) as (M & EM & ->). eexists. split; [apply sem_std; eauto|]. rewrite controlled_app. apply controlled_sat. intros b. unfold sat. rewrite !forallb_app. apply andb_comm. }
    destruct SS as (f' & S' & ->). split; [right; split; eauto|]. split; [reflexivity|]. split; [exact N|]. simpl. unfold semf. now rewrite S', S.
  - simpl in E. set (go := fix go l := match l with [] => Some [] | o :: l' => match addControl c o, go l' with Some r, Some rs => Some (r :: rs) | _, _ => None end end) in E.
    destruct (go l) as [r|] eqn:EG; [|discriminate]. injection E as <-. apply gd_comp in A. rewrite !opf_comp, !tq_comp, gd_comp.
    revert r EG. induction l as [|a l IH]; intros r EG; simpl in EG.
    + injection EG as <-. repeat split; auto. apply functional_extensionality. intros psi. apply functional_extensionality. intros b. unfold controlled. now destruct (sat [c] b).
    + inversion A; inversion H; subst. destruct (addControl c a) as [a'|] eqn:EA; [|discriminate]. destruct (go l) as [r'|] eqn:EG'; [|discriminate]. injection EG as <-.
      destruct (H6 H2 _ eq_refl) as (G1 & T1 & N1 & O1). destruct (IH H7 H3 _ eq_refl) as (G2 & T2 & N2 & O2).
      split; [constructor; auto|]. split; [simpl; congruence|]. split; [simpl; rewrite in_app_iff; tauto|].
      apply functional_extensionality. intros psi. change (opfs (a' :: r') psi) with (opfs r' (opf a' psi)). rewrite O1, O2.
      change (opfs (a :: l)) with (fun psi => opfs l (opf a psi)). symmetry. apply (controlled_comp [c] (flat_map tq l)).
      * intros d [<-|[]]. exact N2.
      * rewrite <- (tq_comp true), <- (opf_comp true). apply opf_local. now apply gd_comp.
Qed.
Lemma setControls_ok cs : forall o o', gd o -> setControls cs o = Some o' -> gd o' /\ tq o' = tq o /\ apart cs (tq o) /\ opf o' = controlled cs (opf o).
Proof.
  induction cs as [|c cs IH]; intros o o' A E; simpl in E.
  - injection E as <-. repeat split; auto. intros d [].
  - destruct (addControl c o) as [o1|] eqn:E1; [|discriminate]. destruct (addControl_ok _ _ A _ E1) as (G1 & T1 & N1 & O1). destruct (IH _ _ G1 E) as (G2 & T2 & N2 & O2).
    split; auto. split; [congruence|]. split.
    + intros d [<-|I]; auto. rewrite <- T1. now apply N2.
    + rewrite O2, O1, controlled_app. apply controlled_sat. intros b. unfold sat. rewrite forallb_app. simpl. rewrite andb_true_r. apply andb_comm.
Qed.

(* ---- inverses ------------------------------------------------------------------------------------------------------ *)
Lemma invert_tgt s s' : invert_std s = Some s' -> incl (o_tgt s') (o_tgt s).
Proof.
  unfold invert_std. cbv zeta. intros E. destruct (o_type s);
  repeat lazymatch type of E with
  | None = Some _ => discriminate E
  | Some _ = Some _ => injection E as <-; cbn [o_tgt]
  | (match o_par s with [] => _ | _ => _ end) = _ => destruct (o_par s) as [|p0 [|p1 [|p2 r]]]
  | (match o_tgt s with [] => _ | _ => _ end) = _ => destruct (o_tgt s) as [|t0 [|t1 r]]
  | ?t = _ => progress cbv beta iota in E
  end; try apply incl_refl.
  intros x [I|[I|I]]; simpl; auto.
Qed.
Lemma invert_gd o : gd o -> forall o', invert_op o = Some o' -> gd o' /\ incl (tq o') (tq o).
Proof.
  induction o using cop_rect'; intros A o' E; try contradiction.
  - simpl in E. destruct A as [A|[W [f S]]]; [unfold invert_std in E; rewrite A in E; injection E as <-; split; [left; exact A|apply incl_refl]|].
    destruct (invert_correct _ _ W S) as (i & g & EI & WI & SI & _). rewrite EI in E. injection E as <-. split; [right; split; eauto|]. now apply invert_tgt.
  - rewrite invert_comp in E. destruct (invert_ops l) as [r|] eqn:EL; [|discriminate]. injection E as <-. apply gd_comp in A. rewrite gd_comp, !tq_comp.
    assert (B : Forall gd r /\ incl (flat_map tq r) (flat_map tq l)).
    { revert r EL. induction l as [|a l IH]; intros r EL; simpl in EL; [injection EL as <-; split; [constructor|apply incl_refl]|].
      inversion A; inversion H; subst. destruct (invert_op a) as [a'|] eqn:EA; [|discriminate]. destruct (invert_ops l) as [r'|]; [|discriminate]. injection EL as <-.
      destruct (H6 H2 _ eq_refl) as [G1 I1]. destruct (IH H7 H3 _ eq_refl) as [G2 I2]. split; [constructor; auto|]. simpl. apply incl_app; [apply incl_appl|apply incl_appr]; auto. }
    destruct B as [B1 B2]. split; [now apply Forall_rev|]. intros x I. apply B2. apply in_flat_map in I. destruct I as (y & I & J). apply in_flat_map. exists y. split; auto. now apply in_rev.
Qed.
Lemma inverse_comp f f' g g' : inverse_maps f f' -> inverse_maps g g' -> inverse_maps (fun psi => g (f psi)) (fun psi => f' (g' psi)).
Proof. intros [A B] [C D]. split; intros psi; [now rewrite C|now rewrite B]. Qed.
Lemma opfs_app l m psi : opfs (l ++ m) psi = opfs m (opfs l psi). Proof. apply fold_left_app. Qed.
Lemma invert_maps o : gd o -> exists o', invert_op o = Some o' /\ inverse_maps (opf o) (opf o').
Proof.
  induction o using cop_rect'; intros A; try contradiction.
  - simpl. destruct A as [A|[W [f S]]].
    + exists (OStd o). unfold invert_std. rewrite A. split; auto. simpl. rewrite semf_barrier by auto. split; auto.
    + destruct (invert_correct _ _ W S) as (i & g & EI & WI & SI & IM). exists (OStd i). rewrite EI. split; auto. simpl. unfold semf. now rewrite S, SI.
  - apply gd_comp in A. rewrite invert_comp.
    assert (B : exists r, invert_ops l = Some r /\ inverse_maps (opfs l) (opfs (rev r))).
    { induction l as [|a l IH]; simpl; [exists []; split; [reflexivity|]; split; reflexivity|]. inversion A; inversion H; subst. destruct (H6 H2) as (a' & -> & I1). destruct (IH H7 H3) as (r & -> & I2).
      exists (a' :: r). split; auto. simpl. change (opfs (a :: l)) with (fun psi => opfs l (opf a psi)).
      replace (opfs (rev r ++ [a'])) with (fun psi => opf a' (opfs (rev r) psi)) by (apply functional_extensionality; intros psi; rewrite opfs_app; reflexivity). now apply inverse_comp. }
    destruct B as (r & -> & IM). exists (OComp cu (rev r)). split; [reflexivity|]. now rewrite !opf_comp.
Qed.

(* an operation under controls, perhaps inverted *)
Lemma invert_if_ok inv o o' Q cs h h' : gd o -> incl (tq o) Q -> apart cs Q -> opf o = controlled cs h -> inverse_maps h h' -> local Q h -> local Q h' -> invert_if inv o = ROk o' ->
  gd o' /\ incl (tq o') Q /\ opf o' = controlled cs (if inv then h' else h).
Proof.
  intros A T D O I L L' E. destruct inv; simpl in E.
  - destruct (invert_op o) as [i|] eqn:EI; [|discriminate]. injection E as <-. destruct (invert_gd _ A _ EI) as [A' T']. split; auto. split; [eapply incl_tran; eauto|].
    apply (inverse_maps_unique (opf o)); [destruct (invert_maps _ A) as (x & E & M); rewrite EI in E; injection E as ->; exact M|]. rewrite O. now apply (controlled_inv cs Q).
  - injection E as <-. auto.
Qed.
Lemma unwrap_ok o : gd o -> gd (unwrap o) /\ tq (unwrap o) = tq o /\ opf (unwrap o) = opf o.
Proof.
  intros A. destruct o as [| | | |cu [|x [|y l]]]; auto. cbn [unwrap]. apply gd_comp in A. inversion A; subst. split; auto. split; [rewrite tq_comp; simpl; now rewrite app_nil_r|]. now rewrite opf_comp.
Qed.
