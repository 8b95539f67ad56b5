(** removeDiagonalGatesBeforeMeasure. *)
From Coq Require Import Reals List Arith Bool Lia NArith Sorted FunctionalExtensionality.
From Verif Require Import Cplx Qsem GateModel GateSpec OpProofs GraphModel IRModel IRSpec IRProofs OptModel OptSem OptDagProofs
  OptMeasModel OutcomeSpec OptDiagSem.
Import ListNotations.
Local Open Scope list_scope.

(** ** Positions *)
Lemma positions_In q l : forall i p, In p (positions q i l) <-> i <= p /\ on l q (p - i).
Proof.
  induction l as [|o l IH]; intros i p; simpl.
  - split; [tauto|]. intros (_ & o & N & _). destruct (p - i); discriminate.
  - rewrite in_app_iff, IH. split.
    + intros [(L & o' & N & U)|H].
      * split; [lia|]. exists o'. split; auto. replace (p - i) with (S (p - S i)) by lia. exact N.
      * destruct (memn q (used o)) eqn:M; [|destruct H]. destruct H as [<-|[]]. split; auto. exists o.
        rewrite Nat.sub_diag. split; auto. now apply memn_In.
    + intros (L & o' & N & U). destruct (Nat.eq_dec p i) as [->|].
      * right. rewrite Nat.sub_diag in N. simpl in N. inversion N; subst. apply memn_In in U. rewrite U. simpl; auto.
      * left. split; [lia|]. exists o'. split; auto. replace (p - i) with (S (p - S i)) in N by lia. exact N.
Qed.
Lemma positions_on q l p : In p (positions q 0 l) <-> on l q p.
Proof. rewrite positions_In, Nat.sub_0_r. split; [tauto|]. intros H. split; [lia|auto]. Qed.

Lemma sorted_app {A} (R : A -> A -> Prop) l m : StronglySorted R l -> StronglySorted R m -> (forall x y, In x l -> In y m -> R x y) ->
  StronglySorted R (l ++ m).
Proof.
  intros Hl Hm H. induction Hl as [|a l Hl IH F]; simpl; auto. constructor.
  - apply IH. intros x y I J. apply H; simpl; auto.
  - apply Forall_app. split; auto. apply Forall_forall. intros y J. apply H; simpl; auto.
Qed.
Lemma sorted_split {A} (R : A -> A -> Prop) l m : StronglySorted R (l ++ m) ->
  StronglySorted R m /\ forall x y, In x l -> In y m -> R x y.
Proof.
  induction l as [|a l IH]; simpl; intros H.
  - split; auto. intros x y [].
  - inversion H; subst. destruct (IH H2) as [S D]. split; auto. intros x y [<-|I] J; auto.
    rewrite Forall_forall in H3. apply H3. apply in_or_app. auto.
Qed.
Lemma positions_sorted q l : forall i, StronglySorted gt (positions q i l).
Proof.
  induction l as [|o l IH]; intros i; simpl; [constructor|]. apply sorted_app; auto.
  - destruct (memn q (used o)); repeat constructor.
  - intros x y I J. apply positions_In in I. destruct (memn q (used o)); [|destruct J]. destruct J as [<-|[]]. lia.
Qed.

(** ** Killed circuits *)
Lemma mapi_nth {A B} (f : nat -> A -> B) l : forall i p, nth_error (mapi_from i f l) p = option_map (f (i + p)) (nth_error l p).
Proof.
  induction l as [|x l IH]; intros i p; simpl; [destruct p; auto|]. destruct p; simpl.
  - now rewrite Nat.add_0_r.
  - rewrite IH. f_equal. f_equal. lia.
Qed.
Lemma killed_nth R l p : nth_error (killed R l) p = option_map (fun o => if R p then killw o else o) (nth_error l p).
Proof. apply mapi_nth. Qed.
Lemma mapi_ext {A B} (f g : nat -> A -> B) l : forall i, (forall p x, i <= p -> f p x = g p x) -> mapi_from i f l = mapi_from i g l.
Proof. induction l as [|x l IH]; intros i H; simpl; auto. rewrite H, (IH (S i)); auto. intros. apply H. lia. Qed.
Lemma mapi_upd {A B} (f g : nat -> A -> B) l : forall i p x, nth_error l p = Some x ->
  (forall j y, j <> i + p -> f j y = g j y) -> upd (mapi_from i f l) p (g (i + p) x) = mapi_from i g l.
Proof.
  induction l as [|y l IH]; intros i p x N H; [destruct p; discriminate|]. destruct p; simpl in *.
  - inversion N; subst. rewrite Nat.add_0_r. f_equal. apply mapi_ext. intros j z L. apply H. lia.
  - rewrite (H i) by lia. f_equal. replace (i + S p) with (S i + p) by lia. apply IH; auto. intros j z D. apply H. lia.
Qed.
Definition radd (R : nat -> bool) (p : nat) : nat -> bool := fun x => Nat.eqb x p || R x.
Lemma killed_upd R l p o : nth_error l p = Some o -> upd (killed R l) p (killw o) = killed (radd R p) l.
Proof.
  intros N. unfold killed.
  pose proof (mapi_upd (fun j x => if R j then killw x else x) (fun j x => if radd R p j then killw x else x) l 0 p o N) as H.
  cbv beta in H. unfold radd at 2 in H. simpl in H. rewrite Nat.eqb_refl in H. simpl in H. apply H.
  intros j y D. unfold radd. apply Nat.eqb_neq in D. now rewrite D.
Qed.

(** ** Circuits covered *)
(** Every operation on distinct qubits; diagonal gates without controls have one target. *)
Definition plain (s : stdop) : Prop :=
  NoDup (map fst (o_ctl s) ++ o_tgt s) /\ (is_diag (o_type s) = true -> o_ctl s = [] -> length (o_tgt s) <= 1).
Definition flat_op (o : cop) : Prop :=
  match o with
  | OStd s | OClass _ (OStd s) => plain s
  | OMeas _ _ | OReset _ => True
  | _ => False
  end.
Lemma flat_local o : flat_op o -> local o.
Proof. destruct o as [| | |c [| | | |]|]; simpl; tauto. Qed.

Section Diag.
Variables (nq : nat) (l : list cop).
Hypothesis FL : Forall flat_op l.

Definition covered (R : nat -> bool) (q : nat) (rest : list nat) : Prop :=
  rest = [] \/ exists pm pre, positions q 0 l = pm :: pre ++ rest /\ final_meas l q pm /\ Forall (fun p => R p = true) pre.
Definition inv (s : dstate) : Prop :=
  exists R, fst s = killed R l /\ sound_removal l R /\ forall q, covered R q (sit s q).
Definition keeps (u : nat) (s s' : dstate) : Prop := forall q p r, sit s q = p :: r -> p <= u -> sit s' q = p :: r.
Definition suff (s s' : dstate) : Prop := forall q, exists pre, sit s q = pre ++ sit s' q.

Lemma suff_refl s : suff s s. Proof. intros q. exists []. auto. Qed.
Lemma suff_trans a b c : suff a b -> suff b c -> suff a c.
Proof. intros H K q. destruct (H q) as [x E], (K q) as [y F]. exists (x ++ y). rewrite E, F, app_assoc. auto. Qed.
Lemma suff_nil a b q : suff a b -> sit a q = [] -> sit b q = [].
Proof. intros H E. destruct (H q) as [x F]. rewrite E in F. symmetry in F. now apply app_eq_nil in F. Qed.
Lemma keeps_trans u a b c : keeps u a b -> keeps u b c -> keeps u a c.
Proof. intros H K q p r E L. eauto. Qed.
Lemma keeps_le u v a b : v <= u -> keeps u a b -> keeps v a b.
Proof. intros H K q p r E L. apply K; auto. lia. Qed.
Lemma keeps_refl u a : keeps u a a. Proof. intros q p r E L. auto. Qed.

Lemma sit_send s q x : sit (send s q) x = if Nat.eqb x q then [] else sit s x.
Proof. reflexivity. Qed.
Lemma inv_send s q : inv s -> inv (send s q).
Proof.
  intros (R & E & S & C). exists R. split; auto. split; auto. intros x. rewrite sit_send. destruct (Nat.eqb x q); [left; auto|apply C].
Qed.
Lemma suff_send s q : suff s (send s q).
Proof.
  intros x. rewrite sit_send. destruct (Nat.eqb x q); [exists (sit s x); now rewrite app_nil_r|exists []; auto].
Qed.

Lemma inv_sorted s q : inv s -> StronglySorted gt (sit s q).
Proof.
  intros (R & _ & _ & C). destruct (C q) as [->|(pm & pre & E & _)]; [constructor|].
  pose proof (positions_sorted q l 0) as H. rewrite E in H. change (pm :: pre ++ sit s q) with ((pm :: pre) ++ sit s q) in H.
  now apply sorted_split in H.
Qed.
Lemma inv_on s q p : inv s -> In p (sit s q) -> on l q p.
Proof.
  intros (R & _ & _ & C) I. destruct (C q) as [E|(pm & pre & E & _)]; [rewrite E in I; destruct I|].
  apply positions_on. rewrite E. right. apply in_or_app. auto.
Qed.

Definition rec_ok (rec : nat -> option nat -> dstate -> res dstate) : Prop :=
  forall idx until s s', inv s -> rec idx until s = Done s' ->
    inv s' /\ suff s s' /\
    forall u, until = Some u -> sit s idx <> [] -> sit s' idx <> [] -> keeps u s s' /\ exists r, sit s' idx = u :: r.

Section Step.
Variable rec : nat -> option nat -> dstate -> res dstate.
Hypothesis RO : rec_ok rec.

Lemma check_one_ok idx q neg s s' ok : inv s -> check_one rec idx q neg s = Done (s', ok) ->
  inv s' /\ suff s s' /\ forall p r, sit s idx = p :: r -> ok = true -> keeps p s s' /\ exists r', sit s' q = p :: r'.
Proof.
  intros I. unfold check_one. destruct (Nat.eqb_spec q idx) as [->|N].
  - intros E. inversion E; subst. split; auto. split; [apply suff_refl|]. intros p r S _. split; [apply keeps_refl|eauto].
  - destruct neg.
    + intros E. inversion E; subst. split; [now apply inv_send|]. split; [apply suff_send|]. intros p r _ D. discriminate.
    + destruct (sit s q) as [|a ra] eqn:Sq.
      * intros E. inversion E; subst. split; auto. split; [apply suff_refl|]. intros p r _ D. discriminate.
      * destruct (sit s idx) as [|b rb] eqn:Si; [discriminate|].
        destruct (rec q (Some b) s) as [s1| | |] eqn:C; try discriminate. cbn [bind].
        destruct (RO _ _ _ _ I C) as (I1 & F1 & K1).
        destruct (sit s1 q) as [|a1 r1] eqn:S1; [discriminate|]. destruct (sit s1 idx) as [|b1 rb1] eqn:Si1; [discriminate|].
        intros E. inversion E; subst. split; auto. split; auto. intros p r Ep _. inversion Ep; subst.
        destruct (K1 p eq_refl) as (K & r' & H); [congruence|congruence|]. split; auto. exists r1. congruence.
Qed.

Lemma check_list_ok idx qs : forall s s' ok, inv s -> check_list rec idx qs s = Done (s', ok) ->
  inv s' /\ suff s s' /\ forall p r, sit s idx = p :: r -> ok = true -> keeps p s s' /\ forall q, In q (map fst qs) -> exists r', sit s' q = p :: r'.
Proof.
  induction qs as [|[q neg] qs IH]; intros s s' ok I; simpl.
  - intros E. inversion E; subst. split; auto. split; [apply suff_refl|]. intros p r _ _. split; [apply keeps_refl|intros q []].
  - destruct (check_one rec idx q neg s) as [[s1 ok1]| | |] eqn:C; try discriminate. cbn [bind].
    destruct (check_one_ok _ _ _ _ _ _ I C) as (I1 & F1 & K1). destruct ok1.
    + intros E. destruct (IH _ _ _ I1 E) as (I2 & F2 & K2). split; auto. split; [eapply suff_trans; eauto|].
      intros p r S Hok. destruct (K1 _ _ S eq_refl) as (Ka & r1 & Hq).
      destruct (K2 p r) as (Kb & Hb); auto.
      split; [eapply keeps_trans; eauto|]. intros x [<-|J]; auto. exists r1. apply Kb; auto.
    + intros E. inversion E; subst. split; auto. split; auto. intros p r _ D. discriminate.
Qed.

(** The operation looked at: [o] at position [p] of the original circuit. *)
Definition inner (o : cop) : option (sel * stdop) :=
  match o with OStd s => Some (Whole, s) | OClass _ (OStd s) => Some (Under, s) | _ => None end.

Lemma remove_diagonal_ok idx p r k o so ty s s' ok :
  inv s -> nth_error l p = Some o -> inner o = Some (k, so) -> plain so ->
  sit s idx = p :: r ->
  (ty = so \/ (ty = {| o_type := gI; o_par := o_par so; o_ctl := o_ctl so; o_tgt := o_tgt so |} /\ is_diag (o_type so) = true)) ->
  remove_diagonal rec idx p k (OStd ty) s = Done (s', ok) ->
  if ok then exists s2, inv s2 /\ suff s s2 /\ keeps p s s2 /\ is_diag (o_type so) = true /\
    (forall q, In q (map fst (o_ctl so) ++ o_tgt so) -> exists r', sit s2 q = p :: r') /\ s' = kill_pos s2 p k
  else inv s' /\ suff s s' /\ sit s' idx = [].
Proof.
  intros I N Inn P S T. unfold remove_diagonal. cbn [cdiag ccontrols ctargets].
  assert (D : is_diag (o_type ty) = is_diag (o_type so)) by (destruct T as [->|[-> ->]]; auto).
  assert (Tc : o_ctl ty = o_ctl so) by (destruct T as [->|[-> _]]; auto).
  assert (Tt : o_tgt ty = o_tgt so) by (destruct T as [->|[-> _]]; auto).
  rewrite D, Tc, Tt. clear D Tc Tt T.
  assert (O : In idx (map fst (o_ctl so) ++ o_tgt so)).
  { destruct (inv_on s idx p I) as (o' & N' & U); [rewrite S; simpl; auto|]. assert (o' = o) by congruence. subst o'.
    apply in_or_app. destruct o as [x| | |c [x| | | |]|]; inversion Inn; subst; simpl in U; apply in_app_or in U; tauto. }
  destruct (is_diag (o_type so)) eqn:Dg; cbn [negb].
  2: { intros E. inversion E; subst. split; [now apply inv_send|]. split; [apply suff_send|]. rewrite sit_send, Nat.eqb_refl. auto. }
  destruct P as [ND P1]. destruct (o_ctl so) as [|c0 cs] eqn:Ec.
  - intros E. inversion E; subst. exists s. split; auto. split; [apply suff_refl|]. split; [apply keeps_refl|]. split; auto. split; auto.
    specialize (P1 Dg eq_refl). simpl in *. destruct (o_tgt so) as [|t [|t2 ts]]; simpl in *; try lia; try tauto.
    intros q [<-|[]]. destruct O as [->|[]]. eauto.
  - rewrite <- Ec in *. clear P1 Ec c0 cs.
    destruct (check_list rec idx (map (fun c => (fst c, negb (snd c))) (o_ctl so)) s) as [[s1 ok1]| | |] eqn:C1; try discriminate. cbn [bind].
    destruct (check_list rec idx (map (fun t => (t, false)) (o_tgt so)) s1) as [[s2 ok2]| | |] eqn:C2; try discriminate. cbn [bind].
    destruct (check_list_ok _ _ _ _ _ I C1) as (I1 & F1 & K1). destruct (check_list_ok _ _ _ _ _ I1 C2) as (I2 & F2 & K2).
    destruct (ok1 && ok2) eqn:OK; intros E; inversion E; subst.
    + apply andb_true_iff in OK. destruct OK as [-> ->]. destruct (K1 _ _ S eq_refl) as (Ka & Ha).
      destruct (K2 p r) as (Kb & Hb); auto. exists s2. split; auto. split; [eapply suff_trans; eauto|].
      split; [eapply keeps_trans; eauto|]. split; auto. split; auto.
      intros q Iq. apply in_app_or in Iq. destruct Iq as [Iq|Iq].
      * destruct (Ha q) as (r' & Hr). { rewrite map_map. exact Iq. } exists r'. apply Kb; auto.
      * apply Hb. rewrite map_map. simpl. now rewrite map_id.
    + split; [now apply inv_send|]. split; [eapply suff_trans; [eapply suff_trans; eauto|apply suff_send]|].
      rewrite sit_send, Nat.eqb_refl. auto.
Qed.

Lemma advance_all_ok p qs : forall s s', NoDup qs -> (forall q, In q qs -> exists r, sit s q = p :: r) ->
  advance_all qs s = Done s' -> fst s' = fst s /\ forall q, sit s' q = if in_dec Nat.eq_dec q qs then tl (sit s q) else sit s q.
Proof.
  induction qs as [|q qs IH]; intros s s' ND H; cbn [advance_all].
  - intros E. inversion E; subst. split; auto.
  - inversion ND; subst. destruct (H q) as (r & Hr); [simpl; auto|]. unfold advance. unfold sit in Hr. rewrite Hr. cbn [bind].
    intros E. destruct (IH (fst s, iset (snd s) q r) s' H3) as (A & B); [|exact E|].
    + intros x J. destruct (H x) as (rx & Hx); [simpl; auto|]. exists rx. unfold sit, iset. simpl.
      destruct (Nat.eqb_spec x q); [subst; contradiction|exact Hx].
    + split; auto. intros x. rewrite B. unfold sit, iset. simpl.
      destruct (in_dec Nat.eq_dec x qs) as [J|J].
      * destruct (Nat.eqb_spec x q); [subst; contradiction|]. destruct (Nat.eq_dec q x); auto.
      * destruct (Nat.eqb_spec x q) as [->|Nx].
        -- destruct (Nat.eq_dec q q); [|congruence]. now rewrite Hr.
        -- destruct (Nat.eq_dec q x); [congruence|]. reflexivity.
Qed.

Lemma used_inner o k so q : inner o = Some (k, so) -> (In q (used o) <-> In q (map fst (o_ctl so) ++ o_tgt so)).
Proof. destruct o as [x| | |c [x| | | |]|]; intros E; inversion E; subst; simpl; rewrite !in_app_iff; tauto. Qed.

Lemma kill_at_w o k so : inner o = Some (k, so) -> kill_at o k = killw o /\ kill_at (killw o) k = killw o /\ inner (killw o) =
  Some (k, {| o_type := gI; o_par := o_par so; o_ctl := o_ctl so; o_tgt := o_tgt so |}).
Proof. destruct o as [x| | |c [x| | | |]|]; intros E; inversion E; subst; simpl; auto. Qed.

Lemma kill_pos_inv s p o k so : inv s -> nth_error l p = Some o -> inner o = Some (k, so) -> is_diag (o_type so) = true ->
  (forall q, In q (map fst (o_ctl so) ++ o_tgt so) -> exists r', sit s q = p :: r') ->
  exists R, fst (kill_pos s p k) = killed (radd R p) l /\ sound_removal l (radd R p) /\ (forall q, covered R q (sit s q)) /\ snd (kill_pos s p k) = snd s.
Proof.
  intros (R & E & SR & C) N Inn Dg H. exists R. destruct (kill_at_w o k so Inn) as (K1 & K2 & _).
  unfold kill_pos. rewrite E, killed_nth, N. cbn [option_map fst snd]. split; [|split; [|split; auto]].
  - assert (X : kill_at (if R p then killw o else o) k = killw o) by (destruct (R p); auto). rewrite X. now apply killed_upd.
  - assert (Mono : forall x, R x = true -> radd R p x = true) by (intros x Hx; unfold radd; rewrite Hx; apply orb_true_r).
    intros x Hx. destruct (Nat.eq_dec x p) as [e|Nx]; [subst x|].
    + exists o. split; auto. split. { destruct o as [y| | |c [y| | | |]|]; inversion Inn; subst; exact Dg. }
      intros q U. apply (used_inner o k so q Inn) in U. destruct (H q U) as (r' & Hr).
      destruct (C q) as [Z|(pm & pre & Ep & FM & Pre)]; [rewrite Hr in Z; discriminate|]. rewrite Hr in Ep.
      pose proof (positions_sorted q l 0) as So. rewrite Ep in So. inversion So as [|? ? So1 Fo]; subst. rewrite Forall_forall in Fo.
      exists pm. split; [apply Fo; apply in_or_app; right; simpl; auto|]. split; auto. intros p' [L1 L2] O.
      apply positions_on in O. rewrite Ep in O. apply Mono. rewrite Forall_forall in Pre.
      destruct O as [->|O]; [lia|]. apply in_app_or in O. destruct O as [O|[->|O]]; [apply Pre; auto|lia|].
      destruct (sorted_split _ _ _ So1) as [So2 _]. inversion So2; subst. rewrite Forall_forall in H3. specialize (H3 _ O). lia.
    + unfold radd in Hx. apply Nat.eqb_neq in Nx. rewrite Nx in Hx. simpl in Hx. destruct (SR x Hx) as (o' & N' & Rm & Q). exists o'. split; auto. split; auto. intros q U.
      destruct (Q q U) as (pm & L & F & B). exists pm. split; auto.
Qed.

Lemma removed_advance s p o k so s' : inv s -> nth_error l p = Some o -> inner o = Some (k, so) -> is_diag (o_type so) = true -> plain so ->
  (forall q, In q (map fst (o_ctl so) ++ o_tgt so) -> exists r', sit s q = p :: r') ->
  advance_all (map fst (o_ctl so) ++ o_tgt so) (kill_pos s p k) = Done s' ->
  inv s' /\ suff s s' /\ forall u, u < p -> keeps u s s'.
Proof.
  intros I N Inn Dg [ND _] H A. destruct (kill_pos_inv _ _ _ _ _ I N Inn Dg H) as (R & Ef & SR & C & Es).
  assert (Sit : forall q, sit (kill_pos s p k) q = sit s q) by (intros q; unfold sit; now rewrite Es).
  destruct (advance_all_ok p _ (kill_pos s p k) s' ND) as (Ef' & B); [intros q J; rewrite Sit; auto|exact A|].
  split; [|split].
  - exists (radd R p). split; [congruence|]. split; auto. intros q. rewrite B, Sit.
    destruct (in_dec Nat.eq_dec q (map fst (o_ctl so) ++ o_tgt so)) as [J|J].
    + destruct (H q J) as (r' & Hr). rewrite Hr. simpl. destruct (C q) as [Z|(pm & pre & Ep & FM & Pre)]; [rewrite Hr in Z; discriminate|].
      right. exists pm, (pre ++ [p]). rewrite Hr in Ep. rewrite <- app_assoc. split; auto. split; auto. apply Forall_app. split.
      * eapply Forall_impl; [|exact Pre]. intros x Hx. unfold radd. now rewrite Hx, orb_true_r.
      * constructor; auto. unfold radd. now rewrite Nat.eqb_refl.
    + destruct (C q) as [Z|(pm & pre & Ep & FM & Pre)]; [left; auto|right]. exists pm, pre. split; auto. split; auto.
      eapply Forall_impl; [|exact Pre]. intros x Hx. unfold radd. now rewrite Hx, orb_true_r.
  - intros q. rewrite B, Sit. destruct (in_dec _ q _) as [J|J]; [|exists []; auto].
    destruct (H q J) as (r' & Hr). rewrite Hr. exists [p]. auto.
  - intros u L q p' r Hq Lp. rewrite B, Sit. destruct (in_dec _ q _) as [J|J]; auto.
    destruct (H q J) as (r' & Hr). rewrite Hr in Hq. inversion Hq; subst. lia.
Qed.

Lemma diag_body_ok idx p r s s' : inv s -> sit s idx = p :: r -> diag_body nq rec idx p s = Done s' ->
  inv s' /\ suff s s' /\ (sit s' idx <> [] -> forall u, u < p -> keeps u s s').
Proof.
  intros I S. unfold diag_body. destruct (inv_on s idx p I) as (o & N & U); [rewrite S; simpl; auto|].
  pose proof I as (R & E & SR & C). rewrite E, killed_nth, N. cbn [option_map].
  assert (Fo : flat_op o). { rewrite Forall_forall in FL. apply FL. eapply nth_error_In; eauto. }
  assert (SendOK : Done (send s idx) = Done s' -> inv s' /\ suff s s' /\ (sit s' idx <> [] -> forall u, u < p -> keeps u s s')).
  { intros X. inversion X; subst. split; [now apply inv_send|]. split; [apply suff_send|]. rewrite sit_send, Nat.eqb_refl. congruence. }
  assert (G : forall k so ty, inner o = Some (k, so) -> plain so ->
    (ty = so \/ (ty = {| o_type := gI; o_par := o_par so; o_ctl := o_ctl so; o_tgt := o_tgt so |} /\ is_diag (o_type so) = true)) ->
    (do (s', ok) <- remove_diagonal rec idx p k (OStd ty) s; (if ok then advance_all (map fst (o_ctl so) ++ o_tgt so) s' else Done s')) = Done s' ->
    inv s' /\ suff s s' /\ (sit s' idx <> [] -> forall u, u < p -> keeps u s s')).
  { intros k so ty Inn P T. destruct (remove_diagonal rec idx p k (OStd ty) s) as [[s1 ok]| | |] eqn:Rd; try discriminate. cbn [bind].
    pose proof (remove_diagonal_ok _ _ _ _ _ _ _ _ _ _ I N Inn P S T Rd) as H. destruct ok.
    - destruct H as (s2 & I2 & F2 & K2 & Dg & H & ->). intros A.
      destruct (removed_advance _ _ _ _ _ _ I2 N Inn Dg P H A) as (I3 & F3 & K3). split; auto. split; [eapply suff_trans; eauto|].
      intros _ u L. eapply keeps_trans; [|apply K3; auto]. eapply keeps_le; [|exact K2]. lia.
    - destruct H as (I1 & F1 & Z). intros X. inversion X; subst. split; auto. split; auto. congruence. }
  assert (DgR : R p = true -> forall k so, inner o = Some (k, so) -> is_diag (o_type so) = true).
  { intros Rp k so Inn. destruct (SR p Rp) as (o' & N' & Rm & _). assert (o' = o) by congruence. subst.
    destruct o as [y| | |c [y| | | |]|]; inversion Inn; subst; exact Rm. }
  destruct (R p) eqn:Rp.
  - specialize (DgR eq_refl). destruct o as [so|qs cs|qs|c [so| | | |]|]; try contradiction Fo; cbn [killw kill set_gate_I].
    + apply (G Whole so {| o_type := gI; o_par := o_par so; o_ctl := o_ctl so; o_tgt := o_tgt so |}); auto.
      right. split; auto. apply (DgR Whole so). reflexivity.
    + destruct (SR p Rp) as (o' & N' & Rm & _). rewrite N in N'. inversion N'; subst. destruct Rm.
    + destruct (SR p Rp) as (o' & N' & Rm & _). rewrite N in N'. inversion N'; subst. destruct Rm.
    + apply (G Under so {| o_type := gI; o_par := o_par so; o_ctl := o_ctl so; o_tgt := o_tgt so |}); auto.
      right. split; auto. apply (DgR Under so). reflexivity.
  - clear DgR. destruct o as [so|qs cs|qs|c [so| | | |]|]; try contradiction Fo; auto.
    + apply (G Whole so so); auto.
    + apply (G Under so so); auto.
Qed.
End Step.

Lemma rec_loop_ok fuel :
  rec_ok (diag_rec nq fuel) /\
  forall idx until s s', inv s -> diag_loop nq fuel idx until s = Done s' ->
    inv s' /\ suff s s' /\ forall u, until = Some u -> sit s' idx <> [] -> keeps u s s' /\ exists r, sit s' idx = u :: r.
Proof.
  induction fuel as [|fuel [IHr IHl]]; [split; [intros idx until s s' _ E|intros idx until s s' _ E]; discriminate|]. split.
  - intros idx until s s' I. simpl. destruct (sit s idx) as [|p r] eqn:Sx.
    + destruct (S idx <? nq).
      * intros E. destruct (IHr _ _ _ _ I E) as (A & B & _). split; auto. split; auto. intros; congruence.
      * intros E. inversion E; subst. split; auto. split; [apply suff_refl|]. intros; congruence.
    + destruct (diag_loop nq fuel idx until s) as [s1| | |] eqn:L; try discriminate. cbn [bind].
      destruct (IHl _ _ _ _ I L) as (I1 & F1 & K1). destruct (sit s1 idx) as [|p1 r1] eqn:S1.
      * destruct (S idx <? nq).
        -- intros E. destruct (IHr _ _ _ _ I1 E) as (A & B & _). split; auto. split; [eapply suff_trans; eauto|].
           intros u _ _ Z. exfalso. apply Z. eapply suff_nil; eauto.
        -- intros E. inversion E; subst. split; auto. split; auto. intros; congruence.
      * intros E. inversion E; subst. split; auto. split; auto. intros u Hu _ Z. rewrite <- S1 in *. auto.
  - intros idx until s s' I. simpl. destruct (sit s idx) as [|p r] eqn:Sx.
    + intros E. inversion E; subst. split; auto. split; [apply suff_refl|]. intros; congruence.
    + destruct (match until with Some u => Nat.eqb p u | None => false end) eqn:U.
      * intros E. inversion E; subst. split; auto. split; [apply suff_refl|]. intros u -> _. apply Nat.eqb_eq in U. subst.
        split; [apply keeps_refl|eauto].
      * destruct (diag_body nq (diag_rec nq fuel) idx p s) as [s1| | |] eqn:B; try discriminate. cbn [bind]. intros E.
        destruct (diag_body_ok _ IHr _ _ _ _ _ I Sx B) as (I1 & F1 & K1). destruct (IHl _ _ _ _ I1 E) as (I2 & F2 & K2).
        split; auto. split; [eapply suff_trans; eauto|]. intros u -> Z. destruct (K2 u eq_refl Z) as (Ka & r2 & Hr). split; [|eauto].
        eapply keeps_trans; [|exact Ka]. apply K1.
        -- intros Z1. apply Z. eapply suff_nil; eauto.
        -- destruct (suff_trans _ _ _ F1 F2 idx) as (pre & Hp). rewrite Sx, Hr in Hp. apply Nat.eqb_neq in U.
           pose proof (inv_sorted s idx I) as So. rewrite Sx in So. inversion So as [|? ? _ Fo]; subst. rewrite Forall_forall in Fo.
           apply Fo. destruct pre as [|x pre]; inversion Hp; subst; [congruence|]. apply in_or_app. right. simpl; auto.
Qed.

Lemma start_inv : inv (l, fun q => if q <? nq then start_iter l q else []).
Proof.
  exists (fun _ => false). split; [|split].
  - unfold killed. simpl. generalize 0. clear. induction l as [|o m IH]; intros i; simpl; auto. f_equal. auto.
  - intros p H. discriminate.
  - intros q. unfold sit. simpl. destruct (q <? nq); [|left; auto]. unfold start_iter.
    destruct (positions q 0 l) as [|p r] eqn:P; [left; auto|]. destruct (nth_error l p) as [[| | | |]|] eqn:N; try (left; reflexivity).
    right. exists p, []. split; auto. split; auto. split; [apply positions_on; rewrite P; simpl; auto|]. split; [|eauto].
    intros p' L O. apply positions_on in O. rewrite P in O. pose proof (positions_sorted q l 0) as So. rewrite P in So.
    inversion So as [|? ? _ Fo]; subst. rewrite Forall_forall in Fo. destruct O as [->|O]; [lia|]. specialize (Fo _ O). lia.
Qed.
End Diag.

Lemma remove_diagonal_sound nq fuel l l' : ops_ok l -> Forall flat_op l ->
  remove_diagonal_gates nq fuel l = Done l' -> forall b, Forall2 phase_eq (run l b) (run l' b).
Proof.
  intros OK FL E b. unfold remove_diagonal_gates in E. destruct (Nat.eqb nq 0); [discriminate|].
  destruct (diag_rec nq fuel 0 None _) as [s| | |] eqn:D; try discriminate. cbn [bind] in E. inversion E; subst; clear E.
  destruct (rec_loop_ok nq l FL fuel) as [RO _]. destruct (RO _ _ _ _ (start_inv nq l) D) as ((R & Es & SR & _) & _).
  rewrite (remove_identities_sound (fst s) b), Es. apply removal_sound; auto.
  eapply Forall_impl; [|exact FL]. apply flat_local.
Qed.
