From Coq Require Import List Arith Bool Lia.
From Verif Require Import HeapModel HeapProofs CacheModel CacheSpec.
Import ListNotations.

Section P.
Context {K R : Type} (Keqb : K -> K -> bool).
Hypothesis Keqb_spec : forall a b, Keqb a b = true <-> a = b.

Notation run := (ct_run K R Keqb).
Notation step := (ct_step K R Keqb).
Notation init := (ct_init K R).
Notation look := (ct_lookup K R Keqb).

Lemma nth_error_set_nth {A} n (x : A) l m :
  n < length l ->
  nth_error (set_nth n x l) m = if Nat.eqb n m then Some x else nth_error l m.
Proof.
  revert n m; induction l as [|y l IH]; simpl; intros n m H; [lia|].
  destruct n as [|n], m as [|m]; simpl; auto. apply IH; lia.
Qed.

Lemma nth_error_repeat_false n m b : nth_error (repeat false n) m = Some b -> b = false.
Proof.
  intros H. apply nth_error_In in H. apply repeat_spec in H. auto.
Qed.

Lemma inserted_app (key : K) (r : R) ops o :
  inserted_since_clear key r ops -> o <> CClear -> inserted_since_clear key r (ops ++ [o]).
Proof.
  intros (b & h & a & -> & H) Ho. exists b, h, (a ++ [o]). split.
  - rewrite <- app_assoc. reflexivity.
  - rewrite in_app_iff. simpl. intuition.
Qed.

(** Invariant: valid slots hold entries inserted since the last clear. *)
Definition CInv (ops : list (cop K R)) (t : ctable K R) : Prop :=
  forall k key r, nth_error (cvalid t) k = Some true ->
    nth_error (ctab t) k = Some (Some (key, r)) -> inserted_since_clear key r ops.

Lemma step_inv size cs ops t o t' :
  CInv ops t -> step size cs t o = Some t' -> CInv (ops ++ [o]) t'.
Proof.
  intros I H. destruct o as [h key r|h key|]; simpl in H.
  - unfold ct_insert in H.
    destruct (Nat.ltb_spec (h mod size) (length (cvalid t))) as [L1|]; [|discriminate].
    destruct (Nat.ltb_spec (h mod size) (length (ctab t))) as [L2|]; [|discriminate].
    inversion H; subst; clear H. intros k key' r' Hv Ht; cbn [cvalid ctab] in *.
    rewrite nth_error_set_nth in Hv by auto. rewrite nth_error_set_nth in Ht by auto.
    destruct (Nat.eqb (h mod size) k).
    + inversion Ht; subst. exists ops, h, []. simpl; auto.
    + apply inserted_app; [eauto|discriminate].
  - destruct (look _ _ _ _); [|discriminate]. inversion H; subst.
    intros k key' r' Hv Ht. apply inserted_app; [eauto|discriminate].
  - inversion H; subst. intros k key' r' Hv Ht; cbn [cvalid ct_clear] in Hv.
    apply nth_error_repeat_false in Hv. discriminate.
Qed.

Lemma run_inv_gen size cs ops : forall pre t t',
  CInv pre t -> run size cs ops t = Some t' -> CInv (pre ++ ops) t'.
Proof.
  induction ops as [|o ops IH]; intros pre t t' I H; cbn [ct_run] in H.
  - inversion H; subst. rewrite app_nil_r. auto.
  - destruct (step size cs t o) as [t1|] eqn:E; [|discriminate].
    replace (pre ++ o :: ops) with ((pre ++ [o]) ++ ops) by (rewrite <- app_assoc; reflexivity). eapply IH; eauto. eapply step_inv; eauto.
Qed.

Lemma init_inv size : CInv [] (init size).
Proof.
  intros k key r Hv _. apply nth_error_repeat_false in Hv. discriminate.
Qed.

Lemma look_some k key acc t r :
  look k key acc t = Some (Some r) ->
  nth_error (cvalid t) k = Some true /\ nth_error (ctab t) k = Some (Some (key, r)).
Proof.
  unfold ct_lookup. destruct (nth_error (cvalid t) k) as [[|]|]; try discriminate.
  destruct (nth_error (ctab t) k) as [[[key' r']|]|]; try discriminate.
  destruct (Keqb key' key) eqn:E; [|discriminate]. apply Keqb_spec in E. subst.
  destruct (acc r'); [|discriminate]. inversion 1; subst; auto.
Qed.

Lemma c06_sound size cs ops t h key acc r :
  run size cs ops (init size) = Some t ->
  look (h mod size) key acc t = Some (Some r) ->
  inserted_since_clear key r ops.
Proof.
  intros H L. apply look_some in L. destruct L as [L1 L2].
  exact (run_inv_gen size cs ops [] _ _ (init_inv size) H _ _ _ L1 L2).
Qed.

(** Latest insertion, when the hash is a function of the key. *)
Definition CInv2 size (f : K -> nat) (ops : list (cop K R)) (t : ctable K R) : Prop :=
  forall k key r, nth_error (cvalid t) k = Some true ->
    nth_error (ctab t) k = Some (Some (key, r)) -> k = f key mod size /\ latest_insertion key r ops.

Lemma latest_app (key : K) (r : R) ops o :
  latest_insertion key r ops -> o <> CClear -> (forall h r', o <> CInsert h key r') ->
  latest_insertion key r (ops ++ [o]).
Proof.
  intros (b & h & a & -> & H & H2) Ho Ho2. exists b, h, (a ++ [o]). split; [|split].
  - rewrite <- app_assoc. reflexivity.
  - rewrite in_app_iff. simpl. intuition.
  - intros h' r' Hi. apply in_app_iff in Hi. destruct Hi as [Hi|[Hi|[]]].
    + eapply H2; eauto.
    + eapply Ho2; eauto.
Qed.

Lemma step_inv2 size cs f ops t o t' :
  CInv2 size f ops t -> hashed_by f [o] -> step size cs t o = Some t' ->
  CInv2 size f (ops ++ [o]) t'.
Proof.
  intros I Hf H. specialize (Hf o (or_introl eq_refl)).
  destruct o as [h key r|h key|]; simpl in H.
  - unfold ct_insert in H. subst h.
    destruct (Nat.ltb_spec (f key mod size) (length (cvalid t))) as [L1|]; [|discriminate].
    destruct (Nat.ltb_spec (f key mod size) (length (ctab t))) as [L2|]; [|discriminate].
    inversion H; subst; clear H. intros k key' r' Hv Ht; cbn [cvalid ctab] in *.
    rewrite nth_error_set_nth in Hv by auto. rewrite nth_error_set_nth in Ht by auto.
    destruct (Nat.eqb_spec (f key mod size) k) as [E|E].
    + inversion Ht; subst. split; auto. exists ops, (f key'), []. simpl; auto.
    + destruct (I _ _ _ Hv Ht) as [I1 I2]. split; auto.
      apply latest_app; auto; [discriminate|]. intros h r'' Heq. inversion Heq; subst. auto.
  - destruct (look _ _ _ _); [|discriminate]. inversion H; subst.
    intros k key' r' Hv Ht. destruct (I _ _ _ Hv Ht) as [I1 I2]. split; auto.
    apply latest_app; auto; discriminate.
  - inversion H; subst. intros k key' r' Hv Ht; cbn [cvalid ct_clear] in Hv.
    apply nth_error_repeat_false in Hv. discriminate.
Qed.

Lemma run_inv2 size cs f ops : forall pre t t',
  CInv2 size f pre t -> hashed_by f ops -> run size cs ops t = Some t' ->
  CInv2 size f (pre ++ ops) t'.
Proof.
  induction ops as [|o ops IH]; intros pre t t' I Hf H; cbn [ct_run] in H.
  - inversion H; subst. rewrite app_nil_r. auto.
  - destruct (step size cs t o) as [t1|] eqn:E; [|discriminate].
    replace (pre ++ o :: ops) with ((pre ++ [o]) ++ ops) by (rewrite <- app_assoc; reflexivity). eapply IH; eauto.
    + eapply step_inv2; eauto. intros x [<-|[]]. apply Hf. left; auto.
    + intros x Hx. apply Hf. right; auto.
Qed.

Lemma c06_latest size cs f ops t key acc r :
  hashed_by f ops ->
  run size cs ops (init size) = Some t ->
  look (f key mod size) key acc t = Some (Some r) ->
  latest_insertion key r ops.
Proof.
  intros Hf H L. apply look_some in L. destruct L as [L1 L2].
  refine (proj2 (run_inv2 size cs f ops [] _ _ _ Hf H _ _ _ L1 L2)).
  intros k key' r' Hv _. apply nth_error_repeat_false in Hv. discriminate.
Qed.

(** Memory safety. *)
Definition sized size (t : ctable K R) : Prop :=
  size <= length (cvalid t) /\ length (ctab t) = size.

Lemma mod_lt h size : 0 < size -> h mod size < size.
Proof. intros. apply Nat.mod_upper_bound. lia. Qed.

Lemma look_total k key acc t : k < length (cvalid t) -> k < length (ctab t) ->
  exists o, look k key acc t = Some o.
Proof.
  intros H1 H2. unfold ct_lookup.
  destruct (nth_error (cvalid t) k) as [b|] eqn:E1; [|apply nth_error_None in E1; lia].
  destruct b; eauto.
  destruct (nth_error (ctab t) k) as [[[key' r']|]|] eqn:E2; [| |apply nth_error_None in E2; lia]; eauto.
  destruct (Keqb key' key); eauto. destruct (acc r'); eauto.
Qed.

Lemma step_total size cs t o : 0 < size -> size <= cs -> sized size t ->
  exists t', step size cs t o = Some t' /\ sized size t'.
Proof.
  intros Hs Hc [H1 H2]. destruct o as [h key r|h key|]; simpl.
  - pose proof (mod_lt h size Hs). unfold ct_insert.
    destruct (Nat.ltb_spec (h mod size) (length (cvalid t))); [|lia].
    destruct (Nat.ltb_spec (h mod size) (length (ctab t))); [|lia].
    eexists; split; [reflexivity|]. split; cbn [cvalid ctab]; rewrite set_nth_length; auto.
  - pose proof (mod_lt h size Hs).
    destruct (look_total (h mod size) key (fun _ => true) t) as [o ->]; try lia.
    eexists; split; [reflexivity|]. split; auto.
  - eexists; split; [reflexivity|]. split; cbn [cvalid ctab ct_clear]; auto.
    rewrite repeat_length. auto.
Qed.

Lemma c06_total size cs ops : 0 < size -> size <= cs ->
  exists t, run size cs ops (init size) = Some t /\ sized size t.
Proof.
  intros Hs Hc.
  assert (G : forall t, sized size t -> exists t', run size cs ops t = Some t' /\ sized size t').
  { induction ops as [|o ops' IH]; intros t Ht; cbn [ct_run]; eauto.
    destruct (step_total size cs t o Hs Hc Ht) as (t1 & -> & H1). auto. }
  apply G. split; simpl; rewrite repeat_length; auto.
Qed.

Lemma c06_hit size cs ops t h key r : 0 < size -> size <= cs ->
  run size cs (ops ++ [CInsert h key r]) (init size) = Some t ->
  look (h mod size) key (fun _ => true) t = Some (Some r).
Proof.
  intros Hs Hc H.
  assert (G : forall ops t0, sized size t0 -> run size cs (ops ++ [CInsert h key r]) t0 = Some t ->
     look (h mod size) key (fun _ => true) t = Some (Some r)).
  { clear H ops. induction ops as [|o ops IH]; intros t0 Ht H; cbn [app ct_run] in H.
    - destruct (step_total size cs t0 (CInsert h key r) Hs Hc Ht) as (t1 & E & _).
      rewrite E in H. inversion H; subst; clear H. simpl in E. unfold ct_insert in E.
      destruct (Nat.ltb_spec (h mod size) (length (cvalid t0))) as [L1|]; [|discriminate].
      destruct (Nat.ltb_spec (h mod size) (length (ctab t0))) as [L2|]; [|discriminate].
      inversion E; subst. unfold ct_lookup; cbn [cvalid ctab andb].
      rewrite (nth_error_set_nth _ true) by auto. rewrite (nth_error_set_nth _ (Some (key, r))) by auto. rewrite Nat.eqb_refl.
      rewrite (proj2 (Keqb_spec key key) eq_refl). reflexivity.
    - destruct (step_total size cs t0 o Hs Hc Ht) as (t1 & E & H1). rewrite E in H. eauto. }
  eapply G; eauto. split; simpl; rewrite repeat_length; auto.
Qed.

End P.

Lemma c06_unary_refuted : forall NB : nat, 0 < NB ->
  exists size, 2 * NB = size
  /\ ct_run nat nat Nat.eqb size NB [CClear; CLookup NB 0] (ct_init nat nat size) = None.
Proof.
  intros NB H. exists (2 * NB). split; auto.
  assert (E : nth_error (repeat false NB) (NB mod (2 * NB)) = None).
  { apply nth_error_None. rewrite repeat_length. rewrite Nat.mod_small by lia. auto. }
  unfold ct_run, ct_step, ct_lookup, ct_clear. unfold cvalid at 1. rewrite E. reflexivity.
Qed.
