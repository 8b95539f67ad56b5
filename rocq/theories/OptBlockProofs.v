(** collectBlocks, when everything fits into a block. *)
From Coq Require Import Reals List Arith Bool Lia NArith Permutation.
From Verif Require Import Cplx Qsem GateModel GateSpec OpProofs GraphModel IRModel IRSpec IRProofs OptModel OptSem OptDagProofs OptElideProofs
  OptBlockModel.
Import ListNotations.
Local Open Scope list_scope.

Definition all_bits (d : list blk) : list nat := flat_map b_bits d.
Definition all_ops (d : list blk) : list cop := flat_map b_ops d.
Definition plist (b : blk) : list nat := match b_pos b with Some p => [p] | None => [] end.
Definition blk_ok (b : blk) : Prop :=
  Forall (fun o => exists s, o = OStd s /\ incl (used o) (b_bits b)) (b_ops b) /\ (b_pos b = None -> b_ops b = []).

(** The invariant: [ps] has been processed. *)
Record inv (nq : nat) (ps : list cop) (s : cstate) : Prop := {
  i_nd : NoDup (all_bits (snd s));
  i_lt : forall q, In q (all_bits (snd s)) -> q < nq;
  i_ok : Forall blk_ok (snd s);
  i_pos : NoDup (flat_map plist (snd s));
  i_slot : forall p, In p (flat_map plist (snd s)) -> nth_error (fst s) p = Some blank_op;
  i_clear : Forall (clear (all_bits (snd s))) (fst s);
  i_run : same_run ps (fst s ++ all_ops (snd s)) }.

Lemma nodup_app_iff (l l' : list nat) : NoDup (l ++ l') <-> NoDup l /\ NoDup l' /\ forall x, In x l -> In x l' -> False.
Proof.
  induction l as [|a l IH]; simpl.
  - split; [intros H; split; [constructor|split; auto; tauto]|tauto].
  - rewrite !NoDup_cons_iff, IH, in_app_iff. split.
    + intros (N & A & B & D). split; [tauto|]. split; [auto|]. intros x [<-|I] J; [tauto|eauto].
    + intros ((N & A) & B & D). split; [intros [I|I]; [auto|apply (D a); auto]|]. split; auto. split; auto. intros x I J. apply (D x); auto.
Qed.

(** ** Order of blocks *)
Lemma swap_ops Q R A B : Forall (fun o => exists s, o = OStd s /\ incl (used o) Q) A ->
  Forall (fun o => local o /\ incl (used o) R) B -> apart_q R Q -> same_run (A ++ B) (B ++ A).
Proof.
  intros HA HB D. induction HA as [|o A (s & -> & Io) HA IH]; simpl; [rewrite app_nil_r; apply same_refl|].
  apply (same_trans _ (OStd s :: B ++ A)); [apply same_cons; exact IH|].
  change (OStd s :: B ++ A) with ((OStd s :: B) ++ A). replace (B ++ OStd s :: A) with ((B ++ [OStd s]) ++ A) by (rewrite <- app_assoc; auto).
  apply same_app; [|apply same_refl]. apply same_sym. apply (move_back Q); auto.
  eapply Forall_impl; [|exact HB]. intros o [L I]. right. split; auto. intros q J K. apply (D q); auto.
Qed.
Lemma blk_local b : blk_ok b -> Forall (fun o => local o /\ incl (used o) (b_bits b)) (b_ops b).
Proof. intros [H _]. eapply Forall_impl; [|exact H]. intros o (s & -> & I). split; auto. exact Logic.I. Qed.

Lemma ops_perm d d' : Permutation d d' -> Forall blk_ok d -> NoDup (all_bits d) -> same_run (all_ops d) (all_ops d').
Proof.
  unfold all_ops, all_bits. induction 1 as [|x l l' P IH|x y l|l1 l2 l3 P1 IH1 P2 IH2]; intros F N; simpl in *.
  - apply same_refl.
  - inversion F; subst. apply nodup_app_iff in N. apply same_app; [apply same_refl|]. apply IH; tauto.
  - inversion F as [|? ? Fy F1]; subst. inversion F1 as [|? ? Fx F2]; subst. rewrite !app_assoc. apply same_app; [|apply same_refl].
    apply (swap_ops (b_bits y) (b_bits x)); [apply Fy|now apply blk_local|].
    intros q I J. apply nodup_app_iff in N. destruct N as (_ & _ & D). apply (D q J). apply in_or_app; auto.
  - eapply same_trans; [apply IH1; auto|]. apply IH2.
    + eapply Permutation_Forall; eauto.
    + eapply Permutation_NoDup; [|exact N]. now apply Permutation_flat_map.
Qed.

Lemma clear_incl Q Q' o : incl Q Q' -> clear Q' o -> clear Q o.
Proof. intros I [D|[L A]]; [left; auto|]. right. split; auto. intros q J K. apply (A q J). auto. Qed.

Lemma inv_perm nq ps ops d d' : Permutation d d' -> inv nq ps (ops, d) -> inv nq ps (ops, d').
Proof.
  intros P [H1 H2 H3 H4 H5 H6 H7]. simpl in *.
  assert (Pb : Permutation (all_bits d) (all_bits d')) by (now apply Permutation_flat_map).
  assert (Pp : Permutation (flat_map plist d) (flat_map plist d')) by (now apply Permutation_flat_map).
  split; simpl.
  - eapply Permutation_NoDup; eauto.
  - intros q I. apply H2. eapply Permutation_in; [apply Permutation_sym; exact Pb|auto].
  - eapply Permutation_Forall; eauto.
  - eapply Permutation_NoDup; eauto.
  - intros p I. apply H5. eapply Permutation_in; [apply Permutation_sym; exact Pp|auto].
  - eapply Forall_impl; [|exact H6]. intros o. apply clear_incl. intros q I. eapply Permutation_in; [apply Permutation_sym; exact Pb|auto].
  - eapply same_trans; [exact H7|]. apply same_app; [apply same_refl|]. now apply ops_perm.
Qed.

(** ** Finding blocks *)
Lemma drop_id d q : ~ In q (all_bits d) -> drop_blk d q = d.
Proof.
  unfold drop_blk, all_bits. induction d as [|b d IH]; simpl; intros N; auto.
  destruct (memn q (b_bits b)) eqn:M; [apply memn_In in M; exfalso; apply N; apply in_or_app; auto|]. simpl. rewrite IH; auto.
  intros I. apply N. apply in_or_app; auto.
Qed.
Lemma find_id d q : ~ In q (all_bits d) -> find_blk d q = empty_blk q.
Proof.
  unfold find_blk, all_bits. induction d as [|b d IH]; simpl; intros N; auto.
  destruct (memn q (b_bits b)) eqn:M; [apply memn_In in M; exfalso; apply N; apply in_or_app; auto|].
  apply IH. intros I. apply N. apply in_or_app; auto.
Qed.
Lemma find_in d q : NoDup (all_bits d) -> In q (all_bits d) -> Permutation d (find_blk d q :: drop_blk d q).
Proof.
  unfold find_blk, all_bits. induction d as [|b d IH]; simpl; intros N I; [contradiction|].
  apply nodup_app_iff in N. destruct N as (N1 & N2 & D).
  destruct (memn q (b_bits b)) eqn:M; simpl.
  - apply memn_In in M. constructor. fold (drop_blk d q). rewrite drop_id; auto. intros J. apply (D q M J).
  - assert (Nb : ~ In q (b_bits b)) by (intros J; apply memn_In in J; congruence).
    apply in_app_or in I. destruct I as [I|I]; [contradiction|]. rewrite (IH N2 I) at 1. apply perm_swap.
Qed.
Lemma find_self d q : In q (b_bits (find_blk d q)).
Proof.
  unfold find_blk. destruct (find _ d) as [b|] eqn:F; [|simpl; auto]. apply find_some in F. now apply memn_In.
Qed.

Lemma inv_empty nq ps ops d q : q < nq -> ~ In q (all_bits d) -> Forall (clear [q]) ops -> inv nq ps (ops, d) -> inv nq ps (ops, empty_blk q :: d).
Proof.
  intros Q N C [H1 H2 H3 H4 H5 H6 H7]. simpl in *. split; simpl; auto.
  - constructor; auto.
  - intros x [<-|I]; auto.
  - constructor; auto. split; simpl; auto.
  - rewrite Forall_forall in *. intros o I. destruct (C o I) as [D|[L A]]; [left; auto|]. destruct (H6 o I) as [D|[_ A']]; [left; auto|].
    right. split; auto. intros x J [<-|K]; [apply (A q J); simpl; auto|apply (A' x J); auto].
Qed.
(** The block of [q] can be brought to the front. *)
Lemma inv_front nq ps ops d q : q < nq -> Forall (clear [q]) ops -> inv nq ps (ops, d) -> inv nq ps (ops, find_blk d q :: drop_blk d q).
Proof.
  intros Q C I. destruct (in_dec Nat.eq_dec q (all_bits d)) as [J|N].
  - apply (inv_perm _ _ _ d); auto. apply find_in; auto. apply (i_nd _ _ _ I).
  - rewrite find_id, drop_id by auto. now apply inv_empty.
Qed.

(** A block that does not contain [q2] does not matter for finding [q2]. *)
Lemma find_drop d q1 q2 : NoDup (all_bits d) -> ~ In q2 (b_bits (find_blk d q1)) -> find_blk (drop_blk d q1) q2 = find_blk d q2.
Proof.
  unfold find_blk at 2 3, all_bits. intros N H. revert N H. unfold find_blk. induction d as [|b d IH]; simpl; intros N H; auto.
  apply nodup_app_iff in N. destruct N as (N1 & N2 & D).
  destruct (memn q1 (b_bits b)) eqn:M; simpl.
  - destruct (memn q2 (b_bits b)) eqn:M2; [apply memn_In in M2; contradiction|]. fold (drop_blk d q1). rewrite drop_id; auto.
    apply memn_In in M. intros J. apply (D q1 M J).
  - destruct (memn q2 (b_bits b)); auto.
Qed.

Lemma blank_dead : dead blank_op.
Proof. exists {| o_type := gI; o_par := []; o_ctl := []; o_tgt := [0] |}. auto. Qed.
(** ** Merging *)
Lemma upd_blank ops p : nth_error ops p = Some blank_op -> upd ops p blank_op = ops.
Proof. revert p. induction ops as [|o ops IH]; intros [|p] H; simpl in *; auto; [congruence|]. now rewrite IH. Qed.

Lemma merge_inv nq ps ops b1 b2 d : (length (b_ops b1) = 0 -> length (b_ops b2) = 0) ->
  inv nq ps (ops, b1 :: b2 :: d) -> inv nq ps (ops, merge_blk b1 b2 :: d).
Proof.
  intros Em [H1 H2 H3 H4 H5 H6 H7]. unfold all_bits, all_ops in *. simpl in *. split; unfold all_bits, all_ops; simpl.
  - rewrite <- app_assoc. auto.
  - rewrite <- app_assoc. auto.
  - inversion H3 as [|? ? F1 H3']; subst. inversion H3' as [|? ? F2 F3]; subst. constructor; auto. destruct F1 as [A1 B1], F2 as [A2 B2]. split; simpl.
    + apply Forall_app. split; [eapply Forall_impl; [|exact A1]|eapply Forall_impl; [|exact A2]];
      intros o (s & -> & I); exists s; (split; auto); intros q J; apply in_or_app; auto.
    + intros E. rewrite (B1 E) in *. simpl in Em. destruct (b_ops b2); auto. specialize (Em eq_refl). discriminate.
  - unfold plist at 1. simpl. fold (plist b1). apply nodup_app_iff in H4. destruct H4 as (A & B & D). apply nodup_app_iff in B. destruct B as (B1 & B2 & D2).
    apply nodup_app_iff. split; auto. split; auto. intros x I J. apply (D x I). apply in_or_app; auto.
  - unfold plist at 1. simpl. fold (plist b1). intros p I. apply H5. apply in_app_or in I. apply in_or_app. destruct I; auto. right. apply in_or_app; auto.
  - rewrite <- app_assoc. auto.
  - rewrite <- app_assoc. auto.
Qed.

Lemma union_inv nq ps q1 q2 s : q1 < nq -> q2 < nq -> Forall dead (fst s) -> inv nq ps s ->
  inv nq ps (union_blk q1 q2 s) /\ Forall dead (fst (union_blk q1 q2 s)) /\
  incl (q2 :: b_bits (find_blk (snd s) q1)) (b_bits (find_blk (snd (union_blk q1 q2 s)) q2)).
Proof.
  destruct s as [ops d]. cbn [fst snd]. intros Q1 Q2 Dd I. unfold union_blk.
  assert (Cl : forall Q, Forall (clear Q) ops) by (intros Q; eapply Forall_impl; [|exact Dd]; intros o; left; auto).
  destruct (memn q2 (b_bits (find_blk d q1))) eqn:M.
  - cbn [fst snd]. split; auto. split; auto. apply memn_In in M.
    assert (E : find_blk d q2 = find_blk d q1).
    { destruct (in_dec Nat.eq_dec q1 (all_bits d)) as [J|J].
      - assert (P := find_in d q1 (i_nd _ _ _ I) J).
        unfold find_blk in M |- *. destruct (find (fun b => memn q1 (b_bits b)) d) as [b|] eqn:F1.
        + destruct (find (fun b0 => memn q2 (b_bits b0)) d) as [b'|] eqn:F2.
          * apply find_some in F1. apply find_some in F2. destruct F1 as [Ib Eb], F2 as [Ib' Eb']. apply memn_In in Eb'.
            assert (X := i_nd _ _ _ I). simpl in X. clear - X Ib Ib' M Eb'. unfold all_bits in X. induction d as [|x d IH]; [destruct Ib|].
            simpl in X. apply nodup_app_iff in X. destruct X as (N1 & N2 & D).
            destruct Ib as [->|Ib], Ib' as [->|Ib']; auto.
            -- exfalso. apply (D q2); auto. apply in_flat_map; eauto.
            -- exfalso. apply (D q2); auto. apply in_flat_map; eauto.
          * exfalso. apply find_some in F1. destruct F1 as [Ib _]. apply (find_none _ _ F2) in Ib.
            apply memn_In in M. congruence.
        + exfalso. unfold all_bits in J. apply in_flat_map in J. destruct J as (b & Ib & Jb). apply (find_none _ _ F1) in Ib.
          apply memn_In in Jb. congruence.
      - rewrite (find_id d q1 J) in M |- *. simpl in M. destruct M as [->|[]]. now rewrite find_id. }
    rewrite E. intros x [<-|J]; auto.
  - assert (N2 : ~ In q2 (b_bits (find_blk d q1))) by (intros J; apply memn_In in J; congruence).
    assert (I1 := inv_front nq ps ops d q1 Q1 (Cl _) I).
    assert (I2 : inv nq ps (ops, find_blk d q1 :: find_blk d q2 :: drop_blk (drop_blk d q1) q2)).
    { assert (Nd := i_nd _ _ _ I). simpl in Nd. assert (X := inv_front nq ps ops _ q2 Q2 (Cl _) I1).
      assert (E1 : find_blk (find_blk d q1 :: drop_blk d q1) q2 = find_blk d q2).
      { unfold find_blk at 1. simpl. rewrite M. fold (find_blk (drop_blk d q1) q2).
        change (find_blk (drop_blk d q1) q2 = find_blk d q2). now apply find_drop. }
      rewrite E1 in X. unfold drop_blk at 1 in X. simpl in X. rewrite M in X. simpl in X.
      eapply inv_perm; [|exact X]. apply perm_swap. }
    set (b1 := find_blk d q1) in *. set (b2 := find_blk d q2) in *.
    assert (I3 := inv_perm _ _ _ _ (b2 :: b1 :: drop_blk (drop_blk d q1) q2) (perm_swap _ _ _) I2).
    assert (U : forall b x y, inv nq ps (ops, x :: y :: drop_blk (drop_blk d q1) q2) -> (b = x \/ b = y) ->
      match b_pos b with Some p => upd ops p blank_op | None => ops end = ops).
    { intros b x y J E. destruct (b_pos b) as [p|] eqn:Ep; auto. apply upd_blank. apply (i_slot _ _ _ J). simpl. apply in_or_app.
      destruct E as [->| ->]; [left; unfold plist; rewrite Ep; simpl; auto|]. right. apply in_or_app. left. unfold plist. rewrite Ep. simpl. auto. }
    assert (Fm : forall m d', In q2 (b_bits m) -> find_blk (m :: d') q2 = m).
    { intros m d' J. unfold find_blk. simpl. apply memn_In in J. now rewrite J. }
    assert (In2 : In q2 (b_bits b2)) by apply find_self.
    destruct (Nat.ltb_spec (length (b_ops b1)) (length (b_ops b2))) as [L|L]; cbn [fst snd].
    + rewrite (U b1 b1 b2) by auto. split; [apply merge_inv; auto; lia|]. split; auto. rewrite Fm by (simpl; apply in_or_app; auto).
      intros x [<-|J]; simpl; apply in_or_app; auto.
    + rewrite (U b2 b1 b2) by auto. split; [apply merge_inv; auto; lia|]. split; auto. rewrite Fm by (simpl; apply in_or_app; auto).
      intros x [<-|J]; simpl; apply in_or_app; auto.
Qed.

Lemma last_cons (l : list nat) : forall a x, last (a :: l) x = last l a.
Proof.
  induction l as [|b l IH]; intros a x; auto. change (last (a :: b :: l) x) with (last (b :: l) x). now rewrite !IH.
Qed.
Lemma union_all_inv nq ps us : forall prev s, prev < nq -> (forall q, In q us -> q < nq) -> Forall dead (fst s) -> inv nq ps s ->
  inv nq ps (union_all prev us s) /\ Forall dead (fst (union_all prev us s)) /\
  incl (us ++ b_bits (find_blk (snd s) prev)) (b_bits (find_blk (snd (union_all prev us s)) (last us prev))).
Proof.
  induction us as [|q us IH]; intros prev s P U D I.
  - split; auto. split; auto. intros x J. exact J.
  - cbn [union_all]. destruct (union_inv nq ps prev q s P (U q (or_introl eq_refl)) D I) as (I1 & D1 & C1).
    destruct (IH q (union_blk prev q s) (U q (or_introl eq_refl)) (fun x J => U x (or_intror J)) D1 I1) as (I2 & D2 & C2).
    split; auto. split; auto. replace (last (q :: us) prev) with (last us q).
    + intros x J. apply C2. simpl in J. destruct J as [<-|J]; [apply in_or_app; right; apply C1; simpl; auto|].
      apply in_app_or in J. apply in_or_app. destruct J as [J|J]; auto. right. apply C1. simpl. auto.
    + symmetry. apply last_cons.
Qed.

(** ** Adding an operation *)
Lemma place_inv nq ps q s st : q < nq -> Forall dead (fst st) -> inv nq ps st -> incl (used (OStd s)) (b_bits (find_blk (snd st) q)) ->
  inv nq (ps ++ [OStd s]) (place q (OStd s) st) /\ Forall dead (fst (place q (OStd s) st)).
Proof.
  destruct st as [ops d]. cbn [fst snd]. intros Q Dd I U. unfold place.
  assert (Cl : forall Q, Forall (clear Q) ops) by (intros Q'; eapply Forall_impl; [|exact Dd]; intros o; left; auto).
  assert (I1 := inv_front nq ps ops d q Q (Cl _) I). set (b := find_blk d q) in *. set (r := drop_blk d q) in *.
  destruct I1 as [H1 H2 H3 H4 H5 H6 H7]. unfold all_bits, all_ops in *. simpl in *.
  inversion H3 as [|? ? Fb Fr]; subst.
  assert (Ok : forall p, blk_ok {| b_bits := b_bits b; b_pos := Some p; b_ops := b_ops b ++ [OStd s] |}).
  { intros p. split; simpl; [|discriminate]. apply Forall_app. split; [apply Fb|]. constructor; [|constructor]. exists s. auto. }
  apply nodup_app_iff in H1. destruct H1 as (N1 & N2 & D).
  assert (R : same_run (ps ++ [OStd s]) (ops ++ (b_ops b ++ [OStd s]) ++ flat_map b_ops r)).
  { eapply same_trans; [apply same_app; [exact H7|apply same_refl]|]. rewrite <- !app_assoc. apply same_app; [apply same_refl|].
    apply same_app; [apply same_refl|]. apply (move_back (b_bits b)); auto.
    rewrite Forall_forall. intros o Io. apply in_flat_map in Io. destruct Io as (b' & Ib & Io). rewrite Forall_forall in Fr. specialize (Fr b' Ib).
    apply blk_local in Fr. rewrite Forall_forall in Fr. destruct (Fr o Io) as [L Iu]. right. split; auto. intros x J K. apply (D x K).
    apply in_flat_map. eauto. }
  destruct (b_pos b) as [p|] eqn:Ep; (split; [split; unfold all_bits, all_ops; simpl; auto|]).
  - apply nodup_app_iff; auto.
  - unfold plist in H4 at 1. rewrite Ep in H4. simpl in H4. exact H4.
  - intros x J. apply H5. unfold plist at 1. rewrite Ep. simpl. auto.
  - simpl. auto.
  - apply nodup_app_iff; auto.
  - unfold plist in H4 at 1. rewrite Ep in H4. simpl in H4. constructor; auto. intros J.
    assert (X := H5 (length ops)). rewrite (proj2 (nth_error_None _ _)) in X by auto. discriminate X. apply in_or_app. auto.
  - intros x [<-|J]; [rewrite nth_error_app2, Nat.sub_diag by lia; auto|]. 
    rewrite nth_error_app1; [apply H5; apply in_or_app; auto|]. apply nth_error_Some. rewrite H5; [discriminate|apply in_or_app; auto].
  - apply Forall_app. split; auto. constructor; [|constructor]. left. exact blank_dead.
  - eapply same_trans; [exact R|]. rewrite <- (app_assoc ops [blank_op]). apply same_app; [apply same_refl|]. apply same_sym.
    intros b0. cbn [app run]. rewrite (dead_run blank_op b0 blank_dead). simpl. now rewrite app_nil_r.
  - simpl. apply Forall_app. split; auto. constructor; [|constructor]. exact blank_dead.
Qed.

(** ** The width test never fails *)
Lemma find_same d q r x : NoDup (all_bits d) -> In x (b_bits (find_blk d q)) -> In x (b_bits (find_blk d r)) -> In r (b_bits (find_blk d q)).
Proof.
  intros N Hq Hr.
  assert (G : forall y b, In b d -> In y (b_bits b) -> find_blk d y = b).
  { clear Hq Hr. intros y b Ib Iy. unfold find_blk. revert N Ib. unfold all_bits. induction d as [|a d IH]; simpl; intros N Ib; [contradiction|].
    apply nodup_app_iff in N. destruct N as (N1 & N2 & D). destruct (memn y (b_bits a)) eqn:M.
    - destruct Ib as [->|Ib]; auto. apply memn_In in M. exfalso. apply (D y M). apply in_flat_map. eauto.
    - destruct Ib as [->|Ib]; auto. apply memn_In in Iy. congruence. }
  assert (F : forall y, (exists b, In b d /\ find_blk d y = b) \/ find_blk d y = empty_blk y).
  { intros y. unfold find_blk. destruct (find _ d) as [b|] eqn:E; auto. apply find_some in E. left. exists b. tauto. }
  assert (X : find_blk d x = find_blk d q).
  { destruct (F q) as [(b & Ib & E)|E]; rewrite E in *; [now apply G|]. simpl in Hq. destruct Hq as [->|[]]. auto. }
  assert (Y : find_blk d x = find_blk d r).
  { destruct (F r) as [(b & Ib & E)|E]; rewrite E in *; [now apply G|]. simpl in Hr. destruct Hr as [->|[]]. auto. }
  rewrite <- X, Y. apply find_self.
Qed.
Lemma reps_incl d us : incl (reps d us) us.
Proof.
  induction us as [|q us IH]; simpl; [easy|]. intros x [<-|I]; [simpl; auto|]. apply filter_In in I. right. apply IH. tauto.
Qed.
Lemma list_sum_flat {A} (f : A -> list nat) l : list_sum (map (fun x => length (f x)) l) = length (flat_map f l).
Proof. induction l as [|a l IH]; simpl; auto. rewrite app_length. lia. Qed.
Lemma width_ok nq ps s us : inv nq ps s -> (forall q, In q us -> q < nq) -> list_sum (map (blk_size (snd s)) (reps (snd s) us)) <= nq.
Proof.
  intros I U. unfold blk_size. rewrite list_sum_flat.
  assert (N := i_nd _ _ _ I). set (d := snd s) in *.
  assert (X : incl (flat_map (fun q => b_bits (find_blk d q)) (reps d us)) (seq 0 nq)).
  { intros x J. apply in_flat_map in J. destruct J as (q & Iq & J). apply reps_incl in Iq. apply in_seq. split; [lia|].
    destruct (in_dec Nat.eq_dec q (all_bits d)) as [K|K].
    - apply (i_lt _ _ _ I). eapply Permutation_in; [apply Permutation_flat_map; apply Permutation_sym; apply find_in; eauto|].
      simpl. apply in_or_app; auto.
    - rewrite find_id in J by auto. simpl in J. destruct J as [<-|[]]. auto. }
  rewrite <- (seq_length nq 0). apply NoDup_incl_length; auto. clear X U.
  assert (Nb : forall q, NoDup (b_bits (find_blk d q))).
  { intros q. destruct (in_dec Nat.eq_dec q (all_bits d)) as [K|K].
    - assert (Z : NoDup (all_bits (find_blk d q :: drop_blk d q))).
      { eapply Permutation_NoDup; [apply Permutation_flat_map; apply find_in; eauto|auto]. }
      unfold all_bits in Z. simpl in Z. apply nodup_app_iff in Z. tauto.
    - rewrite find_id by auto. simpl. constructor; [auto|constructor]. }
  induction us as [|q us IH]; simpl; [constructor|]. apply nodup_app_iff. split; auto. split.
  - revert IH. generalize (reps d us). intros l. induction l as [|r l IHl]; simpl; intros H; auto. apply nodup_app_iff in H.
    destruct (negb (memn r (b_bits (find_blk d q)))); [|apply IHl; tauto]. simpl. apply nodup_app_iff. split; [tauto|]. split; [apply IHl; tauto|].
    destruct H as (_ & _ & D). intros x A B. apply (D x A). apply in_flat_map in B. destruct B as (y & Iy & B). apply filter_In in Iy.
    apply in_flat_map. exists y. tauto.
  - intros x A B. apply in_flat_map in B. destruct B as (r & Ir & B). apply filter_In in Ir. destruct Ir as [_ E].
    assert (In r (b_bits (find_blk d q))) by (eapply find_same; eauto). apply memn_In in H. rewrite H in E. discriminate.
Qed.

Lemma last_in (l : list nat) : forall a, In (last l a) (a :: l).
Proof.
  induction l as [|b l IH]; intros a; [simpl; auto|]. rewrite last_cons. right. apply IH.
Qed.
Lemma step_inv nq max ps st s : nq <= max -> used (OStd s) <> [] -> (forall q, In q (used (OStd s)) -> q < nq) ->
  Forall dead (fst st) -> inv nq ps st ->
  inv nq (ps ++ [OStd s]) (collect_step max st (OStd s)) /\ Forall dead (fst (collect_step max st (OStd s))).
Proof.
  intros M Ne U D I. unfold collect_step. cbn [is_unitary]. set (us := set_of (used (OStd s))).
  assert (Us : forall q, In q us <-> In q (used (OStd s))) by (intros; apply set_of_In).
  assert (Ul : forall q, In q us -> q < nq) by (intros q J; apply U; now apply Us).
  assert (W := width_ok nq ps st us I Ul). destruct (Nat.ltb_spec max (list_sum (map (blk_size (snd st)) (reps (snd st) us)))); [lia|].
  assert (L : length us <= nq).
  { rewrite <- (seq_length nq 0). apply NoDup_incl_length; [apply set_of_NoDup|]. intros q J. apply in_seq. specialize (Ul q J). lia. }
  destruct (Nat.ltb_spec max (length us)); [lia|].
  destruct us as [|q us'] eqn:E.
  - exfalso. destruct (used (OStd s)) as [|x r]; [auto|]. apply (Us x). simpl. auto.
  - destruct (union_all_inv nq ps us' q st) as (I1 & D1 & C1); auto.
    + apply Ul. simpl; auto.
    + intros x J. apply Ul. simpl; auto.
    + assert (El : last (q :: us') q = last us' q) by apply last_cons. rewrite El.
      apply place_inv; auto.
      * apply Ul. apply last_in.
      * intros x J. apply C1. apply Us in J. simpl in J. apply in_or_app. destruct J as [<-|J]; auto. right. apply find_self.
Qed.

(** ** Finalising *)
Lemma finalize_inv nq ps q s : inv nq ps s -> inv nq ps (finalize_blk q s) /\ ~ In q (all_bits (snd (finalize_blk q s))) \/
  finalize_blk q s = s /\ b_pos (find_blk (snd s) q) = None.
Proof.
  destruct s as [ops d]. intros I. unfold finalize_blk. cbn [snd]. destruct (b_pos (find_blk d q)) as [p|] eqn:Ep; [|auto]. left.
  assert (J : In q (all_bits d)).
  { destruct (in_dec Nat.eq_dec q (all_bits d)); auto. rewrite find_id in Ep by auto. discriminate. }
  assert (I1 := inv_perm _ _ _ _ _ (find_in d q (i_nd _ _ _ I) J) I). set (b := find_blk d q) in *. set (r := drop_blk d q) in *.
  destruct I1 as [H1 H2 H3 H4 H5 H6 H7]. unfold all_bits, all_ops in *. simpl in H1, H2, H3, H4, H5, H6, H7. cbn [fst snd]. inversion H3 as [|? ? Fb Fr]; subst.
  apply nodup_app_iff in H1. destruct H1 as (N1 & N2 & D).
  assert (Hp : nth_error ops p = Some blank_op) by (apply H5; unfold plist; rewrite Ep; simpl; auto).
  destruct (upd_split ops p blank_op (collapse (OComp false (b_ops b))) Hp) as [E1 E2].
  set (A := firstn p ops) in *. set (B := skipn (S p) ops) in *. clearbody A B.
  assert (Lb := blk_local b Fb).
  assert (Cc : clear (flat_map b_bits r) (collapse (OComp false (b_ops b)))).
  { right. assert (X : collapse (OComp false (b_ops b)) = OComp false (b_ops b) \/ exists s, b_ops b = [OStd s] /\ collapse (OComp false (b_ops b)) = OStd s).
    { destruct Fb as [Fb _]. destruct (b_ops b) as [|o [|o' l]]; auto. inversion Fb as [|? ? (s & -> & _) _]; subst. right. exists s. auto. }
    destruct X as [->|(s & Eb & ->)].
    - split; [apply local_comp; eapply Forall_impl; [|exact Lb]; intros o [? ?]; auto|]. intros x Ix K. simpl in Ix. apply in_flat_map in Ix.
      destruct Ix as (o & Io & Ix). rewrite Forall_forall in Lb. apply (D x); auto. apply (Lb o Io). auto.
    - split; [exact Logic.I|]. rewrite Eb in Lb. inversion Lb as [|? ? [_ Iu] _]; subst. intros x Ix K. apply (D x); auto. }
  assert (Rc : forall b0, run_op (collapse (OComp false (b_ops b))) b0 = run (b_ops b) b0) by (intros b0; rewrite collapse_run; apply run_comp).
  revert E2 Cc Rc. generalize (collapse (OComp false (b_ops b))). intros X E2 Cc Rc.
  split; [|intros K; apply (D q); auto; apply find_self]. split; unfold all_bits, all_ops; simpl; auto.
  - intros x K. apply H2. apply in_or_app; auto.
  - apply nodup_app_iff in H4. tauto.
  - intros x K. rewrite upd_nth. destruct (Nat.eqb_spec p x) as [<-|].
    + apply nodup_app_iff in H4. destruct H4 as (_ & _ & H4). exfalso. apply (H4 p); auto. unfold plist. rewrite Ep. simpl. auto.
    + apply H5. apply in_or_app; auto.
  - rewrite E2. rewrite E1 in H6. apply Forall_app in H6. destruct H6 as [HA HB]. inversion HB as [|? ? _ HB']; subst.
    assert (Cl : forall l, Forall (clear (b_bits b ++ flat_map b_bits r)) l -> Forall (clear (flat_map b_bits r)) l).
    { intros l. apply Forall_impl. intros o. apply clear_incl. intros x K. apply in_or_app; auto. }
    apply Forall_app. split; auto.
  - eapply same_trans; [exact H7|]. rewrite E2, E1. rewrite <- !app_assoc. apply same_app; [apply same_refl|]. simpl.
    apply (same_trans _ (B ++ b_ops b ++ flat_map b_ops r)).
    { intros b0. cbn [run]. rewrite (dead_run blank_op b0 blank_dead). simpl. now rewrite app_nil_r. }
    apply (same_trans _ (b_ops b ++ B ++ flat_map b_ops r)).
    + rewrite !app_assoc. apply same_app; [|apply same_refl].
      rewrite E1 in H6. apply Forall_app in H6. destruct H6 as [_ HB]. inversion HB as [|? ? _ HB']; subst.
      assert (HQ : Forall (clear (b_bits b)) B) by (eapply Forall_impl; [|exact HB']; intros o; apply clear_incl; intros x K; apply in_or_app; auto).
      destruct Fb as [Fb _]. clear - Fb HQ. revert HQ. induction Fb as [|o l (s & -> & Iu) Hl IH]; intros HQ; simpl; [rewrite app_nil_r; apply same_refl|].
      replace (B ++ OStd s :: l) with ((B ++ [OStd s]) ++ l) by (rewrite <- app_assoc; auto).
      eapply same_trans; [apply same_app; [apply (move_back (b_bits b)); auto|apply same_refl]|]. simpl. apply same_cons. auto.
    + apply same_sym. intros b0. cbn [run]. rewrite Rc, <- run_app. auto.
Qed.

Lemma drop_sub d q x : In x (all_bits (drop_blk d q)) -> In x (all_bits d).
Proof.
  unfold all_bits, drop_blk. intros I. apply in_flat_map in I. destruct I as (b & Ib & I). apply filter_In in Ib. apply in_flat_map. exists b. tauto.
Qed.
Lemma finalize_sub q s x : In x (all_bits (snd (finalize_blk q s))) -> In x (all_bits (snd s)).
Proof.
  destruct s as [ops d]. unfold finalize_blk. destruct (b_pos (find_blk d q)); simpl; auto. apply drop_sub.
Qed.
(** All blocks hold operations. *)
Definition full (s : cstate) : Prop := Forall (fun b => b_pos b <> None /\ b_bits b <> []) (snd s).
Lemma finalize_full q s : full s -> full (finalize_blk q s).
Proof.
  destruct s as [ops d]. unfold full, finalize_blk. destruct (b_pos (find_blk d q)); simpl; auto.
  intros F. rewrite Forall_forall in *. intros b I. unfold drop_blk in I. apply filter_In in I. apply F. tauto.
Qed.
Lemma full_gone nq ps q s : full s -> inv nq ps s -> inv nq ps (finalize_blk q s) /\ ~ In q (all_bits (snd (finalize_blk q s))).
Proof.
  intros F I. destruct (finalize_inv nq ps q s I) as [H|[E N]]; auto. rewrite E. split; auto. intros J.
  unfold full in F. rewrite Forall_forall in F. assert (X : In (find_blk (snd s) q) (snd s)); [|apply (proj1 (F _ X)); auto].
  clear N. unfold find_blk in *. destruct (find _ (snd s)) as [b|] eqn:Fi.
  - apply find_some in Fi. tauto.
  - unfold all_bits in J. apply in_flat_map in J. destruct J as (b & Ib & Jb). apply (find_none _ _ Fi) in Ib. apply memn_In in Jb. congruence.
Qed.
Lemma finalize_many nq ps us : forall s, full s -> inv nq ps s ->
  let s' := fold_left (fun s q => finalize_blk q s) us s in
  full s' /\ inv nq ps s' /\ (forall q, In q us -> ~ In q (all_bits (snd s'))) /\ (forall x, In x (all_bits (snd s')) -> In x (all_bits (snd s))).
Proof.
  induction us as [|q us IH]; intros s F I; cbn [fold_left]; cbv zeta; [split; [auto|split; [auto|split; [intros ? []|auto]]]|].
  destruct (full_gone nq ps q s F I) as [I1 G]. destruct (IH (finalize_blk q s) (finalize_full q s F) I1) as (A & B & C & E).
  split; [auto|]. split; [auto|]. split.
  - intros x [<-|J]; auto.
  - intros x J. apply E in J. now apply finalize_sub in J.
Qed.

Definition full_but (q : nat) (s : cstate) : Prop := Forall (fun b => (b_pos b <> None /\ b_bits b <> []) \/ In q (b_bits b)) (snd s).
Lemma drop_In b d q : In b (drop_blk d q) <-> In b d /\ ~ In q (b_bits b).
Proof.
  unfold drop_blk. rewrite filter_In. split; intros [A B]; split; auto.
  - intros J. apply memn_In in J. rewrite J in B. discriminate.
  - destruct (memn q (b_bits b)) eqn:M; auto. apply memn_In in M. contradiction.
Qed.
Lemma union_full q1 q2 s : NoDup (all_bits (snd s)) -> full_but q1 s -> full_but q2 (union_blk q1 q2 s).
Proof.
  destruct s as [ops d]. unfold full_but, union_blk. cbn [snd]. intros N F. destruct (memn q2 (b_bits (find_blk d q1))) eqn:M.
  - simpl. rewrite Forall_forall in *. intros b I. destruct (F b I) as [P|J]; auto. right.
    apply memn_In in M. assert (E : find_blk d q1 = b); [|congruence].
    unfold find_blk. revert N I J. unfold all_bits. clear. induction d as [|a d IH]; simpl; intros N I J; [contradiction|].
    apply nodup_app_iff in N. destruct N as (N1 & N2 & D). destruct (memn q1 (b_bits a)) eqn:M.
    + destruct I as [->|I]; auto. apply memn_In in M. exfalso. apply (D q1 M). apply in_flat_map. eauto.
    + destruct I as [->|I]; auto. apply memn_In in J. congruence.
  - assert (G : forall b1 b2, In q2 (b_bits b1) \/ In q2 (b_bits b2) ->
      Forall (fun b => (b_pos b <> None /\ b_bits b <> []) \/ In q2 (b_bits b)) (merge_blk b1 b2 :: drop_blk (drop_blk d q1) q2)).
    { intros b1 b2 H. constructor.
      - right. simpl. apply in_or_app. tauto.
      - rewrite Forall_forall in *. intros b I. apply drop_In in I. destruct I as [I _]. apply drop_In in I. destruct I as [I J].
        destruct (F b I); auto. }
    destruct (Nat.ltb _ _); simpl; apply G; [left|right]; apply find_self.
Qed.
Lemma union_all_full nq ps us : forall prev s, prev < nq -> (forall q, In q us -> q < nq) -> Forall dead (fst s) -> inv nq ps s ->
  full_but prev s -> full_but (last us prev) (union_all prev us s).
Proof.
  induction us as [|q us IH]; intros prev s P U D I F; auto. rewrite last_cons. cbn [union_all].
  destruct (union_inv nq ps prev q s P (U q (or_introl eq_refl)) D I) as (I1 & D1 & _).
  apply IH; auto.
  - apply U. simpl; auto.
  - intros x J. apply U. simpl; auto.
  - apply union_full; auto. apply (i_nd _ _ _ I).
Qed.
Lemma place_full q o s : full_but q s -> full (place q o s).
Proof.
  destruct s as [ops d]. unfold full_but, full, place. cbn [snd]. intros F.
  assert (G : Forall (fun b => b_pos b <> None /\ b_bits b <> []) (drop_blk d q)).
  { rewrite Forall_forall in *. intros b I. apply drop_In in I. destruct I as [I J]. destruct (F b I); auto. }
  assert (Ne : b_bits (find_blk d q) <> []) by (intros E; assert (X := find_self d q); rewrite E in X; destruct X).
  destruct (b_pos (find_blk d q)); simpl; constructor; simpl; auto; split; auto; discriminate.
Qed.

Definition small (nq : nat) (o : cop) : Prop := exists s, o = OStd s /\ used o <> [] /\ forall q, In q (used o) -> q < nq.

Lemma phase1 nq max us : nq <= max -> Forall (small nq) us -> forall ps st, Forall dead (fst st) -> inv nq ps st -> full st ->
  let st' := fold_left (collect_step max) us st in inv nq (ps ++ us) st' /\ full st'.
Proof.
  intros M F. induction F as [|o us (s & -> & Ne & U) F IH]; intros ps st D I Fu; cbn [fold_left].
  - rewrite app_nil_r. auto.
  - destruct (step_inv nq max ps st s M Ne U D I) as [I1 D1].
    assert (F1 : full (collect_step max st (OStd s))).
    { unfold collect_step. cbn [is_unitary]. set (vs := set_of (used (OStd s))).
      assert (Us : forall q, In q vs <-> In q (used (OStd s))) by (intros; apply set_of_In).
      assert (Ul : forall q, In q vs -> q < nq) by (intros q J; apply U; now apply Us).
      assert (W := width_ok nq ps st vs I Ul). destruct (Nat.ltb_spec max (list_sum (map (blk_size (snd st)) (reps (snd st) vs)))); [lia|].
      assert (L : length vs <= nq).
      { rewrite <- (seq_length nq 0). apply NoDup_incl_length; [apply set_of_NoDup|]. intros q J. apply in_seq. specialize (Ul q J). lia. }
      destruct (Nat.ltb_spec max (length vs)); [lia|]. destruct vs as [|q vs'] eqn:E.
      - exfalso. destruct (used (OStd s)) as [|x r]; [auto|]. apply (Us x). simpl. auto.
      - rewrite last_cons. apply place_full. apply (union_all_full nq ps); auto.
        + apply Ul. simpl; auto.
        + intros x J. apply Ul. simpl; auto.
        + unfold full, full_but in *. eapply Forall_impl; [|exact Fu]. auto. }
    destruct (IH (ps ++ [OStd s]) _ D1 I1 F1) as [A B]. rewrite <- app_assoc in A. auto.
Qed.

Lemma phase2 nq max ms : Forall (fun o => exists qs cs, o = OMeas qs cs) ms -> forall ps st, inv nq ps st -> full st ->
  let st' := fold_left (collect_step max) ms st in inv nq (ps ++ ms) st' /\ full st'.
Proof.
  intros F. induction F as [|o ms (qs & cs & ->) F IH]; intros ps st I Fu; cbn [fold_left].
  - rewrite app_nil_r. auto.
  - assert (X : inv nq (ps ++ [OMeas qs cs]) (collect_step max st (OMeas qs cs)) /\ full (collect_step max st (OMeas qs cs))).
    { unfold collect_step. cbn [is_unitary].
      destruct (finalize_many nq ps (set_of (used (OMeas qs cs))) st Fu I) as (F1 & I1 & G & _). cbv zeta in *.
      destruct (fold_left (fun s q => finalize_blk q s) (set_of (used (OMeas qs cs))) st) as [ops d]. cbn [fst snd] in *.
      assert (Ap : forall q, In q qs -> ~ In q (all_bits d)) by (intros q J; apply G; apply set_of_In; auto).
      split; [|exact F1]. destruct I1 as [H1 H2 H3 H4 H5 H6 H7]. simpl in *. split; simpl; auto.
      - intros p J. rewrite nth_error_app1; auto. apply nth_error_Some. rewrite H5 by auto. discriminate.
      - apply Forall_app. split; auto. constructor; [|constructor]. right. split; [exact Logic.I|]. intros q J K. apply (Ap q J K).
      - eapply same_trans; [apply same_app; [exact H7|apply same_refl]|]. rewrite <- !app_assoc. apply same_app; [apply same_refl|].
        unfold all_ops. simpl.
        assert (Sw : forall l, Forall (fun o => exists s, o = OStd s /\ apart_q qs (used o)) l -> same_run (l ++ [OMeas qs cs]) (OMeas qs cs :: l)).
        { induction 1 as [|o l (s & -> & A) Hl IHl]; simpl; [apply same_refl|].
          eapply same_trans; [apply same_cons; exact IHl|].
          change (same_run ([OStd s; OMeas qs cs] ++ l) ([OMeas qs cs; OStd s] ++ l)). apply same_app; [|apply same_refl].
          apply same_sym. apply (move_back (used (OStd s)) s [OMeas qs cs]); [|easy]. constructor; [|constructor]. right. split; [exact Logic.I|]. exact A. }
        apply Sw. rewrite Forall_forall. intros o J. apply in_flat_map in J. destruct J as (b & Ib & J). rewrite Forall_forall in H3.
        destruct (H3 b Ib) as [Fo _]. rewrite Forall_forall in Fo. destruct (Fo o J) as (s & -> & Iu). exists s. split; auto.
        intros q K1 K2. apply (Ap q K1). unfold all_bits. apply in_flat_map. exists b. split; auto. }
    destruct X as [X1 X2]. destruct (IH (ps ++ [OMeas qs cs]) _ X1 X2) as [A B]. rewrite <- app_assoc in A. auto.
Qed.

Lemma finish_inv nq ps s : inv nq ps s -> full s -> same_run ps (fst (finish s)).
Proof.
  intros I F. unfold finish.
  set (qs := flat_map (fun b => match b_bits b with q :: _ => [q] | [] => [] end) (snd s)).
  assert (E : forall d s0, fold_left (fun s b => match b_bits b with q :: _ => finalize_blk q s | [] => s end) d s0 =
    fold_left (fun s q => finalize_blk q s) (flat_map (fun b => match b_bits b with q :: _ => [q] | [] => [] end) d) s0).
  { induction d as [|b d IH]; intros s0; simpl; auto. rewrite IH, fold_left_app. destruct (b_bits b); auto. }
  rewrite E. fold qs. destruct (finalize_many nq ps qs s F I) as (F1 & I1 & G & Sub). cbv zeta in *.
  assert (Db : forall s b, In b (snd (fold_left (fun s q => finalize_blk q s) qs s)) -> In b (snd s)).
  { generalize qs. clear. induction qs as [|q qs IH]; intros s b I; simpl in *; auto. apply IH in I. destruct s as [ops d]. unfold finalize_blk in I.
    destruct (b_pos (find_blk d q)); simpl in *; auto. apply drop_In in I. tauto. }
  specialize (Db s).
  destruct (fold_left (fun s q => finalize_blk q s) qs s) as [ops d] eqn:Es. cbn [fst snd] in *.
  assert (Nil : d = []).
  { destruct d as [|b d]; auto. exfalso. unfold full in F1. simpl in F1. inversion F1 as [|? ? [_ Ne] _]; subst.
    destruct (b_bits b) as [|q r] eqn:Eb; [auto|]. apply (G q).
    - unfold qs. apply in_flat_map. exists b. split; [apply Db; simpl; auto|]. rewrite Eb. simpl. auto.
    - unfold all_bits. simpl. rewrite Eb. simpl. auto. }
  assert (R := i_run _ _ _ I1). subst d. simpl in R. rewrite app_nil_r in R. exact R.
Qed.

Theorem collect_blocks_sound nq max us ms : nq <= max -> Forall (small nq) us -> Forall (fun o => exists qs cs, o = OMeas qs cs) ms ->
  same_run (us ++ ms) (collect_blocks max (us ++ ms)).
Proof.
  intros M F G. unfold collect_blocks. destruct (Nat.leb (length (us ++ ms)) 1); [apply same_refl|].
  eapply same_trans; [|apply same_sym; apply remove_identities_sound].
  rewrite fold_left_app.
  assert (I0 : inv nq [] ([], [])).
  { split; simpl; try constructor; try (intros ? []). }
  destruct (phase1 nq max us M F [] ([], []) (Forall_nil _) I0 (Forall_nil _)) as [I1 F1].
  destruct (phase2 nq max ms G _ _ I1 F1) as [I2 F2]. eapply finish_inv; eauto.
Qed.
