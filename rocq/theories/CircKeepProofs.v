(** The bookkeeping of circuits is kept by every call. *)
From Coq Require Import String List Arith Bool Permutation Lia.
From Verif Require Import GateModel IRModel OptModel QasmIfModel CircModel CircSpec CircProofs.
Import ListNotations.
Local Open Scope list_scope.

Lemma flat_map_perm {A B} (f : A -> list B) l1 l2 : Permutation l1 l2 -> Permutation (flat_map f l1) (flat_map f l2).
Proof. intros H. induction H; simpl; [reflexivity | apply Permutation_app_head; assumption | rewrite !app_assoc; apply Permutation_app_tail, Permutation_app_comm | etransitivity; eassumption]. Qed.

Lemma remove_reg (regs : cregs) r p : NoDup (map fst regs) -> splittable regs -> In r regs -> In p (members r) ->
  let regs' := removeQubitfromQubitRegister regs r (p - fst (snd r)) in
  Permutation (flat_map members regs) (p :: flat_map members regs') /\ NoDup (map fst regs') /\ splittable regs'.
Proof.
  intros N SP HR HP. destruct r as [name [st k]]. cbn [fst snd] in *. unfold members in HP; cbn [fst snd] in HP. apply in_seq in HP.
  apply in_split in HR as (l1 & l2 & ->).
  set (idx := p - st). assert (EP : p = st + idx) by (unfold idx; lia). assert (IK : idx < k) by (unfold idx; lia).
  clearbody idx. subst p.
  assert (N' : NoDup (map fst (l1 ++ l2))) by (rewrite map_app in *; simpl in N; apply NoDup_remove_1 in N; exact N).
  assert (SP' : splittable (l1 ++ l2)).
  { intros a b Ha Hb. apply SP; rewrite map_app in *; cbn [map fst]; rewrite in_app_iff in *; simpl; tauto. }
  assert (P0 : Permutation (flat_map members (l1 ++ (name, (st, k)) :: l2)) (seq st k ++ flat_map members (l1 ++ l2))).
  { rewrite (flat_map_perm members _ _ (Permutation_sym (Permutation_middle l1 l2 (name, (st, k))))). reflexivity. }
  unfold removeQubitfromQubitRegister. destruct (Nat.eqb_spec idx 0) as [-> | I0].
  - destruct (Nat.eqb_spec k 1) as [-> | K1].
    + rewrite reg_erase_split by exact N. split; [| split; assumption]. rewrite P0. cbn [seq app]. rewrite Nat.add_0_r. reflexivity.
    + rewrite reg_replace_split by exact N.
      assert (E : map fst (l1 ++ (name, (S st, k - 1)) :: l2) = map fst (l1 ++ (name, (st, k)) :: l2)) by (rewrite !map_app; reflexivity).
      split; [| split].
      * rewrite P0. rewrite (flat_map_perm members _ _ (Permutation_sym (Permutation_middle l1 l2 (name, (S st, k - 1))))).
        cbn [flat_map]. unfold members at 2; cbn [fst snd]. destruct k as [|k]; [lia |].
        replace (S k - 1) with k by lia. cbn [seq app]. rewrite Nat.add_0_r. reflexivity.
      * rewrite E; exact N.
      * unfold splittable. rewrite E. exact SP.
  - destruct (Nat.eqb_spec idx (k - 1)) as [-> | I1].
    + rewrite reg_replace_split by exact N.
      assert (E : map fst (l1 ++ (name, (st, k - 1)) :: l2) = map fst (l1 ++ (name, (st, k)) :: l2)) by (rewrite !map_app; reflexivity).
      split; [| split].
      * rewrite P0. rewrite (flat_map_perm members _ _ (Permutation_sym (Permutation_middle l1 l2 (name, (st, k - 1))))).
        cbn [flat_map]. unfold members at 2; cbn [fst snd]. replace k with ((k - 1) + 1) at 1 by lia. rewrite seq_app.
        cbn [seq]. rewrite <- !app_assoc. symmetry. apply Permutation_middle.
      * rewrite E; exact N.
      * unfold splittable. rewrite E. exact SP.
    + rewrite reg_erase_split by exact N.
      assert (Inn : In name (map fst (l1 ++ (name, (st, k)) :: l2))) by (rewrite map_app, in_app_iff; right; left; reflexivity).
      assert (FR : ~ In name (map fst (l1 ++ l2))) by (rewrite map_app in *; simpl in N; apply NoDup_remove_2 in N; exact N).
      assert (old : forall b, In b (map fst (l1 ++ l2)) -> In b (map fst (l1 ++ (name, (st, k)) :: l2))).
      { intros b Hb. rewrite map_app in *; cbn [map fst]; rewrite in_app_iff in *; simpl; tauto. }
      assert (apart : forall b, In b (map fst (l1 ++ l2)) -> ~ part_of name b /\ ~ part_of b name).
      { intros b Hb. split; intros Q; apply SP in Q; auto; subst; contradiction. }
      assert (FL : ~ In (name ++ "_l")%string (map fst (l1 ++ l2))).
      { intros Q. apply apart in Q as [Q _]. apply Q. constructor 2; constructor. }
      assert (FH : ~ In (name ++ "_h")%string (map fst (l1 ++ l2))).
      { intros Q. apply apart in Q as [Q _]. apply Q. constructor 3; constructor. }
      assert (D : (name ++ "_l")%string <> (name ++ "_h")%string) by apply low_not_high.
      rewrite (reg_emplace_new (name ++ "_l")) by exact FL.
      rewrite reg_emplace_new by (rewrite map_app, in_app_iff; simpl; intros [Q | [Q | []]]; [contradiction | congruence]).
      rewrite <- (app_assoc (l1 ++ l2)). cbn [app].
      split; [| split].
      * rewrite P0. rewrite (flat_map_app members (l1 ++ l2)). cbn [flat_map]. unfold members at 3 4; cbn [fst snd].
        rewrite app_nil_r.
        replace k with (idx + (1 + (k - idx - 1))) at 1 by lia. rewrite !seq_app. cbn [seq app].
        replace (st + idx + 1) with (S (st + idx)) by lia.
        rewrite <- app_assoc. cbn [app]. rewrite <- Permutation_middle. constructor.
        rewrite app_assoc. rewrite Permutation_app_comm. reflexivity.
      * rewrite map_app. cbn [map fst]. apply (Permutation_NoDup (Permutation_app_comm [(name ++ "_l")%string; (name ++ "_h")%string] (map fst (l1 ++ l2)))). cbn [app].
        constructor; [intros [Q | Q]; [congruence | contradiction] |]. constructor; assumption.
      * intros a b Ha Hb Q. rewrite map_app, in_app_iff in Ha, Hb. cbn [map fst In] in Ha, Hb.
        destruct Ha as [Ha | [<- | [<- | []]]], Hb as [Hb | [<- | [<- | []]]]; try reflexivity.
        -- apply SP'; assumption.
        -- apply part_low in Q as [Q | Q]; [exact Q |]. apply apart in Ha. tauto.
        -- apply part_high in Q as [Q | Q]; [exact Q |]. apply apart in Ha. tauto.
        -- exfalso. apply apart in Hb as [Hb _]. apply Hb. eapply part_trans; [| exact Q]. constructor 2; constructor.
        -- exfalso. apply part_high in Q as [Q | Q]; [congruence |]. 
           assert (L : forall a b, part_of a b -> String.length a <= String.length b).
           { clear. intros a b H; induction H; [lia | |]; rewrite append_len; lia. }
           apply L in Q. rewrite append_len in Q. simpl in Q. lia.
        -- exfalso. apply apart in Hb as [Hb _]. apply Hb. eapply part_trans; [| exact Q]. constructor 3; constructor.
        -- exfalso. apply part_low in Q as [Q | Q]; [congruence |].
           assert (L : forall a b, part_of a b -> String.length a <= String.length b).
           { clear. intros a b H; induction H; [lia | |]; rewrite append_len; lia. }
           apply L in Q. rewrite append_len in Q. simpl in Q. lia.
Qed.

Lemma rcontains_iff p r : rcontains p r = true <-> In p (members r).
Proof. unfold rcontains, members. rewrite in_seq, andb_true_iff, Nat.leb_le, Nat.ltb_lt. tauto. Qed.
Lemma find_reg p (regs : cregs) : In p (flat_map members regs) -> exists r, find (rcontains p) regs = Some r /\ In r regs /\ In p (members r).
Proof.
  intros H. apply in_flat_map in H as (r0 & H1 & H2).
  destruct (find (rcontains p) regs) as [r|] eqn:E.
  - apply find_some in E as [E1 E2]. apply rcontains_iff in E2. eauto.
  - eapply find_none in E; [| exact H1]. apply rcontains_iff in H2. congruence.
Qed.
Lemma find_reg_none p (regs : cregs) : ~ In p (flat_map members regs) -> find (rcontains p) regs = None.
Proof.
  intros H. destruct (find (rcontains p) regs) as [r|] eqn:E; [| reflexivity].
  apply find_some in E as [E1 E2]. apply rcontains_iff in E2. exfalso. apply H. apply in_flat_map; eauto.
Qed.
Lemma physical_of p l m : NoDup (map snd m) -> In (p, l) m -> getPhysicalQubitIndex l m = ROk p.
Proof.
  induction m as [|[a b] r IH]; intros N H; [contradiction H |]. inversion N as [|x y H2 H3]; subst. simpl.
  destruct H as [H | H].
  - inversion H; subst. rewrite Nat.eqb_refl. reflexivity.
  - destruct (Nat.eqb_spec b l) as [-> | Nb]; [exfalso; apply H2; apply in_map_iff; exists (p, l); auto |]. auto.
Qed.

Lemma log_nodup s : well_kept s -> NoDup (map snd (c_lay s)).
Proof. intros W. eapply Permutation_NoDup; [symmetry; apply (wk_log s W) | apply seq_NoDup]. Qed.
Lemma log_range s p l : well_kept s -> In (p, l) (c_lay s) -> l < total s.
Proof.
  intros W H. assert (Q : In l (map snd (c_lay s))) by (apply in_map_iff; exists (p, l); auto).
  apply (Permutation_in _ (wk_log s W)) in Q. apply in_seq in Q; lia.
Qed.
Lemma shift_down_ok l t v : t < length v -> exists v', shift_down l t v = ROk v'.
Proof. intros H. unfold shift_down. destruct (Nat.ltb_spec t (length v)); [eauto | lia]. Qed.

(** Removing one qubit. *)
Lemma remove_ok s p l : well_kept s -> splittable (c_qregs s) -> splittable (c_aregs s) -> In (p, l) (c_lay s) ->
  exists s', removeQubit l s = ROk s' /\ S (total s') = total s /\
    c_lay s' = merase p (c_lay s) /\ c_out s' = merase p (c_out s) /\
    c_na s = (if flag (c_anc s) l then 1 else 0) + c_na s' /\
    (length (c_anc s') = length (c_anc s) /\ forall i, flag (c_anc s') i = if Nat.ltb i l then flag (c_anc s) i else flag (c_anc s) (S i)) /\
    (length (c_gar s') = length (c_gar s) /\ forall i, flag (c_gar s') i = if Nat.ltb i l then flag (c_gar s) i else flag (c_gar s) (S i)) /\
    Permutation (flat_map members (c_qregs s ++ c_aregs s)) (p :: flat_map members (c_qregs s' ++ c_aregs s')) /\
    incl (flat_map members (c_aregs s')) (flat_map members (c_aregs s)) /\
    NoDup (map fst (c_qregs s')) /\ NoDup (map fst (c_aregs s')) /\ splittable (c_qregs s') /\ splittable (c_aregs s') /\
    c_ops s' = c_ops s /\ c_nc s' = c_nc s /\ c_bregs s' = c_bregs s.
Proof.
  intros W SQ SA H. pose proof (log_range s p l W H) as HL.
  unfold removeQubit. rewrite (physical_of p l _ (log_nodup s W) H). cbn [bindr].
  assert (PR : In p (flat_map members (c_qregs s ++ c_aregs s))).
  { eapply Permutation_in; [symmetry; apply (wk_regs s W) |]. apply in_map_iff; exists (p, l); auto. }
  assert (ND : NoDup (flat_map members (c_qregs s ++ c_aregs s))).
  { eapply Permutation_NoDup; [symmetry; apply (wk_regs s W) | apply (wk_phys s W)]. }
  rewrite flat_map_app in PR, ND.
  assert (sep : forall x, In x (flat_map members (c_qregs s)) -> In x (flat_map members (c_aregs s)) -> False).
  { intros x H1 H2. clear -ND H1 H2. induction (flat_map members (c_qregs s)) as [|a q IH]; [contradiction H1 |].
    simpl in ND. inversion ND; subst. destruct H1 as [-> | H1]; [apply H3; rewrite in_app_iff; auto | auto]. }
  pose proof (wk_anc s W) as CA. 
  assert (T : total s = S (total s - 1)) by lia.
  assert (RA : forall i, flag (c_anc s) i = true -> i < S (total s - 1)) by (rewrite <- T; apply (wk_anc_range s W)).
  assert (RG : forall i, flag (c_gar s) i = true -> i < S (total s - 1)) by (rewrite <- T; apply (wk_gar_range s W)).
  destruct (shift_down_ok l (total s - 1) (c_anc s)) as [anc EA]; [pose proof (wk_anc_len s W); lia |].
  destruct (shift_down_ok l (total s - 1) (c_gar s)) as [gar EG]; [pose proof (wk_gar_len s W); lia |].
  pose proof (shift_down_flag _ _ _ _ EA RA ltac:(lia)) as FA.
  pose proof (shift_down_flag _ _ _ _ EG RG ltac:(lia)) as FG.
  assert (CN : c_na s <= total s) by (unfold total; lia).
  apply in_app_or in PR. destruct PR as [PQ | PA].
  - destruct (find_reg _ _ PQ) as (r & E & HR & HM). rewrite E.
    rewrite (find_reg_none p (c_aregs s)) by (intros Q; eapply sep; eauto).
    destruct (remove_reg _ r p (wk_qnames s W) SQ HR HM) as (P1 & P2 & P3).
    assert (PP : Permutation (flat_map members (c_qregs s ++ c_aregs s)) (p :: flat_map members (removeQubitfromQubitRegister (c_qregs s) r (p - fst (snd r)) ++ c_aregs s))).
    { rewrite !flat_map_app. rewrite P1. reflexivity. }
    assert (NE : nth_error (c_anc s) l = Some (flag (c_anc s) l)).
    { apply nth_error_nth'. pose proof (wk_anc_len s W); lia. }
    rewrite NE. destruct (flag (c_anc s) l) eqn:FL.
    + destruct (c_na s) as [|a] eqn:EN.
      * exfalso. rewrite (count_flag _ (total s) (wk_anc_range s W)) in CA.
        assert (Q : In l (filter (flag (c_anc s)) (seq 0 (total s)))) by (apply filter_In; split; [apply in_seq; lia | exact FL]).
        destruct (filter (flag (c_anc s)) (seq 0 (total s))); [contradiction Q | discriminate CA].
      * assert (TT : c_nq s + a = total s - 1) by (unfold total; lia). rewrite TT, EA. cbn [bindr]. rewrite EG. cbn [bindr].
        eexists. split; [reflexivity |]. unfold total at 1; cbn [c_nq c_na c_lay c_out c_anc c_gar c_qregs c_aregs c_ops c_nc c_bregs].
        split; [lia |]. do 2 (split; [reflexivity |]). split; [reflexivity |]. do 2 (split; [assumption |]). split; [exact PP |].
        split; [apply incl_refl |]. split; [exact P2 |]. split; [apply (wk_anames s W) |]. split; [exact P3 |]. split; [exact SA |]. auto.
    + destruct (c_nq s) as [|n] eqn:EQ.
      * exfalso. assert (Q : count (c_anc s) = total s) by (unfold total; lia).
        rewrite (count_flag _ (total s) (wk_anc_range s W)) in Q.
        assert (HH : forall q, length (filter (flag (c_anc s)) q) = length q -> forall x, In x q -> flag (c_anc s) x = true).
        { clear. intros q. assert (LE : forall q, length (filter (flag (c_anc s)) q) <= length q) by (clear; induction q as [|y q IHq]; simpl; [lia |]; destruct (flag (c_anc s) y); simpl; lia).
          induction q as [|y q IHq]; simpl; intros L x Hx; [contradiction Hx |].
          specialize (LE q). destruct (flag (c_anc s) y) eqn:E; simpl in L; [| lia]. destruct Hx as [<- | Hx]; [exact E | apply IHq; [lia | exact Hx]]. }
        rewrite (HH (seq 0 (total s))) in FL; [discriminate | rewrite Q, seq_length; reflexivity | apply in_seq; lia].
      * assert (TT : n + c_na s = total s - 1) by (unfold total; lia). rewrite TT, EA. cbn [bindr]. rewrite EG. cbn [bindr].
        eexists. split; [reflexivity |]. unfold total at 1; cbn [c_nq c_na c_lay c_out c_anc c_gar c_qregs c_aregs c_ops c_nc c_bregs].
        split; [lia |]. do 2 (split; [reflexivity |]). split; [reflexivity |]. do 2 (split; [assumption |]). split; [exact PP |].
        split; [apply incl_refl |]. split; [exact P2 |]. split; [apply (wk_anames s W) |]. split; [exact P3 |]. split; [exact SA |]. auto.
  - destruct (find_reg _ _ PA) as (r & E & HR & HM). rewrite E.
    rewrite (find_reg_none p (c_qregs s)) by (intros Q; eapply sep; eauto).
    destruct (remove_reg _ r p (wk_anames s W) SA HR HM) as (P1 & P2 & P3).
    assert (PP : Permutation (flat_map members (c_qregs s ++ c_aregs s)) (p :: flat_map members (c_qregs s ++ removeQubitfromQubitRegister (c_aregs s) r (p - fst (snd r))))).
    { rewrite !flat_map_app. rewrite P1. rewrite Permutation_middle. reflexivity. }
    assert (FL : flag (c_anc s) l = true) by (eapply (wk_areg s W); eauto). rewrite FL.
    destruct (c_na s) as [|a] eqn:EN.
    + exfalso. rewrite (count_flag _ (total s) (wk_anc_range s W)) in CA.
      assert (Q : In l (filter (flag (c_anc s)) (seq 0 (total s)))) by (apply filter_In; split; [apply in_seq; lia | exact FL]).
      destruct (filter (flag (c_anc s)) (seq 0 (total s))); [contradiction Q | discriminate CA].
    + assert (TT : c_nq s + a = total s - 1) by (unfold total; lia). rewrite TT, EA. cbn [bindr]. rewrite EG. cbn [bindr].
      eexists. split; [reflexivity |]. unfold total at 1; cbn [c_nq c_na c_lay c_out c_anc c_gar c_qregs c_aregs c_ops c_nc c_bregs].
      split; [lia |]. do 2 (split; [reflexivity |]). split; [reflexivity |]. do 2 (split; [assumption |]). split; [exact PP |].
      split; [| split; [apply (wk_qnames s W) |]; split; [exact P2 |]; split; [exact SQ |]; split; [exact P3 |]; auto].
      intros x Hx. eapply Permutation_in; [symmetry; exact P1 |]. right; exact Hx.
Qed.
