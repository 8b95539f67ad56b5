(** Building circuits. *)
From Coq Require Import String List Arith Bool Permutation Lia.
From Verif Require Import GateModel IRModel OptModel QasmIfModel CircModel CircSpec CircProofs CircKeepProofs.
Import ListNotations.
Local Open Scope list_scope.

Definition compact (s : circ) : Prop := gapless s /\ length (c_anc s) = total s /\ length (c_gar s) = total s.

Lemma fst_diag l : map fst (map (fun j : nat => (j, j)) l) = l.
Proof. rewrite map_map. apply map_id. Qed.
Lemma snd_diag l : map snd (map (fun j : nat => (j, j)) l) = l.
Proof. rewrite map_map. apply map_id. Qed.
Lemma in_diag t n p l : In (p, l) (map (fun j : nat => (j, j)) (seq t n)) <-> p = l /\ t <= l < t + n.
Proof.
  rewrite in_map_iff. split.
  - intros (x & E & H). inversion E; subst. apply in_seq in H. auto.
  - intros [-> H]. exists l. split; [reflexivity | apply in_seq; lia].
Qed.
Lemma NoDup_app2 {A} (l1 l2 : list A) : NoDup l1 -> NoDup l2 -> (forall x, In x l1 -> In x l2 -> False) -> NoDup (l1 ++ l2).
Proof.
  induction l1 as [|a l1 IH]; simpl; intros H1 H2 H; [assumption |]. inversion H1; subst. constructor.
  - rewrite in_app_iff. intros [Q | Q]; [contradiction | eapply H; eauto].
  - apply IH; auto. intros; eapply H; eauto.
Qed.
Lemma fold_set_length : forall js l, length (fold_left (fun l j => set_at j true l) js l) = length l.
Proof. induction js as [|j js IH]; intros l; [reflexivity |]. simpl. rewrite IH. apply set_at_length. Qed.
Lemma fold_set_flag : forall js l i, (forall j, In j js -> j < length l) ->
  flag (fold_left (fun l j => set_at j true l) js l) i = memn i js || flag l i.
Proof.
  induction js as [|j js IH]; intros l i H; [reflexivity |]. simpl. rewrite IH.
  - rewrite set_at_flag. assert (Q : j < length l) by (apply H; left; reflexivity). apply Nat.ltb_lt in Q. rewrite Q, andb_true_r.
    destruct (Nat.eqb i j); simpl; [apply orb_true_r | reflexivity].
  - intros x Hx. rewrite set_at_length. apply H; right; exact Hx.
Qed.

(** Adding the physical and logical qubits t, t+1, ... to a circuit of t qubits. *)
Lemma extend s s' n (aq : bool) name :
  well_kept s -> compact s ->
  Permutation (c_lay s') (c_lay s ++ map (fun j => (j, j)) (seq (total s) n)) ->
  Permutation (c_out s') (c_out s ++ map (fun j => (j, j)) (seq (total s) n)) ->
  total s' = total s + n ->
  (c_qregs s' = if aq then c_qregs s else c_qregs s ++ [(name, (total s, n))]) ->
  (c_aregs s' = if aq then c_aregs s ++ [(name, (total s, n))] else c_aregs s) ->
  ~ In name (map fst (if aq then c_aregs s else c_qregs s)) ->
  c_na s' = (if aq then c_na s + n else c_na s) ->
  length (c_anc s') = total s' -> length (c_gar s') = total s' ->
  (forall i, flag (c_anc s') i = if Nat.ltb i (total s) then flag (c_anc s) i else aq && Nat.ltb i (total s + n)) ->
  (forall i, flag (c_gar s') i = if Nat.ltb i (total s) then flag (c_gar s) i else false) ->
  well_kept s' /\ compact s'.
Proof.
  intros W (G & LA & LG) PL PO T EQ EA FR EN LA' LG' FA FG.
  assert (okey : forall p, In p (map fst (c_out s)) -> p < total s) by (intros p Hp; apply G; apply (wk_out s W); exact Hp).
  assert (PLf : Permutation (map fst (c_lay s')) (map fst (c_lay s) ++ seq (total s) n)) by (rewrite PL, map_app, fst_diag; reflexivity).
  assert (POf : Permutation (map fst (c_out s')) (map fst (c_out s) ++ seq (total s) n)) by (rewrite PO, map_app, fst_diag; reflexivity).
  assert (POs : Permutation (map snd (c_out s')) (map snd (c_out s) ++ seq (total s) n)) by (rewrite PO, map_app, snd_diag; reflexivity).
  split; [| split; [| auto]].
  2: { intros p Hp. apply (Permutation_in _ PLf) in Hp. rewrite in_app_iff, in_seq in Hp. destruct Hp as [Hp | Hp]; [apply G in Hp |]; lia. }
  constructor.
  - eapply Permutation_NoDup; [symmetry; exact PLf |]. apply NoDup_app2; [apply (wk_phys s W) | apply seq_NoDup |].
    intros x H1 H2. apply G in H1. apply in_seq in H2. lia.
  - rewrite PL, map_app, snd_diag, (wk_log s W), T, seq_app. reflexivity.
  - intros x Hx. apply (Permutation_in _ POf) in Hx. apply (Permutation_in _ (Permutation_sym PLf)).
    rewrite in_app_iff in *. destruct Hx as [Hx | Hx]; [left; apply (wk_out s W); exact Hx | right; exact Hx].
  - eapply Permutation_NoDup; [symmetry; exact POf |]. apply NoDup_app2; [apply (wk_out_phys s W) | apply seq_NoDup |].
    intros x H1 H2. apply okey in H1. apply in_seq in H2. lia.
  - eapply Permutation_NoDup; [symmetry; exact POs |]. apply NoDup_app2; [apply (wk_out_log s W) | apply seq_NoDup |].
    intros x H1 H2. apply in_map_iff in H1 as ([p l] & E & H1). simpl in E; subst. apply (wk_out_range s W) in H1. apply in_seq in H2. lia.
  - intros p l H. apply (Permutation_in _ PO) in H. rewrite in_app_iff, in_diag in H.
    destruct H as [H | H]; [apply (wk_out_range s W) in H |]; lia.
  - rewrite PLf. rewrite <- (wk_regs s W). rewrite EQ, EA, !flat_map_app. destruct aq; cbn [flat_map]; rewrite ?flat_map_app; cbn [flat_map]; rewrite app_nil_r; unfold members at 3 || unfold members at 2; cbn [fst snd].
    + rewrite app_assoc. reflexivity.
    + rewrite <- !app_assoc. apply Permutation_app_head. apply Permutation_app_comm.
  - rewrite EQ. destruct aq; [apply (wk_qnames s W) |]. rewrite map_app. apply NoDup_app2; [apply (wk_qnames s W) | repeat constructor; intros [] |].
    intros x H1 [<- | []]. contradiction.
  - rewrite EA. destruct aq; [| apply (wk_anames s W)]. rewrite map_app. apply NoDup_app2; [apply (wk_anames s W) | repeat constructor; intros [] |].
    intros x H1 [<- | []]. contradiction.
  - lia.
  - rewrite (count_flag (c_anc s') (total s + n)), seq_app, filter_app, app_length.
    2: { intros i Hi. rewrite FA in Hi. destruct (Nat.ltb_spec i (total s)); [lia |]. apply andb_true_iff in Hi as [_ Hi]. apply Nat.ltb_lt in Hi. exact Hi. }
    rewrite EN, <- (wk_anc s W), (count_flag (c_anc s) (total s) (wk_anc_range s W)).
    rewrite (filter_ext_in (flag (c_anc s')) (flag (c_anc s)) (seq 0 (total s))).
    2: { intros x Hx%in_seq. rewrite FA. destruct (Nat.ltb_spec x (total s)); [reflexivity | lia]. }
    destruct aq.
    + assert (E : filter (flag (c_anc s')) (seq (0 + total s) n) = seq (0 + total s) n).
      { assert (Q : forall l, (forall x, In x l -> flag (c_anc s') x = true) -> filter (flag (c_anc s')) l = l).
        { induction l as [|x l IH]; simpl; intros H; [reflexivity |]. rewrite H by auto. rewrite IH by auto. reflexivity. }
        apply Q. intros x Hx%in_seq. rewrite FA. destruct (Nat.ltb_spec x (total s)); [lia |]. cbn [andb]. apply Nat.ltb_lt. lia. }
      rewrite E, seq_length. reflexivity.
    + rewrite (filter_none (flag (c_anc s')) (seq (0 + total s) n)); [simpl; lia |].
      intros x Hx%in_seq. rewrite FA. destruct (Nat.ltb_spec x (total s)); [lia | reflexivity].
  - intros i Hi. rewrite FA in Hi. destruct (Nat.ltb_spec i (total s)); [lia |]. apply andb_true_iff in Hi as [_ Hi]. apply Nat.ltb_lt in Hi. lia.
  - intros p l H Hp. apply (Permutation_in _ PL) in H. rewrite in_app_iff, in_diag in H. rewrite FA.
    destruct H as [H | [-> H]].
    + pose proof (log_range s p l W H). destruct (Nat.ltb_spec l (total s)); [| lia]. apply (wk_areg s W p l H).
      rewrite EA in Hp. destruct aq; [| exact Hp]. rewrite flat_map_app, in_app_iff in Hp. destruct Hp as [Hp | Hp]; [exact Hp |].
      simpl in Hp. rewrite app_nil_r in Hp. unfold members in Hp; cbn [fst snd] in Hp. apply in_seq in Hp.
      assert (p < total s) by (apply G; apply in_map_iff; exists (p, l); auto). lia.
    + destruct (Nat.ltb_spec l (total s)); [lia |]. destruct aq; cbn [andb]; [apply Nat.ltb_lt; lia |].
      rewrite EA in Hp. exfalso. assert (Q : In l (map fst (c_lay s))) by (eapply Permutation_in; [apply (wk_regs s W) |]; rewrite flat_map_app, in_app_iff; auto).
      apply G in Q. lia.
  - lia.
  - intros i Hi. rewrite FG in Hi. destruct (Nat.ltb_spec i (total s)); [lia | discriminate].
  - intros p l H. apply (Permutation_in _ PO) in H. rewrite in_app_iff, in_diag in H. rewrite FG.
    destruct (Nat.ltb_spec l (total s)); [| reflexivity]. destruct H as [H | H]; [eapply (wk_gar s W); eauto | lia].
Qed.

Lemma reg_new name (l : cregs) : reg_has name l = false -> ~ In name (map fst l).
Proof. intros H Q. apply reg_has_in in Q. congruence. Qed.

Lemma keep_qubits nr name s s' : well_kept s -> compact s -> addQubitRegister nr name s = ROk s' -> well_kept s' /\ compact s'.
Proof.
  intros W C H. unfold addQubitRegister in H. destruct (reg_has name (c_qregs s)) eqn:E1; [discriminate |].
  destruct (Nat.eqb nr 0); [discriminate |]. destruct (Nat.eqb_spec (c_na s) 0) as [E0 |]; [| discriminate]. cbn [negb] in H. inversion H; subst; clear H.
  apply reg_new in E1. destruct C as (G & LA & LG).
  assert (T : total s = c_nq s) by (unfold total; lia).
  assert (ok : forall k, In k (map fst (c_out s)) -> k < c_nq s) by (intros k Hk; rewrite <- T; apply G; apply (wk_out s W); exact Hk).
  apply (extend s _ nr false name W (conj G (conj LA LG))); rewrite ?T; cbn [c_lay c_out c_qregs c_aregs c_na c_anc c_gar].
  - apply identity_on_new. intros k Hk. rewrite <- T. apply G; exact Hk.
  - apply identity_on_new. exact ok.
  - unfold total; simpl. lia.
  - apply reg_emplace_new; exact E1.
  - reflexivity.
  - exact E1.
  - reflexivity.
  - rewrite resize_length. unfold total; simpl; lia.
  - rewrite resize_length. unfold total; simpl; lia.
  - intros i. rewrite resize_flag. destruct (Nat.ltb_spec i (c_nq s)) as [Q | Q]; destruct (Nat.ltb_spec i (c_nq s + nr + c_na s)); try lia; try reflexivity.
    simpl. apply flag_over. lia.
  - intros i. rewrite resize_flag. destruct (Nat.ltb_spec i (c_nq s)) as [Q | Q]; destruct (Nat.ltb_spec i (c_nq s + nr + c_na s)); try lia; try reflexivity.
    apply flag_over. lia.
Qed.
Lemma memn_seq i t n : memn i (seq t n) = Nat.leb t i && Nat.ltb i (t + n).
Proof.
  apply eq_true_iff_eq. unfold memn. rewrite existsb_exists, andb_true_iff, Nat.leb_le, Nat.ltb_lt. split.
  - intros (x & H & E). apply Nat.eqb_eq in E. subst. apply in_seq in H. lia.
  - intros H. exists i. split; [apply in_seq; lia | apply Nat.eqb_refl].
Qed.
Lemma keep_ancillae nr name s s' : well_kept s -> compact s -> addAncillaryRegister nr name s = ROk s' -> well_kept s' /\ compact s'.
Proof.
  intros W C H. unfold addAncillaryRegister in H. destruct (reg_has name (c_aregs s)) eqn:E1; [discriminate |].
  destruct (Nat.eqb nr 0); [discriminate |]. inversion H; subst; clear H.
  apply reg_new in E1. destruct C as (G & LA & LG).
  assert (ok : forall k, In k (map fst (c_out s)) -> k < total s) by (intros k Hk; apply G; apply (wk_out s W); exact Hk).
  apply (extend s _ nr true name W (conj G (conj LA LG))); cbn [c_lay c_out c_qregs c_aregs c_na c_anc c_gar].
  - apply identity_on_new. exact G.
  - apply identity_on_new. exact ok.
  - unfold total; simpl. lia.
  - reflexivity.
  - apply reg_emplace_new; exact E1.
  - exact E1.
  - reflexivity.
  - rewrite fold_set_length, resize_length. unfold total; simpl; lia.
  - rewrite resize_length. unfold total; simpl; lia.
  - intros i. rewrite fold_set_flag by (intros j Hj%in_seq; rewrite resize_length; lia). rewrite memn_seq, resize_flag.
    destruct (Nat.ltb_spec i (total s)) as [Q | Q], (Nat.leb_spec (total s) i), (Nat.ltb_spec i (total s + nr)); try lia; try reflexivity.
  - intros i. rewrite resize_flag. destruct (Nat.ltb_spec i (total s)) as [Q | Q]; destruct (Nat.ltb_spec i (total s + nr)); try lia; try reflexivity.
    apply flag_over. lia.
Qed.
Lemma keep_bits nr name s s' : well_kept s -> addClassicalRegister nr name s = ROk s' -> well_kept s' /\ (compact s -> compact s').
Proof.
  intros W H. unfold addClassicalRegister in H. destruct (reg_has name (c_bregs s)); [discriminate |]. destruct (Nat.eqb nr 0); [discriminate |].
  inversion H; subst. split; [destruct W; constructor; assumption | intros C; exact C].
Qed.
Lemma keep_emit o s : well_kept s -> well_kept (emit o s) /\ (compact s -> compact (emit o s)).
Proof. intros W. split; [destruct W; constructor; assumption | intros C; exact C]. Qed.

Lemma count_set l v : l < length v -> flag v l = false -> count (set_at l true v) = S (count v).
Proof.
  unfold count, flag. revert l. induction v as [|a v IH]; intros [|l] H F; simpl in *; try lia.
  - subst. reflexivity.
  - destruct a; simpl; rewrite IH by (auto; lia); reflexivity.
Qed.
Lemma keep_ancillary l s : well_kept s -> l < total s ->
  exists s', setLogicalQubitAncillary l s = ROk s' /\ well_kept s' /\ total s' = total s /\ (compact s -> compact s') /\
    (forall i, flag (c_anc s') i = Nat.eqb i l || flag (c_anc s) i) /\
    c_lay s' = c_lay s /\ c_out s' = c_out s /\ c_gar s' = c_gar s /\ c_qregs s' = c_qregs s /\ c_aregs s' = c_aregs s /\ c_ops s' = c_ops s.
Proof.
  intros W H. unfold setLogicalQubitAncillary, vget. assert (LL : l < length (c_anc s)) by (pose proof (wk_anc_len s W); lia).
  rewrite (nth_error_nth' (c_anc s) false LL). cbn [bindr]. fold (flag (c_anc s) l). destruct (flag (c_anc s) l) eqn:F.
  - exists s. split; [reflexivity |]. split; [exact W |]. split; [reflexivity |]. split; [auto |]. split; [| auto 10].
    intros i. destruct (Nat.eqb_spec i l) as [-> | _]; [exact F | reflexivity].
  - destruct (c_nq s) as [|n] eqn:EQ.
    + exfalso. assert (Q : count (c_anc s) = total s) by (rewrite (wk_anc s W); unfold total; lia).
      pose proof (count_set l (c_anc s) LL F) as CS.
      assert (R : forall i, flag (set_at l true (c_anc s)) i = true -> i < total s).
      { intros i. rewrite set_at_flag. destruct (Nat.eqb_spec i l); simpl; [subst; intros; lia | apply (wk_anc_range s W)]. }
      rewrite (count_flag _ _ R) in CS.
      assert (LE : forall f (q : list nat), length (filter f q) <= length q) by (clear; induction q as [|y q IHq]; simpl; [lia |]; destruct (f y); simpl; lia).
      specialize (LE (flag (set_at l true (c_anc s))) (seq 0 (total s))). rewrite seq_length in LE. lia.
    + eexists. split; [reflexivity |].
      assert (T : n + S (c_na s) = total s) by (unfold total; lia).
      assert (FA : forall i, flag (set_at l true (c_anc s)) i = Nat.eqb i l || flag (c_anc s) i).
      { intros i. rewrite set_at_flag. apply Nat.ltb_lt in LL. rewrite LL, andb_true_r. destruct (Nat.eqb i l); reflexivity. }
      split; [| split; [exact T |]; split; [| split; [exact FA | cbn; auto 10]]].
      2: { intros (A & B & C). split; [| split].
           - intros p Hp. apply A in Hp. unfold total; cbn. lia.
           - cbn. rewrite set_at_length. unfold total; cbn. lia.
           - unfold total; cbn. lia. }
      destruct W. constructor; unfold total; cbn [c_lay c_out c_qregs c_aregs c_na c_nq c_anc c_gar]; rewrite ?T, ?set_at_length; auto.
      * rewrite (count_set l (c_anc s) LL F). lia.
      * intros i. rewrite FA. destruct (Nat.eqb_spec i l); simpl; [subst; auto | auto].
      * intros p x H1 H2. rewrite FA. rewrite (wk_areg p x H1 H2). apply orb_true_r.
Qed.
Lemma keep_garbage l s : well_kept s -> l < total s ->
  exists s', setLogicalQubitGarbage l s = ROk s' /\ well_kept s' /\ total s' = total s /\ (compact s -> compact s') /\
    (forall i, flag (c_gar s') i = Nat.eqb i l || flag (c_gar s) i) /\
    (forall p x, In (p, x) (c_out s') <-> In (p, x) (c_out s) /\ x <> l) /\
    c_lay s' = c_lay s /\ c_anc s' = c_anc s /\ c_qregs s' = c_qregs s /\ c_aregs s' = c_aregs s /\ c_ops s' = c_ops s.
Proof.
  intros W H. unfold setLogicalQubitGarbage, vset. assert (LL : l < length (c_gar s)) by (pose proof (wk_gar_len s W); lia).
  pose proof LL as LL'. apply Nat.ltb_lt in LL'. rewrite LL'. cbn [bindr]. eexists. split; [reflexivity |].
  assert (FG : forall i, flag (set_at l true (c_gar s)) i = Nat.eqb i l || flag (c_gar s) i).
  { intros i. rewrite set_at_flag. rewrite LL', andb_true_r. destruct (Nat.eqb i l); reflexivity. }
  assert (EV : forall p x, In (p, x) (erase_value l (c_out s)) <-> In (p, x) (c_out s) /\ x <> l) by (intros; apply erase_value_in; apply (wk_out_log s W)).
  split; [| split; [reflexivity |]; split; [| split; [exact FG |]; split; [exact EV | cbn; auto 10]]].
  2: { intros (A & B & C). split; [exact A |]. split; cbn; rewrite ?set_at_length; assumption. }
  destruct W. constructor; unfold total in *; cbn [c_lay c_out c_qregs c_aregs c_na c_nq c_anc c_gar]; rewrite ?set_at_length; auto.
  - intros x Hx. apply in_map_iff in Hx as (y & E & Hx). apply erase_value_sub in Hx. apply wk_out. apply in_map_iff; eauto.
  - apply erase_value_NoDup; assumption.
  - apply erase_value_NoDup; assumption.
  - intros p x Hx. apply EV in Hx as [Hx _]. eauto.
  - intros i. rewrite FG. destruct (Nat.eqb_spec i l); simpl; [subst; auto | auto].
  - intros p x Hx. apply EV in Hx as [Hx Hn]. rewrite FG. apply Nat.eqb_neq in Hn. rewrite Hn. eauto.
Qed.

Lemma empty_kept : well_kept empty_circ /\ compact empty_circ.
Proof.
  split; [| split; [intros p [] | split; reflexivity]].
  constructor; cbn; try constructor; try (intros; contradiction); auto.
  - intros x [].
  - intros l. unfold flag. destruct l; discriminate.
  - intros l. unfold flag. destruct l; discriminate.
Qed.
Theorem calls_ok : forall cs s s', well_kept s -> compact s -> calls cs s = ROk s' -> well_kept s' /\ compact s'.
Proof.
  induction cs as [|c cs IH]; intros s s' W C H; [inversion H; subst; auto |].
  cbn [calls] in H. destruct (call1 c s) as [s1 | |] eqn:E; try discriminate. cbn [bindr] in H.
  assert (Q : well_kept s1 /\ compact s1); [| destruct Q; eauto].
  destruct c; cbn [call1] in E.
  - eapply keep_qubits; eauto.
  - destruct (keep_bits _ _ _ _ W E); auto.
  - eapply keep_ancillae; eauto.
  - assert (l < total s).
    { unfold setLogicalQubitAncillary, vget in E. destruct (nth_error (c_anc s) l) eqn:N; [| discriminate].
      apply nth_error_Some_lt in N || (assert (N' : nth_error (c_anc s) l <> None) by congruence; apply nth_error_Some in N').
      destruct C as (_ & <- & _). assumption. }
    destruct (keep_ancillary l s W H0) as (s2 & E2 & W2 & _ & C2 & _). rewrite E2 in E. inversion E; subst; auto.
  - assert (l < total s).
    { unfold setLogicalQubitGarbage, vset in E. destruct (Nat.ltb_spec l (length (c_gar s))); [| discriminate].
      destruct C as (_ & _ & <-). assumption. }
    destruct (keep_garbage l s W H0) as (s2 & E2 & W2 & _ & C2 & _). rewrite E2 in E. inversion E; subst; auto.
  - inversion E; subst. destruct (keep_emit o s W); auto.
Qed.
