(** The last operation on its qubits, circuits from compound operations, appended
    operations. *)
From Coq Require Import String List Arith Bool NArith Permutation Lia.
From Verif Require Import Cplx Qsem GateModel GateSpec IRModel IRSpec IRProofs OptModel OptProofs OptSem OptFinalProofs ReorderSpec ReorderSemProofs
  QasmIfModel CircModel QueryModel CircSpec CircProofs CircKeepProofs CircStripProofs CircBuildProofs CircIOProofs QuerySpec QueryProofs.
Import ListNotations.
Local Open Scope list_scope.

(** ** Qubits of an operation *)
Lemma used_uses o : forall q, In q (used o) -> uses o q.
Proof.
  induction o as [s|qs cs|qs|k o IHo|cu l H] using cop_rect'; intros q I.
  - cbn [used] in I. apply in_app_iff in I as [I|I]; [now apply uses_target|]. apply in_map_iff in I as ([x p] & <- & I). eapply uses_control. exact I.
  - now apply uses_measure.
  - now apply uses_reset.
  - apply uses_class. apply IHo. cbn [used] in I. destruct o; auto. destruct I.
  - cbn [used] in I. apply in_flat_map in I as (x & I & J). rewrite Forall_forall in H. eapply uses_comp; eauto.
Qed.
Lemma local_uses o : local o -> forall q, uses o q -> In q (used o).
Proof.
  induction o as [s|qs cs|qs|k o IHo|cu l H] using cop_rect'; intros Lo q U; inversion U; subst; cbn [used]; auto.
  - apply in_app_iff. auto.
  - apply in_app_iff. right. apply in_map_iff. exists (q, pol). auto.
  - cbn [local] in Lo. destruct o; auto.
  - apply local_comp in Lo. rewrite Forall_forall in H, Lo. apply in_flat_map. eauto.
Qed.
Lemma qubits_uses o : forall q, In q (qubits o) <-> uses o q.
Proof.
  induction o as [s|qs cs|qs|k o IHo|cu l H] using cop_rect'; intros q; cbn [qubits].
  - rewrite in_app_iff, in_map_iff. split.
    + intros [I|([x p] & <- & I)]; [now apply uses_target|eapply uses_control; exact I].
    + intros U. inversion U; subst; auto. right. exists (q, pol). auto.
  - split; [apply uses_measure|intros U; inversion U; auto].
  - split; [apply uses_reset|intros U; inversion U; auto].
  - rewrite IHo. split; [apply uses_class|intros U; inversion U; auto].
  - rewrite in_flat_map. rewrite Forall_forall in H. split.
    + intros (x & I & J). apply H in J; auto. eapply uses_comp; eauto.
    + intros U. inversion U; subst. exists o. split; auto. apply H; auto.
Qed.

(** ** isLastOperationOnQubit *)
Lemma is_last_ok n o rest : is_last n o rest = true <-> forall p q, In p rest -> q < n -> uses o q -> ~ uses p q.
Proof.
  unfold is_last. rewrite negb_true_iff. split.
  - intros H p q I Q U V. apply cacts_uses in U, V.
    assert (X : existsb (fun p => existsb (fun i => nth i (map (cacts o) (seq 0 n)) false && cacts p i) (seq 0 n)) rest = true); [|congruence].
    apply existsb_exists. exists p. split; auto. apply existsb_exists. exists q. split; [apply in_seq; lia|].
    rewrite V, andb_true_r. rewrite (nth_indep _ false (cacts o 0)) by (rewrite map_length, seq_length; auto). rewrite map_nth, seq_nth by auto. exact U.
  - intros H. destruct (existsb _ rest) eqn:E; auto. exfalso. apply existsb_exists in E as (p & I & E). apply existsb_exists in E as (q & J & E).
    apply in_seq in J. apply andb_true_iff in E as [E1 E2].
    rewrite (nth_indep _ false (cacts o 0)) in E1 by (rewrite map_length, seq_length; lia). rewrite map_nth, seq_nth in E1 by lia.
    apply (H p q); auto; try lia; now apply cacts_uses.
Qed.
Lemma move_last o rest : local o -> Forall local rest -> (forall p, In p rest -> disjoint o p /\ no_race o p) -> same_dist (o :: rest) (rest ++ [o]).
Proof.
  intros Lo. induction rest as [|p rest IH]; intros L H; [apply sd_refl|]. inversion L; subst. simpl.
  apply (sd_trans _ (p :: o :: rest)).
  - change (same_dist ([o; p] ++ rest) ([p; o] ++ rest)). destruct (H p (or_introl eq_refl)). apply sd_app; [now apply exchange|apply sd_refl].
  - apply sd_cons. apply IH; auto. intros x I. apply H. simpl. auto.
Qed.

(** ** fromCompoundOperation *)
Lemma maxl_ok l : forall a, a <= maxl l a /\ forall x, In x l -> x <= maxl l a.
Proof.
  unfold maxl. induction l as [|y l IH]; intros a; simpl; [split; [lia|intros x []]|]. destruct (IH (Nat.max a y)) as [A B]. split; [lia|].
  intros x [<-|I]; [lia|auto].
Qed.
Definition top_bits (o : cop) : list nat := match o with OMeas _ cs => cs | _ => [] end.
Lemma from_loop_ok l : forall s mq mb, exists mq' mb', 
  from_loop l s mq mb = (fold_left (fun s o => emit (clone_op o) s) l s, (mq', mb')) /\ mq <= mq' /\ mb <= mb' /\
  (forall o q, In o l -> In q (used o) -> q <= mq') /\ (forall o c, In o l -> In c (top_bits o) -> c <= mb').
Proof.
  induction l as [|g l IH]; intros s mq mb; cbn [from_loop].
  - exists mq, mb. split; [reflexivity|]. split; [lia|]. split; [lia|]. split; intros o q I; destruct I.
  - destruct (IH (emitted (clone_op g) s) (maxl (used g) mq) (match g with OMeas _ cs => maxl cs mb | _ => mb end)) as (mq' & mb' & E & A & B & Q & C).
    exists mq', mb'. split; [exact E|]. pose proof (maxl_ok (used g) mq) as [M1 M2]. split; [lia|].
    assert (MB : mb <= (match g with OMeas _ cs => maxl cs mb | _ => mb end) /\ forall c, In c (top_bits g) -> c <= match g with OMeas _ cs => maxl cs mb | _ => mb end).
    { destruct g; cbn [top_bits]; [| exact (maxl_ok cs mb) | | |]; (split; [lia|intros ? I; destruct I]). }
    destruct MB as [MB1 MB2]. split; [lia|]. split.
    + intros o q [<-|I] J; [specialize (M2 q J); lia|eauto].
    + intros o c [<-|I] J; [specialize (MB2 c J); lia|eauto].
Qed.
Lemma fold_emit l : forall s, let s' := fold_left (fun s o => emit (clone_op o) s) l s in c_ops s' = c_ops s ++ map clone_op l /\ c_lay s' = c_lay s /\
  c_nq s' = c_nq s /\ c_na s' = c_na s /\ c_nc s' = c_nc s /\ c_qregs s' = c_qregs s /\ c_bregs s' = c_bregs s /\ calls (map CEmit (map clone_op l)) s = ROk s'.
Proof.
  induction l as [|o l IH]; intros s; simpl; [rewrite app_nil_r; repeat split|].
  destruct (IH (emit (clone_op o) s)) as (A & B & C & D & E & F & G & H). cbn [emit c_ops c_lay c_nq c_na c_nc c_qregs c_bregs] in *.
  rewrite A, <- app_assoc. repeat split; auto.
Qed.
Lemma clone_uses o : forall q, uses (clone_op o) q <-> uses o q.
Proof.
  induction o as [s|qs cs|qs|k o IHo|cu l H] using cop_rect'; intros q; cbn [clone_op]; try tauto.
  - split; intros U; inversion U; subst; apply uses_class; apply IHo; auto.
  - rewrite Forall_forall in H. split; intros U; inversion U; subst.
    + match goal with K : In _ (map _ _) |- _ => apply in_map_iff in K as (x & <- & I) end. eapply uses_comp; eauto. apply H; auto.
    + eapply uses_comp; [apply in_map; eauto|]. apply H; auto.
Qed.
Lemma clone_writes o : cwrites (clone_op o) = cwrites o.
Proof.
  induction o as [s|qs cs|qs|k o IHo|cu l H] using cop_rect'; simpl; auto. induction H as [|x l E _ IH]; simpl; auto. now rewrite E, IH.
Qed.
Lemma clone_reads o : creads (clone_op o) = creads o.
Proof.
  induction o as [s|qs cs|qs|k o IHo|cu l H] using cop_rect'; simpl; auto.
  - rewrite IHo. f_equal. destruct k; reflexivity.
  - induction H as [|x l E _ IH]; simpl; auto. now rewrite E, IH.
Qed.
Lemma calls_app a : forall b s, calls (a ++ b) s = bindr (calls a s) (calls b).
Proof. induction a as [|c a IH]; intros b s; simpl; auto. destruct (call1 c s); simpl; auto. Qed.
(** Bits are written by measurements at the top only, and not read. *)
Definition tame (o : cop) : Prop := local o /\ creads o = [] /\ cwrites o = top_bits o.
Theorem from_compound_ok l : exists s, fromCompoundOperation l = ROk s /\ well_kept s /\ gapless s /\ c_ops s = map clone_op l /\
  (Forall tame l -> Forall (at_home s) (c_ops s)).
Proof.
  unfold fromCompoundOperation. destruct (from_loop_ok l empty_circ 0 0) as (mq & mb & -> & _ & _ & Q & C).
  destruct (fold_emit l empty_circ) as (A & B & D & E & F & G & H & K).
  set (s0 := fold_left (fun s o => emit (clone_op o) s) l empty_circ) in *. cbn in A, B, D, E, F, G, H.
  assert (R : exists s1, addQubitRegister (mq + 1) "q"%string s0 = ROk s1 /\ c_lay s1 = identity_on 0 (mq + 1) [] /\ c_ops s1 = map clone_op l /\ c_bregs s1 = [] /\ c_nc s1 = 0).
  { unfold addQubitRegister. rewrite G, E. cbn [reg_has existsb]. rewrite Nat.add_1_r. cbn [Nat.eqb negb]. eexists. split; [reflexivity|]. cbn [c_lay c_ops c_bregs c_nc].
    rewrite A, B, D, F, H. auto. }
  destruct R as (s1 & R1 & R2 & R3 & R4 & R5). rewrite R1. cbn [bindr].
  assert (R' : exists s2, addClassicalRegister (mb + 1) "c"%string s1 = ROk s2 /\ c_lay s2 = c_lay s1 /\ c_ops s2 = c_ops s1 /\ c_nc s2 = mb + 1).
  { unfold addClassicalRegister. rewrite R4. cbn [reg_has existsb]. rewrite Nat.add_1_r. cbn [Nat.eqb]. eexists. split; [reflexivity|]. cbn [c_lay c_ops c_nc]. rewrite R5. auto. }
  destruct R' as (s2 & S1 & S2 & S3 & S4). exists s2. split; auto.
  assert (T : calls (map CEmit (map clone_op l) ++ [CQubits (mq + 1) "q"; CBits (mb + 1) "c"]) empty_circ = ROk s2).
  { rewrite calls_app, K. cbn [bindr calls call1]. rewrite R1. cbn [bindr]. rewrite S1. reflexivity. }
  destruct empty_kept as [W0 C0]. destruct (calls_ok _ _ _ W0 C0 T) as [W [Ga _]]. split; auto. split; auto. split; [congruence|].
  intros X. apply Forall_forall. intros o I. rewrite S3, R3 in I. apply in_map_iff in I as (g & <- & I). rewrite Forall_forall in X. destruct (X g I) as (L & Rd & Wr). split.
  - intros q U. apply (proj1 (clone_uses g q)) in U. apply local_uses in U; auto. specialize (Q g q I U).
    rewrite S2, R2. eapply Permutation_in; [apply Permutation_sym, Permutation_map, identity_on_new; intros k []|]. rewrite app_nil_l, map_map. cbn [fst].
    rewrite map_id. apply in_seq. lia.
  - intros c J. rewrite clone_reads, clone_writes, Rd, Wr in J. rewrite S4. specialize (C g c I J). lia.
Qed.
