From Coq Require Import List Arith Bool Lia.
From Verif Require Import MemModel.
Import ListNotations.

Lemma addr_eqb_spec a b : addr_eqb a b = true <-> a = b.
Proof.
  unfold addr_eqb. rewrite andb_true_iff, !Nat.eqb_eq.
  destruct a, b; simpl; split; [intros [-> ->]; reflexivity | inversion 1; auto].
Qed.

Lemma addr_eqb_refl a : addr_eqb a a = true.
Proof. apply addr_eqb_spec; reflexivity. Qed.

Lemma addr_eqb_neq a b : addr_eqb a b = false <-> a <> b.
Proof.
  rewrite <- addr_eqb_spec. destruct (addr_eqb a b); split; congruence.
Qed.

Lemma addr_eq_dec (a b : addr) : {a = b} + {a <> b}.
Proof. decide equality; apply Nat.eq_dec. Qed.

(** An address has been carved out of a chunk already. *)
Definition carved (m : mm) (a : addr) : Prop :=
  (fst a < length (chunks m) - 1 /\ snd a < nth (fst a) (chunks m) 0)
  \/ (fst a = length (chunks m) - 1 /\ snd a < chunkIt m).

Definition sum (l : list nat) : nat := fold_right Nat.add 0 l.

Lemma sum_app l1 l2 : sum (l1 ++ l2) = sum l1 + sum l2.
Proof. induction l1; simpl; lia. Qed.

Lemma last_nth (l : list nat) : last l 0 = nth (length l - 1) l 0.
Proof.
  induction l as [|x [|y l] IH]; simpl in *; auto.
  rewrite Nat.sub_0_r in IH. exact IH.
Qed.

Lemma sum_removelast l : l <> [] -> sum l = sum (removelast l) + last l 0.
Proof.
  intros H. rewrite (app_removelast_last 0 H) at 1. rewrite sum_app. simpl. lia.
Qed.

(** All carved addresses, listed. *)
Fixpoint chunk_addrs (c n : nat) : list addr :=
  match n with 0 => [] | S n' => (c, n') :: chunk_addrs c n' end.

Record MInv (m : mm) (out : list addr) : Prop := {
  i_ne : chunks m <> [];
  i_pos : forall n, In n (chunks m) -> 0 < n;
  i_cur : chunkIt m <= last (chunks m) 0;
  i_carved : forall a, In a (available m) \/ In a out -> carved m a;
  i_nodup : NoDup (available m ++ out);
  i_used : numUsed (stats m) = length out;
  i_reuse : numAvailableForReuse (stats m) = length (available m);
  i_alloc : numAllocated (stats m) = sum (chunks m);
  i_total : length (available m) + length out
            = sum (removelast (chunks m)) + chunkIt m;
  i_peak : numUsed (stats m) <= peakNumUsed (stats m) }.

Lemma minv_init n : 0 < n -> MInv (mm_init n) [].
Proof.
  intros Hn. constructor; simpl; try lia; try congruence; try (now constructor).
Qed.

Lemma remove_addr_in a b l : In b (remove_addr a l) <-> In b l /\ b <> a.
Proof.
  unfold remove_addr. rewrite filter_In, negb_true_iff, addr_eqb_neq.
  intuition congruence.
Qed.

Lemma remove_addr_notin a l : ~ In a l -> remove_addr a l = l.
Proof.
  induction l as [|b l IH]; simpl; intros H; auto.
  destruct (addr_eqb a b) eqn:E; simpl.
  - apply addr_eqb_spec in E. subst. exfalso; apply H; auto.
  - f_equal. apply IH. intros Hi; apply H; auto.
Qed.

Lemma remove_addr_length a l :
  NoDup l -> In a l -> S (length (remove_addr a l)) = length l.
Proof.
  induction l as [|b l IH]; simpl; intros Hn Hi; [destruct Hi|].
  inversion Hn as [|? ? Hb Hl]; subst.
  destruct (addr_eqb a b) eqn:E; simpl.
  - apply addr_eqb_spec in E; subst.
    fold (remove_addr b l). rewrite remove_addr_notin; auto.
  - destruct Hi as [->|Hi]; [rewrite addr_eqb_refl in E; discriminate|].
    f_equal. apply IH; auto.
Qed.

Lemma NoDup_filter' {A} (f : A -> bool) l : NoDup l -> NoDup (filter f l).
Proof.
  induction l as [|x l IH]; simpl; intros H; [constructor|].
  inversion H; subst. destruct (f x); auto.
  constructor; auto. rewrite filter_In. tauto.
Qed.

Lemma NoDup_app_l {A} (l1 l2 : list A) : NoDup (l1 ++ l2) -> NoDup l1.
Proof.
  induction l1; simpl; intros H; [constructor|]. inversion H; subst.
  constructor; auto. rewrite in_app_iff in *. tauto.
Qed.

Lemma NoDup_app_r {A} (l1 l2 : list A) : NoDup (l1 ++ l2) -> NoDup l2.
Proof. induction l1; simpl; intros H; auto. inversion H; auto. Qed.

Lemma NoDup_app_disj {A} (l1 l2 : list A) x :
  NoDup (l1 ++ l2) -> In x l1 -> In x l2 -> False.
Proof.
  induction l1; simpl; intros H Hi H2; [destruct Hi|].
  inversion H; subst. destruct Hi as [->|Hi]; auto.
  rewrite in_app_iff in *. tauto.
Qed.

Lemma NoDup_app_intro {A} (l1 l2 : list A) :
  NoDup l1 -> NoDup l2 -> (forall x, In x l1 -> In x l2 -> False) ->
  NoDup (l1 ++ l2).
Proof.
  induction l1; simpl; intros H1 H2 Hd; auto. inversion H1; subst.
  constructor; [|apply IHl1; eauto].
  rewrite in_app_iff. intros [|]; eauto.
Qed.

Lemma in_app_single {A} (l : list A) x y : In y (l ++ [x]) <-> In y l \/ y = x.
Proof. rewrite in_app_iff; simpl; intuition congruence. Qed.

Lemma chunk_get m out a m' :
  MInv m out -> available m = [] ->
  getEntryFromChunk m = Some (a, m') -> MInv m' (a :: out) /\ ~ In a out.
Proof.
  intros I Hav H. unfold getEntryFromChunk in H.
  destruct (entryAvailableInChunk m) eqn:E; [|discriminate].
  unfold entryAvailableInChunk in E.
  apply negb_true_iff, Nat.eqb_neq in E.
  inversion H; subst; clear H.
  destruct I as [Hne Hpos Hcur Hcv Hnd Hu Hr Ha Ht Hp].
  rewrite Hav in *. simpl in *.
  assert (Hfresh : ~ In (length (chunks m) - 1, chunkIt m) out).
  { intros Hi. specialize (Hcv _ (or_intror Hi)).
    unfold carved in Hcv; simpl in Hcv. lia. }
  split; [|assumption].
  constructor; simpl; auto; try lia.
  - rewrite ?Hav. intros b [Hb|[<-|Hi]]; [destruct Hb| right; simpl; lia |].
    destruct (Hcv _ (or_intror Hi)) as [H|H]; [left; exact H | right; simpl; lia].
  - rewrite ?Hav. simpl. constructor; assumption.
  all: rewrite ?Hav; simpl; lia.
Qed.

Lemma minv_newchunk m out :
  MInv m out -> entryAvailableInChunk m = false -> MInv (allocateNewChunk m) out.
Proof.
  intros [Hne Hpos Hcur Hcv Hnd Hu Hr Ha Ht Hp] E.
  unfold entryAvailableInChunk in E.
  apply negb_false_iff, Nat.eqb_eq in E.
  constructor; simpl; auto.
  - destruct (chunks m); discriminate.
  - intros n Hn. apply in_app_single in Hn. destruct Hn as [Hn| ->]; auto.
    assert (0 < last (chunks m) 0); [|lia].
    apply Hpos. rewrite (app_removelast_last 0 Hne) at 2. apply in_app_single; auto.
  - lia.
  - intros a H. specialize (Hcv a H). unfold carved in *; simpl.
    rewrite app_length; simpl. rewrite last_nth in E.
    assert (length (chunks m) > 0) by (destruct (chunks m); simpl; [congruence|lia]).
    left. destruct Hcv as [[H1 H2]|[H1 H2]].
    + split; [lia|]. rewrite app_nth1 by lia. assumption.
    + split; [lia|]. rewrite app_nth1 by lia. rewrite H1. lia.
  - rewrite sum_app; simpl. lia.
  - rewrite removelast_last. rewrite Ht. rewrite E.
    rewrite (sum_removelast _ Hne). lia.
Qed.

Lemma mm_get_ok m out :
  MInv m out ->
  exists a m', mm_get m = Some (a, m') /\ MInv m' (a :: out) /\ ~ In a out.
Proof.
  intros I. unfold mm_get.
  destruct (available m) as [|a rest] eqn:Hav.
  - destruct (entryAvailableInChunk m) eqn:E.
    + unfold getEntryFromChunk. rewrite E. eexists _, _; split; [reflexivity|].
      eapply chunk_get; eauto. unfold getEntryFromChunk. rewrite E. reflexivity.
    + pose proof (minv_newchunk _ _ I E) as I'.
      assert (E' : entryAvailableInChunk (allocateNewChunk m) = true).
      { unfold entryAvailableInChunk. apply negb_true_iff, Nat.eqb_neq. simpl.
        rewrite last_last.
        assert (0 < last (chunks m) 0); [|lia].
        apply (i_pos _ _ I). rewrite (app_removelast_last 0 (i_ne _ _ I)) at 2.
        apply in_app_single; auto. }
      unfold getEntryFromChunk. rewrite E'. eexists _, _; split; [reflexivity|].
      eapply chunk_get; eauto. unfold getEntryFromChunk. rewrite E'. reflexivity.
  - eexists _, _; split; [reflexivity|].
    destruct I as [Hne Hpos Hcur Hcv Hnd Hu Hr Ha Ht Hp].
    rewrite Hav in *. simpl in *.
    inversion Hnd as [|? ? Hn1 Hn2]; subst.
    rewrite in_app_iff in Hn1.
    split; [|tauto].
    constructor; simpl; auto; try lia.
    + intros b [Hb|[<-|Hb]]; apply Hcv; auto.
    + apply NoDup_app_intro; [eapply NoDup_app_l; eauto| |].
      * constructor; [tauto|eapply NoDup_app_r; eauto].
      * intros x Hx [<-|Hy]; [tauto|eapply NoDup_app_disj; eauto].
Qed.

Lemma mm_return_ok m out a :
  MInv m out -> In a out -> MInv (mm_return a m) (remove_addr a out).
Proof.
  intros [Hne Hpos Hcur Hcv Hnd Hu Hr Ha Ht Hp] Hin.
  pose proof (remove_addr_length a out (NoDup_app_r _ _ Hnd) Hin) as Hl.
  constructor; simpl; auto; try lia.
  - intros b [[<-|Hb]|Hb]; apply Hcv; auto.
    right. apply remove_addr_in in Hb. tauto.
  - constructor.
    + rewrite in_app_iff, remove_addr_in. intros [H|[_ H]]; [|congruence].
      eapply NoDup_app_disj; eauto.
    + apply NoDup_app_intro;
        [eapply NoDup_app_l; eauto|apply NoDup_filter'; eapply NoDup_app_r; eauto|].
      intros x Hx Hy. apply remove_addr_in in Hy. eapply NoDup_app_disj; eauto. tauto.
Qed.

Lemma hd_in (l : list nat) d : l <> [] -> In (hd d l) l.
Proof. destruct l; simpl; [congruence|auto]. Qed.

Lemma sum_pos l : l <> [] -> (forall n, In n l -> 0 < n) -> 0 < sum l.
Proof.
  destruct l as [|x l]; simpl; [congruence|]. intros _ H.
  specialize (H x (or_introl eq_refl)). lia.
Qed.

Lemma mm_reset_ok m out b : MInv m out -> MInv (mm_reset b m) [].
Proof.
  intros [Hne Hpos Hcur Hcv Hnd Hu Hr Ha Ht Hp].
  constructor; simpl; auto; try lia; try congruence; try (now constructor).
  - intros n [<-|[]]. destruct b.
    + rewrite Ha. apply sum_pos; auto.
    + apply Hpos, hd_in; auto.
Qed.

Lemma existsb_in a out : existsb (addr_eqb a) out = true <-> In a out.
Proof.
  rewrite existsb_exists. split.
  - intros [x [Hx He]]. apply addr_eqb_spec in He. subst; auto.
  - intros H. exists a. split; auto. apply addr_eqb_refl.
Qed.

Lemma mstep_ok m out o :
  MInv m out -> exists m' out', mstep (m, out) o = Some (m', out') /\ MInv m' out'.
Proof.
  intros I. destruct o as [|a|b]; simpl.
  - destruct (mm_get_ok _ _ I) as (a & m' & -> & I' & _). eauto.
  - destruct (existsb (addr_eqb a) out) eqn:E.
    + apply existsb_in in E. eexists _, _. split; [reflexivity|].
      apply mm_return_ok; assumption.
    + eauto.
  - eexists _, _. split; [reflexivity|]. eapply mm_reset_ok; eauto.
Qed.

Lemma mrun_ok ops : forall m out,
  MInv m out -> exists m' out', mrun ops (m, out) = Some (m', out') /\ MInv m' out'.
Proof.
  induction ops as [|o ops IH]; intros m out I; cbn [mrun].
  - eauto.
  - destruct (mstep_ok m out o I) as (m1 & out1 & -> & I1). apply IH; assumption.
Qed.

Lemma mrun_total n ops : 0 < n ->
  exists m out, mrun ops (mm_init n, []) = Some (m, out) /\ MInv m out.
Proof. intros H. apply mrun_ok, minv_init, H. Qed.
