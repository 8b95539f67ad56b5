(** Proofs about the bookkeeping of circuits: lists, flags and registers. *)
From Coq Require Import String List Arith Bool Permutation Lia.
From Verif Require Import GateModel IRModel OptModel QasmIfModel CircModel CircSpec.
Import ListNotations.
Local Open Scope list_scope.

(** ** Flags *)
Lemma flag_over l i : length l <= i -> flag l i = false.
Proof. intros H; unfold flag; apply nth_overflow; exact H. Qed.
Lemma flag_lt l i : flag l i = true -> i < length l.
Proof. intros H; destruct (lt_dec i (length l)); [assumption |]. rewrite flag_over in H by lia; discriminate. Qed.
Lemma filter_ext_in2 {A} (f g : A -> bool) l : (forall x, In x l -> f x = g x) -> filter f l = filter g l.
Proof. apply filter_ext_in. Qed.
Lemma filter_none {A} (f : A -> bool) l : (forall x, In x l -> f x = false) -> filter f l = [].
Proof. induction l as [|a l IH]; simpl; intros H; [reflexivity |]. rewrite (H a) by auto. apply IH; auto. Qed.
Lemma count_len l : count l = length (filter (flag l) (seq 0 (length l))).
Proof.
  unfold count. induction l as [|a l IH]; [reflexivity |].
  cbn [length seq filter]. rewrite <- seq_shift.
  assert (E : filter (flag (a :: l)) (map S (seq 0 (length l))) = map S (filter (flag l) (seq 0 (length l)))).
  { clear. generalize (seq 0 (length l)); intros q. induction q as [|x q IH]; [reflexivity |]. cbn [map filter].
    change (flag (a :: l) (S x)) with (flag l x). destruct (flag l x); cbn [map]; rewrite IH; reflexivity. }
  rewrite E. change (flag (a :: l) 0) with a. destruct a; cbn [length]; rewrite map_length, IH; reflexivity.
Qed.
Lemma count_flag l N : (forall i, flag l i = true -> i < N) -> count l = length (filter (flag l) (seq 0 N)).
Proof.
  intros H. rewrite count_len.
  destruct (le_ge_dec N (length l)) as [L | L].
  - replace (length l) with (N + (length l - N)) by lia. rewrite seq_app, filter_app, app_length.
    rewrite (filter_none (flag l) (seq (0 + N) _)); [simpl; lia |].
    intros x Hx%in_seq. destruct (flag l x) eqn:E; [| reflexivity]. apply H in E; lia.
  - replace N with (length l + (N - length l)) by lia. rewrite seq_app, filter_app, app_length.
    rewrite (filter_none (flag l) (seq (0 + length l) _)); [simpl; lia |].
    intros x Hx%in_seq. apply flag_over; lia.
Qed.
Lemma set_at_length i v l : length (set_at i v l) = length l.
Proof. revert i; induction l as [|a l IH]; intros [|i]; simpl; auto. Qed.
Lemma set_at_flag l : forall i v j, flag (set_at i v l) j = if Nat.eqb j i && Nat.ltb i (length l) then v else flag l j.
Proof.
  unfold flag. induction l as [|a l IH]; intros i v j.
  - simpl. rewrite andb_false_r. destruct i; reflexivity.
  - destruct i as [|i], j as [|j]; simpl; try reflexivity.
    rewrite IH. reflexivity.
Qed.
Lemma resize_length n l : length (resize n l) = n.
Proof. unfold resize. rewrite app_length, firstn_length, repeat_length. lia. Qed.
Lemma nth_firstn {A} (d : A) : forall n l i, i < n -> nth i (firstn n l) d = nth i l d.
Proof. induction n as [|n IH]; intros [|a l] [|i] H; simpl; auto; try lia. apply IH; lia. Qed.
Lemma resize_flag n l i : flag (resize n l) i = if Nat.ltb i n then flag l i else false.
Proof.
  destruct (Nat.ltb_spec i n) as [H | H].
  - unfold flag, resize. destruct (lt_dec i (length (firstn n l))) as [L | L].
    + rewrite app_nth1 by exact L. apply nth_firstn; exact H.
    + rewrite app_nth2 by lia. rewrite nth_repeat. rewrite firstn_length in L. symmetry. apply nth_overflow. lia.
  - apply flag_over. rewrite resize_length; exact H.
Qed.
Lemma nth_map_seq {A} (g : nat -> A) d n i : i < n -> nth i (map g (seq 0 n)) d = g i.
Proof.
  intros H. rewrite nth_indep with (d' := g 0) by (rewrite map_length, seq_length; exact H).
  rewrite map_nth, seq_nth by exact H. reflexivity.
Qed.
Lemma shift_down_flag l t v v' : shift_down l t v = ROk v' -> (forall i, flag v i = true -> i < S t) -> l <= t ->
  length v' = length v /\ forall i, flag v' i = if Nat.ltb i l then flag v i else flag v (S i).
Proof.
  intros H R L. unfold shift_down in H. destruct (Nat.ltb_spec t (length v)); [| discriminate]. inversion H; subst v'; clear H.
  split; [rewrite map_length, seq_length; reflexivity |].
  assert (N : forall i, S t <= i -> flag v i = false).
  { intros i Hi. destruct (flag v i) eqn:E; [| reflexivity]. apply R in E; lia. }
  intros i. destruct (lt_dec i (length v)) as [Hi | Hi].
  - unfold flag at 1. rewrite nth_map_seq by exact Hi.
    destruct (Nat.ltb_spec i l); [reflexivity |]. destruct (Nat.ltb_spec i t); [reflexivity |].
    rewrite (N (S i)) by lia. destruct (Nat.eqb_spec i t); [reflexivity |]. apply N; lia.
  - rewrite flag_over by (rewrite map_length, seq_length; lia).
    destruct (Nat.ltb_spec i l); symmetry; apply flag_over; lia.
Qed.
Lemma shift_down_count v v' l t : (forall i, flag v i = true -> i < S t) -> l <= t ->
  (forall i, flag v' i = if Nat.ltb i l then flag v i else flag v (S i)) ->
  count v = (if flag v l then 1 else 0) + count v'.
Proof.
  intros R L E.
  assert (R' : forall i, flag v' i = true -> i < t).
  { intros i Hi. rewrite E in Hi. destruct (Nat.ltb_spec i l); [lia |]. apply R in Hi; lia. }
  rewrite (count_flag v (S t) R), (count_flag v' t R').
  replace (S t) with (l + (1 + (t - l))) by lia. replace t with (l + (t - l)) at 2 by lia.
  rewrite !seq_app, !filter_app, !app_length. cbn [seq Nat.add].
  assert (A : filter (flag v') (seq 0 l) = filter (flag v) (seq 0 l)).
  { apply filter_ext_in. intros x Hx%in_seq. rewrite E. destruct (Nat.ltb_spec x l); [reflexivity | lia]. }
  assert (B : length (filter (flag v') (seq l (t - l))) = length (filter (flag v) (seq (l + 1) (t - l)))).
  { replace (l + 1) with (S l) by lia. rewrite <- seq_shift.
    assert (Q : forall q, (forall x, In x q -> l <= x) -> length (filter (flag v') q) = length (filter (flag v) (map S q))).
    { induction q as [|x q IH]; intros Hq; [reflexivity |]. cbn [filter map]. rewrite E.
      destruct (Nat.ltb_spec x l) as [H1 | H1]; [specialize (Hq x (or_introl eq_refl)); lia |].
      destruct (flag v (S x)); cbn [length]; rewrite IH; auto; intros y Hy; apply Hq; right; exact Hy. }
    apply Q. intros x Hx%in_seq; lia. }
  rewrite A, B. cbn [filter]. destruct (flag v l); cbn [length]; lia.
Qed.

(** ** Maps *)
Lemma memplace_new k v m : ~ In k (map fst m) -> Permutation (memplace k v m) ((k, v) :: m).
Proof.
  induction m as [|[a b] r IH]; simpl; intros H; [reflexivity |].
  destruct (Nat.ltb_spec k a); [reflexivity |].
  destruct (Nat.eqb_spec k a) as [-> | N]; [exfalso; auto |].
  rewrite IH by tauto. apply perm_swap.
Qed.
Lemma identity_on_new : forall n t m, (forall k, In k (map fst m) -> k < t) ->
  Permutation (identity_on t n m) (m ++ map (fun j => (j, j)) (seq t n)).
Proof.
  unfold identity_on. induction n as [|n IH]; intros t m H; [simpl; rewrite app_nil_r; reflexivity |].
  cbn [seq fold_left map].
  assert (F : ~ In t (map fst m)) by (intros HI; apply H in HI; lia).
  rewrite IH.
  - rewrite (memplace_new t t m F). rewrite <- Permutation_middle. reflexivity.
  - intros k Hk. apply (Permutation_in _ (Permutation_map fst (memplace_new t t m F))) in Hk.
    cbn [map] in Hk. destruct Hk as [Hk | Hk]; [simpl in Hk; lia | apply H in Hk; lia].
Qed.
Lemma merase_in k m p l : In (p, l) (merase k m) <-> In (p, l) m /\ p <> k.
Proof. unfold merase. rewrite filter_In. simpl. rewrite negb_true_iff, Nat.eqb_neq. tauto. Qed.
Lemma merase_keys k m : ~ In k (map fst (merase k m)).
Proof. intros H. apply in_map_iff in H as ([p l] & E & H). simpl in E; subst. apply merase_in in H. tauto. Qed.
Lemma NoDup_map_filter {A B} (f : A -> B) g l : NoDup (map f l) -> NoDup (map f (filter g l)).
Proof.
  induction l as [|a l IH]; simpl; intros H; [constructor |]. inversion H; subst.
  destruct (g a); simpl; [constructor |]; auto.
  intros HI. apply H2. apply in_map_iff in HI as (x & E & HI). apply filter_In in HI as [HI _]. apply in_map_iff; eauto.
Qed.
Lemma merase_absent k m : ~ In k (map fst m) -> merase k m = m.
Proof.
  induction m as [|[c d] r IH]; intros H; [reflexivity |]. unfold merase in *. simpl in *.
  destruct (Nat.eqb_spec c k); [exfalso; auto |]. simpl. rewrite IH by tauto. reflexivity.
Qed.
Lemma merase_one p l m : NoDup (map fst m) -> In (p, l) m -> Permutation m ((p, l) :: merase p m).
Proof.
  induction m as [|[a b] r IH]; intros N H; [contradiction H |]. inversion N as [|x y H2 H3]; subst.
  destruct H as [H | H].
  - inversion H; subst. replace (merase p ((p, l) :: r)) with (merase p r) by (unfold merase; simpl; rewrite Nat.eqb_refl; reflexivity).
    rewrite merase_absent by exact H2. reflexivity.
  - assert (Na : a <> p) by (intros ->; apply H2; apply in_map_iff; exists (p, l); auto).
    replace (merase p ((a, b) :: r)) with ((a, b) :: merase p r) by (unfold merase; simpl; apply Nat.eqb_neq in Na; rewrite Na; reflexivity).
    rewrite (IH H3 H) at 1. apply perm_swap.
Qed.
Lemma key_unique (m : perm) p a b : NoDup (map fst m) -> In (p, a) m -> In (p, b) m -> a = b.
Proof.
  induction m as [|[c d] r IH]; simpl; intros N H1 H2; [tauto |]. inversion N; subst.
  destruct H1 as [H1 | H1], H2 as [H2 | H2].
  - congruence.
  - inversion H1; subst. exfalso. apply H3. apply in_map_iff; exists (p, b); auto.
  - inversion H2; subst. exfalso. apply H3. apply in_map_iff; exists (p, a); auto.
  - auto.
Qed.
Lemma val_unique (m : perm) p q a : NoDup (map snd m) -> In (p, a) m -> In (q, a) m -> p = q.
Proof.
  induction m as [|[c d] r IH]; simpl; intros N H1 H2; [tauto |]. inversion N; subst.
  destruct H1 as [H1 | H1], H2 as [H2 | H2].
  - congruence.
  - inversion H1; subst. exfalso. apply H3. apply in_map_iff; exists (q, a); auto.
  - inversion H2; subst. exfalso. apply H3. apply in_map_iff; exists (p, a); auto.
  - auto.
Qed.
Lemma plookup_in (m : perm) p l : plookup m p = Some l -> In (p, l) m.
Proof.
  induction m as [|[a b] r IH]; simpl; [discriminate |]. destruct (Nat.eqb_spec p a) as [-> | N].
  - intros E; inversion E; auto.
  - auto.
Qed.
Lemma in_plookup (m : perm) p l : NoDup (map fst m) -> In (p, l) m -> plookup m p = Some l.
Proof.
  induction m as [|[a b] r IH]; simpl; intros N H; [tauto |]. inversion N; subst.
  destruct (Nat.eqb_spec p a) as [-> | Na].
  - destruct H as [H | H]; [inversion H; reflexivity |]. exfalso. apply H2. apply in_map_iff; exists (a, l); auto.
  - destruct H as [H | H]; [inversion H; congruence |]. auto.
Qed.
Lemma erase_value_in m : forall l p x, NoDup (map snd m) -> (In (p, x) (erase_value l m) <-> In (p, x) m /\ x <> l).
Proof.
  induction m as [|[a b] r IH]; simpl; intros l p x N; [tauto |]. inversion N; subst.
  destruct (Nat.eqb_spec b l) as [-> | Nb].
  - split; [intros H; split; [auto |] | intros [[H | H] Hx]; [inversion H; congruence | exact H]].
    intros ->. apply H1. apply in_map_iff; exists (p, l); auto.
  - simpl. rewrite IH by assumption. split.
    + intros [H | [H Hx]]; [inversion H; subst; auto | auto].
    + tauto.
Qed.
Lemma erase_value_sub m l : incl (erase_value l m) m.
Proof. induction m as [|[a b] r IH]; simpl; [apply incl_refl |]. destruct (Nat.eqb b l); [apply incl_tl, incl_refl |]. intros y [-> | Hy]; [left; reflexivity | right; apply IH; exact Hy]. Qed.
Lemma erase_value_NoDup {B} (f : nat * nat -> B) l m : NoDup (map f m) -> NoDup (map f (erase_value l m)).
Proof.
  induction m as [|[a b] r IH]; simpl; intros H; [constructor |]. inversion H; subst.
  destruct (Nat.eqb b l); [assumption |]. simpl. constructor; [| auto].
  intros HI. apply H2. apply in_map_iff in HI as (y & E & HI). apply erase_value_sub in HI. apply in_map_iff; eauto.
Qed.

(** ** Registers *)
Lemma reg_has_in name (l : cregs) : reg_has name l = true <-> In name (map fst l).
Proof.
  unfold reg_has. rewrite existsb_exists. rewrite in_map_iff. split.
  - intros (r & H & E). apply String.eqb_eq in E. eauto.
  - intros (r & E & H). exists r. split; [exact H | apply String.eqb_eq; exact E].
Qed.
Lemma reg_emplace_new name st n (l : cregs) : ~ In name (map fst l) -> reg_emplace name st n l = l ++ [(name, (st, n))].
Proof. intros H. unfold reg_emplace. destruct (reg_has name l) eqn:E; [apply reg_has_in in E; contradiction | reflexivity]. Qed.
Lemma reg_erase_split name r (l1 l2 : cregs) : NoDup (map fst (l1 ++ (name, r) :: l2)) -> reg_erase name (l1 ++ (name, r) :: l2) = l1 ++ l2.
Proof.
  intros N. rewrite map_app in N. cbn [map fst] in N. pose proof (NoDup_remove_2 _ _ _ N) as F. unfold reg_erase.
  assert (E : forall l : cregs, ~ In name (map fst l) -> filter (fun r => negb (String.eqb (fst r) name)) l = l).
  { induction l as [|[a b] l IH]; intros H; [reflexivity |]. simpl in *.
    destruct (String.eqb_spec a name); [exfalso; auto |]. simpl. rewrite IH by tauto. reflexivity. }
  rewrite in_app_iff in F. rewrite filter_app. cbn [filter fst]. rewrite String.eqb_refl. cbn [negb].
  rewrite !E by tauto. reflexivity.
Qed.
Lemma reg_replace_split name r st n (l1 l2 : cregs) : NoDup (map fst (l1 ++ (name, r) :: l2)) ->
  reg_replace name st n (l1 ++ (name, r) :: l2) = l1 ++ (name, (st, n)) :: l2.
Proof.
  induction l1 as [|[a b] l1 IH]; intros N; simpl.
  - rewrite String.eqb_refl. reflexivity.
  - simpl in N. inversion N; subst. destruct (String.eqb_spec a name) as [-> | Na].
    + exfalso. apply H1. rewrite map_app, in_app_iff. right; left; reflexivity.
    + rewrite IH by assumption. reflexivity.
Qed.
Lemma append_inj_r : forall a b c : string, (a ++ c = b ++ c)%string -> a = b.
Proof.
  induction a as [|x a IH]; intros [|y b] c H; try reflexivity.
  - exfalso. assert (E : String.length c = String.length (String y b ++ c)%string) by (rewrite <- H; reflexivity).
    revert E. clear. simpl. assert (Q : String.length (b ++ c)%string = String.length b + String.length c).
    { induction b; simpl; auto. } rewrite Q. lia.
  - exfalso. assert (E : String.length c = String.length (String x a ++ c)%string) by (rewrite H; reflexivity).
    revert E. clear. simpl. assert (Q : String.length (a ++ c)%string = String.length a + String.length c).
    { induction a; simpl; auto. } rewrite Q. lia.
  - simpl in H. inversion H. f_equal. eapply IH; eauto.
Qed.
Lemma append_len (a b : string) : String.length (a ++ b)%string = String.length a + String.length b.
Proof. induction a; simpl; auto. Qed.
Lemma low_not_high : forall a b : string, (a ++ "_l" <> b ++ "_h")%string.
Proof.
  induction a as [|x a IH]; intros b H.
  - assert (L : String.length b = 0). { apply (f_equal String.length) in H. rewrite !append_len in H. simpl in H. lia. }
    destruct b; [discriminate H | discriminate L].
  - destruct b as [|y b].
    + apply (f_equal String.length) in H. simpl in H. rewrite !append_len in H. simpl in H. lia.
    + simpl in H. inversion H. eapply IH; eauto.
Qed.
Lemma part_low a b : part_of a (b ++ "_l") -> a = (b ++ "_l")%string \/ part_of a b.
Proof.
  intros H. inversion H; [left; congruence | | exfalso; eapply low_not_high; symmetry; eassumption].
  right. match goal with E : (?x ++ "_l")%string = _ |- _ => apply append_inj_r in E; subst; assumption end.
Qed.
Lemma part_high a b : part_of a (b ++ "_h") -> a = (b ++ "_h")%string \/ part_of a b.
Proof.
  intros H. inversion H; [left; congruence | exfalso; eapply low_not_high; eassumption |].
  right. match goal with E : (?x ++ "_h")%string = _ |- _ => apply append_inj_r in E; subst; assumption end.
Qed.
Lemma part_trans a b c : part_of a b -> part_of b c -> part_of a c.
Proof. intros H1 H2. induction H2; [assumption | constructor 2; assumption | constructor 3; assumption]. Qed.

(** The model's test of idle qubits. *)
Lemma acts_on_uses st q : acts_on st q = true <-> uses (OStd st) q.
Proof.
  unfold acts_on, memn, has_ctl. rewrite orb_true_iff, !existsb_exists. split.
  - intros [(x & H & E) | ((x & pol) & H & E)]; apply Nat.eqb_eq in E; cbn [fst] in E; subst x; [apply uses_target; exact H | eapply uses_control; exact H].
  - intros H. inversion H; subst; [left; exists q | right; exists (q, pol)]; (split; [assumption | apply Nat.eqb_refl]).
Qed.
Lemma memn_uses q l : memn q l = true <-> In q l.
Proof. unfold memn. rewrite existsb_exists. split; [intros (x & H & E); apply Nat.eqb_eq in E; subst; exact H | intros H; exists q; rewrite Nat.eqb_refl; auto]. Qed.
Fixpoint cacts_uses (o : cop) : forall q, cacts o q = true <-> uses o q.
Proof.
  intros q. destruct o as [st | qs cs | qs | c o | cu l]; cbn [cacts].
  - apply acts_on_uses.
  - rewrite memn_uses. split; [apply uses_measure | intros H; inversion H; assumption].
  - rewrite memn_uses. split; [apply uses_reset | intros H; inversion H; assumption].
  - rewrite cacts_uses. split; [apply uses_class | intros H; inversion H; assumption].
  - assert (G : existsb (fun x => cacts x q) l = true <-> exists o, In o l /\ uses o q).
    { induction l as [|x l IH]; cbn [existsb]; [split; [discriminate | intros (o & [] & _)] |].
      rewrite orb_true_iff, (cacts_uses x q), IH. split.
      - intros [H | (o & H1 & H2)]; [exists x; split; [left; reflexivity | exact H] | exists o; split; [right; exact H1 | exact H2]].
      - intros (o & [-> | H1] & H2); [left; exact H2 | right; exists o; auto]. }
    rewrite G. split; [intros (o & H1 & H2); eapply uses_comp; eauto | intros H; inversion H; subst; eauto].
Qed.
Lemma idle_iff s p : isIdleQubit p s = true <-> idle s p.
Proof.
  unfold isIdleQubit, idle. rewrite negb_true_iff. split.
  - intros H o Ho U. apply cacts_uses in U. assert (X : existsb (fun o => cacts o p) (c_ops s) = true) by (apply existsb_exists; eauto). congruence.
  - intros H. destruct (existsb _ _) eqn:E; [| reflexivity]. apply existsb_exists in E as (o & H1 & H2). apply cacts_uses in H2. destruct (H o H1 H2).
Qed.
