(** The comments are read back. *)
From Coq Require Import List Arith Bool NArith Ascii String Sorting.Sorted Permutation Lia.
From Verif Require Import IRModel OptModel QasmIfModel CircModel CircSpec CircProofs CircBuildProofs CircIOProofs LayoutModel LayoutSpec.
Import ListNotations.
Local Open Scope list_scope.
Local Open Scope nat_scope.

(** ** Decimal numbers *)
Definition digit_of (c : ascii) : N := N.of_nat (nat_of_ascii c - 48).
Definition value (ds : text) : N := fold_left (fun a c => 10 * a + digit_of c)%N ds 0%N.
Lemma digit_char d : d < 10 -> nat_of_ascii (ascii_of_nat (48 + d)) = 48 + d.
Proof. intros H. apply nat_ascii_embedding. lia. Qed.
Lemma digit_val d : d < 10 -> digit_of (ascii_of_nat (48 + d)) = N.of_nat d.
Proof. intros H. unfold digit_of. rewrite digit_char by exact H. f_equal. lia. Qed.
Lemma dec_digits : forall f n, Forall (fun c => is_digit c = true) (dec f n).
Proof.
  induction f as [|f IH]; intros n; [constructor |]. cbn [dec]. apply Forall_app. split.
  - destruct (Nat.ltb n 10); [constructor | apply IH].
  - constructor; [| constructor]. unfold is_digit. pose proof (Nat.mod_upper_bound n 10 ltac:(lia)).
    rewrite digit_char by assumption. apply andb_true_iff. rewrite !Nat.leb_le. lia.
Qed.
Lemma dec_nonempty f n : dec (S f) n <> [].
Proof. cbn [dec]. intros H. apply app_eq_nil in H as [_ H]. discriminate H. Qed.
Lemma dec_value : forall f n, n < f -> value (dec f n) = N.of_nat n.
Proof.
  induction f as [|f IH]; intros n H; [lia |]. cbn [dec]. unfold value. rewrite fold_left_app. cbn [fold_left].
  pose proof (Nat.mod_upper_bound n 10 ltac:(lia)). rewrite digit_val by assumption.
  destruct (Nat.ltb_spec n 10) as [Q | Q].
  - cbn [fold_left]. rewrite Nat.mod_small by assumption. lia.
  - change (fold_left (fun a c => (10 * a + digit_of c)%N) (dec f (n / 10)) 0%N) with (value (dec f (n / 10))).
    assert (L : n / 10 < n) by (apply Nat.div_lt; lia). rewrite IH by lia.
    rewrite (Nat.div_mod n 10) at 3 by lia. lia.
Qed.
Lemma runs_digits : forall ds s v, Forall (fun c => is_digit c = true) ds ->
  runs (ds ++ s) (Some v) = runs s (Some (fold_left (fun a c => 10 * a + digit_of c)%N ds v)).
Proof. induction ds as [|d ds IH]; intros s v H; [reflexivity |]. inversion H; subst. cbn [app runs fold_left]. rewrite H2. apply IH; assumption. Qed.
Lemma runs_decimal n s : runs (decimal n ++ s) None = runs s (Some (N.of_nat n)).
Proof.
  rewrite <- (dec_value (S n) n ltac:(lia)). unfold decimal. pose proof (dec_digits (S n) n) as D. pose proof (dec_nonempty n n) as E.
  destruct (dec (S n) n) as [|d ds]; [congruence |]. inversion D; subst. cbn [app runs]. rewrite H1. rewrite runs_digits by assumption. reflexivity.
Qed.
Lemma runs_listed : forall m st, runs (listed m) st = (match st with Some v => [v] | None => [] end) ++ map (fun x : nat * nat => N.of_nat (snd x)) m.
Proof.
  induction m as [|[a b] m IH]; intros st.
  - simpl. destruct st; reflexivity.
  - unfold listed in *. cbn [flat_map snd map app]. cbn [runs]. change (is_digit " ") with false. cbn iota.
    rewrite runs_decimal, IH. destruct st; reflexivity.
Qed.

(** ** The kind of a comment *)
Lemma marked_i m : m <> [] -> marked "i" (list_ascii_of_string "// i" ++ listed m) = true.
Proof.
  intros H. destruct m as [|[a b] m]; [congruence |]. unfold listed. cbn [flat_map snd].
  unfold decimal. pose proof (dec_digits (S b) b) as D. pose proof (dec_nonempty b b) as E.
  destruct (dec (S b) b) as [|d ds]; [congruence |]. inversion D; subst. simpl. rewrite H2. reflexivity.
Qed.
Lemma no_letter c : nat_of_ascii c > 57 -> forall m, marked c (listed m) = false.
Proof.
  intros H m. assert (A : forall s, Forall (fun a => a <> c) s -> marked c s = false).
  { induction s as [|a s IH]; intros F; [reflexivity |]. inversion F; subst. cbn [marked]. rewrite IH by assumption.
    destruct (Ascii.eqb_spec a c); [contradiction | reflexivity]. }
  apply A. unfold listed. induction m as [|[a b] m IH]; [constructor |]. cbn [flat_map snd app]. constructor.
  - intros <-. change (nat_of_ascii " ") with 32 in H. lia.
  - apply Forall_app. split; [| exact IH]. eapply Forall_impl; [| apply (dec_digits (S b) b)]. intros x Hx ->.
    unfold is_digit in Hx. apply andb_true_iff in Hx as [_ Hx]. apply Nat.leb_le in Hx. lia.
Qed.
Lemma not_marked_i m : marked "i" (list_ascii_of_string "// o" ++ listed m) = false.
Proof. cbn [list_ascii_of_string app marked Ascii.eqb Bool.eqb andb orb]. apply no_letter. change (nat_of_ascii "i") with 105. lia. Qed.
Lemma marked_o m : m <> [] -> marked "o" (list_ascii_of_string "// o" ++ listed m) = true.
Proof.
  intros H. destruct m as [|[a b] m]; [congruence |]. unfold listed. cbn [flat_map snd].
  unfold decimal. pose proof (dec_digits (S b) b) as D. pose proof (dec_nonempty b b) as E.
  destruct (dec (S b) b) as [|d ds]; [congruence |]. inversion D; subst. simpl. rewrite H2. reflexivity.
Qed.
Lemma not_marked_o : marked "o" (list_ascii_of_string "// o") = false.
Proof. reflexivity. Qed.

(** ** Ordered maps *)
Lemma memplace_keys k v m : forall x, In x (map fst (memplace k v m)) <-> x = k \/ In x (map fst m).
Proof.
  induction m as [|[a b] r IH]; intros x; simpl; [split; intros [H | H]; auto |].
  destruct (Nat.ltb_spec k a); simpl; [intuition congruence |]. destruct (Nat.eqb_spec k a) as [-> | N]; simpl; [| rewrite IH]; intuition congruence.
Qed.
Lemma memplace_ordered k v m : ordered m -> ordered (memplace k v m).
Proof.
  unfold ordered. induction m as [|[a b] r IH]; intros H; simpl in *; [repeat constructor |].
  inversion H as [|x y S F]; subst.
  destruct (Nat.ltb_spec k a) as [L | L]; simpl.
  - constructor; [exact H |]. constructor; [exact L |]. eapply Forall_impl; [| exact F]. intros; simpl in *; lia.
  - destruct (Nat.eqb_spec k a) as [-> | N]; simpl; [exact H |]. constructor; [apply IH; exact S |].
    apply Forall_forall. intros x Hx. apply memplace_keys in Hx as [-> | Hx]; [lia |]. rewrite Forall_forall in F. auto.
Qed.
Lemma fold_emplace {A} (f g : A -> nat) : forall l m, NoDup (map f l) -> (forall x, In x l -> ~ In (f x) (map fst m)) ->
  Permutation (fold_left (fun m x => memplace (f x) (g x) m) l m) (map (fun x => (f x, g x)) l ++ m).
Proof.
  induction l as [|a l IH]; intros m N D; [reflexivity |]. inversion N as [|x y N1 N2]; subst. cbn [fold_left map app].
  assert (F : ~ In (f a) (map fst m)) by (apply D; left; reflexivity).
  rewrite IH.
  - rewrite (memplace_new _ _ _ F). symmetry. apply Permutation_middle.
  - exact N2.
  - intros x Hx Q. apply memplace_keys in Q as [Q | Q]; [apply N1; rewrite <- Q; apply in_map; exact Hx |]. eapply D; [right; exact Hx | exact Q].
Qed.
Lemma fold_ordered {A} (f g : A -> nat) : forall l m, ordered m -> ordered (fold_left (fun m x => memplace (f x) (g x) m) l m).
Proof. induction l as [|a l IH]; intros m H; [exact H |]. apply IH. apply memplace_ordered; exact H. Qed.
Lemma ordered_nodup m : ordered m -> NoDup (map fst m).
Proof.
  unfold ordered. generalize (map fst m). intros l H. induction H; constructor; auto. intros Q. rewrite Forall_forall in H0. apply H0 in Q. lia.
Qed.
Lemma sorted_same : forall l1 l2 : list nat, StronglySorted lt l1 -> StronglySorted lt l2 -> (forall x, In x l1 <-> In x l2) -> l1 = l2.
Proof.
  induction l1 as [|a l1 IH]; intros [|b l2] S1 S2 E.
  - reflexivity.
  - exfalso. apply (E b). left; reflexivity.
  - exfalso. apply (E a). left; reflexivity.
  - inversion S1 as [|x y S1' F1]; inversion S2 as [|x' y' S2' F2]; subst. rewrite Forall_forall in F1, F2.
    assert (a = b).
    { destruct (proj1 (E a) (or_introl eq_refl)) as [Q | Q]; [auto |]. destruct (proj2 (E b) (or_introl eq_refl)) as [R | R]; [auto |].
      apply F2 in Q. apply F1 in R. lia. }
    subst b. f_equal. apply IH; auto. intros x. split; intros Hx.
    + destruct (proj1 (E x) (or_intror Hx)) as [<- | Q]; [apply F1 in Hx; lia | exact Q].
    + destruct (proj2 (E x) (or_intror Hx)) as [<- | Q]; [apply F2 in Hx; lia | exact Q].
Qed.
Lemma seq_sorted : forall n t, StronglySorted lt (seq t n).
Proof. induction n as [|n IH]; intros t; simpl; constructor; [apply IH |]. apply Forall_forall. intros x Hx%in_seq. lia. Qed.
Lemma ordered_same (m1 m2 : perm) : ordered m1 -> ordered m2 -> (forall p x, In (p, x) m1 <-> In (p, x) m2) -> m1 = m2.
Proof.
  intros O1 O2 E. assert (K : map fst m1 = map fst m2).
  { apply sorted_same; auto. intros x. rewrite !in_map_iff. split; intros ([a b] & Q & H); exists (a, b); (split; [exact Q | apply E; exact H]). }
  revert m2 O2 E K. induction m1 as [|[a b] m1 IH]; intros [|[c d] m2] O2 E K; try discriminate; [reflexivity |].
  simpl in K. inversion K; subst. pose proof (ordered_nodup _ O1) as N1. pose proof (ordered_nodup _ O2) as N2.
  assert (b = d) by (eapply key_unique; [exact N2 | apply E; left; reflexivity | left; reflexivity]). subst d. f_equal.
  inversion O1; inversion O2; subst. apply IH; auto. intros p x. inversion N1; inversion N2; subst. split; intros H.
  - destruct (proj1 (E p x) (or_intror H)) as [Q | Q]; [inversion Q; subst; exfalso; match goal with N : ~ In _ (map fst m1) |- _ => apply N end; apply in_map_iff; exists (p, x); auto | exact Q].
  - destruct (proj2 (E p x) (or_intror H)) as [Q | Q]; [inversion Q; subst; exfalso; match goal with N : ~ In _ (map fst m2) |- _ => apply N end; apply in_map_iff; exists (p, x); auto | exact Q].
Qed.
(** an ordered map on 0, 1, ... lists the values in place *)
Lemma keys_seq m k : ordered m -> Permutation (map fst m) (seq 0 k) -> map fst m = seq 0 k.
Proof. intros O P. apply sorted_same; [exact O | apply seq_sorted |]. intros x. split; apply Permutation_in; [exact P | symmetry; exact P]. Qed.
Lemma nth_in_key : forall (m : perm) t k i, map fst m = seq t (List.length m) -> (nth_error (map snd m) k = Some i <-> In (t + k, i) m).
Proof.
  induction m as [|[a b] m IH]; intros t k i E.
  - destruct k; simpl; split; [discriminate | tauto | discriminate | tauto].
  - simpl in E. inversion E; subst a. destruct k as [|k]; simpl.
    + rewrite Nat.add_0_r. split; [intros Q; inversion Q; auto |]. intros [Q | Q]; [inversion Q; reflexivity |].
      exfalso. assert (R : In t (map fst m)) by (apply in_map_iff; exists (t, i); auto). rewrite H1 in R. apply in_seq in R. lia.
    + rewrite (IH (S t) k i H1). replace (S t + k) with (t + S k) by lia. split; [auto |]. intros [Q | Q]; [inversion Q; lia | exact Q].
Qed.

(** ** Reading *)
Lemma enter_list : forall vs k m, (forall v, In v vs -> (N.of_nat v < 2 ^ 32)%N) ->
  enter (map N.of_nat vs) k m = ROk (fold_left (fun m (x : nat * nat) => memplace (fst x) (snd x) m) (combine vs (seq k (List.length vs))) m).
Proof.
  induction vs as [|v vs IH]; intros k m H; [reflexivity |]. cbn [map enter List.length seq combine fold_left fst snd].
  assert (B : (N.of_nat v < 2 ^ 32)%N) by (apply H; left; reflexivity).
  assert (B' : (2 ^ 32 < 2 ^ 64)%N) by reflexivity.
  destruct (N.leb_spec (2 ^ 64) (N.of_nat v)); [lia |]. rewrite N.mod_small by exact B. rewrite Nat2N.id. apply IH. intros; apply H; right; assumption.
Qed.
Lemma in_combine_seq {A} : forall (l : list A) t x i, In (x, i) (combine l (seq t (List.length l))) <-> exists k, i = t + k /\ nth_error l k = Some x.
Proof.
  induction l as [|a l IH]; intros t x i; simpl.
  - split; [tauto |]. intros (k & _ & H). destruct k; discriminate.
  - split.
    + intros [H | H]; [inversion H; subst; exists 0; split; [lia | reflexivity] |]. apply IH in H as (k & -> & H). exists (S k). split; [lia | exact H].
    + intros ([|k] & -> & H); simpl in H; [inversion H; subst; left; f_equal; lia |]. right. apply IH. exists k. split; [lia | exact H].
Qed.
Lemma map_fst_combine {A B} : forall (l1 : list A) (l2 : list B), List.length l1 = List.length l2 -> map fst (combine l1 l2) = l1.
Proof. induction l1 as [|a l1 IH]; intros [|b l2] H; try discriminate; [reflexivity |]. simpl. f_equal. apply IH. simpl in H; lia. Qed.
Lemma map_snd_combine {A B} : forall (l1 : list A) (l2 : list B), List.length l1 = List.length l2 -> map snd (combine l1 l2) = l2.
Proof. induction l1 as [|a l1 IH]; intros [|b l2] H; try discriminate; [reflexivity |]. simpl. f_equal. apply IH. simpl in H; lia. Qed.

(** A map whose inverse [m] lists 0, 1, ...: what is read from the listed values. *)
Lemma read_listed pre m k : (runs (pre ++ listed m) None = runs (listed m) None) ->
  ordered m -> Permutation (map fst m) (seq 0 k) -> NoDup (map snd m) -> (forall x, In x (map snd m) -> (N.of_nat x < 2 ^ 32)%N) ->
  exists r, parsePermutation (pre ++ listed m) = ROk r /\ ordered r /\ (forall i l, In (i, l) r <-> In (l, i) m).
Proof.
  intros HP O P N B. unfold parsePermutation. rewrite HP, runs_listed. cbn [app].
  replace (map (fun x : nat * nat => N.of_nat (snd x)) m) with (map N.of_nat (map snd m)) by (rewrite map_map; reflexivity).
  rewrite enter_list by exact B.
  set (l := combine (map snd m) (seq 0 (List.length (map snd m)))).
  eexists. split; [reflexivity |].
  assert (NF : NoDup (map fst l)) by (unfold l; rewrite map_fst_combine by (rewrite seq_length; reflexivity); exact N).
  split; [apply fold_ordered; constructor |].
  intros i x. rewrite (fold_emplace fst snd l [] NF) by (intros; intros []). rewrite app_nil_r.
  assert (EM : map (fun y : nat * nat => (fst y, snd y)) l = l) by (rewrite <- (map_id l) at 2; apply map_ext; intros [? ?]; reflexivity).
  rewrite EM. unfold l. rewrite in_combine_seq.
  pose proof (keys_seq m k O P) as K. assert (KL : k = List.length m) by (rewrite <- (seq_length k 0), <- K, map_length; reflexivity). subst k.
  split.
  - intros (j & -> & H). apply (nth_in_key m 0 j i K) in H. exact H.
  - intros H. exists x. split; [reflexivity |]. apply (nth_in_key m 0 x i K). exact H.
Qed.

(** ** Writing *)
Lemma fst_numbered lay : map fst (numbered lay) = lay.
Proof. unfold numbered. apply map_fst_combine. rewrite seq_length. reflexivity. Qed.
Lemma snd_numbered lay : map snd (numbered lay) = seq 0 (List.length lay).
Proof. unfold numbered. apply map_snd_combine. rewrite seq_length. reflexivity. Qed.
Lemma in_numbered lay p l i : In (p, l, i) (numbered lay) <-> nth_error lay i = Some (p, l).
Proof.
  unfold numbered. rewrite in_combine_seq. split; [intros (k & -> & H); exact H | intros H; exists i; auto].
Qed.
Lemma inverse_perm lay : NoDup (map snd lay) -> Permutation (inverseInitialLayout lay) (map (fun x : (nat * nat) * nat => (snd (fst x), snd x)) (numbered lay)).
Proof.
  intros N. unfold inverseInitialLayout.
  assert (N' : NoDup (map (fun x : (nat * nat) * nat => snd (fst x)) (numbered lay))) by (rewrite <- map_map, fst_numbered; exact N).
  rewrite (fold_emplace (fun x : (nat * nat) * nat => snd (fst x)) snd _ [] N') by (intros x _ []). rewrite app_nil_r. reflexivity.
Qed.
Lemma index_perm lay : NoDup (map fst lay) -> Permutation (qubitToIndex lay) (map (fun x : (nat * nat) * nat => (fst (fst x), snd x)) (numbered lay)).
Proof.
  intros N. unfold qubitToIndex.
  assert (N' : NoDup (map (fun x : (nat * nat) * nat => fst (fst x)) (numbered lay))) by (rewrite <- map_map, fst_numbered; exact N).
  assert (E : forall (l : list ((nat * nat) * nat)) m, NoDup (map (fun x : (nat * nat) * nat => fst (fst x)) l) -> (forall x, In x l -> ~ In (fst (fst x)) (map fst m)) ->
     fold_left (fun m (x : (nat * nat) * nat) => mset (fst (fst x)) (snd x) m) l m = fold_left (fun m (x : (nat * nat) * nat) => memplace (fst (fst x)) (snd x) m) l m).
  { induction l as [|a l IH]; intros m ND D; [reflexivity |]. inversion ND as [|x y N1 N2]; subst. cbn [fold_left].
    unfold mset at 2. rewrite merase_absent by (apply D; left; reflexivity). apply IH; [exact N2 |].
    intros x Hx Q. apply memplace_keys in Q as [Q | Q]; [| eapply D; [right; exact Hx | exact Q]].
    apply N1. rewrite <- Q. apply (in_map (fun x : (nat * nat) * nat => fst (fst x))). exact Hx. }
  rewrite E by (auto; intros x _ []).
  rewrite (fold_emplace (fun x : (nat * nat) * nat => fst (fst x)) snd _ [] N') by (intros x _ []). rewrite app_nil_r. reflexivity.
Qed.
Lemma index_lookup lay p i : NoDup (map fst lay) -> (plookup (qubitToIndex lay) p = Some i <-> exists l, nth_error lay i = Some (p, l)).
Proof.
  intros N. pose proof (index_perm lay N) as P.
  assert (NK : NoDup (map fst (qubitToIndex lay))).
  { eapply Permutation_NoDup; [symmetry; apply (Permutation_map fst P) |]. rewrite map_map. cbn [fst]. rewrite <- (map_map fst fst), fst_numbered. exact N. }
  assert (I : In (p, i) (qubitToIndex lay) <-> exists l, nth_error lay i = Some (p, l)).
  { split.
    - intros H. apply (Permutation_in _ P) in H. apply in_map_iff in H as ([[a l] j] & E & H). simpl in E. inversion E; subst. exists l. apply in_numbered; exact H.
    - intros (l & H). eapply Permutation_in; [symmetry; exact P |]. apply in_map_iff. exists (p, l, i). split; [reflexivity | apply in_numbered; exact H]. }
  rewrite <- I. split; [apply plookup_in | apply in_plookup; exact NK].
Qed.

Definition index (lay : perm) (p : nat) : nat := match plookup (qubitToIndex lay) p with Some i => i | None => 0 end.

Lemma runs_pre_i m : runs (list_ascii_of_string "// i" ++ listed m) None = runs (listed m) None.
Proof. reflexivity. Qed.
Lemma runs_pre_o m : runs (list_ascii_of_string "// o" ++ listed m) None = runs (listed m) None.
Proof. reflexivity. Qed.

Theorem layout_read_back lay out n k :
  ordered lay -> Permutation (map snd lay) (seq 0 n) -> 0 < n -> (N.of_nat n <= 2 ^ 32)%N ->
  ordered out -> incl (map fst out) (map fst lay) -> Permutation (map snd out) (seq 0 k) -> 0 < k ->
  exists lay' out', import_layout n (dump_layout lay out) = ROk (lay', out') /\ renumbered lay out lay' out'.
Proof.
  intros OL PL Hn Bn OO IO PO Hk.
  pose proof (ordered_nodup _ OL) as NL. pose proof (ordered_nodup _ OO) as NO.
  assert (NV : NoDup (map snd lay)) by (eapply Permutation_NoDup; [symmetry; exact PL | apply seq_NoDup]).
  assert (NVO : NoDup (map snd out)) by (eapply Permutation_NoDup; [symmetry; exact PO | apply seq_NoDup]).
  assert (LN : List.length lay = n) by (rewrite <- (map_length snd), (Permutation_length PL), seq_length; reflexivity).
  pose proof (inverse_perm lay NV) as PI.
  assert (PIs : Permutation (map snd (inverseInitialLayout lay)) (seq 0 n)) by (rewrite PI, map_map; cbn [snd]; rewrite snd_numbered, LN; reflexivity).
  assert (PIf : Permutation (map fst (inverseInitialLayout lay)) (seq 0 n)).
  { rewrite PI, map_map. cbn [fst]. rewrite <- (map_map fst snd), fst_numbered. exact PL. }
  assert (INi : forall l i, In (l, i) (inverseInitialLayout lay) <-> exists p, nth_error lay i = Some (p, l)).
  { intros l i. split.
    - intros H. apply (Permutation_in _ PI) in H. apply in_map_iff in H as ([[a b] j] & E & H). simpl in E. inversion E; subst. exists a. apply in_numbered; exact H.
    - intros (p & H). eapply Permutation_in; [symmetry; exact PI |]. apply in_map_iff. exists (p, l, i). split; [reflexivity | apply in_numbered; exact H]. }
  destruct (read_listed (list_ascii_of_string "// i") (inverseInitialLayout lay) n (runs_pre_i _)) as (r1 & E1 & O1 & I1).
  { apply (fold_ordered (fun x : (nat * nat) * nat => snd (fst x)) snd). constructor. }
  { exact PIf. }
  { eapply Permutation_NoDup; [symmetry; exact PIs | apply seq_NoDup]. }
  { intros x Hx. apply (Permutation_in _ PIs) in Hx. apply in_seq in Hx. lia. }
  (* the outputs *)
  set (inv := inverseOutputPermutation lay out).
  assert (PV : Permutation inv (map (fun x : nat * nat => (snd x, index lay (fst x))) out)).
  { unfold inv, inverseOutputPermutation. rewrite (fold_emplace snd (fun x : nat * nat => index lay (fst x)) out [] NVO) by (intros x _ []). rewrite app_nil_r. reflexivity. }
  assert (IX : forall p i x, In (p, x) out -> (index lay p = i <-> exists l, nth_error lay i = Some (p, l))).
  { intros p i x H. assert (Q : In p (map fst lay)) by (apply IO; apply in_map_iff; exists (p, x); auto).
    apply in_map_iff in Q as ([a l] & E & Q). simpl in E; subst a. apply In_nth_error in Q as (j & Q).
    assert (J : plookup (qubitToIndex lay) p = Some j) by (apply index_lookup; eauto).
    unfold index. rewrite J. split.
    - intros <-. eauto.
    - intros (l' & H'). assert (J' : plookup (qubitToIndex lay) p = Some i) by (apply index_lookup; eauto). congruence. }
  assert (INo : forall x i, In (x, i) inv <-> exists p l, nth_error lay i = Some (p, l) /\ In (p, x) out).
  { intros x i. split.
    - intros H. apply (Permutation_in _ PV) in H. apply in_map_iff in H as ([p y] & E & H). simpl in E. inversion E; subst.
      destruct (proj1 (IX p _ x H) eq_refl) as (l & Q). eauto.
    - intros (p & l & H1 & H2). eapply Permutation_in; [symmetry; exact PV |]. apply in_map_iff. exists (p, x). split; [| exact H2]. cbn [fst snd].
      f_equal. apply (IX p i x H2). eauto. }
  assert (PVf : Permutation (map fst inv) (seq 0 k)) by (rewrite PV, map_map; cbn [fst]; exact PO).
  destruct (read_listed (list_ascii_of_string "// o") inv k (runs_pre_o _)) as (r2 & E2 & O2 & I2).
  { apply (fold_ordered snd (fun x : nat * nat => index lay (fst x))). constructor. }
  { exact PVf. }
  { assert (NF : NoDup (map fst inv)) by (eapply Permutation_NoDup; [symmetry; exact PVf | apply seq_NoDup]).
    assert (U : forall x1 x2 i, In (x1, i) inv -> In (x2, i) inv -> x1 = x2).
    { intros x1 x2 i A B. apply INo in A as (p1 & l1 & A1 & A2), B as (p2 & l2 & B1 & B2). rewrite A1 in B1. inversion B1; subst. eapply (key_unique out p2); eauto. }
    clearbody inv. clear -NF U. induction inv as [|[x i] r IH]; simpl; constructor.
    - intros Q. apply in_map_iff in Q as ([x' i'] & E & Q). simpl in E; subst. inversion NF; subst. apply H1.
      assert (x = x') by (eapply U; [left; reflexivity | right; exact Q]). subst. apply in_map_iff. exists (x', i); auto.
    - inversion NF; subst. apply IH; [assumption |]. intros; eapply U; right; eassumption. }
  { intros i Hi. apply in_map_iff in Hi as ([x j] & E & Hi). simpl in E; subst j. apply INo in Hi as (p & l & H & _).
    assert (Q : i < List.length lay) by (apply nth_error_Some; congruence). lia. }
  assert (NE1 : inverseInitialLayout lay <> []) by (intros Q; rewrite Q in PIf; apply Permutation_nil in PIf; destruct n; [lia | discriminate PIf]).
  assert (NE2 : inv <> []) by (intros Q; rewrite Q in PVf; apply Permutation_nil in PVf; destruct k; [lia | discriminate PVf]).
  assert (R2 : r2 <> []).
  { destruct inv as [|[x i] t]; [congruence |]. intros ->. apply (I2 i x). left; reflexivity. }
  assert (R1 : r1 <> []).
  { destruct (inverseInitialLayout lay) as [|[x i] t]; [congruence |]. intros ->. apply (I1 i x). left; reflexivity. }
  exists r1, r2. split.
  - unfold import_layout, dump_layout. cbn [visit]. unfold classify. rewrite (marked_i _ NE1). fold inv. rewrite E1. cbn [bindr].
    rewrite not_marked_i, (marked_o _ NE2), E2. cbn [bindr fst snd]. destruct r1; [congruence |]. destruct r2; [congruence |]. reflexivity.
  - split; [exact O1 |]. split; [exact O2 |]. split.
    + intros i l. rewrite I1. apply INi.
    + intros i x. rewrite I2. apply INo.
Qed.
(** If the physical qubits are numbered consecutively anyway, nothing changes. *)
Theorem layout_unchanged lay out n k :
  map fst lay = seq 0 n -> Permutation (map snd lay) (seq 0 n) -> 0 < n -> (N.of_nat n <= 2 ^ 32)%N ->
  ordered out -> incl (map fst out) (map fst lay) -> Permutation (map snd out) (seq 0 k) -> 0 < k ->
  import_layout n (dump_layout lay out) = ROk (lay, out).
Proof.
  intros EL PL Hn Bn OO IO PO Hk.
  assert (OL : ordered lay) by (unfold ordered; rewrite EL; apply seq_sorted).
  destruct (layout_read_back lay out n k OL PL Hn Bn OO IO PO Hk) as (lay' & out' & E & O1 & O2 & I1 & I2).
  assert (LN : List.length lay = n) by (rewrite <- (map_length fst), EL, seq_length; reflexivity).
  assert (NT : forall i p l, nth_error lay i = Some (p, l) <-> p = i /\ In (i, l) lay).
  { intros i p l. split.
    - intros H. pose proof (map_nth_error fst i lay H) as Q. rewrite EL in Q. cbn [fst] in Q.
      assert (B : i < n) by (rewrite <- LN; apply nth_error_Some; congruence).
      rewrite (nth_error_nth' (seq 0 n) 0) in Q by (rewrite seq_length; exact B). rewrite seq_nth in Q by exact B. inversion Q; subst. split; [reflexivity |]. eapply nth_error_In; exact H.
    - intros [-> H]. apply In_nth_error in H as (j & H). pose proof (map_nth_error fst j lay H) as Q. rewrite EL in Q. cbn [fst] in Q.
      assert (B : j < n) by (rewrite <- LN; apply nth_error_Some; congruence).
      rewrite (nth_error_nth' (seq 0 n) 0) in Q by (rewrite seq_length; exact B). rewrite seq_nth in Q by exact B. inversion Q; subst. exact H. }
  rewrite E. f_equal. f_equal.
  - apply ordered_same; auto. intros i l. rewrite I1. split; [intros (p & H); apply NT in H; tauto | intros H; exists i; apply NT; auto].
  - apply ordered_same; auto. intros i x. rewrite I2. split.
    + intros (p & l & H & Q). apply NT in H as [-> _]. exact Q.
    + intros H. assert (Q : In i (map fst lay)) by (apply IO; apply in_map_iff; exists (i, x); auto).
      apply in_map_iff in Q as ([a l] & Ea & Q). simpl in Ea; subst a. exists i, l. split; [apply NT; auto | exact H].
Qed.

(** ** Which comments are recognised *)
Lemma digit_iff d : is_digit d = true <-> digit d.
Proof.
  unfold is_digit, digit. rewrite andb_true_iff, !Nat.leb_le. split.
  - intros [A B]. exists (nat_of_ascii d - 48). split; [lia |]. replace (48 + (nat_of_ascii d - 48)) with (nat_of_ascii d) by lia. symmetry; apply ascii_nat_embedding.
  - intros (k & H & ->). rewrite nat_ascii_embedding by lia. lia.
Qed.
Lemma marked_iff c s : marked c s = true <-> contains c s.
Proof.
  induction s as [|x s IH]; cbn [marked].
  - split; [discriminate |]. intros (a & d & b & _ & E). destruct a; discriminate.
  - rewrite orb_true_iff, IH. split.
    + intros [H | (a & d & b & D & ->)]; [| exists (x :: a), d, b; auto].
      apply andb_true_iff in H as [H1 H2]. apply Ascii.eqb_eq in H1. subst x. destruct s as [|y [|d s]]; try discriminate.
      apply andb_true_iff in H2 as [H2 H3]. apply Ascii.eqb_eq in H2. subst y. exists [], d, s. split; [apply digit_iff; exact H3 | reflexivity].
    + intros (a & d & b & D & E). destruct a as [|y a]; cbn [app] in E; inversion E; subst.
      * left. rewrite Ascii.eqb_refl. apply digit_iff in D. rewrite D. reflexivity.
      * right. exists a, d, b. auto.
Qed.
Lemma classify_iff s : (classify s = CInitial <-> contains "i" s) /\ (classify s = COutput <-> ~ contains "i" s /\ contains "o" s).
Proof.
  rewrite <- !marked_iff. unfold classify. destruct (marked "i" s), (marked "o" s); split; split; try discriminate; intuition congruence.
Qed.
Lemma visit_ignored : forall ls i o, (forall s, In s ls -> ~ contains "i" s /\ ~ contains "o" s) -> visit ls i o = ROk (i, o).
Proof.
  induction ls as [|s ls IH]; intros i o H; [reflexivity |]. cbn [visit].
  destruct (H s (or_introl eq_refl)) as [A B]. destruct (classify_iff s) as [C D].
  destruct (classify s); [exfalso; apply A, C; reflexivity | exfalso; apply B, D; reflexivity |]. apply IH. intros t Ht. apply H. right; exact Ht.
Qed.
