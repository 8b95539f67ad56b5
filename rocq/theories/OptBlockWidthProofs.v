(** collectBlocks: the width of the blocks. *)
From Coq Require Import Reals List Arith Bool Lia NArith Permutation.
From Verif Require Import Cplx Qsem GateModel GateSpec OpProofs GraphModel IRModel IRSpec IRProofs OptModel OptSem OptDagProofs OptElideProofs
  OptBlockModel OptBlockProofs.
Import ListNotations.
Local Open Scope list_scope.

(** All qubits of an operation, also of conditional ones. *)
Fixpoint touched (o : cop) : list nat :=
  match o with
  | OStd s => o_tgt s ++ map fst (o_ctl s)
  | OMeas qs _ | OReset qs => qs
  | OClass _ o' => touched o'
  | OComp _ l => flat_map touched l
  end.
Definition narrow (max : nat) (o : cop) : Prop := exists qs, length qs <= max /\ incl (touched o) qs.

Definition bits_of (d : list blk) (q : nat) : list nat := b_bits (find_blk d q).
Lemma class_eq d x q : NoDup (all_bits d) -> In x (bits_of d q) -> find_blk d x = find_blk d q.
Proof.
  intros N H. unfold bits_of in H.
  assert (G : forall y b, In b d -> In y (b_bits b) -> find_blk d y = b).
  { clear H. intros y b Ib Iy. unfold find_blk. revert N Ib. unfold all_bits. induction d as [|a d IH]; simpl; intros N Ib; [contradiction|].
    apply nodup_app_iff in N. destruct N as (N1 & N2 & D). destruct (memn y (b_bits a)) eqn:M.
    - destruct Ib as [->|Ib]; auto. apply memn_In in M. exfalso. apply (D y M). apply in_flat_map. eauto.
    - destruct Ib as [->|Ib]; auto. apply memn_In in Iy. congruence. }
  unfold find_blk in H at 1. destruct (find (fun b => memn q (b_bits b)) d) as [b|] eqn:E.
  - assert (E' : find_blk d q = b) by (unfold find_blk; now rewrite E). rewrite E'. apply find_some in E. apply G; tauto.
  - cbn in H. destruct H as [->|[]]. reflexivity.
Qed.
Lemma bits_nodup d q : NoDup (all_bits d) -> NoDup (bits_of d q).
Proof.
  intros N. unfold bits_of. destruct (in_dec Nat.eq_dec q (all_bits d)) as [K|K].
  - assert (Z : NoDup (all_bits (find_blk d q :: drop_blk d q))) by (eapply Permutation_NoDup; [apply Permutation_flat_map; apply find_in; eauto|auto]).
    unfold all_bits in Z. simpl in Z. apply nodup_app_iff in Z. tauto.
  - rewrite find_id by auto. simpl. constructor; [auto|constructor].
Qed.
Lemma drop_nodup d q : NoDup (all_bits d) -> NoDup (all_bits (drop_blk d q)).
Proof.
  unfold all_bits, drop_blk. induction d as [|b d IH]; simpl; intros N; auto. apply nodup_app_iff in N. destruct N as (N1 & N2 & D).
  destruct (memn q (b_bits b)); simpl; auto. apply nodup_app_iff. split; auto. split; auto. intros x A B. apply (D x A). apply in_flat_map in B. destruct B as (y & Iy & B).
  apply filter_In in Iy. apply in_flat_map. exists y. tauto.
Qed.
Lemma drop_out d q x : NoDup (all_bits d) -> In x (bits_of d q) -> ~ In x (all_bits (drop_blk d q)).
Proof.
  intros N H J. unfold bits_of in H. destruct (in_dec Nat.eq_dec q (all_bits d)) as [K|K].
  - assert (Z : NoDup (all_bits (find_blk d q :: drop_blk d q))) by (eapply Permutation_NoDup; [apply Permutation_flat_map; apply find_in; eauto|auto]).
    unfold all_bits in Z, J. simpl in Z. apply nodup_app_iff in Z. destruct Z as (_ & _ & Z). eauto.
  - rewrite find_id in H by auto. cbn in H. destruct H as [->|[]]. apply drop_sub in J. auto.
Qed.
Lemma in_or_empty d q : In (find_blk d q) d \/ find_blk d q = empty_blk q.
Proof. unfold find_blk. destruct (find _ d) as [b|] eqn:E; auto. apply find_some in E. tauto. Qed.

Section Width.
Variables (l : list cop) (max : nat).
Hypothesis M1 : 1 <= max.
Definition fineo (o : cop) : Prop := (exists o0, In o0 l /\ incl (touched o) (touched o0)) \/ narrow max o.
Definition wblk (b : blk) : Prop := length (b_bits b) <= max /\ Forall (fun o => incl (touched o) (b_bits b)) (b_ops b).
Record winv (s : cstate) : Prop := { w_nd : NoDup (all_bits (snd s)); w_blk : Forall wblk (snd s); w_ops : Forall fineo (fst s) }.
Lemma blank_fine : fineo blank_op.
Proof. right. exists [0]. split; [exact M1|]. intros x I. exact I. Qed.
Lemma upd_fine ops p o : Forall fineo ops -> fineo o -> Forall fineo (upd ops p o).
Proof. intros F G. revert p. induction F as [|a ops A F IH]; intros p; [constructor|]. destruct p; cbn; constructor; auto. Qed.
Lemma find_wblk s q : winv s -> wblk (find_blk (snd s) q).
Proof.
  intros [_ B _]. destruct (in_or_empty (snd s) q) as [I|E]; [rewrite Forall_forall in B; auto|]. rewrite E. split; [exact M1|constructor].
Qed.
Lemma drop_wblk d q : Forall wblk d -> Forall wblk (drop_blk d q).
Proof. intros B. rewrite Forall_forall in *. intros b I. apply drop_In in I. apply B. tauto. Qed.

(** ** Closing a block *)
Lemma collapse_touched o : incl (touched (collapse o)) (touched o).
Proof.
  induction o as [x|qs cs|qs|c o IH|cu m IH] using cop_rect'; try apply incl_refl. destruct m as [|x [|y r]]; try apply incl_refl. inversion IH as [|? ? H _]; subst.
  cbn [touched flat_map]. rewrite app_nil_r. destruct x as [x|qs cs|qs|c o|cu' m]; try apply incl_refl.
  change (incl (touched (match collapse (OComp cu' m) with OComp _ _ => OComp cu [OComp cu' m] | y => y end)) (touched (OComp cu' m))).
  destruct (collapse (OComp cu' m)); try exact H. cbn [touched flat_map]. rewrite app_nil_r. apply incl_refl.
Qed.
Lemma finalize_w q s : winv s -> winv (finalize_blk q s).
Proof.
  intros W. pose proof (find_wblk s q W) as [L O]. destruct W as [N B F]. destruct s as [ops d]. cbn [fst snd] in *. unfold finalize_blk. destruct (b_pos (find_blk d q)) as [p|]; [|split; auto].
  split; cbn [fst snd]; [now apply drop_nodup|now apply drop_wblk|]. apply upd_fine; auto. right. exists (b_bits (find_blk d q)). split; auto.
  intros x I. apply collapse_touched in I. cbn [touched] in I. apply in_flat_map in I. destruct I as (o & Io & I). rewrite Forall_forall in O. now apply (O o).
Qed.
Lemma finalize_bits q s : winv s -> full s -> forall x, bits_of (snd (finalize_blk q s)) x = if memn x (bits_of (snd s) q) then [x] else bits_of (snd s) x.
Proof.
  intros [N _ _] F x. destruct s as [ops d]. cbn [fst snd] in *. unfold finalize_blk. destruct (memn x (bits_of d q)) eqn:E.
  - apply memn_In in E. destruct (b_pos (find_blk d q)) as [p|] eqn:P; cbn [snd].
    + unfold bits_of at 1. rewrite find_id; [reflexivity|]. now apply drop_out.
    + destruct (in_or_empty d q) as [I|X]; [unfold full in F; cbn [snd] in F; rewrite Forall_forall in F; destruct (F _ I); congruence|].
      unfold bits_of in *. rewrite X in E. cbn in E. destruct E as [->|[]]. now rewrite X.
  - assert (NI : ~ In x (bits_of d q)) by (intros I; apply memn_In in I; congruence). destruct (b_pos (find_blk d q)); cbn [snd]; auto. unfold bits_of in *. now rewrite find_drop.
Qed.

(** ** Uniting blocks *)
Lemma union_shape q1 q2 s : ~ In q2 (bits_of (snd s) q1) -> exists b1 b2, ((b1 = find_blk (snd s) q1 /\ b2 = find_blk (snd s) q2) \/ (b1 = find_blk (snd s) q2 /\ b2 = find_blk (snd s) q1)) /\
  union_blk q1 q2 s = (match b_pos b2 with Some p => upd (fst s) p blank_op | None => fst s end, merge_blk b1 b2 :: drop_blk (drop_blk (snd s) q1) q2).
Proof.
  intros NI. destruct s as [ops d]. cbn [fst snd] in *. unfold union_blk. destruct (memn q2 (b_bits (find_blk d q1))) eqn:E; [apply memn_In in E; contradiction|].
  destruct (Nat.ltb _ _); eauto 8.
Qed.
Lemma union_same q1 q2 s : In q2 (bits_of (snd s) q1) -> union_blk q1 q2 s = s.
Proof. intros I. destruct s as [ops d]. unfold union_blk. apply memn_In in I. unfold bits_of in I. cbn [snd] in I. now rewrite I. Qed.
Lemma apart_classes d q1 q2 x : NoDup (all_bits d) -> ~ In q2 (bits_of d q1) -> In x (bits_of d q1) -> In x (bits_of d q2) -> False.
Proof. intros N NI A1 A2. apply NI. assert (X : find_blk d q1 = find_blk d q2) by (rewrite <- (class_eq d x q1), <- (class_eq d x q2); auto). unfold bits_of. rewrite X. apply find_self. Qed.
Lemma union_w q1 q2 s : winv s -> (In q2 (bits_of (snd s) q1) \/ length (bits_of (snd s) q1) + length (bits_of (snd s) q2) <= max) -> winv (union_blk q1 q2 s).
Proof.
  intros W H. pose proof (find_wblk s q1 W) as [L1 O1]. pose proof (find_wblk s q2 W) as [L2 O2]. destruct (in_dec Nat.eq_dec q2 (bits_of (snd s) q1)) as [I|NI]; [now rewrite union_same|].
  destruct H as [H|H]; [contradiction|]. destruct (union_shape q1 q2 s NI) as (b1 & b2 & C & ->). destruct W as [N B F]. set (d := snd s) in *. split; cbn [fst snd].
  - change (NoDup ((b_bits b1 ++ b_bits b2) ++ all_bits (drop_blk (drop_blk d q1) q2))).
    assert (D2 : forall x, In x (bits_of d q1) \/ In x (bits_of d q2) -> ~ In x (all_bits (drop_blk (drop_blk d q1) q2))).
    { intros x [A1|A2] J; [apply drop_sub in J; apply (drop_out d q1 x); auto|]. apply (drop_out (drop_blk d q1) q2 x); auto; [now apply drop_nodup|]. unfold bits_of. rewrite find_drop; auto. }
    assert (ND12 : NoDup (bits_of d q1 ++ bits_of d q2)) by (apply nodup_app_iff; split; [now apply bits_nodup|]; split; [now apply bits_nodup|]; intros x; now apply apart_classes).
    apply nodup_app_iff. split; [|split; [now apply drop_nodup, drop_nodup|]].
    + destruct C as [[-> ->]|[-> ->]]; auto. eapply Permutation_NoDup; [apply Permutation_app_comm|exact ND12].
    + intros x A J. apply in_app_or in A. apply (D2 x); auto. destruct C as [[-> ->]|[-> ->]]; unfold bits_of; tauto.
  - constructor; [|now apply drop_wblk, drop_wblk]. split; cbn [merge_blk b_bits b_ops].
    + rewrite app_length. unfold bits_of in H. destruct C as [[-> ->]|[-> ->]]; lia.
    + assert (OO : Forall (fun o => incl (touched o) (b_bits b1)) (b_ops b1) /\ Forall (fun o => incl (touched o) (b_bits b2)) (b_ops b2)) by (destruct C as [[-> ->]|[-> ->]]; auto).
      destruct OO as [OO1 OO2]. apply Forall_app. split; (eapply Forall_impl; [|eassumption]); intros o I x J; apply in_or_app; auto.
  - destruct (b_pos b2); auto. apply upd_fine; auto. apply blank_fine.
Qed.
Lemma union_other q1 q2 s : NoDup (all_bits (snd s)) -> forall x, ~ In x (bits_of (snd s) q1) -> ~ In x (bits_of (snd s) q2) -> find_blk (snd (union_blk q1 q2 s)) x = find_blk (snd s) x.
Proof.
  intros N x A1 A2. destruct (in_dec Nat.eq_dec q2 (bits_of (snd s) q1)) as [I|NI]; [now rewrite union_same|]. destruct (union_shape q1 q2 s NI) as (b1 & b2 & C & ->). cbn [snd].
  unfold find_blk at 1. cbn [find]. destruct (memn x (b_bits (merge_blk b1 b2))) eqn:Z.
  - apply memn_In in Z. cbn [merge_blk b_bits] in Z. apply in_app_or in Z. unfold bits_of in *. destruct C as [[-> ->]|[-> ->]]; tauto.
  - fold (find_blk (drop_blk (drop_blk (snd s) q1) q2) x). rewrite find_drop; [now rewrite find_drop|now apply drop_nodup|]. intros I. rewrite find_drop in I; auto.
Qed.
Lemma union_in q1 q2 s : NoDup (all_bits (snd s)) -> forall x, In x (bits_of (snd s) q1) \/ In x (bits_of (snd s) q2) -> forall y, In y (bits_of (snd (union_blk q1 q2 s)) x) <-> In y (bits_of (snd s) q1) \/ In y (bits_of (snd s) q2).
Proof.
  intros N x A y. destruct (in_dec Nat.eq_dec q2 (bits_of (snd s) q1)) as [I|NI].
  - rewrite union_same by auto. pose proof (class_eq _ q2 q1 N I) as EQ. unfold bits_of in *. rewrite EQ in *. assert (A' : In x (bits_of (snd s) q1)) by (unfold bits_of; tauto). rewrite (class_eq _ x q1 N A'). tauto.
  - destruct (union_shape q1 q2 s NI) as (b1 & b2 & C & ->). cbn [snd]. assert (MM : forall z, In z (b_bits (merge_blk b1 b2)) <-> In z (bits_of (snd s) q1) \/ In z (bits_of (snd s) q2)).
    { intros z. cbn [merge_blk b_bits]. rewrite in_app_iff. unfold bits_of. destruct C as [[-> ->]|[-> ->]]; tauto. }
    unfold bits_of at 1. unfold find_blk. cbn [find]. replace (memn x (b_bits (merge_blk b1 b2))) with true by (symmetry; apply memn_In, MM; auto). apply MM.
Qed.
(** All blocks of the qubits [us] lie within [qs]. *)
Definition fits (d : list blk) (us qs : list nat) : Prop := forall q, In q us -> incl (bits_of d q) qs.
Lemma union_all_w us qs : length qs <= max -> forall prev s known, winv s -> full_but prev s -> fits (snd s) (prev :: us) qs -> incl known (bits_of (snd s) prev) ->
  winv (union_all prev us s) /\ full_but (last us prev) (union_all prev us s) /\ incl (known ++ us) (bits_of (snd (union_all prev us s)) (last us prev)).
Proof.
  intros LQ. induction us as [|q us IH]; intros prev s known W F X K; cbn [union_all].
  - split; auto. split; auto. rewrite app_nil_r. exact K.
  - rewrite last_cons. pose proof (w_nd s W) as N.
    assert (W' : winv (union_blk prev q s)).
    { apply union_w; auto. destruct (in_dec Nat.eq_dec q (bits_of (snd s) prev)) as [I|NI]; auto. right. rewrite <- app_length. etransitivity; [|exact LQ]. apply NoDup_incl_length.
      - apply nodup_app_iff. split; [now apply bits_nodup|]. split; [now apply bits_nodup|]. intros x. now apply apart_classes.
      - apply incl_app; apply X; simpl; auto. }
    assert (Q2 : In q (bits_of (snd s) prev) \/ In q (bits_of (snd s) q)) by (right; apply find_self).
    destruct (IH q (union_blk prev q s) (known ++ [q])) as (A & B & C); auto.
    + now apply union_full.
    + intros x I. destruct (in_dec Nat.eq_dec x (bits_of (snd s) prev)) as [I1|N1]; [|destruct (in_dec Nat.eq_dec x (bits_of (snd s) q)) as [I2|N2]].
      * intros y J. apply (union_in prev q s N x (or_introl I1)) in J. destruct J as [J|J]; [apply (X prev)|apply (X q)]; simpl; auto.
      * intros y J. apply (union_in prev q s N x (or_intror I2)) in J. destruct J as [J|J]; [apply (X prev)|apply (X q)]; simpl; auto.
      * unfold bits_of. rewrite union_other by auto. apply X. destruct I as [->|I]; simpl; auto.
    + intros x I. apply in_app_or in I. apply (union_in prev q s N q Q2). destruct I as [I|[<-|[]]]; auto.
    + split; auto. split; auto. rewrite <- app_assoc in C. exact C.
Qed.
Lemma place_w q o s : winv s -> incl (touched o) (bits_of (snd s) q) -> winv (place q o s).
Proof.
  intros W I. pose proof (find_wblk s q W) as [L O]. destruct W as [N B F]. destruct s as [ops d]. cbn [fst snd] in *. unfold place.
  assert (ND : NoDup (b_bits (find_blk d q) ++ all_bits (drop_blk d q))).
  { apply nodup_app_iff. split; [now apply bits_nodup|]. split; [now apply drop_nodup|]. intros x A J. apply (drop_out d q x); auto. }
  assert (BL : forall p, Forall wblk ({| b_bits := b_bits (find_blk d q); b_pos := p; b_ops := b_ops (find_blk d q) ++ [o] |} :: drop_blk d q)).
  { intros p. constructor; [|now apply drop_wblk]. split; cbn [b_bits b_ops]; auto. apply Forall_app. auto. }
  destruct (b_pos (find_blk d q)); split; cbn [fst snd]; auto. apply Forall_app. split; auto. constructor; auto. apply blank_fine.
Qed.

(** ** Making room for an operation *)
Lemma reps_cover d us q : NoDup (all_bits d) -> In q us -> exists r, In r (reps d us) /\ In q (bits_of d r).
Proof.
  intros N. induction us as [|a us IH]; cbn [In reps]; [tauto|]. intros [->|I]; [exists q; split; [now left|apply find_self]|]. destruct (IH I) as (r & Ir & Q).
  destruct (memn r (b_bits (find_blk d a))) eqn:E.
  - exists a. split; [now left|]. apply memn_In in E. unfold bits_of in *. now rewrite (class_eq d r a N E) in Q.
  - exists r. split; auto. right. apply filter_In. now rewrite E.
Qed.
Lemma reps_nodup d us : NoDup (all_bits d) -> NoDup (flat_map (bits_of d) (reps d us)).
Proof.
  intros N. induction us as [|q us IH]; cbn [reps flat_map]; [constructor|]. apply nodup_app_iff. split; [now apply bits_nodup|]. split.
  - revert IH. generalize (reps d us). intros m. induction m as [|r m IHl]; simpl; intros H; auto. apply nodup_app_iff in H.
    destruct (negb (memn r (b_bits (find_blk d q)))); [|apply IHl; tauto]. simpl. apply nodup_app_iff. split; [tauto|]. split; [apply IHl; tauto|].
    destruct H as (_ & _ & D). intros x A B. apply (D x A). apply in_flat_map in B. destruct B as (y & Iy & B). apply filter_In in Iy. apply in_flat_map. exists y. tauto.
  - intros x A B. apply in_flat_map in B. destruct B as (r & Ir & B). apply filter_In in Ir. destruct Ir as [_ E].
    assert (In r (b_bits (find_blk d q))) by (eapply find_same; eauto). apply memn_In in H. rewrite H in E. discriminate.
Qed.
Definition cnt (d : list blk) (us : list nat) (q : nat) : list nat := filter (fun r => memn r (bits_of d q)) us.
Lemma free_up_fits us : NoDup us -> forall lst need s qs0, winv s -> full s -> (forall x, In x lst -> snd x = length (bits_of (snd s) (fst x)) - length (cnt (snd s) us (fst x))) ->
  NoDup (flat_map (fun x => bits_of (snd s) (fst x)) lst) -> (forall q, In q us -> incl (bits_of (snd s) q) qs0 \/ exists x, In x lst /\ In q (bits_of (snd s) (fst x))) ->
  length qs0 + length (flat_map (fun x => bits_of (snd s) (fst x)) lst) <= max + need -> length qs0 + length (flat_map (fun x => cnt (snd s) us (fst x)) lst) <= max ->
  exists qs, length qs <= max /\ fits (snd (free_up need lst s)) us qs /\ winv (free_up need lst s) /\ full (free_up need lst s).
Proof.
  intros NU. induction lst as [|[q sv] lst IH]; intros need s qs0 W F SV ND CV A B; cbn [free_up].
  - exists qs0. cbn [flat_map length] in *. split; [lia|]. split; auto. intros q I. destruct (CV q I) as [C|(x & [] & _)]; auto.
  - destruct (Nat.ltb_spec 0 need) as [L|L].
    + pose proof (finalize_bits q s W F) as FB. cbn [flat_map fst] in *. apply nodup_app_iff in ND. destruct ND as (ND1 & ND2 & DJ).
      assert (SAME : forall x, In x lst -> bits_of (snd (finalize_blk q s)) (fst x) = bits_of (snd s) (fst x)).
      { intros x I. rewrite FB. destruct (memn (fst x) (bits_of (snd s) q)) eqn:E; auto. exfalso. apply memn_In in E. apply (DJ (fst x) E). apply in_flat_map. exists x. split; auto. apply find_self. }
      assert (FM : forall f : nat -> list nat -> list nat, flat_map (fun x => f (fst x) (bits_of (snd (finalize_blk q s)) (fst x))) lst = flat_map (fun x => f (fst x) (bits_of (snd s) (fst x))) lst).
      { intros f. clear - SAME. induction lst as [|x m IHm]; [reflexivity|]. cbn [flat_map]. rewrite SAME by (now left). rewrite IHm; auto. intros y I. apply SAME. now right. }
      apply (IH (need - sv) (finalize_blk q s) (qs0 ++ cnt (snd s) us q)).
      * now apply finalize_w.
      * now apply finalize_full.
      * intros x I. unfold cnt. rewrite SAME by auto. apply SV. now right.
      * rewrite (FM (fun _ b => b)). exact ND2.
      * intros r I. rewrite FB. destruct (memn r (bits_of (snd s) q)) eqn:E.
        -- left. intros y [<-|[]]. apply in_or_app. right. apply filter_In. auto.
        -- destruct (CV r I) as [C|(x & [<-|Ix] & C)]; [left; intros y Y; apply in_or_app; auto|cbn [fst] in C; apply memn_In in C; congruence|]. right. exists x. split; auto. now rewrite SAME.
      * rewrite (FM (fun _ b => b)). rewrite !app_length in *. pose proof (SV (q, sv) (or_introl eq_refl)) as E. cbn [fst snd] in E.
        assert (CS : length (cnt (snd s) us q) <= length (bits_of (snd s) q)) by (apply NoDup_incl_length; [now apply NoDup_filter|intros y Y; unfold cnt in Y; apply filter_In in Y; apply memn_In; tauto]). lia.
      * unfold cnt in *. rewrite (FM (fun _ b => filter (fun r => memn r b) us)). rewrite !app_length in *. lia.
    + exists (qs0 ++ flat_map (fun x => bits_of (snd s) (fst x)) ((q, sv) :: lst)). rewrite app_length. split; [lia|]. split; auto. intros r I. destruct (CV r I) as [C|(x & Ix & C)].
      * intros y Y. apply in_or_app. auto.
      * intros y Y. apply in_or_app. right. apply in_flat_map. exists x. split; auto. pose proof (class_eq _ r _ (w_nd s W) C) as EQ. unfold bits_of in *. now rewrite <- EQ.
Qed.
Lemma ins_desc_perm x m : Permutation (ins_desc x m) (x :: m).
Proof. induction m as [|y m IH]; cbn [ins_desc]; auto. destruct (Nat.ltb _ _); auto. eapply perm_trans; [apply perm_skip, IH|apply perm_swap]. Qed.
Lemma sort_perm m : Permutation (sort_desc m) m.
Proof. unfold sort_desc. induction m as [|x m IH]; cbn [fold_right]; auto. eapply perm_trans; [apply ins_desc_perm|]. now apply perm_skip. Qed.
Lemma cnt_nodup d us m : NoDup us -> NoDup (flat_map (bits_of d) m) -> NoDup (flat_map (cnt d us) m).
Proof.
  intros NU. induction m as [|q m IH]; cbn [flat_map]; intros N; [constructor|]. apply nodup_app_iff in N. destruct N as (N1 & N2 & D). apply nodup_app_iff. split; [now apply NoDup_filter|]. split; auto.
  intros x A B. unfold cnt in A. apply filter_In in A. destruct A as [_ A]. apply memn_In in A. apply (D x A). apply in_flat_map in B. destruct B as (r & Ir & B). apply in_flat_map. exists r. split; auto.
  unfold cnt in B. apply filter_In in B. apply memn_In. tauto.
Qed.
Lemma perm_flat {A} (f : A -> list nat) m m' : Permutation m m' -> Permutation (flat_map f m) (flat_map f m'). Proof. apply Permutation_flat_map. Qed.
Lemma make_room_w us s : NoDup us -> length us <= max -> winv s -> full s ->
  exists qs, length qs <= max /\ fits (snd (make_room max us s)) us qs /\ winv (make_room max us s) /\ full (make_room max us s).
Proof.
  intros NU LU W F. unfold make_room. set (d := snd s). pose proof (w_nd s W) as N. fold d in N. set (rs := reps d us). set (L := map (fun q => (q, blk_size d q - length (filter (fun r => memn r (b_bits (find_blk d q))) us))) rs).
  pose proof (sort_perm L) as P.
  assert (FL : forall f : nat -> list nat, flat_map (fun x : nat * nat => f (fst x)) L = flat_map f rs) by (intros f; unfold L; clear; induction rs as [|q m IH]; [reflexivity|]; cbn [map flat_map fst]; now rewrite IH).
  apply (free_up_fits us NU (sort_desc L) (list_sum (map (blk_size d) rs) - max) s []); auto; fold d.
  - intros x I. apply (Permutation_in _ P) in I. unfold L in I. apply in_map_iff in I. destruct I as (q & <- & _). reflexivity.
  - eapply Permutation_NoDup; [apply perm_flat, Permutation_sym, P|]. rewrite (FL (bits_of d)). now apply reps_nodup.
  - intros q I. right. destruct (reps_cover d us q N I) as (r & Ir & Q). exists (r, blk_size d r - length (filter (fun x => memn x (b_bits (find_blk d r))) us)). split; auto.
    apply (Permutation_in _ (Permutation_sym P)). unfold L. apply in_map_iff. exists r. auto.
  - rewrite (Permutation_length (perm_flat _ _ _ P)), (FL (bits_of d)). cbn [length]. rewrite <- list_sum_flat. fold (blk_size d). change (fun x => length (bits_of d x)) with (blk_size d). lia.
  - rewrite (Permutation_length (perm_flat _ _ _ P)), (FL (cnt d us)). cbn [length]. etransitivity; [|exact LU]. apply NoDup_incl_length; [apply cnt_nodup; auto; now apply reps_nodup|].
    intros x I. apply in_flat_map in I. destruct I as (r & _ & I). unfold cnt in I. apply filter_In in I. tauto.
Qed.

(** ** Operations wider than a block *)
Definition listed (s : cstate) (m : list (nat * nat)) : Prop :=
  NoDup (flat_map (fun x => bits_of (snd s) (fst x)) m) /\ forall x, In x m -> snd x = length (bits_of (snd s) (fst x)) /\ b_pos (find_blk (snd s) (fst x)) <> None.
Lemma union_pos q1 q2 s : winv s -> full s -> ~ In q2 (bits_of (snd s) q1) -> b_pos (find_blk (snd s) q1) <> None -> b_pos (find_blk (snd s) q2) <> None ->
  full (union_blk q1 q2 s) /\ length (bits_of (snd (union_blk q1 q2 s)) q1) = length (bits_of (snd s) q1) + length (bits_of (snd s) q2) /\ b_pos (find_blk (snd (union_blk q1 q2 s)) q1) <> None.
Proof.
  intros W F NI P1 P2. destruct (union_shape q1 q2 s NI) as (b1 & b2 & C & ->). cbn [snd].
  assert (H1 : b_pos (merge_blk b1 b2) <> None) by (cbn [merge_blk b_pos]; destruct C as [[-> ->]|[-> ->]]; auto).
  assert (H2 : In q1 (b_bits (merge_blk b1 b2))) by (cbn [merge_blk b_bits]; apply in_or_app; pose proof (find_self (snd s) q1); destruct C as [[-> ->]|[-> ->]]; auto).
  assert (H3 : find_blk (merge_blk b1 b2 :: drop_blk (drop_blk (snd s) q1) q2) q1 = merge_blk b1 b2) by (unfold find_blk; cbn [find]; apply memn_In in H2; now rewrite H2).
  split; [|split].
  - unfold full in *. cbn [snd]. constructor; [split; auto; intros E; rewrite E in H2; destruct H2|]. rewrite Forall_forall in *. intros b I. apply drop_In in I. destruct I as [I _]. apply drop_In in I. apply F. tauto.
  - unfold bits_of at 1. rewrite H3. cbn [merge_blk b_bits]. rewrite app_length. unfold bits_of. destruct C as [[-> ->]|[-> ->]]; lia.
  - now rewrite H3.
Qed.
Lemma apart_in d x y : NoDup (all_bits d) -> In x (bits_of d y) -> In y (bits_of d x).
Proof. intros N I. pose proof (class_eq d x y N I) as E. unfold bits_of. rewrite E. apply find_self. Qed.
Lemma listed_apart s a m : winv s -> listed s (a :: m) -> listed s m /\ forall x, In x m -> ~ In (fst x) (bits_of (snd s) (fst a)).
Proof.
  intros W [ND H]. cbn [flat_map] in ND. apply nodup_app_iff in ND. destruct ND as (_ & N2 & DJ). split; [split; auto; intros x I; apply H; now right|].
  intros x I J. apply (DJ _ J). apply in_flat_map. exists x. split; auto. apply find_self.
Qed.
Lemma listed_cons s a m : winv s -> listed s m -> snd a = length (bits_of (snd s) (fst a)) -> b_pos (find_blk (snd s) (fst a)) <> None -> (forall x, In x m -> ~ In (fst x) (bits_of (snd s) (fst a))) -> listed s (a :: m).
Proof.
  intros W [ND H] E P A. pose proof (w_nd s W) as N. split.
  - cbn [flat_map]. apply nodup_app_iff. split; [now apply bits_nodup|]. split; auto. intros x B C. apply in_flat_map in C. destruct C as (y & Iy & C). apply (A y Iy).
    pose proof (class_eq _ x _ N B) as E1. apply apart_in in C; auto. unfold bits_of in *. now rewrite E1 in C.
  - intros x [<-|I]; auto.
Qed.
Lemma listed_same s s' m : (forall x, In x m -> find_blk (snd s') (fst x) = find_blk (snd s) (fst x)) -> listed s m -> listed s' m.
Proof.
  intros SAME [ND H]. assert (FM : flat_map (fun x => bits_of (snd s') (fst x)) m = flat_map (fun x => bits_of (snd s) (fst x)) m).
  { clear - SAME. induction m as [|x m IHm]; [reflexivity|]. cbn [flat_map]. unfold bits_of at 1 3. rewrite SAME by (now left). rewrite IHm; auto. intros y I. apply SAME. now right. }
  split; [now rewrite FM|]. intros x I. unfold bits_of. rewrite SAME by auto. now apply H.
Qed.
Lemma absorb_w q : forall rest size s, winv s -> full s -> listed s ((q, size) :: rest) -> let (s', r') := absorb max q size rest s in winv s' /\ full s' /\ listed s' r' /\
  (forall x, In x r' -> ~ In (fst x) (bits_of (snd s') q)) /\ incl r' rest /\
  (forall y, ~ In y (bits_of (snd s) q) -> (forall x, In x rest -> ~ In y (bits_of (snd s) (fst x))) -> find_blk (snd s') y = find_blk (snd s) y).
Proof.
  assert (BASE : forall rest size s, winv s -> full s -> listed s ((q, size) :: rest) -> winv s /\ full s /\ listed s rest /\ (forall x, In x rest -> ~ In (fst x) (bits_of (snd s) q)) /\ incl rest rest /\
    (forall y, ~ In y (bits_of (snd s) q) -> (forall x, In x rest -> ~ In y (bits_of (snd s) (fst x))) -> find_blk (snd s) y = find_blk (snd s) y)).
  { intros rest size s W F LI. destruct (listed_apart _ _ _ W LI). auto 8 using incl_refl. }
  induction rest as [|[q2 s2] rest IH]; intros size s W F LI; cbn [absorb]; [now apply (BASE [] size)|].
  destruct (negb (Nat.ltb size max)); [now apply (BASE ((q2, s2) :: rest) size)|].
  destruct (listed_apart _ _ _ W LI) as [L1 A1]. destruct (listed_apart _ _ _ W L1) as [L2 A2]. destruct LI as [_ H].
  pose proof (H (q, size) (or_introl eq_refl)) as [E1 P1]. pose proof (H (q2, s2) (or_intror (or_introl eq_refl))) as [E2 P2]. cbn [fst snd] in *.
  pose proof (A1 _ (or_introl eq_refl)) as NI. cbn [fst] in NI. pose proof (w_nd s W) as N. destruct (Nat.leb_spec (size + s2) max) as [L|L].
  - assert (W' : winv (union_blk q q2 s)) by (apply union_w; auto; right; lia). destruct (union_pos q q2 s W F NI P1 P2) as (F' & LN & P').
    assert (SAME : forall x, In x rest -> find_blk (snd (union_blk q q2 s)) (fst x) = find_blk (snd s) (fst x)) by (intros x I; apply union_other; auto; apply A1; now right).
    specialize (IH (size + s2) (union_blk q q2 s) W' F'). destruct (absorb max q (size + s2) rest (union_blk q q2 s)) as [s' r']. destruct IH as (B1 & B2 & B3 & B4 & B5 & B6).
    + apply listed_cons; cbn [fst snd]; auto; [now apply (listed_same s)|lia|]. intros x I J. apply (union_in q q2 s N q (or_introl (find_self _ _))) in J. destruct J as [J|J]; [apply (A1 x); auto; now right|now apply (A2 x)].
    + split; auto. split; auto. split; auto. split; auto. split; [intros x I; right; auto|]. intros y Y1 Y2. pose proof (Y2 _ (or_introl eq_refl)) as Y3. cbn [fst] in Y3.
      rewrite B6; [now apply union_other| |].
      * intros J. apply (union_in q q2 s N q (or_introl (find_self _ _))) in J. tauto.
      * intros x I. unfold bits_of. rewrite SAME by auto. apply Y2. now right.
  - specialize (IH size s W F). destruct (absorb max q size rest s) as [s' r'] eqn:EA. destruct IH as (B1 & B2 & B3 & B4 & B5 & B6).
    + apply listed_cons; auto. intros x I. apply A1. now right.
    + assert (SQ : find_blk (snd s') q2 = find_blk (snd s) q2) by (apply B6; auto; intros x I J; apply (A2 x I); now apply apart_in).
      split; auto. split; auto. split; [|split; [|split]].
      * apply listed_cons; cbn [fst snd]; auto; try (unfold bits_of; now rewrite SQ). intros x I. unfold bits_of. rewrite SQ. apply A2. auto.
      * intros x [<-|I]; auto. cbn [fst]. intros J. apply apart_in in J; [|apply (w_nd s' B1)]. unfold bits_of in J. rewrite SQ in J. apply NI. now apply apart_in.
      * intros x [<-|I]; [now left|right; auto].
      * intros y Y1 Y2. apply B6; auto. intros x I. apply Y2. now right.
Qed.
Lemma finalize_other q s x : NoDup (all_bits (snd s)) -> ~ In x (bits_of (snd s) q) -> find_blk (snd (finalize_blk q s)) x = find_blk (snd s) x.
Proof. intros N NI. destruct s as [ops d]. cbn [snd] in *. unfold finalize_blk. destruct (b_pos _); auto. cbn [snd]. now apply find_drop. Qed.
Lemma fill_w fuel : forall m s, winv s -> full s -> listed s m -> winv (fill fuel max m s) /\ full (fill fuel max m s).
Proof.
  induction fuel as [|fuel IH]; intros m s W F LI; [now split|]. destruct m as [|[q size] r]; [now split|]. cbn [fill]. destruct (Nat.eqb size max).
  - destruct (listed_apart _ _ _ W LI) as [L1 A1]. apply IH; [now apply finalize_w|now apply finalize_full|]. apply (listed_same s); auto. intros x I. apply finalize_other; [apply (w_nd s W)|]. now apply A1.
  - pose proof (absorb_w q r size s W F LI) as H. destruct (absorb max q size r s) as [s' r']. destruct H as (B1 & B2 & B3 & B4 & B5 & B6). apply IH; [now apply finalize_w|now apply finalize_full|].
    apply (listed_same s'); auto. intros x I. apply finalize_other; [apply (w_nd s' B1)|]. now apply B4.
Qed.
Lemma nodup_flat_filter {A} (f : A -> list nat) g m : NoDup (flat_map f m) -> NoDup (flat_map f (filter g m)).
Proof.
  induction m as [|r m IHl]; simpl; intros H; auto. apply nodup_app_iff in H. destruct (g r); [|apply IHl; tauto]. simpl. apply nodup_app_iff. split; [tauto|]. split; [apply IHl; tauto|].
  destruct H as (_ & _ & D). intros x B C. apply (D x B). apply in_flat_map in C. destruct C as (y & Iy & C). apply filter_In in Iy. apply in_flat_map. exists y. tauto.
Qed.
Lemma make_room_all_w us s : winv s -> full s -> winv (make_room_all max us s) /\ full (make_room_all max us s).
Proof.
  intros W F. unfold make_room_all. apply fill_w; auto. set (d := snd s). set (bs := filter _ (reps d us)). set (L := map (fun q => (q, blk_size d q)) bs). pose proof (sort_perm L) as P.
  split; fold d.
  - eapply Permutation_NoDup; [apply perm_flat, Permutation_sym, P|]. assert (E : flat_map (fun x : nat * nat => bits_of d (fst x)) L = flat_map (bits_of d) bs).
    { unfold L. clear. induction bs as [|q m IH]; [reflexivity|]. cbn [map flat_map fst]. now rewrite IH. }
    rewrite E. apply nodup_flat_filter, reps_nodup, (w_nd s W).
  - intros x I. apply (Permutation_in _ P) in I. unfold L in I. apply in_map_iff in I. destruct I as (q & <- & I). cbn [fst snd]. split; [reflexivity|]. apply filter_In in I. destruct I as [_ I]. now destruct (b_pos (find_blk d q)).
Qed.

(** ** The pass *)
Lemma step_w s o : winv s -> full s -> In o l -> incl (touched o) (used o) -> winv (collect_step max s o) /\ full (collect_step max s o).
Proof.
  intros W F I T. unfold collect_step. assert (TS : incl (touched o) (set_of (used o))) by (intros x J; apply set_of_In; auto). pose proof (set_of_NoDup (used o)) as NU. set (us := set_of (used o)) in *.
  assert (FO : fineo o) by (left; exists o; split; [exact I|apply incl_refl]).
  destruct (is_unitary o).
  - set (s1 := if Nat.ltb max (list_sum (map (blk_size (snd s)) (reps (snd s) us))) then _ else _).
    assert (S1 : winv s1 /\ full s1 /\ (length us <= max -> exists qs, length qs <= max /\ fits (snd s1) us qs)).
    { unfold s1. destruct (Nat.ltb_spec max (list_sum (map (blk_size (snd s)) (reps (snd s) us)))) as [L|L].
      - destruct (Nat.ltb_spec max (length us)) as [L2|L2].
        + destruct (make_room_all_w us s W F). split; auto. split; auto. lia.
        + destruct (make_room_w us s NU L2 W F) as (qs & Q1 & Q2 & Q3 & Q4). split; auto. split; auto. intros _. now exists qs.
      - split; auto. split; auto. intros _. exists (flat_map (bits_of (snd s)) (reps (snd s) us)). split; [rewrite <- list_sum_flat; exact L|].
        intros q J. destruct (reps_cover (snd s) us q (w_nd s W) J) as (r & Ir & Q). intros y Y. apply in_flat_map. exists r. split; auto. pose proof (class_eq _ q r (w_nd s W) Q) as EQ. unfold bits_of in *. now rewrite <- EQ. }
    clearbody s1. destruct S1 as (W1 & F1 & FT). destruct (Nat.ltb_spec max (length us)) as [L|L].
    + split; [|exact F1]. destruct W1 as [N1 B1 O1]. split; cbn [fst snd]; auto. apply Forall_app. auto.
    + destruct (FT L) as (qs & Q1 & Q2). assert (FB : forall q, full_but q s1) by (intros q; unfold full_but; eapply Forall_impl; [|exact F1]; cbn; auto). clearbody us. destruct us as [|q us'].
      * split; [apply place_w; auto; intros x J; destruct (TS x J)|apply place_full, FB].
      * replace (last (q :: us') q) with (last us' q) by (now rewrite last_cons). destruct (union_all_w us' qs Q1 q s1 [q] W1 (FB q) Q2) as (A & B & C); [intros x [<-|[]]; apply find_self|].
        split; [|now apply place_full]. apply place_w; auto. intros x J. apply C. exact (TS x J).
  - assert (FW : forall us s, winv s -> full s -> winv (fold_left (fun s q => finalize_blk q s) us s) /\ full (fold_left (fun s q => finalize_blk q s) us s)).
    { clear - M1. intros us. induction us as [|q us IH]; intros s W F; cbn [fold_left]; [now split|]. apply IH; [now apply finalize_w|now apply finalize_full]. }
    destruct (FW us s W F) as [W1 F1]. split; [|exact F1]. destruct W1 as [N1 B1 O1]. split; cbn [fst snd]; auto. apply Forall_app. auto.
Qed.
Lemma steps_w m : incl m l -> Forall (fun o => incl (touched o) (used o)) m -> forall s, winv s -> full s -> winv (fold_left (collect_step max) m s) /\ full (fold_left (collect_step max) m s).
Proof.
  induction m as [|o m IH]; intros I T s W F; cbn [fold_left]; [now split|]. inversion T as [|? ? T1 T2]; subst. destruct (step_w s o W F) as [W1 F1]; auto; [apply I; now left|].
  apply IH; auto. intros x J. apply I. now right.
Qed.
Lemma finish_w s : winv s -> winv (finish s).
Proof.
  unfold finish. generalize (snd s) at 1. intros bs. revert s. induction bs as [|b bs IH]; intros s W; cbn [fold_left]; auto. apply IH. destruct (b_bits b); auto. now apply finalize_w.
Qed.
Lemma filter_touched g (m : list cop) : incl (flat_map touched (filter g m)) (flat_map touched m).
Proof. intros x I. apply in_flat_map in I. destruct I as (y & Iy & I). apply filter_In in Iy. apply in_flat_map. exists y. tauto. Qed.
Lemma fine_sub o o' : fineo o -> incl (touched o') (touched o) -> fineo o'.
Proof. intros [(o0 & I & J)|(qs & L & J)] H; [left; exists o0|right; exists qs]; split; auto; eapply incl_tran; eauto. Qed.
Lemma remove_fine gone m : Forall fineo m -> Forall fineo (remove_ops gone m).
Proof.
  induction 1 as [|o m A F IH]; cbn [remove_ops]; [constructor|]. destruct (gone o); auto. destruct o as [x|qs cs|qs|c o|cu m']; try (now constructor).
  pose proof (filter_touched (fun x => negb (gone x)) m') as T. destruct (filter (fun x => negb (gone x)) m') as [|x [|y r]]; auto.
  - constructor; auto. eapply fine_sub; [exact A|]. cbn [flat_map] in T. rewrite app_nil_r in T. exact T.
  - constructor; auto. eapply fine_sub; [exact A|exact T].
Qed.
End Width.

Theorem collect_narrow max l : 0 < max -> Forall (fun o => incl (touched o) (used o)) l -> forall o, In o (collect_blocks max l) ->
  (exists o0, In o0 l /\ incl (touched o) (touched o0)) \/ exists qs, length qs <= max /\ incl (touched o) qs.
Proof.
  intros M T o I. unfold collect_blocks in I. destruct (Nat.leb (length l) 1); [left; exists o; split; auto; apply incl_refl|].
  destruct (steps_w l max M l (incl_refl _) T ([], [])) as [W _]; [split; constructor|constructor|]. pose proof (remove_fine l max is_I _ (w_ops _ _ _ (finish_w l max M _ W))) as F.
  rewrite Forall_forall in F. exact (F o I).
Qed.
