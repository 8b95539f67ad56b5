(** Adding single qubits. *)
From Coq Require Import String Ascii List Arith Bool Permutation Lia.
From Verif Require Import GateModel IRModel OptModel QasmIfModel CircModel CircSpec CircProofs CircKeepProofs CircStripProofs CircBuildProofs CircIOProofs.
Import ListNotations.
Local Open Scope list_scope.

Lemma fuse_ok p (regs regs' : cregs) : fuse p regs = Some regs' ->
  map fst regs' = map fst regs /\ Permutation (flat_map members regs') (p :: flat_map members regs).
Proof.
  revert regs'. induction regs as [|[name [st k]] r IH]; intros regs' H; [discriminate |]. simpl in H.
  destruct (Nat.eqb_spec st (S p)) as [-> | N1].
  - inversion H; subst. split; reflexivity.
  - destruct (Nat.eqb_spec (st + k) p) as [<- | N2].
    + inversion H; subst. split; [reflexivity |]. cbn [flat_map]. change (members (name, (st, S k))) with (seq st (S k)). change (members (name, (st, k))) with (seq st k). replace (S k) with (k + 1) by lia.
      rewrite seq_app. cbn [seq]. rewrite <- app_assoc. symmetry. apply Permutation_middle.
    + destruct (fuse p r) as [r'|] eqn:E; [| discriminate]. simpl in H. inversion H; subst. destruct (IH r' eq_refl) as [I1 I2].
      split; [simpl; congruence |]. simpl. rewrite I2. symmetry. apply Permutation_middle.
Qed.
Lemma ends_stem : forall n, ends_with_l n = true -> n = (substring 0 (String.length n - 2) n ++ "_l")%string.
Proof.
  induction n as [|a n IH]; intros H; [discriminate |]. destruct n as [|b n]; [discriminate |]. destruct n as [|c n].
  - cbn in H. apply andb_true_iff in H as [H1 H2]. apply Ascii.eqb_eq in H1, H2. subst. reflexivity.
  - change (ends_with_l (String b (String c n)) = true) in H. specialize (IH H).
    replace (String.length (String a (String b (String c n))) - 2) with (S (String.length (String b (String c n)) - 2)) by (cbn [String.length]; lia).
    cbn [substring append]. f_equal. exact IH.
Qed.
Lemma low_stem n : low_part n = true -> n = (stem n ++ "_l")%string.
Proof. unfold low_part, stem. intros H. apply andb_true_iff in H as [_ H]. apply ends_stem; exact H. Qed.
Lemma part_first m b : part_of m b -> b = m \/ part_of (m ++ "_l") b \/ part_of (m ++ "_h") b.
Proof.
  induction 1 as [|b P IH|b P IH]; [auto | |]; right; destruct IH as [-> | [Q | Q]].
  - left; constructor.
  - left; constructor; exact Q.
  - right; constructor; exact Q.
  - right; constructor.
  - left; constructor; exact Q.
  - right; constructor; exact Q.
Qed.
Lemma part_length a b : part_of a b -> String.length a <= String.length b.
Proof. induction 1; [lia | |]; rewrite append_len; lia. Qed.
Lemma erase_perm name r (regs : cregs) : NoDup (map fst regs) -> In (name, r) regs -> Permutation regs ((name, r) :: reg_erase name regs).
Proof.
  intros N H. apply in_split in H as (l1 & l2 & ->). rewrite reg_erase_split by exact N. symmetry. apply Permutation_middle.
Qed.
Definition sound_names (D : string) (regs : cregs) : Prop :=
  NoDup (map fst regs) /\ splittable regs /\ forall n, In n (map fst regs) -> ~ part_of D n.
Lemma join_ok D m st k hn (regs : cregs) : sound_names D regs -> In ((m ++ "_l")%string, (st, k)) regs -> In ((m ++ "_h")%string, (st + k, hn)) regs ->
  let regs' := reg_emplace m st (k + hn) (reg_erase (m ++ "_h") (reg_erase (m ++ "_l") regs)) in
  Permutation (flat_map members regs') (flat_map members regs) /\ sound_names D regs'.
Proof.
  intros (N & SP & DD) HL HH regs'.
  assert (NE : (m ++ "_l")%string <> (m ++ "_h")%string).
  { clear. induction m; simpl; [discriminate | congruence]. }
  pose proof (erase_perm _ _ _ N HL) as P1.
  assert (N1 : NoDup ((m ++ "_l")%string :: map fst (reg_erase (m ++ "_l") regs))) by (eapply Permutation_NoDup; [apply (Permutation_map fst P1) | exact N]).
  assert (HH1 : In ((m ++ "_h")%string, (st + k, hn)) (reg_erase (m ++ "_l") regs)).
  { apply (Permutation_in _ P1) in HH. destruct HH as [HH | HH]; [inversion HH; congruence | exact HH]. }
  inversion N1 as [|x y NI N1']; subst.
  pose proof (erase_perm _ _ _ N1' HH1) as P2. set (rest := reg_erase (m ++ "_h") (reg_erase (m ++ "_l") regs)) in *.
  assert (P : Permutation regs (((m ++ "_l")%string, (st, k)) :: ((m ++ "_h")%string, (st + k, hn)) :: rest)) by (rewrite P1 at 1; rewrite P2; reflexivity).
  assert (NP : NoDup ((m ++ "_l")%string :: (m ++ "_h")%string :: map fst rest)) by (eapply Permutation_NoDup; [apply (Permutation_map fst P) | exact N]).
  inversion NP as [|x y NL NP']; subst. inversion NP' as [|x y NH NR]; subst.
  assert (IR : forall n, In n (map fst rest) -> In n (map fst regs) /\ n <> (m ++ "_l")%string /\ n <> (m ++ "_h")%string).
  { intros n H. split; [| split].
    - eapply Permutation_in; [symmetry; apply (Permutation_map fst P) |]. right; right; exact H.
    - intros ->. apply NL. right; exact H.
    - intros ->. contradiction. }
  assert (IL : In (m ++ "_l")%string (map fst regs)) by (apply (in_map fst) in HL; exact HL).
  assert (IH : In (m ++ "_h")%string (map fst regs)) by (apply (in_map fst) in HH; exact HH).
  assert (NM : ~ In m (map fst rest)).
  { intros H. destruct (IR m H) as (A & B & _). apply B. apply (SP m _ A IL). constructor; constructor. }
  assert (ER : regs' = rest ++ [(m, (st, k + hn))]) by (apply reg_emplace_new; exact NM).
  rewrite ER. split; [| split; [| split]].
  - rewrite P. rewrite flat_map_app. cbn [flat_map]. rewrite app_nil_r.
    change (members (m, (st, k + hn))) with (seq st (k + hn)). change (members ((m ++ "_l")%string, (st, k))) with (seq st k).
    change (members ((m ++ "_h")%string, (st + k, hn))) with (seq (st + k) hn). rewrite seq_app, Permutation_app_comm, app_assoc. reflexivity.
  - rewrite map_app. apply NoDup_app2; [exact NR | repeat constructor; intros [] |]. intros y H1 [<- | []]. contradiction.
  - intros a b. rewrite map_app, !in_app_iff. cbn [map In fst]. intros [A | [<- | []]] [B | [<- | []]] Q; [| | | reflexivity].
    + destruct (IR a A), (IR b B). apply SP; assumption.
    + destruct (IR a A) as (A1 & A2 & _). exfalso. apply A2. apply (SP a _ A1 IL). constructor; exact Q.
    + destruct (IR b B) as (B1 & B2 & B3). apply part_first in Q as [Q | [Q | Q]]; [auto | |]; exfalso; [apply B2 | apply B3]; symmetry; apply SP; assumption.
  - intros n. rewrite map_app, in_app_iff. cbn [map In fst]. intros [H | [<- | []]] Q; [destruct (IR n H) as [H1 _]; exact (DD n H1 Q) |].
    apply (DD _ IL). constructor; exact Q.
Qed.
Lemma consolidate_ok D : forall f regs, sound_names D regs -> Permutation (flat_map members (consolidate f regs)) (flat_map members regs) /\ sound_names D (consolidate f regs).
Proof.
  induction f as [|f IH]; intros regs H; [split; [reflexivity | exact H] |]. cbn [consolidate].
  destruct (find (fun r => low_part (fst r)) regs) as [[name [st k]]|] eqn:E; [| split; [reflexivity | exact H]].
  apply find_some in E as [E1 E2]. cbn [fst] in E2. apply low_stem in E2.
  destruct (find (fun r => String.eqb (fst r) (stem name ++ "_h")) regs) as [[h [hs hn]]|] eqn:E3; [| split; [reflexivity | exact H]].
  apply find_some in E3 as [E3 E4]. cbn [fst] in E4. apply String.eqb_eq in E4. subst h.
  destruct (Nat.eqb_spec (st + k) hs) as [<- |]; [| split; [reflexivity | exact H]].
  set (m := stem name) in *. rewrite E2 in E1 |- *. destruct (join_ok D m st k hn regs H E1 E3) as [J1 J2].
  destruct (IH _ J2) as [I1 I2]. split; [etransitivity; [exact I1 | exact J1] | exact I2].
Qed.
(** The name of a new register ends with a digit. *)
Lemma number_last p : exists s d, number p = (s ++ String (ascii_of_nat (48 + d)) "")%string /\ d < 10.
Proof. unfold number. cbn [digits]. exists (if Nat.ltb p 10 then "" else digits p (p / 10))%string, (p mod 10). split; [reflexivity | apply Nat.mod_upper_bound; lia]. Qed.
Lemma append_assoc3 (a b c : string) : ((a ++ b) ++ c = a ++ (b ++ c))%string.
Proof. induction a; simpl; congruence. Qed.
Lemma last_inj : forall a b x y, (a ++ String x "" = b ++ String y "")%string -> x = y.
Proof.
  induction a as [|c a IH]; intros b x y H; destruct b as [|e b]; simpl in H; inversion H; subst; auto.
  - destruct b; discriminate.
  - destruct a; discriminate.
  - eapply IH; eauto.
Qed.
Lemma digit_name a D p : part_of a (D ++ "_" ++ number p) -> a = (D ++ "_" ++ number p)%string.
Proof.
  destruct (number_last p) as (s & d & E & Hd). intros H.
  assert (EE : (D ++ "_" ++ number p = (D ++ "_" ++ s) ++ String (ascii_of_nat (48 + d)) "")%string) by (rewrite E, !append_assoc3; reflexivity).
  remember (D ++ "_" ++ number p)%string as x eqn:Ex. clear Ex. destruct H as [|b Q|b Q]; [reflexivity | |]; exfalso.
  - replace (b ++ "_l")%string with ((b ++ "_") ++ String "l" "")%string in EE by (rewrite append_assoc3; reflexivity).
    apply last_inj in EE. do 10 (destruct d as [|d]; [discriminate EE |]). lia.
  - replace (b ++ "_h")%string with ((b ++ "_") ++ String "h" "")%string in EE by (rewrite append_assoc3; reflexivity).
    apply last_inj in EE. do 10 (destruct d as [|d]; [discriminate EE |]). lia.
Qed.
Lemma add_reg (regs : cregs) p default : NoDup (map fst regs) -> names_free regs default p ->
  let regs' := addQubitToQubitRegister regs p default in
  Permutation (flat_map members regs') (p :: flat_map members regs) /\ NoDup (map fst regs') /\ splittable regs'.
Proof.
  intros N (SP & F). unfold addQubitToQubitRegister. set (D := (default ++ "_" ++ number p)%string) in *.
  destruct (fuse p regs) as [r|] eqn:E.
  - destruct (fuse_ok _ _ _ E) as [E1 E2].
    assert (SN : sound_names D r) by (split; [rewrite E1; exact N |]; split; [unfold splittable; rewrite E1; exact SP | rewrite E1; exact F]).
    destruct (consolidate_ok D (length r) r SN) as [C1 (C2 & C3 & _)]. rewrite E2 in C1.
    destruct (consolidate (length r) r) as [|x r']; [apply Permutation_nil in C1; discriminate C1 |]. auto.
  - destruct (consolidate_ok D (length regs) regs (conj N (conj SP F))) as [C1 (C2 & C3 & C4)].
    destruct (consolidate (length regs) regs) as [|x r'].
    + cbn [flat_map] in C1. split; [cbn; rewrite <- C1; reflexivity |]. split; [simpl; repeat constructor; intros [] |].
      intros a b [<- | []] [<- | []] _. reflexivity.
    + assert (ND : ~ In D (map fst (x :: r'))) by (intros Q; apply (C4 D Q); constructor).
      rewrite (reg_emplace_new _ p 1 (x :: r') ND). split; [| split].
      * rewrite flat_map_app, C1. simpl. rewrite Permutation_app_comm. reflexivity.
      * rewrite map_app. apply NoDup_app2; [exact C2 | repeat constructor; intros [] |]. intros y H1 [<- | []]. contradiction.
      * intros a b. rewrite map_app, !in_app_iff. cbn [map In fst]. intros [A | [<- | []]] [B | [<- | []]] Q; [| | | reflexivity].
        -- apply C3; assumption.
        -- apply digit_name; exact Q.
        -- exfalso. exact (C4 b B Q).
Qed.

(** One more qubit, physical [p], logical the next. *)
Lemma extend1 s s' (aq : bool) p o :
  well_kept s -> ~ In p (map fst (c_lay s)) ->
  (forall x, o = Some x -> x <= total s /\ ~ In x (map snd (c_out s)) /\ flag (c_gar s) x = false) ->
  Permutation (c_lay s') ((p, total s) :: c_lay s) ->
  Permutation (c_out s') (match o with Some x => [(p, x)] | None => [] end ++ c_out s) ->
  total s' = S (total s) ->
  NoDup (map fst (c_qregs s')) -> NoDup (map fst (c_aregs s')) ->
  Permutation (flat_map members (c_qregs s')) ((if aq then [] else [p]) ++ flat_map members (c_qregs s)) ->
  Permutation (flat_map members (c_aregs s')) ((if aq then [p] else []) ++ flat_map members (c_aregs s)) ->
  c_na s' = (if aq then S (c_na s) else c_na s) ->
  total s' <= length (c_anc s') -> total s' <= length (c_gar s') ->
  (forall i, flag (c_anc s') i = flag (c_anc s) i || (aq && Nat.eqb i (total s))) ->
  (forall i, flag (c_gar s') i = true -> flag (c_gar s) i = true \/ (o = None /\ i = total s)) ->
  well_kept s'.
Proof.
  intros W F HO PL PO T NQ NA PQ PA EN LA LG FA FG.
  assert (Fo : ~ In p (map fst (c_out s))) by (intros Q; apply F; apply (wk_out s W); exact Q).
  assert (ot : ~ In (total s) (map snd (c_out s))).
  { intros Q. apply in_map_iff in Q as ([a b] & E & Q). simpl in E; subst. apply (wk_out_range s W) in Q. lia. }
  assert (POin : forall q x, In (q, x) (c_out s') -> In (q, x) (c_out s) \/ (q = p /\ o = Some x)).
  { intros q x H. apply (Permutation_in _ PO) in H. destruct o; simpl in H; [| auto]. destruct H as [H | H]; [inversion H; subst; auto | auto]. }
  constructor.
  - eapply Permutation_NoDup; [symmetry; apply (Permutation_map fst PL) |]. simpl. constructor; [exact F | apply (wk_phys s W)].
  - rewrite PL. cbn [map snd]. rewrite (wk_log s W), T, seq_S. cbn [Nat.add]. rewrite (Permutation_app_comm (seq 0 (total s)) [total s]). reflexivity.
  - intros x Hx. apply in_map_iff in Hx as ([q y] & E & Hx). simpl in E; subst q. eapply Permutation_in; [symmetry; apply (Permutation_map fst PL) |].
    apply POin in Hx as [Hx | [-> _]]; [right; apply (wk_out s W); apply in_map_iff; exists (x, y); auto | left; reflexivity].
  - eapply Permutation_NoDup; [symmetry; apply (Permutation_map fst PO) |]. destruct o; simpl; [constructor; [exact Fo |] |]; apply (wk_out_phys s W).
  - eapply Permutation_NoDup; [symmetry; apply (Permutation_map snd PO) |]. destruct o; simpl; [constructor; [apply (HO n eq_refl) |] |]; apply (wk_out_log s W).
  - intros q x Hx. apply POin in Hx as [Hx | [_ Hx]]; [apply (wk_out_range s W) in Hx | destruct (HO x Hx)]; lia.
  - rewrite flat_map_app, PQ, PA, PL. cbn [map fst]. rewrite <- (wk_regs s W), flat_map_app. destruct aq; simpl; [symmetry; apply Permutation_middle | reflexivity].
  - exact NQ.
  - exact NA.
  - exact LA.
  - assert (R : forall i, flag (c_anc s') i = true -> i < S (total s)).
    { intros i. rewrite FA, orb_true_iff, andb_true_iff, Nat.eqb_eq. intros [H | [_ ->]]; [apply (wk_anc_range s W) in H |]; lia. }
    rewrite (count_flag _ _ R), seq_S, filter_app, app_length. cbn [Nat.add].
    rewrite (filter_ext_in (flag (c_anc s')) (flag (c_anc s)) (seq 0 (total s))).
    2: { intros x Hx%in_seq. rewrite FA. destruct (Nat.eqb_spec x (total s)); [lia |]. rewrite andb_false_r, orb_false_r. reflexivity. }
    rewrite <- (count_flag _ _ (wk_anc_range s W)), (wk_anc s W), EN. cbn [filter]. rewrite FA, Nat.eqb_refl.
    assert (Z : flag (c_anc s) (total s) = false) by (destruct (flag (c_anc s) (total s)) eqn:Q; [apply (wk_anc_range s W) in Q; lia | reflexivity]).
    rewrite Z. destruct aq; simpl; lia.
  - intros i. rewrite FA, orb_true_iff, andb_true_iff, Nat.eqb_eq. intros [H | [_ ->]]; [apply (wk_anc_range s W) in H |]; lia.
  - intros q x Hx Hq. rewrite FA. apply (Permutation_in _ PL) in Hx. apply (Permutation_in _ PA) in Hq. rewrite in_app_iff in Hq.
    destruct Hx as [Hx | Hx].
    + inversion Hx; subst. destruct aq; [rewrite Nat.eqb_refl; apply orb_true_r |]. destruct Hq as [[] | Hq]. exfalso. apply F.
      eapply Permutation_in; [apply (wk_regs s W) |]. rewrite flat_map_app, in_app_iff. auto.
    + destruct Hq as [Hq | Hq]; [| rewrite (wk_areg s W q x Hx Hq); reflexivity].
      destruct aq; [| destruct Hq]. destruct Hq as [<- | []]. exfalso. apply F. apply in_map_iff. exists (p, x); auto.
  - exact LG.
  - intros i Hi. apply FG in Hi as [Hi | [_ ->]]; [apply (wk_gar_range s W) in Hi |]; lia.
  - intros q x Hx. destruct (flag (c_gar s') x) eqn:E; [| reflexivity]. apply FG in E as [E | [EO ->]].
    + apply POin in Hx as [Hx | [_ Hx]]; [rewrite (wk_gar s W q x Hx) in E; discriminate |]. destruct (HO x Hx) as (_ & _ & Q). congruence.
    + apply POin in Hx as [Hx | [_ Hx]]; [| congruence]. exfalso. apply ot. apply in_map_iff. exists (q, total s); auto.
Qed.

Lemma mhas_not p m : mhas p m = false -> ~ In p (map fst m).
Proof. intros H Q. apply mhas_in in Q. congruence. Qed.

Theorem keep_ancilla p o s s' : tidy s -> names_free (c_aregs s) "anc" p -> output_free s o ->
  addAncillaryQubit p o s = ROk s' -> tidy s'.
Proof.
  intros (W & SQ & SA) NF HO H. unfold addAncillaryQubit in H.
  destruct (mhas p (c_lay s)) eqn:E1; [discriminate |]. destruct (mhas p (c_out s)) eqn:E2; [discriminate |]. cbn [orb] in H. inversion H; subst; clear H.
  apply mhas_not in E1. apply mhas_not in E2.
  destruct (add_reg (c_aregs s) p "anc" (wk_anames s W) NF) as (P1 & P2 & P3).
  split; [| split; [exact SQ | exact P3]].
  apply (extend1 s _ true p o); cbn [c_lay c_out c_qregs c_aregs c_na c_anc c_gar app]; auto.
  - apply memplace_new; exact E1.
  - destruct o; [apply memplace_new; exact E2 | reflexivity].
  - unfold total; simpl; lia.
  - apply (wk_qnames s W).
  - rewrite set_at_length, resize_length. unfold total; simpl; lia.
  - destruct o; rewrite ?set_at_length, resize_length; unfold total; simpl; lia.
  - intros i. rewrite set_at_flag, resize_flag, resize_length. cbn [andb].
    destruct (Nat.eqb_spec i (total s)) as [-> | N]; simpl.
    + destruct (Nat.ltb_spec (total s) (total s + 1)); [| lia]. rewrite orb_true_r. reflexivity.
    + rewrite orb_false_r. destruct (Nat.ltb_spec i (total s + 1)); [reflexivity |]. destruct (flag (c_anc s) i) eqn:Q; [apply (wk_anc_range s W) in Q; lia | reflexivity].
  - intros i Hi. destruct o.
    + rewrite resize_flag in Hi. destruct (Nat.ltb i (total s + 1)); [auto | discriminate].
    + rewrite set_at_flag, resize_flag in Hi. destruct (Nat.eqb_spec i (total s)); [auto |]. cbn [andb] in Hi. destruct (Nat.ltb i (total s + 1)); [auto | discriminate].
Qed.

Lemma shift_up_flag l t v i : l < t -> flag (shift_up l t v) i = if Nat.ltb i t then (if Nat.ltb i l then flag v i else if Nat.eqb i l then false else flag v (i - 1)) else false.
Proof.
  intros H. unfold shift_up. destruct (Nat.ltb_spec i t) as [Q | Q].
  - unfold flag at 1. rewrite nth_map_seq by exact Q. reflexivity.
  - apply flag_over. rewrite map_length, seq_length. exact Q.
Qed.
(** A qubit added as the last logical qubit. *)
Theorem keep_qubit p o s s' : tidy s -> names_free (c_qregs s) "q" p -> output_free s o ->
  addQubit (total s) p o s = ROk s' -> tidy s'.
Proof.
  intros (W & SQ & SA) NF HO H. unfold addQubit in H.
  destruct (mhas p (c_lay s)) eqn:E1; [discriminate |]. destruct (mhas p (c_out s)) eqn:E2; [discriminate |]. cbn [orb] in H.
  destruct (Nat.ltb_spec (c_nq s) (total s)) as [| NA]; [discriminate |]. inversion H; subst; clear H.
  assert (Z : c_na s = 0) by (unfold total in NA; lia). assert (TQ : total s = c_nq s) by (unfold total; lia).
  apply mhas_not in E1. apply mhas_not in E2.
  destruct (add_reg (c_qregs s) p "q" (wk_qnames s W) NF) as (P1 & P2 & P3).
  split; [| split; [exact P3 | exact SA]].
  assert (SF : forall v i, (forall j, flag v j = true -> j < total s) -> flag (shift_up (total s) (S (c_nq s) + c_na s) (resize (S (c_nq s) + c_na s) v)) i = flag v i).
  { intros v i R. rewrite shift_up_flag by lia. rewrite !resize_flag.
    destruct (Nat.ltb_spec i (S (c_nq s) + c_na s)) as [Q | Q].
    - destruct (Nat.ltb_spec i (total s)); [reflexivity |]. destruct (Nat.eqb_spec i (total s)); [| lia]. subst i.
      destruct (flag v (total s)) eqn:E; [apply R in E; lia | reflexivity].
    - destruct (flag v i) eqn:E; [apply R in E; lia | reflexivity]. }
  apply (extend1 s _ false p o); cbn [c_lay c_out c_qregs c_aregs c_na c_anc c_gar app]; auto.
  - apply memplace_new; exact E1.
  - destruct o; [apply memplace_new; exact E2 | reflexivity].
  - apply (wk_anames s W).
  - unfold shift_up. rewrite map_length, seq_length. unfold total; simpl; lia.
  - unfold shift_up. rewrite map_length, seq_length. unfold total; simpl; lia.
  - intros i. rewrite SF by apply (wk_anc_range s W). simpl. rewrite orb_false_r. reflexivity.
  - intros i. rewrite SF by apply (wk_gar_range s W). auto.
Qed.
(** The layout stays a bijection only if the qubit is the last one. *)
Theorem add_qubit_last l p o s s' : well_kept s -> addQubit l p o s = ROk s' -> (NoDup (map snd (c_lay s')) <-> l = total s).
Proof.
  intros W H. unfold addQubit in H. destruct (mhas p (c_lay s)) eqn:E1; [discriminate |]. destruct (mhas p (c_out s)); [discriminate |]. cbn [orb] in H.
  destruct (Nat.ltb_spec (c_nq s) l) as [| NL]; [discriminate |]. inversion H; subst; clear H. cbn [c_lay].
  apply mhas_not in E1. pose proof (Permutation_map snd (memplace_new p l (c_lay s) E1)) as P. cbn [map snd] in P.
  split; intros H.
  - apply (Permutation_NoDup P) in H. inversion H as [|x y N _]; subst.
    destruct (lt_eq_lt_dec l (total s)) as [[Q | Q] | Q]; [| exact Q | unfold total in Q; lia].
    exfalso. apply N. eapply Permutation_in; [symmetry; apply (wk_log s W) |]. apply in_seq. lia.
  - subst. eapply Permutation_NoDup; [symmetry; exact P |]. constructor; [| apply (log_nodup s W)].
    intros Q. apply (Permutation_in _ (wk_log s W)) in Q. apply in_seq in Q. lia.
Qed.

(** The outputs taken from the measurements. *)
Theorem io_kept s s' : well_kept s -> same_rest s s' -> length (c_gar s') = total s -> NoDup (map snd (c_out s')) -> NoDup (map fst (c_out s')) ->
  (forall l, flag (c_gar s') l = true <-> l < total s /\ ~ In l (map snd (c_out s'))) ->
  (forall q b, In (q, b) (c_out s') -> In q (map fst (c_lay s)) /\ b < total s) -> well_kept s'.
Proof.
  intros W (R1 & R2 & R3 & R4 & R5 & R6 & R7 & R8 & R9) L N1 N2 G H.
  assert (T : total s' = total s) by (unfold total; congruence).
  destruct W. constructor; rewrite ?T, ?R7, ?R4, ?R5, ?R8, ?R2; auto.
  - intros x Hx. apply in_map_iff in Hx as ([a b] & E & Hx). simpl in E; subst. apply (H x b Hx).
  - intros p l Hp. apply (H p l Hp).
  - lia.
  - intros l Hl. apply G in Hl. tauto.
  - intros p l Hp. destruct (flag (c_gar s') l) eqn:E; [| reflexivity]. apply G in E as [_ E]. exfalso. apply E. apply in_map_iff. exists (p, l); auto.
Qed.
