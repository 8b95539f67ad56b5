(** Inputs and outputs from the measurements of a circuit. *)
From Coq Require Import String List Arith Bool Permutation Lia.
From Verif Require Import GateModel IRModel OptModel QasmIfModel CircModel CircSpec CircProofs CircKeepProofs CircStripProofs CircBuildProofs.
Import ListNotations.
Local Open Scope list_scope.


Lemma memn_in q l : memn q l = true <-> In q l.
Proof.
  unfold memn. rewrite existsb_exists. split.
  - intros (x & H & E). apply Nat.eqb_eq in E. subst. exact H.
  - intros H. exists q. split; [exact H | apply Nat.eqb_refl].
Qed.
Lemma memn_not q l : ~ In q l -> memn q l = false.
Proof. intros H. destruct (memn q l) eqn:E; [apply memn_in in E; contradiction | reflexivity]. Qed.
Lemma mset_perm q b m : Permutation (mset q b m) ((q, b) :: merase q m).
Proof. unfold mset. apply memplace_new. apply merase_keys. Qed.
Lemma pass_on_keys b c m : map fst (pass_on b c m) = map fst m.
Proof. induction m as [|[x y] r IH]; simpl; [reflexivity |]. destruct (Nat.eqb y b); simpl; congruence. Qed.
Lemma pass_on_in b c m : NoDup (map snd m) -> forall p x,
  In (p, x) (pass_on b c m) <-> (In (p, x) m /\ x <> b) \/ (In (p, b) m /\ x = c).
Proof.
  induction m as [|[y z] r IH]; intros N p x; simpl; [tauto |]. inversion N as [|u w N1 N2]; subst.
  destruct (Nat.eqb_spec z b) as [-> | Z]; simpl.
  - assert (NB : forall q, ~ In (q, b) r) by (intros q Q; apply N1; apply in_map_iff; exists (q, b); auto).
    split.
    + intros [H | H]; [inversion H; subst; auto |]. left. split; [auto |]. intros ->. eapply NB; eauto.
    + intros [[[H | H] Q] | [[H | H] ->]]; [inversion H; congruence | auto | inversion H; subst; auto | exfalso; eapply NB; eauto].
  - rewrite IH by assumption. split.
    + intros [H | [[H Q] | [H Q]]]; [inversion H; subst; auto | auto | auto].
    + intros [[[H | H] Q] | [[H | H] Q]]; [auto | auto | inversion H; congruence | auto].
Qed.

(** The state after the measurements [D]: they are entered. *)
Definition entered (found : bool) (keys : list nat) (D : list (nat * nat)) (out : perm) (seen : list nat) : Prop :=
  NoDup (map fst out) /\ NoDup (map snd out) /\ incl D out /\ (forall q, In q seen <-> In q (map fst D)) /\
  (if found then incl keys (map fst out) /\ incl (map fst out) keys else incl out D).

Lemma entered_step found keys D out seen q b : entered found keys D out seen -> ~ In q (map fst D) -> ~ In b (map snd D) ->
  (found = true -> In q keys) ->
  exists out', (forall qs cs, io_measure found (q :: qs) (b :: cs) out seen = io_measure found qs cs out' (q :: seen)) /\ entered found keys (D ++ [(q, b)]) out' (q :: seen).
Proof.
  intros (N1 & N2 & I & S & K) Hq Hb HK.
  assert (MS : memn q seen = false) by (apply memn_not; rewrite S; exact Hq).
  assert (SE : forall x, In x (q :: seen) <-> In x (map fst (D ++ [(q, b)]))).
  { intros x. rewrite map_app, in_app_iff. simpl. rewrite S. tauto. }
  destruct found.
  - destruct K as [K1 K2]. assert (QI : In q (map fst out)) by (apply K1; auto).
    apply in_map_iff in QI as ([a cur] & E & QI). simpl in E; subst a.
    exists (if Nat.eqb cur b then out else mset q b (pass_on b cur out)). split.
    { intros qs cs. simpl. rewrite MS, (in_plookup _ _ _ N1 QI). reflexivity. }
    destruct (Nat.eqb_spec cur b) as [-> | NE].
    { split; [exact N1 |]. split; [exact N2 |]. split; [| auto]. intros x Hx. apply in_app_or in Hx as [Hx | [<- | []]]; auto. }
    set (po := pass_on b cur out).
    assert (KO : map fst po = map fst out) by apply pass_on_keys.
    assert (QP : In (q, cur) po) by (apply pass_on_in; auto).
    assert (NP : NoDup (map fst po)) by (rewrite KO; exact N1).
    pose proof (mset_perm q b po) as PM. pose proof (merase_one q cur po NP QP) as PE.
    assert (Pk : Permutation (map fst (mset q b po)) (map fst out)).
    { rewrite PM. rewrite <- KO. rewrite PE at 2. reflexivity. }
    split; [eapply Permutation_NoDup; [symmetry; exact Pk | exact N1] |].
    split; [| split; [| split; [exact SE |]]].
    + eapply Permutation_NoDup; [symmetry; apply (Permutation_map snd PM) |]. cbn [map snd].
      (* the entries other than q: values other than b, no two alike *)
      assert (MI : forall p x, In (p, x) (merase q po) <-> p <> q /\ ((In (p, x) out /\ x <> b) \/ (In (p, b) out /\ x = cur))).
      { intros p x. rewrite merase_in. unfold po. rewrite pass_on_in by assumption. tauto. }
      assert (NV : forall p x, In (p, x) (merase q po) -> x <> b).
      { intros p x Q. apply MI in Q as (_ & [[_ Q] | [_ ->]]); auto. }
      constructor.
      * intros Q. apply in_map_iff in Q as ([p x] & E & Q). simpl in E; subst. apply NV in Q. congruence.
      * assert (ND : NoDup (map fst (merase q po))) by (apply NoDup_map_filter; exact NP).
        assert (U : forall p1 p2 x, In (p1, x) (merase q po) -> In (p2, x) (merase q po) -> p1 = p2).
        { intros p1 p2 x A B. apply MI in A as (A0 & A), B as (B0 & B).
          destruct A as [[A1 A2] | [A1 ->]], B as [[B1 B2] | [B1 E]].
          - eapply val_unique; [exact N2 | |]; eauto.
          - subst. exfalso. apply A0. eapply val_unique; [exact N2 | exact A1 | exact QI].
          - exfalso. apply B0. eapply val_unique; [exact N2 | exact B1 | exact QI].
          - eapply val_unique; [exact N2 | |]; eauto. }
        revert ND U. generalize (merase q po). clear. induction p as [|[x y] r IH]; simpl; intros ND U; constructor.
        -- intros Q. apply in_map_iff in Q as ([x' y'] & E & Q). simpl in E; subst. inversion ND; subst. apply H1.
           assert (x = x') by (eapply U; eauto). subst. apply in_map_iff. exists (x', y); auto.
        -- inversion ND; subst. apply IH; [assumption |]. intros; eapply U; eauto.
    + intros [p x] Hx. apply in_app_or in Hx. eapply Permutation_in; [symmetry; exact PM |].
      destruct Hx as [Hx | [Hx | []]]; [| left; congruence]. right. apply merase_in.
      assert (p <> q) by (intros ->; apply Hq; apply in_map_iff; exists (q, x); auto).
      split; [| assumption]. apply pass_on_in; [exact N2 |]. left. split; [apply I; exact Hx |].
      intros ->. apply Hb. apply in_map_iff; exists (p, b); auto.
    + split.
      * intros x Hx. eapply Permutation_in; [symmetry; exact Pk |]. auto.
      * intros x Hx. apply K2. eapply Permutation_in; [exact Pk |]. exact Hx.
  - assert (NQ : ~ In q (map fst out)).
    { intros Q. apply in_map_iff in Q as (y & E & Q). apply K in Q. apply Hq. apply in_map_iff; eauto. }
    exists (mset q b out). split; [intros qs cs; simpl; rewrite MS; reflexivity |].
    pose proof (mset_perm q b out) as PM. rewrite (merase_absent q out NQ) in PM.
    split; [| split; [| split; [| split; [exact SE |]]]].
    + eapply Permutation_NoDup; [symmetry; apply (Permutation_map fst PM) |]. simpl. constructor; assumption.
    + eapply Permutation_NoDup; [symmetry; apply (Permutation_map snd PM) |]. simpl. constructor; [| assumption].
      intros Q. apply in_map_iff in Q as (y & E & Q). apply K in Q. apply Hb. apply in_map_iff; eauto.
    + intros x Hx. eapply Permutation_in; [symmetry; exact PM |]. apply in_app_or in Hx as [Hx | [<- | []]]; [right; auto | left; reflexivity].
    + intros x Hx. apply (Permutation_in _ PM) in Hx. rewrite in_app_iff. destruct Hx as [<- | Hx]; [right; left; reflexivity | left; auto].
Qed.

Lemma entered_op found keys : forall qs cs D out seen, length qs = length cs -> entered found keys D out seen ->
  NoDup (map fst (D ++ combine qs cs)) -> NoDup (map snd (D ++ combine qs cs)) -> (found = true -> incl (map fst (combine qs cs)) keys) ->
  exists out' seen', io_measure found qs cs out seen = ROk (out', seen') /\ entered found keys (D ++ combine qs cs) out' seen'.
Proof.
  induction qs as [|q qs IH]; intros [|b cs] D out seen L E N1 N2 HK; try discriminate.
  - exists out, seen. simpl. rewrite app_nil_r. auto.
  - cbn [combine] in *. assert (A : D ++ (q, b) :: combine qs cs = (D ++ [(q, b)]) ++ combine qs cs) by (rewrite <- app_assoc; reflexivity).
    assert (F1 : ~ In q (map fst D)).
    { rewrite map_app in N1. simpl in N1. apply NoDup_remove_2 in N1. rewrite in_app_iff in N1. tauto. }
    assert (F2 : ~ In b (map snd D)).
    { rewrite map_app in N2. simpl in N2. apply NoDup_remove_2 in N2. rewrite in_app_iff in N2. tauto. }
    destruct (entered_step found keys D out seen q b E F1 F2) as (out1 & E1 & E2).
    { intros Q. apply HK; [exact Q | left; reflexivity]. }
    rewrite E1. rewrite A in *. apply IH; auto.
    intros Q x Hx. apply HK; [exact Q | right; exact Hx].
Qed.
Lemma NoDup_front {A} (l1 l2 : list A) : NoDup (l1 ++ l2) -> NoDup l1.
Proof. induction l1 as [|a l1 IH]; simpl; intros H; [constructor |]. inversion H; subst. constructor; [rewrite in_app_iff in *; tauto | auto]. Qed.
Lemma entered_ops found keys : forall ops D out seen, Forall paired ops -> entered found keys D out seen ->
  NoDup (map fst (D ++ measured ops)) -> NoDup (map snd (D ++ measured ops)) -> (found = true -> incl (map fst (measured ops)) keys) ->
  exists out' seen', io_measures found ops out seen = ROk (out', seen') /\ entered found keys (D ++ measured ops) out' seen'.
Proof.
  induction ops as [|o ops IH]; intros D out seen P E N1 N2 HK.
  - exists out, seen. simpl. rewrite app_nil_r. auto.
  - inversion P; subst. destruct o as [| qs cs | | |]; cbn [io_measures measured] in *; try (apply IH; assumption).
    cbn [paired] in H1. rewrite H1, Nat.eqb_refl. rewrite app_assoc in *.
    destruct (entered_op found keys qs cs D out seen H1 E) as (o1 & s1 & E1 & E2).
    + rewrite map_app in N1. apply NoDup_front in N1. exact N1.
    + rewrite map_app in N2. apply NoDup_front in N2. exact N2.
    + intros Q x Hx. apply HK; [exact Q |]. rewrite map_app, in_app_iff. auto.
    + rewrite E1. cbn [bindr fst snd]. apply IH; auto. intros Q x Hx. apply HK; [exact Q |]. rewrite map_app, in_app_iff. auto.
Qed.

(** ** Marking garbage *)
Lemma set_garbage_ok l s : l < length (c_gar s) -> exists s', setLogicalQubitGarbage l s = ROk s' /\
  length (c_gar s') = length (c_gar s) /\ (forall i, flag (c_gar s') i = Nat.eqb i l || flag (c_gar s) i) /\ c_out s' = erase_value l (c_out s) /\
  c_nq s' = c_nq s /\ c_na s' = c_na s /\ c_nc s' = c_nc s /\ c_qregs s' = c_qregs s /\ c_aregs s' = c_aregs s /\ c_bregs s' = c_bregs s /\ c_lay s' = c_lay s /\ c_anc s' = c_anc s /\ c_ops s' = c_ops s.
Proof.
  intros H. unfold setLogicalQubitGarbage, vset. pose proof H as H'. apply Nat.ltb_lt in H'. rewrite H'. cbn [bindr]. eexists. split; [reflexivity |].
  cbn [c_gar c_out c_nq c_na c_nc c_qregs c_aregs c_bregs c_lay c_anc c_ops]. rewrite set_at_length. split; [reflexivity |]. split; [| auto 12]. intros i. rewrite set_at_flag, H', andb_true_r. destruct (Nat.eqb i l); reflexivity.
Qed.

(** One qubit. *)
Lemma io_one p l s : l < length (c_gar s) -> l < length (c_anc s) -> NoDup (map snd (c_out s)) -> NoDup (map fst (c_out s)) ->
  exists s', (forall r, io_garbage ((p, l) :: r) s = io_garbage r s') /\ same_rest s s' /\ length (c_gar s') = length (c_gar s) /\
    NoDup (map snd (c_out s')) /\ NoDup (map fst (c_out s')) /\
    (forall q x, In (q, x) (c_out s') <-> In (q, x) (c_out s) /\ ~ (x = l /\ flag (c_anc s) l = true /\ isIdleQubit p s = true)) /\
    (forall i, flag (c_gar s') i = true <-> flag (c_gar s) i = true \/ (i = l /\ (~ In l (map snd (c_out s)) \/ (flag (c_anc s) l = true /\ isIdleQubit p s = true)))).
Proof.
  intros HG HA N N'. cbn [io_garbage].
  assert (V : forall s1, c_anc s1 = c_anc s -> vget l (c_anc s1) = ROk (flag (c_anc s) l)).
  { intros s1 ->. unfold vget. rewrite (nth_error_nth' (c_anc s) false HA). reflexivity. }
  assert (T : forall t : circ, same_rest t t) by (intros; unfold same_rest; auto 12).
  (* the first part *)
  assert (A : exists s1, (if existsb (fun x => Nat.eqb (snd x) l) (c_out s) then ROk s else setLogicalQubitGarbage l s) = ROk s1 /\ same_rest s s1 /\
     length (c_gar s1) = length (c_gar s) /\ c_out s1 = c_out s /\ forall i, flag (c_gar s1) i = true <-> flag (c_gar s) i = true \/ (i = l /\ ~ In l (map snd (c_out s)))).
  { destruct (existsb (fun x => Nat.eqb (snd x) l) (c_out s)) eqn:E.
    - apply vhas_in in E. exists s. split; [reflexivity |]. split; [apply T |]. split; [reflexivity |]. split; [reflexivity |]. intros i. tauto.
    - assert (E' : ~ In l (map snd (c_out s))) by (intros Q; apply vhas_in in Q; congruence).
      destruct (set_garbage_ok l s HG) as (s1 & S1 & S2 & S3 & S4 & S5). exists s1. split; [exact S1 |]. split; [unfold same_rest; tauto |]. split; [exact S2 |].
      split.
      + rewrite S4. clear -E'. induction (c_out s) as [|[a b] r IH]; simpl in *; [reflexivity |]. destruct (Nat.eqb_spec b l); [exfalso; auto |]. rewrite IH by tauto. reflexivity.
      + intros i. rewrite S3, orb_true_iff, Nat.eqb_eq. tauto. }
  destruct A as (s1 & E1 & R1 & L1 & O1 & G1). 
  assert (AN : c_anc s1 = c_anc s) by apply R1. assert (ID : isIdleQubit p s1 = isIdleQubit p s) by (unfold isIdleQubit; destruct R1 as (_ & _ & _ & _ & _ & _ & _ & _ & ->); reflexivity).
  destruct (flag (c_anc s) l && isIdleQubit p s) eqn:D.
  - destruct (set_garbage_ok l s1 ltac:(lia)) as (s2 & S1 & S2 & S3 & S4 & S5).
    apply andb_true_iff in D as [D1 D2].
    exists s2. split.
    { intros r. rewrite E1. cbn [bindr]. rewrite (V s1 AN). cbn [bindr]. rewrite ID, D1, D2. cbn [andb]. rewrite S1. reflexivity. }
    split; [unfold same_rest in *; intuition congruence |]. split; [lia |]. rewrite S4, O1.
    split; [apply erase_value_NoDup; exact N |]. split; [apply erase_value_NoDup; exact N' |].
    split.
    + intros q x. rewrite (erase_value_in _ l q x N). split; [intros [Q1 Q2]; split; tauto |]. intros [Q1 Q2]. split; [exact Q1 |]. intros ->. tauto.
    + intros i. rewrite S3, orb_true_iff, Nat.eqb_eq, G1. tauto.
  - exists s1. split.
    { intros r. rewrite E1. cbn [bindr]. rewrite (V s1 AN). cbn [bindr]. rewrite ID, D. reflexivity. }
    split; [exact R1 |]. split; [exact L1 |]. rewrite O1. split; [exact N |]. split; [exact N' |].
    apply andb_false_iff in D. split.
    + intros q x. split; [intros Q; split; [exact Q |] | tauto]. intros (_ & Q1 & Q2). destruct D; congruence.
    + intros i. rewrite G1. split; [tauto |]. intros [Q | (-> & [Q | [Q1 Q2]])]; [auto | auto | destruct D; congruence].
Qed.
Lemma io_all : forall r s, (forall p l, In (p, l) r -> l < length (c_gar s) /\ l < length (c_anc s)) -> NoDup (map snd r) ->
  NoDup (map snd (c_out s)) -> NoDup (map fst (c_out s)) ->
  exists s', io_garbage r s = ROk s' /\ same_rest s s' /\ length (c_gar s') = length (c_gar s) /\ NoDup (map snd (c_out s')) /\ NoDup (map fst (c_out s')) /\
    (forall q x, In (q, x) (c_out s') <-> In (q, x) (c_out s) /\ ~ (flag (c_anc s) x = true /\ exists p, In (p, x) r /\ isIdleQubit p s = true)) /\
    (forall i, flag (c_gar s') i = true <-> flag (c_gar s) i = true \/
        (exists p, In (p, i) r /\ (~ In i (map snd (c_out s)) \/ (flag (c_anc s) i = true /\ isIdleQubit p s = true)))).
Proof.
  induction r as [|[p l] r IH]; intros s B ND N N'.
  - exists s. split; [reflexivity |]. split; [unfold same_rest; auto 12 |]. split; [reflexivity |]. split; [exact N |]. split; [exact N' |]. split.
    + intros q x. split; [intros H; split; [exact H |]; intros (_ & y & [] & _) | tauto].
    + intros i. split; [auto | intros [H | (y & [] & _)]; exact H].
  - inversion ND as [|u w ND1 ND2]; subst. destruct (B p l (or_introl eq_refl)) as [B1 B2].
    destruct (io_one p l s B1 B2 N N') as (s1 & E1 & R1 & L1 & N1 & N1' & O1 & G1). rewrite E1.
    assert (AN : c_anc s1 = c_anc s) by apply R1. assert (ID : forall q, isIdleQubit q s1 = isIdleQubit q s) by (intros q; unfold isIdleQubit; destruct R1 as (_ & _ & _ & _ & _ & _ & _ & _ & ->); reflexivity).
    destruct (IH s1) as (s' & E' & R' & L' & M' & M'' & O' & G').
    { intros q x H. rewrite L1, AN. apply (B q x). right; exact H. } { exact ND2. } { exact N1. } { exact N1'. }
    exists s'. split; [exact E' |]. split; [unfold same_rest in *; intuition congruence |]. split; [lia |]. split; [exact M' |]. split; [exact M'' |]. split.
    + intros q x. rewrite O', O1, AN. split.
      * intros [[H1 H2] H3]. split; [exact H1 |]. intros (F & y & [Hy | Hy] & I); [inversion Hy; subst; tauto |]. apply H3. split; [exact F |]. exists y. rewrite ID. auto.
      * intros [H1 H2]. split; [split; [exact H1 |] |].
        -- intros (-> & F & I). apply H2. split; [exact F |]. exists p. split; [left; reflexivity | exact I].
        -- intros (F & y & Hy & I). rewrite ID in I. apply H2. split; [exact F |]. exists y. split; [right; exact Hy | exact I].
    + intros i. rewrite G', G1, AN. split.
      * intros [[H | (-> & H)] | (y & Hy & H)]; [auto | right; exists p; split; [left; reflexivity | exact H] |].
        right. exists y. split; [right; exact Hy |]. rewrite ID in H. destruct H as [H | H]; [left | right; exact H].
        intros Q. apply H. apply in_map_iff in Q as ([a b] & E & Q). simpl in E; subst b. apply in_map_iff. exists (a, i). split; [reflexivity |].
        apply O1. split; [exact Q |]. intros (-> & _). apply ND1. apply in_map_iff. exists (y, l); auto.
      * intros [H | (y & [Hy | Hy] & H)]; [auto | inversion Hy; subst; auto |].
        right. exists y. split; [exact Hy |]. rewrite ID. destruct H as [H | H]; [left | right; exact H].
        intros Q. apply H. apply in_map_iff in Q as ([a b] & E & Q). simpl in E; subst b. apply O1 in Q as [Q _]. apply in_map_iff. exists (a, i); auto.
Qed.

Theorem io_mapping s : well_kept s -> Forall paired (c_ops s) ->
  let M := measured (c_ops s) in
  NoDup (map fst M) -> NoDup (map snd M) -> (c_out s = [] \/ incl (map fst M) (map fst (c_out s))) ->
  exists s', initializeIOMapping s = ROk s' /\ same_rest s s' /\ length (c_gar s') = total s /\
    NoDup (map snd (c_out s')) /\ NoDup (map fst (c_out s')) /\
    (forall q b, In (q, b) (c_out s') <-> In (q, b) (if existsb is_meas (c_ops s) then M else c_out s) /\ ~ dead s b) /\
    (forall l, flag (c_gar s') l = true <-> l < total s /\ ~ In l (map snd (c_out s'))).
Proof.
  intros W P M N1 N2 HK.
  set (found := match c_out s with [] => false | _ => true end).
  assert (E0 : entered found (map fst (c_out s)) [] (c_out s) []).
  { split; [apply (wk_out_phys s W) |]. split; [apply (wk_out_log s W) |]. split; [intros x [] |]. split; [intros q; simpl; tauto |].
    unfold found. destruct (c_out s); [intros x [] | split; apply incl_refl]. }
  destruct (entered_ops found (map fst (c_out s)) (c_ops s) [] (c_out s) [] P E0 N1 N2) as (out1 & seen & E1 & (K1 & K2 & K3 & K4 & K5)).
  { intros Q. destruct HK as [HK | HK]; [unfold found in Q; rewrite HK in Q; discriminate | exact HK]. }
  cbn [app] in *. fold M in K3, K4, K5.
  unfold initializeIOMapping. fold found. rewrite E1. cbn [bindr fst snd].
  set (out := if existsb is_meas (c_ops s) then filter (fun p => memn (fst p) seen) out1 else out1).
  assert (OM : forall q b, In (q, b) out <-> In (q, b) (if existsb is_meas (c_ops s) then M else c_out s)).
  { intros q b. unfold out. destruct (existsb is_meas (c_ops s)) eqn:EM.
    - rewrite filter_In. cbn [fst]. rewrite memn_in, K4. split.
      + intros [H Q]. apply in_map_iff in Q as ([a c] & E & Q). simpl in E; subst a. pose proof (K3 _ Q) as Q'.
        rewrite (key_unique _ _ _ _ K1 H Q'). exact Q.
      + intros H. split; [apply K3; exact H |]. apply in_map_iff. exists (q, b); auto.
    - assert (X : io_measures found (c_ops s) (c_out s) [] = ROk (c_out s, [])).
      { revert EM. generalize (c_ops s). clear. intros ops out. generalize (c_out s) at 1 2. revert out. 
        induction ops as [|o ops IH]; intros EM m; [reflexivity |]. simpl in EM. apply orb_false_iff in EM as [EM1 EM2].
        destruct o; try discriminate; simpl; apply IH; exact EM2. }
      rewrite E1 in X. inversion X; subst. tauto. }
  assert (NO1 : NoDup (map fst out)) by (unfold out; destruct (existsb is_meas (c_ops s)); [apply NoDup_map_filter |]; exact K1).
  assert (NO2 : NoDup (map snd out)) by (unfold out; destruct (existsb is_meas (c_ops s)); [apply NoDup_map_filter |]; exact K2).
  match goal with |- exists s', io_garbage _ ?t = _ /\ _ => set (s1 := t) end.
  destruct (io_all (c_lay s) s1) as (s' & E' & R' & L' & M' & M'' & O' & G').
  { intros p l H. pose proof (log_range s p l W H). cbn. rewrite repeat_length. pose proof (wk_anc_len s W). lia. }
  { apply (log_nodup s W). } { exact NO2. } { exact NO1. }
  exists s'. split; [exact E' |].
  assert (ID : forall q, isIdleQubit q s1 = isIdleQubit q s) by reflexivity.
  assert (OO : forall q b, In (q, b) (c_out s') <-> In (q, b) (if existsb is_meas (c_ops s) then M else c_out s) /\ ~ dead s b).
  { intros q b. rewrite O'. cbn [c_out s1]. rewrite OM. unfold dead. cbn [c_anc s1].
    assert (X : (exists p, In (p, b) (c_lay s) /\ isIdleQubit p s1 = true) <-> exists p, In (p, b) (c_lay s) /\ idle s p).
    { split; intros (p & X1 & X2); exists p; (split; [exact X1 |]); [rewrite ID in X2 | rewrite ID]; apply idle_iff; exact X2. }
    tauto. }
  split; [unfold same_rest in *; cbn in R'; tauto |]. split; [rewrite L'; cbn; apply repeat_length |].
  split; [exact M' |]. split; [exact M'' |]. split; [exact OO |].
  intros l. rewrite G'. cbn [c_gar c_out c_anc s1]. split.
  - intros [H | (p & Hp & H)]; [unfold flag in H; rewrite nth_repeat in H; discriminate |].
    split; [eapply log_range; eauto |]. intros Q. apply in_map_iff in Q as ([a b] & E & Q). simpl in E; subst b.
    apply O' in Q as [Q1 Q2]. cbn [c_out c_anc s1] in Q1, Q2. destruct H as [H | H].
    + apply H. apply in_map_iff. exists (a, l); auto.
    + apply Q2. split; [tauto |]. exists p. tauto.
  - intros [H1 H2]. right.
    assert (I : In l (map snd (c_lay s))) by (eapply Permutation_in; [symmetry; apply (wk_log s W) | apply in_seq; lia]).
    apply in_map_iff in I as ([p x] & E & I). simpl in E; subst x. exists p. split; [exact I |].
    destruct (in_dec Nat.eq_dec l (map snd out)) as [Q | Q]; [| left; exact Q]. right.
    apply in_map_iff in Q as ([a b] & E & Q). simpl in E; subst b.
    destruct (flag (c_anc s) l) eqn:F, (isIdleQubit p s) eqn:I2; try (rewrite ID, I2; auto); exfalso; apply H2; apply in_map_iff; exists (a, l); (split; [reflexivity |]); apply O'; (split; [exact Q |]);
      intros (F' & y & Hy & I'); cbn [c_anc s1] in F'; rewrite ID in I'; try congruence;
      assert (y = p) by (eapply val_unique; [apply (log_nodup s W) | exact Hy | exact I]); congruence.
Qed.
