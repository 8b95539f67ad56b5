(** Stripping idle qubits. *)
From Coq Require Import String List Arith Bool Permutation Lia.
From Verif Require Import GateModel IRModel OptModel QasmIfModel CircModel CircSpec CircProofs CircKeepProofs.
Import ListNotations.
Local Open Scope list_scope.

Definition down (l x : nat) : nat := if Nat.ltb l x then x - 1 else x.
Lemma lower_in l m p x : In (p, x) (lower l m) <-> exists y, In (p, y) m /\ x = down l y.
Proof.
  unfold lower, down. rewrite in_map_iff. split.
  - intros ([a y] & E & H). simpl in E. inversion E; subst. eauto.
  - intros (y & H & ->). exists (p, y). auto.
Qed.
Lemma lower_keys l m : map fst (lower l m) = map fst m.
Proof. unfold lower. rewrite map_map. reflexivity. Qed.
Lemma lower_vals l m : map snd (lower l m) = map (down l) (map snd m).
Proof. unfold lower. rewrite !map_map. reflexivity. Qed.
Lemma lower_id l m : (forall p x, In (p, x) m -> x <= l) -> lower l m = m.
Proof.
  induction m as [|[a b] r IH]; intros H; [reflexivity |]. simpl.
  rewrite IH by (intros; eapply H; right; eassumption). specialize (H a b (or_introl eq_refl)).
  destruct (Nat.ltb_spec l b); [lia | reflexivity].
Qed.
Lemma NoDup_map_inj {A B} (f : A -> B) l : (forall x y, In x l -> In y l -> f x = f y -> x = y) -> NoDup l -> NoDup (map f l).
Proof.
  induction l as [|a l IH]; simpl; intros I N; [constructor |]. inversion N; subst. constructor.
  - intros H. apply in_map_iff in H as (x & E & H). apply I in E; auto. subst. contradiction.
  - apply IH; auto.
Qed.
Lemma down_inj l x y : x <> l -> y <> l -> down l x = down l y -> x = y.
Proof. unfold down. destruct (Nat.ltb_spec l x), (Nat.ltb_spec l y); lia. Qed.
Lemma down_seq l t : l <= t -> map (down l) (seq 0 l ++ seq (S l) (t - l)) = seq 0 t.
Proof.
  intros H. rewrite map_app. replace (seq 0 t) with (seq 0 (l + (t - l))) by (f_equal; lia). rewrite seq_app. f_equal.
  - rewrite <- (map_id (seq 0 l)) at 2. apply map_ext_in. intros x Hx%in_seq. unfold down. destruct (Nat.ltb_spec l x); lia.
  - rewrite <- seq_shift, map_map. cbn [Nat.add]. rewrite <- (map_id (seq l (t - l))) at 2. apply map_ext_in. intros x Hx%in_seq.
    unfold down. destruct (Nat.ltb_spec l (S x)); lia.
Qed.

(** One qubit removed, and the logical qubits above it moved down. *)
Lemma strip_step s p l : tidy s -> In (p, l) (c_lay s) -> ~ In p (map fst (c_out s)) -> ~ In l (map snd (c_out s)) ->
  exists s', bindr (removeQubit l s) (fun s' =>
            ROk (if Nat.ltb l (total s') then
                   {| c_nq := c_nq s'; c_na := c_na s'; c_nc := c_nc s'; c_qregs := c_qregs s'; c_aregs := c_aregs s'; c_bregs := c_bregs s';
                      c_lay := lower l (c_lay s'); c_out := lower l (c_out s'); c_anc := c_anc s'; c_gar := c_gar s'; c_ops := c_ops s' |}
                 else s')) = ROk s' /\ tidy s' /\
    c_lay s' = lower l (merase p (c_lay s)) /\ c_out s' = lower l (c_out s) /\
    (forall i, flag (c_anc s') i = if Nat.ltb i l then flag (c_anc s) i else flag (c_anc s) (S i)) /\
    (forall i, flag (c_gar s') i = if Nat.ltb i l then flag (c_gar s) i else flag (c_gar s) (S i)) /\
    c_ops s' = c_ops s /\ c_nc s' = c_nc s /\ c_bregs s' = c_bregs s.
Proof.
  intros (W & SQ & SA) H NP NL. pose proof (log_range s p l W H) as HL.
  destruct (remove_ok s p l W SQ SA H) as (s1 & E & T & L1 & O1 & NA & [AL AF] & [GL GF] & PR & PI & NQ & NAN & SQ1 & SA1 & EO & EN & EB).
  rewrite (merase_absent p (c_out s) NP) in O1.
  rewrite E. cbn [bindr].
  assert (exists s', (if Nat.ltb l (total s1) then
                   {| c_nq := c_nq s1; c_na := c_na s1; c_nc := c_nc s1; c_qregs := c_qregs s1; c_aregs := c_aregs s1; c_bregs := c_bregs s1;
                      c_lay := lower l (c_lay s1); c_out := lower l (c_out s1); c_anc := c_anc s1; c_gar := c_gar s1; c_ops := c_ops s1 |}
                 else s1) = s' /\ c_nq s' = c_nq s1 /\ c_na s' = c_na s1 /\ c_nc s' = c_nc s1 /\ c_qregs s' = c_qregs s1 /\ c_aregs s' = c_aregs s1 /\ c_bregs s' = c_bregs s1 /\
      c_lay s' = lower l (merase p (c_lay s)) /\ c_out s' = lower l (c_out s) /\ c_anc s' = c_anc s1 /\ c_gar s' = c_gar s1 /\ c_ops s' = c_ops s1) as (s' & E' & F).
  { eexists. split; [reflexivity |]. destruct (Nat.ltb_spec l (total s1)) as [Q | Q].
    - cbn. rewrite L1, O1. tauto.
    - rewrite !lower_id; [rewrite L1, O1; tauto | |].
      + intros q x Hx. assert (x < total s) by (eapply wk_out_range; eauto). lia.
      + intros q x Hx. apply merase_in in Hx as [Hx _]. assert (x < total s) by (eapply log_range; eauto). lia. }
  rewrite E'. exists s'. split; [reflexivity |].
  destruct F as (F1 & F2 & F3 & F4 & F5 & F6 & F7 & F8 & F9 & F10 & F11).
  assert (T' : total s' = total s1) by (unfold total; rewrite F1, F2; reflexivity).
  assert (Hl1 : l <= total s1) by lia.
  pose proof (merase_one p l (c_lay s) (wk_phys s W) H) as PM.
  split; [| rewrite F7, F8, F9, F10, F11, F3, F6; auto 10].
  split; [| rewrite F4, F5; auto].
  constructor; rewrite ?F4, ?F5, ?F7, ?F8, ?F9, ?F10, ?T', ?F2.
  - rewrite lower_keys. apply NoDup_map_filter. apply (wk_phys s W).
  - rewrite lower_vals. rewrite <- (down_seq l (total s1) Hl1). apply Permutation_map.
    apply Permutation_cons_inv with (a := l). rewrite Permutation_middle.
    change (l :: map snd (merase p (c_lay s))) with (map snd ((p, l) :: merase p (c_lay s))). rewrite <- PM.
    rewrite (wk_log s W). rewrite <- T. replace (S (total s1)) with (l + (1 + (total s1 - l))) by lia.
    rewrite !seq_app. cbn [seq Nat.add app]. replace (l + 1) with (S l) by lia. reflexivity.
  - rewrite !lower_keys. intros x Hx. pose proof (wk_out s W x Hx) as Q.
    apply in_map_iff in Q as ([a b] & <- & Q). cbn [fst] in *. apply in_map_iff. exists (a, b). split; [reflexivity |].
    apply merase_in. split; [exact Q |]. intros ->. contradiction.
  - rewrite lower_keys. apply (wk_out_phys s W).
  - rewrite lower_vals. apply NoDup_map_inj; [| apply (wk_out_log s W)].
    intros x y Hx Hy. apply down_inj; intros ->; contradiction.
  - intros q x Hx. apply lower_in in Hx as (y & Hy & ->). pose proof (wk_out_range s W q y Hy).
    assert (y <> l) by (intros ->; apply NL; apply in_map_iff; exists (q, l); auto).
    unfold down. destruct (Nat.ltb_spec l y); lia.
  - rewrite lower_keys. apply Permutation_cons_inv with (a := p). rewrite <- PR.
    rewrite (wk_regs s W). rewrite PM at 1. reflexivity.
  - assumption.
  - assumption.
  - rewrite AL. pose proof (wk_anc_len s W). lia.
  - pose proof (shift_down_count (c_anc s) (c_anc s1) l (total s1)) as C.
    rewrite (wk_anc s W) in C. assert (RA : forall i, flag (c_anc s) i = true -> i < S (total s1)) by (rewrite T; apply (wk_anc_range s W)).
    specialize (C RA Hl1 AF). lia.
  - intros i Hi. rewrite AF in Hi. destruct (Nat.ltb_spec i l); [lia |]. apply (wk_anc_range s W) in Hi. lia.
  - intros q x Hx Hq. apply lower_in in Hx as (y & Hy & ->). apply merase_in in Hy as [Hy Hqp].
    pose proof (wk_areg s W q y Hy (PI q Hq)) as FY. rewrite AF. unfold down.
    assert (y <> l) by (intros ->; apply Hqp; eapply val_unique; [apply (log_nodup s W) | exact Hy | exact H]).
    destruct (Nat.ltb_spec l y) as [Q | Q].
    + destruct (Nat.ltb_spec (y - 1) l); [lia |]. replace (S (y - 1)) with y by lia. exact FY.
    + destruct (Nat.ltb_spec y l); [exact FY | lia].
  - rewrite GL. pose proof (wk_gar_len s W). lia.
  - intros i Hi. rewrite GF in Hi. destruct (Nat.ltb_spec i l); [lia |]. apply (wk_gar_range s W) in Hi. lia.
  - intros q x Hx. apply lower_in in Hx as (y & Hy & ->). pose proof (wk_gar s W q y Hy) as FY. rewrite GF. unfold down.
    assert (y <> l) by (intros ->; apply NL; apply in_map_iff; exists (q, l); auto).
    destruct (Nat.ltb_spec l y) as [Q | Q].
    + destruct (Nat.ltb_spec (y - 1) l); [lia |]. replace (S (y - 1)) with y by lia. exact FY.
    + destruct (Nat.ltb_spec y l); [exact FY | lia].
Qed.

Lemma mhas_in p m : mhas p m = true <-> In p (map fst m).
Proof.
  unfold mhas. rewrite existsb_exists, in_map_iff. split.
  - intros (x & H & E). apply Nat.eqb_eq in E. eauto.
  - intros (x & E & H). exists x. split; [exact H | apply Nat.eqb_eq; exact E].
Qed.
Lemma vhas_in l (m : perm) : existsb (fun x => Nat.eqb (snd x) l) m = true <-> In l (map snd m).
Proof.
  rewrite existsb_exists, in_map_iff. split.
  - intros (x & H & E). apply Nat.eqb_eq in E. eauto.
  - intros (x & E & H). exists x. split; [exact H | apply Nat.eqb_eq; exact E].
Qed.

(** The qubits of [done] have been looked at: those that may go are gone. *)
Definition gone_of (s : circ) (done : list nat) (p : nat) : Prop := In p done /\ strippable s p.
Lemma strip_all_ok s : tidy s -> forall ps done c, tidy c -> without (gone_of s done) s c ->
  (forall p, In p ps -> In p (map fst (c_lay s)) /\ ~ In p done) -> NoDup ps ->
  exists s', strip_all false ps c = ROk s' /\ tidy s' /\ without (gone_of s (done ++ ps)) s s'.
Proof.
  intros TS. assert (W : well_kept s) by apply TS. induction ps as [|p ps IH]; intros done c TC (f & FL & FO & FM & FF & E1 & E2 & E3) HP ND.
  { exists c. rewrite app_nil_r. split; [reflexivity |]. split; [exact TC |]. exists f; auto 12. }
  inversion ND as [|x y NDp ND']; subst.
  destruct (HP p (or_introl eq_refl)) as [Hp Hd]. apply in_map_iff in Hp as ([a l0] & Ea & Hp). cbn [fst] in Ea; subst a.
  assert (NG : ~ gone_of s done p) by (intros [Q _]; contradiction).
  assert (Hc : In (p, f l0) (c_lay c)) by (apply FL; eauto).
  assert (WC : well_kept c) by apply TC.
  assert (idle : isIdleQubit p c = isIdleQubit p s) by (unfold isIdleQubit; rewrite E1; reflexivity).
  assert (keys : In p (map fst (c_out c)) <-> In p (map fst (c_out s))).
  { rewrite !in_map_iff. split; intros ([a b] & E & Q); cbn [fst] in E; subst a.
    - apply FO in Q as (b0 & Q & _). exists (p, b0); auto.
    - exists (p, f b). split; [reflexivity |]. apply FO. eauto. }
  assert (outkept : forall q x, In (q, x) (c_out s) -> exists r, In (r, x) (c_lay s) /\ ~ gone_of s done r).
  { intros q x Q. pose proof (wk_out_range s W q x Q) as R.
    assert (I : In x (map snd (c_lay s))) by (eapply Permutation_in; [symmetry; apply (wk_log s W) | apply in_seq; lia]).
    apply in_map_iff in I as ([r y] & E & I). cbn [snd] in E; subst y. exists r. split; [exact I |].
    intros [_ (_ & _ & G)]. apply (G x I). apply in_map_iff. exists (q, x); auto. }
  assert (finj : forall r1 x1 r2 x2, In (r1, x1) (c_lay s) -> ~ gone_of s done r1 -> In (r2, x2) (c_lay s) -> ~ gone_of s done r2 -> f x1 = f x2 -> x1 = x2).
  { intros r1 x1 r2 x2 A1 A2 A3 A4 A5. destruct (lt_eq_lt_dec x1 x2) as [[Q | Q] | Q]; [| exact Q |].
    - pose proof (FM _ _ _ _ A1 A2 A3 A4 Q); lia.
    - pose proof (FM _ _ _ _ A3 A4 A1 A2 Q); lia. }
  assert (vals : In (f l0) (map snd (c_out c)) <-> In l0 (map snd (c_out s))).
  { rewrite !in_map_iff. split; intros ([a b] & E & Q); cbn [snd] in E; subst b.
    - apply FO in Q as (b0 & Q & E). exists (a, b0). split; [| exact Q]. cbn [snd].
      destruct (outkept _ _ Q) as (r & R1 & R2). symmetry. eapply (finj p l0 r b0); eauto.
    - exists (a, f l0). split; [reflexivity |]. apply FO. eauto. }
  assert (SK : ~ strippable s p -> without (gone_of s (done ++ [p])) s c).
  { intros NS. assert (EQ : forall q, gone_of s (done ++ [p]) q <-> gone_of s done q).
    { intros q. unfold gone_of. rewrite in_app_iff. simpl. split; [| tauto]. intros [[Q | [-> | []]] R]; [tauto | contradiction]. }
    exists f. split; [| split; [| split; [| split]]]; auto.
    - intros q x. rewrite FL. split; intros (y & A & B & C); exists y; rewrite EQ in *; auto.
    - intros. eapply FM; eauto; rewrite <- EQ; assumption.
    - intros q x A B. apply (FF q x A). rewrite <- EQ; assumption. }
  assert (NEXT : forall c', tidy c' -> without (gone_of s (done ++ [p])) s c' ->
            exists s', strip_all false ps c' = ROk s' /\ tidy s' /\ without (gone_of s (done ++ p :: ps)) s s').
  { intros c' T' W'. destruct (IH (done ++ [p]) c' T' W') as (s' & A & B & C).
    - intros q Hq. destruct (HP q (or_intror Hq)) as [Q1 Q2]. split; [exact Q1 |]. rewrite in_app_iff. simpl. intros [Q | [-> | []]]; contradiction.
    - exact ND'.
    - exists s'. rewrite <- app_assoc in C. auto. }
  cbn [strip_all]. unfold strip_one. rewrite idle. destruct (isIdleQubit p s) eqn:EI; cbn [negb].
  2: { cbn [bindr]. apply NEXT; [exact TC |]. apply SK. intros (Q & _). apply idle_iff in Q. congruence. }
  destruct (mhas p (c_out c)) eqn:EM; cbn [andb negb].
  { cbn [bindr]. apply NEXT; [exact TC |]. apply SK. intros (_ & Q & _). apply Q. apply keys. apply mhas_in; exact EM. }
  rewrite (in_plookup _ _ _ (wk_phys c WC) Hc).
  destruct (existsb (fun x => Nat.eqb (snd x) (f l0)) (c_out c)) eqn:EV; cbn [andb].
  { cbn [bindr]. apply NEXT; [exact TC |]. apply SK. intros (_ & _ & Q). apply (Q l0 Hp). apply vals. apply vhas_in; exact EV. }
  assert (NPo : ~ In p (map fst (c_out c))) by (intros Q; apply mhas_in in Q; congruence).
  assert (NLo : ~ In (f l0) (map snd (c_out c))) by (intros Q; apply vhas_in in Q; congruence).
  assert (ST : strippable s p).
  { split; [apply idle_iff; exact EI |]. split; [rewrite <- keys; exact NPo |]. intros x Hx. rewrite (key_unique _ _ _ _ (wk_phys s W) Hx Hp). rewrite <- vals. exact NLo. }
  destruct (strip_step c p (f l0) TC Hc NPo NLo) as (c' & EC & TC' & CL & CO & CA & CG & C1 & C2 & C3).
  rewrite EC. cbn [bindr]. apply NEXT; [exact TC' |].
  assert (EQ : forall q, gone_of s (done ++ [p]) q <-> gone_of s done q \/ q = p).
  { intros q. unfold gone_of. rewrite in_app_iff. simpl. split; [intros [[Q | [-> | []]] R]; tauto | intros [Q | ->]; tauto]. }
  assert (ne : forall q x, In (q, x) (c_lay s) -> ~ gone_of s done q -> q <> p -> f x <> f l0).
  { intros q x A B C D. apply C. assert (x = l0) by (eapply (finj q x p l0); eauto). subst. eapply val_unique; [apply (log_nodup s W) | |]; eauto. }
  exists (fun x => down (f l0) (f x)). split; [| split; [| split; [| split]]].
  - intros q x. rewrite CL, lower_in. split.
    + intros (y & Hy & ->). apply merase_in in Hy as [Hy Hq]. apply FL in Hy as (z & Z1 & Z2 & ->).
      exists z. rewrite EQ. tauto.
    + intros (z & Z1 & Z2 & ->). rewrite EQ in Z2. exists (f z). split; [| reflexivity]. apply merase_in. split; [apply FL; exists z; tauto |]. tauto.
  - intros q x. rewrite CO, lower_in. split.
    + intros (y & Hy & ->). apply FO in Hy as (z & Z1 & ->). eauto.
    + intros (z & Z1 & ->). exists (f z). split; [apply FO; eauto | reflexivity].
  - intros p1 x1 p2 x2 A1 A2 A3 A4 A5. rewrite EQ in A2, A4.
    assert (B : f x1 < f x2) by (eapply (FM p1 x1 p2 x2); eauto; tauto).
    assert (f x1 <> f l0) by (eapply (ne p1); eauto; tauto). assert (f x2 <> f l0) by (eapply (ne p2); eauto; tauto).
    unfold down. destruct (Nat.ltb_spec (f l0) (f x1)), (Nat.ltb_spec (f l0) (f x2)); lia.
  - intros q x A B. rewrite EQ in B. assert (D : f x <> f l0) by (eapply (ne q); eauto; tauto).
    destruct (FF q x A ltac:(tauto)) as [FA FG]. rewrite CA, CG. unfold down.
    destruct (Nat.ltb_spec (f l0) (f x)) as [Q | Q].
    + destruct (Nat.ltb_spec (f x - 1) (f l0)); [lia |]. replace (S (f x - 1)) with (f x) by lia. auto.
    + destruct (Nat.ltb_spec (f x) (f l0)); [auto | lia].
  - rewrite C1, C2, C3. auto.
Qed.

Theorem strip_ok s : tidy s ->
  exists s', stripIdleQubits false s = ROk s' /\ tidy s' /\ without (strippable s) s s'.
Proof.
  intros TS. assert (W : well_kept s) by apply TS. unfold stripIdleQubits.
  destruct (strip_all_ok s TS (rev (map fst (c_lay s))) [] s TS) as (s' & A & B & (f & C1 & C2 & C3 & C4 & C5)).
  - exists (fun x => x). split; [| split; [| split; [| split]]]; auto.
    + intros p l. split; [intros H; exists l; unfold gone_of; simpl; tauto | intros (y & H & _ & ->); exact H].
    + intros p l. split; [intros H; exists l; auto | intros (y & H & ->); exact H].
  - intros p Hp. split; [apply in_rev; exact Hp | intros []].
  - eapply Permutation_NoDup; [apply Permutation_rev | apply (wk_phys s W)].
  - exists s'. split; [exact A |]. split; [exact B |]. cbn [app] in *.
    assert (EQ : forall p l, In (p, l) (c_lay s) -> (gone_of s (rev (map fst (c_lay s))) p <-> strippable s p)).
    { intros p l H. unfold gone_of. rewrite <- in_rev. split; [tauto |]. intros Q. split; [apply in_map_iff; exists (p, l); auto | exact Q]. }
    exists f. split; [| split; [| split; [| split]]]; auto.
    + intros p l. rewrite C1. split; intros (y & H1 & H2 & H3); exists y; split; auto; split; auto; rewrite (EQ p y H1) in *; auto.
    + intros p1 l1 p2 l2 H1 H2 H3 H4. rewrite <- (EQ p1 l1 H1) in H2. rewrite <- (EQ p2 l2 H3) in H4. eauto.
    + intros p l H1 H2. rewrite <- (EQ p l H1) in H2. eauto.
Qed.
