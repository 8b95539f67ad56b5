(* Tagged pointers. *)
From Coq Require Import NArith Reals List Bool Lia Lra FunctionalExtensionality.
From Verif Require Import TagModel.
Import ListNotations.
Local Open Scope N_scope.

Lemma land1 e : N.land e 1 = if N.testbit e 0 then 1 else 0.
Proof.
  apply N.bits_inj. intros i. rewrite N.land_spec. destruct (N.eq_dec i 0) as [->|H].
  - destruct (N.testbit e 0); auto.
  - assert (E : N.testbit 1 i = false) by (destruct i; [lia|auto]). rewrite E, andb_false_r. destruct (N.testbit e 0); [auto|rewrite N.bits_0; auto].
Qed.
Lemma neg_testbit e : isNegativePointer e = N.testbit e 0.
Proof. unfold isNegativePointer. rewrite land1. destruct (N.testbit e 0); auto. Qed.
Lemma testbit1 i : N.testbit 1 i = N.eqb i 0.
Proof. destruct i as [|p]; auto. Qed.
Lemma neg_of a : N.testbit a 0 = false -> isNegativePointer (getNegativePointer a) = true /\ getAlignedPointer (getNegativePointer a) = a
  /\ isNegativePointer a = false /\ getAlignedPointer a = a.
Proof.
  intros H. rewrite !neg_testbit. unfold getNegativePointer, getAlignedPointer.
  assert (A : forall i, N.testbit a i && negb (N.eqb i 0) = N.testbit a i).
  { intros i. destruct (N.eqb_spec i 0) as [->|]; cbn; [rewrite H; auto|apply andb_true_r]. }
  split; [rewrite N.lor_spec, testbit1; apply orb_true_r|]. split; [|split; [auto|]]; apply N.bits_inj; intros i.
  - rewrite N.ldiff_spec, N.lor_spec, testbit1. destruct (N.eqb i 0) eqn:E.
    + apply N.eqb_eq in E as ->. rewrite H, andb_false_r. auto.
    + cbn. rewrite andb_true_r, orb_false_r. auto.
  - rewrite N.ldiff_spec, testbit1. apply A.
Qed.
Lemma xor_twice e : N.lxor (N.lxor e 1) 1 = e.
Proof. rewrite N.lxor_assoc, N.lxor_nilpotent, N.lxor_0_r. auto. Qed.
Lemma xor_bit e : N.testbit (N.lxor e 1) 0 = negb (N.testbit e 0).
Proof. rewrite N.lxor_spec, testbit1. cbn. apply xorb_true_r. Qed.
Lemma xor_align e : getAlignedPointer (N.lxor e 1) = getAlignedPointer e.
Proof.
  unfold getAlignedPointer. apply N.bits_inj. intros i. rewrite !N.ldiff_spec, N.lxor_spec, testbit1.
  destruct (N.eqb i 0); cbn; [rewrite !andb_false_r; auto|rewrite xorb_false_r; auto].
Qed.
Lemma align_even e : N.testbit e 0 = false -> getAlignedPointer e = e.
Proof. intros H. apply (neg_of e H). Qed.
Lemma xor_zero z : N.testbit z 0 = false -> N.lxor (getNegativePointer z) 1 = z.
Proof.
  intros H. unfold getNegativePointer. apply N.bits_inj. intros i. rewrite N.lxor_spec, N.lor_spec, testbit1.
  destruct (N.eqb_spec i 0) as [->|]; cbn; [rewrite H; auto|rewrite orb_false_r, xorb_false_r; auto].
Qed.

Section Reals.
Context (mem : N -> R) (zero : N) (zero_even : N.testbit zero 0 = false) (zero_val : mem zero = 0%R).
(* pointers produced by the library never are the zero with a sign *)
Definition proper (e : N) : Prop := e <> getNegativePointer zero.
Lemma val_flip e : val mem (flipPointerSign zero e) = (- val mem e)%R.
Proof.
  unfold flipPointerSign, val. destruct (N.eqb_spec e zero) as [->|H].
  - rewrite neg_testbit, zero_even, zero_val. lra.
  - rewrite !neg_testbit, xor_bit, xor_align. destruct (N.testbit e 0) eqn:B; cbn [negb].
    + replace (N.lxor e 1) with (getAlignedPointer e); [lra|]. rewrite <- xor_align. apply align_even. rewrite xor_bit, B. auto.
    + rewrite align_even; auto.
Qed.
Lemma flip_proper e : proper (flipPointerSign zero e).
Proof.
  unfold proper, flipPointerSign. destruct (N.eqb_spec e zero) as [->|H].
  - intros E. apply (f_equal (fun x => N.testbit x 0)) in E. unfold getNegativePointer in E. rewrite zero_even, N.lor_spec, zero_even in E. discriminate.
  - intros E. apply H. rewrite <- (xor_twice e), E. apply xor_zero; auto.
Qed.
Lemma flip_flip e : proper e -> flipPointerSign zero (flipPointerSign zero e) = e.
Proof.
  intros P. unfold flipPointerSign. destruct (N.eqb_spec e zero) as [->|H]; [rewrite N.eqb_refl; auto|].
  destruct (N.eqb_spec (N.lxor e 1) zero) as [E|_]; [|apply xor_twice].
  exfalso. apply P. rewrite <- (xor_twice e), E. unfold getNegativePointer. apply N.bits_inj. intros i.
  rewrite N.lxor_spec, N.lor_spec, testbit1. destruct (N.eqb_spec i 0) as [->|]; [rewrite zero_even; auto|].
  rewrite xorb_false_r, orb_false_r; auto.
Qed.
End Reals.

(* ---- density-matrix nodes ------------------------------------------------------------------------------- *)
Lemma testbit7 i : N.testbit 7 i = N.ltb i 3.
Proof. destruct i as [|[[[p|p|]|[p|p|]|]|[[p|p|]|[p|p|]|]|]]; reflexivity. Qed.
Lemma align_lor p k : N.land k 7 = k -> alignD (N.lor p k) = alignD p.
Proof.
  intros K. unfold alignD. apply N.bits_inj. intros i. rewrite !N.ldiff_spec, N.lor_spec.
  rewrite <- K, N.land_spec. destruct (N.testbit 7 i); cbn; rewrite ?andb_false_r, ?orb_false_r; auto.
Qed.
Lemma align_align p : alignD (alignD p) = alignD p.
Proof. unfold alignD. apply N.bits_inj. intros i. rewrite !N.ldiff_spec. destruct (N.testbit p i), (N.testbit 7 i); auto. Qed.
Lemma temp_align p : tempFlags (alignD p) = 0.
Proof. unfold tempFlags, alignD. apply N.bits_inj. intros i. rewrite N.land_spec, N.ldiff_spec, N.bits_0. destruct (N.testbit p i), (N.testbit 7 i); auto. Qed.
Lemma temp_bit p i : i < 3 -> N.testbit (tempFlags p) i = N.testbit p i.
Proof. intros H. unfold tempFlags. rewrite N.land_spec, testbit7, (proj2 (N.ltb_lt _ _) H), andb_true_r. auto. Qed.
Lemma temp0_bit f i : tempFlags f = 0 -> i < 3 -> N.testbit f i = false.
Proof. intros H L. rewrite <- (temp_bit f i L), H. apply N.bits_0. Qed.
Lemma lor_temp_bit f p i : tempFlags f = 0 -> i < 3 -> N.testbit (N.lor f (tempFlags p)) i = N.testbit p i.
Proof. intros H L. rewrite N.lor_spec, (temp0_bit f i H L), temp_bit; auto. Qed.
Lemma unset_lor f p : tempFlags f = 0 -> N.ldiff (N.lor f (tempFlags p)) 7 = f.
Proof.
  intros H. apply N.bits_inj. intros i. rewrite N.ldiff_spec, N.lor_spec. unfold tempFlags at 1. rewrite N.land_spec.
  destruct (N.testbit 7 i) eqn:B; cbn [negb]; rewrite ?andb_false_r, ?orb_false_r, ?andb_true_r; auto.
  rewrite testbit7 in B. apply N.ltb_lt in B. rewrite (temp0_bit f i); auto.
Qed.
Lemma align_id p : tempFlags p = 0 -> alignD p = p.
Proof. intros H. pose proof (unset_lor p 0 H) as E. cbn in E. rewrite N.lor_0_r in E. exact E. Qed.

Section Density.
Context (zero : N) (zero_even : N.testbit zero 0 = false).
Definition edge_ok (e : dedge) : Prop := tempFlags (dp e) = 0 /\ snd (dw e) <> getNegativePointer zero.
(* nodes as they are stored in the unique table *)
Definition stored (n : dnode) : Prop := tempFlags (flags n) = 0 /\ edge_ok (e0 n) /\ edge_ok (e1 n) /\ edge_ok (e2 n) /\ edge_ok (e3 n).
(* tags: none, or the density-matrix flag together with any of the others *)
Definition tag_ok (p : N) : Prop := tempFlags p = 0 \/ isDensity p = true.

Lemma conj_conj w : snd w <> getNegativePointer zero -> conjc zero (conjc zero w) = w.
Proof. intros H. unfold conjc; cbn. rewrite flip_flip; auto. destruct w; auto. Qed.

Lemma node_ext a b : flags a = flags b -> e0 a = e0 b -> e1 a = e1 b -> e2 a = e2 b -> e3 a = e3 b -> a = b.
Proof. destruct a, b; cbn. intros; subst; auto. Qed.
Lemma edge_ext a b : dp a = dp b -> dw a = dw b -> a = b.
Proof. destruct a, b; cbn. intros; subst; auto. Qed.
Lemma updN_same {A} (h : N -> A) p x : updN h p x p = x. Proof. unfold updN. rewrite N.eqb_refl. auto. Qed.
Lemma updN_other {A} (h : N -> A) p q x : q <> p -> updN h p x q = h q.
Proof. intros H. unfold updN. destruct (N.eqb_spec q p); congruence. Qed.
Lemma updN_twice {A} (h : N -> A) p x y : updN (updN h p x) p y = updN h p y.
Proof. apply functional_extensionality. intros q. unfold updN. destruct (N.eqb q p); auto. Qed.

(* the modified node *)
Definition modified (p : N) (n : dnode) : dnode :=
  setFlags (N.lor (flags n) (tempFlags p))
  (if isNonReduce p && negb (isConj p) then n
   else if negb (isConj p) then
     mapN (mapP setDensity) {| flags := flags n; e0 := e0 n; e1 := mapP setNonReduce (e1 n);
                 e2 := mapP setConj (mapW (conjc zero) (e2 n)); e3 := e3 n |}
   else mapN (fun e => mapP setDensity (mapP setConj (mapW (conjc zero) e))) (swapN n)).
Lemma apply_tagged debug h p : isDensity p = true -> alignD p <> 0 -> tempFlags (flags (h (alignD p))) = 0 ->
  applyDm debug zero h p = TOk (updN h (alignD p) (modified p (h (alignD p))), alignD p).
Proof.
  intros D NZ F. unfold applyDm, alignDensityNodeNode, modified. rewrite D.
  assert (B0 : isConj (tempFlags p) = isConj p) by (apply temp_bit; lia).
  assert (B1 : isNonReduce (tempFlags p) = isNonReduce p) by (apply temp_bit; lia).
  rewrite B0, B1. apply N.eqb_neq in NZ as NZ'. rewrite NZ'.
  destruct (isNonReduce p && negb (isConj p)) eqn:K1; [|destruct (negb (isConj p)) eqn:K2]; rewrite NZ', ?updN_same; cbn [mapN swapN flags];
    rewrite F; cbn [N.eqb negb]; rewrite andb_false_r, ?updN_twice; auto.
Qed.
Lemma apply_terminal debug h p : alignD p = 0 -> isDensity p = true -> applyDm debug zero h p = TOk (h, 0).
Proof. intros Z D. unfold applyDm, alignDensityNodeNode. rewrite D, Z. auto. Qed.
Lemma apply_untagged debug h p : tempFlags p = 0 -> applyDm debug zero h p = TOk (h, p).
Proof. intros H. unfold applyDm, isDensity. rewrite (temp0_bit p 2); auto. lia. Qed.
Lemma tag_ok_cases p : tag_ok p -> tempFlags p = 0 /\ isDensity p = false \/ isDensity p = true.
Proof. intros [H|H]; auto. left. split; auto. apply temp0_bit; auto. lia. Qed.

Lemma revert_modified h p : isDensity p = true -> alignD p <> 0 -> stored (h (alignD p)) -> forall h',
  h' (alignD p) = modified p (h (alignD p)) ->
  revertDm zero h' (alignD p) = TOk (updN h' (alignD p) (h (alignD p))).
Proof.
  intros D NZ (F & (A0 & W0) & (A1 & W1) & (A2 & W2) & (A3 & W3)) h' E. unfold revertDm.
  apply N.eqb_neq in NZ. rewrite NZ, temp_align. cbn [N.eqb negb]. set (n := h (alignD p)) in *.
  assert (FL : flags (modified p n) = N.lor (flags n) (tempFlags p)) by reflexivity.
  rewrite E, FL. unfold isDensity at 1. rewrite lor_temp_bit by (auto; lia). fold (isDensity p). rewrite D.
  f_equal. unfold revertSub. rewrite align_align, E. cbn [mapN flags]. rewrite FL.
  assert (B0 : isConj (N.lor (flags n) (tempFlags p)) = isConj p) by (apply lor_temp_bit; auto; lia).
  assert (B1 : isNonReduce (N.lor (flags n) (tempFlags p)) = isNonReduce p) by (apply lor_temp_bit; auto; lia).
  rewrite B0, B1.
  assert (AL : forall q k, tempFlags q = 0 -> N.land k 7 = k -> alignD (N.lor q k) = q).
  { intros q k Q K. rewrite align_lor by auto. apply align_id; auto. }
  assert (AL2 : forall q k k', tempFlags q = 0 -> N.land k 7 = k -> N.land k' 7 = k' -> alignD (N.lor (N.lor q k) k') = q).
  { intros q k k' Q K K'. rewrite !align_lor by auto. apply align_id; auto. }
  destruct (isNonReduce p) eqn:K1; destruct (isConj p) eqn:K2; cbn [andb negb];
    rewrite updN_same, updN_twice; f_equal; unfold modified; rewrite K1, K2; cbn [andb negb];
    (apply node_ext; cbn [setFlags mapN swapN flags e0 e1 e2 e3];
     [rewrite unset_lor; auto|apply edge_ext|apply edge_ext|apply edge_ext|apply edge_ext]);
    cbn [mapP mapW dp dw]; unfold setDensity, setConj, setNonReduce;
    rewrite ?conj_conj by auto; auto; try (apply align_id; auto); try (apply AL; auto); try (apply AL2; auto).
Qed.
Lemma revert_stored h p : tempFlags p = 0 -> (p <> 0 -> tempFlags (flags (h p)) = 0) -> revertDm zero h p = TOk h.
Proof.
  intros T F. unfold revertDm. destruct (N.eqb_spec p 0) as [->|H]; auto. rewrite T. cbn [N.eqb negb].
  unfold isDensity. rewrite (temp0_bit (flags (h p)) 2); auto. lia.
Qed.

Lemma round_trip debug h x y : tag_ok (dp x) -> tag_ok (dp y) ->
  (alignD (dp x) <> 0 -> stored (h (alignD (dp x)))) -> (alignD (dp y) <> 0 -> stored (h (alignD (dp y)))) ->
  alignD (dp x) <> alignD (dp y) \/ alignD (dp x) = 0 \/ isDensity (dp x) = false \/ isDensity (dp y) = false ->
  roundTrip debug zero h x y = TOk (h, mapP alignD x, mapP alignD y).
Proof.
  intros Tx Ty Sx Sy NA. unfold roundTrip.
  assert (UU : forall (g : dheap) p, updN g p (g p) = g).
  { intros g p. apply functional_extensionality. intros q. unfold updN. destruct (N.eqb_spec q p); congruence. }
  set (a := alignD (dp x)) in *. set (b := alignD (dp y)) in *.
  assert (R0 : forall g : dheap, revertDm zero g 0 = TOk g) by reflexivity.
  assert (RES : (h, mapP alignD x, mapP alignD y) = (h, {| dp := a; dw := dw x |}, {| dp := b; dw := dw y |})) by reflexivity.
  rewrite RES. clear RES.
  assert (TA : tempFlags a = 0) by apply temp_align. assert (TB : tempFlags b = 0) by apply temp_align.
  destruct (tag_ok_cases _ Tx) as [[Fx Dx]|Dx]; destruct (tag_ok_cases _ Ty) as [[Fy Dy]|Dy].
  - rewrite !apply_untagged by auto. assert (Ea : dp x = a) by (symmetry; apply align_id; auto).
    assert (Eb : dp y = b) by (symmetry; apply align_id; auto). rewrite Ea, Eb in *.
    rewrite !revert_stored; auto; intros Hn; [apply Sy|apply Sx]; auto.
  - rewrite (apply_untagged _ _ (dp x)) by auto. assert (Ea : dp x = a) by (symmetry; apply align_id; auto). rewrite Ea.
    destruct (N.eq_dec b 0) as [Zb|Nb].
    + rewrite apply_terminal by auto. rewrite Zb, (revert_stored h a), R0; auto. intros Hn; apply Sx; auto.
    + rewrite apply_tagged by (auto; apply Sy; auto). fold b. destruct (N.eq_dec a b) as [Eab|Nab].
      * rewrite Eab. rewrite (revert_modified h (dp y)); auto; [|apply updN_same]. fold b. rewrite updN_twice, UU.
        rewrite revert_stored; auto. intros _; apply Sy; auto.
      * rewrite (revert_stored _ a); auto; [|intros Hn; rewrite updN_other by auto; apply Sx; auto].
        rewrite (revert_modified h (dp y)); auto; [|apply updN_same]. fold b. rewrite updN_twice, UU. auto.
  - destruct (N.eq_dec a 0) as [Za|Na].
    + rewrite apply_terminal by auto. assert (Eb : dp y = b) by (symmetry; apply align_id; auto). rewrite apply_untagged by auto.
      rewrite Eb, R0, Za, revert_stored; auto. intros Hn; apply Sy; auto.
    + rewrite apply_tagged by (auto; apply Sx; auto). rewrite apply_untagged by auto. fold a.
      rewrite (revert_modified h (dp x)); auto; [|apply updN_same]. fold a. rewrite updN_twice, UU.
      assert (Eb : dp y = b) by (symmetry; apply align_id; auto). rewrite Eb, revert_stored; auto. intros Hn; apply Sy; auto.
  - destruct (N.eq_dec a 0) as [Za|Na]; [|destruct (N.eq_dec b 0) as [Zb|Nb]].
    + rewrite apply_terminal by auto. destruct (N.eq_dec b 0) as [Zb|Nb].
      * rewrite apply_terminal by auto. rewrite !R0, Za, Zb. auto.
      * rewrite apply_tagged by (auto; apply Sy; auto). fold b. rewrite R0.
        rewrite (revert_modified h (dp y)); auto; [|apply updN_same]. fold b. rewrite updN_twice, UU, Za. auto.
    + rewrite apply_tagged by (auto; apply Sx; auto). rewrite apply_terminal by auto. fold a.
      rewrite (revert_modified h (dp x)); auto; [|apply updN_same]. fold a. rewrite updN_twice, UU, R0, Zb. auto.
    + assert (Nab : a <> b) by (destruct NA as [|[|[|]]]; congruence).
      rewrite apply_tagged by (auto; apply Sx; auto). fold a. rewrite apply_tagged.
      2: auto. 2: auto. 2: { fold b. rewrite updN_other by auto. apply Sy; auto. }
      fold b. rewrite updN_other by auto.
      rewrite (revert_modified h (dp x)); auto; [|fold a; rewrite updN_other by auto; apply updN_same]. fold a.
      rewrite (revert_modified h (dp y)); auto; [|fold b; rewrite updN_other by auto; apply updN_same]. fold b.
      f_equal. f_equal. f_equal. apply functional_extensionality. intros q. unfold updN.
      destruct (N.eqb_spec q b) as [->|]; auto. destruct (N.eqb_spec q a) as [->|]; auto.
Qed.
End Density.
