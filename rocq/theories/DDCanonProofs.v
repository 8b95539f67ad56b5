(* Canonicity: two canonical diagrams that denote the same object are the same edge. *)
From Coq Require Import Reals Lra Psatz List Bool Arith Lia FunctionalExtensionality.
From Verif Require Import Cplx Qsem DDModel DDSpec DDProofs.
Import ListNotations.
Local Open Scope R_scope.

Lemma vden_ext : forall t n w b b', vlev n w t -> (forall q, (q < n)%nat -> b q = b' q) -> vden t b = vden t b'.
Proof.
  induction t as [|q ws s IH]; intros n w b b' L E; cbn [vden]; auto.
  destruct L as [-> L]. rewrite (E q) by lia. f_equal. eapply IH; [apply L|]. intros; apply E; lia.
Qed.
Lemma vden_setb t n w b q v : vlev n w t -> (n <= q)%nat -> vden t (setb b q v) = vden t b.
Proof. intros L H. eapply vden_ext; [apply L|]. intros x Hx. rewrite setb_other; auto. lia. Qed.
Lemma mden_ext : forall n t r r' c c', (forall q, (q < n)%nat -> r q = r' q /\ c q = c' q) ->
  mden n t r c = mden n t r' c'.
Proof.
  induction n as [|n IH]; intros t r r' c c' E; cbn [mden]; auto.
  destruct (E n) as [A B]; [lia|]. rewrite A, B.
  assert (E' : forall q, (q < n)%nat -> r q = r' q /\ c q = c' q) by (intros; apply E; lia).
  destruct t as [|q w s]; [|destruct (Nat.eqb q n)];
    rewrite ?(IH _ r r' c c' E'); auto.
Qed.
Lemma mden_setb n t r c q u v : (n <= q)%nat -> mden n t (setb r q u) (setb c q v) = mden n t r c.
Proof. intros H. apply mden_ext. intros x Hx. rewrite !setb_other by lia. auto. Qed.

Lemma Cnorm2_ge0_sum a b : Cnorm2 a + Cnorm2 b = 1 -> a <> C0 \/ b <> C0.
Proof.
  intros H. destruct (Ceq_dec a C0) as [->|]; auto. destruct (Ceq_dec b C0) as [->|]; auto.
  rewrite !Cnorm2_0 in H. lra.
Qed.

Lemma vden_nonzero : forall t n w, vcan n w t -> w <> C0 -> exists b, vden t b <> C0.
Proof.
  induction t as [|q ws s IH]; intros n w H N; cbn [vden].
  - exists (fun _ => false). apply C1_neq_C0.
  - destruct H as (_ & -> & [U _] & L).
    assert (exists i, ws i <> C0) as [i Hi].
    { destruct (Cnorm2_ge0_sum _ _ U); eauto. }
    destruct (IH i q (ws i)) as [b Hb]; auto.
    exists (setb b q i). rewrite setb_same. apply Cmul_neq0; auto.
    rewrite (vden_setb _ q (ws i)); auto. apply vcan_lev; auto.
Qed.

Lemma vfirst_scale w w' k : k <> C0 -> (forall i, w i = (k * w' i)%C) -> vfirst w = vfirst w'.
Proof.
  intros K E. unfold vfirst. rewrite !E, !Cnorm2_mul. pose proof (Cnorm2_gt _ K).
  destruct Rle_dec as [A|A]; destruct Rle_dec as [B|B]; auto; exfalso.
  - apply B. apply Rmult_le_reg_l in A; auto.
  - apply A. apply Rmult_le_compat_l; lra.
Qed.
Lemma vunit_scale w w' k : vunit w -> vunit w' -> (forall i, w i = (k * w' i)%C) -> k = C1.
Proof.
  intros [U [x [Px Ex]]] [U' [y [Py Ey]]] E.
  assert (K1 : Cnorm2 k = 1).
  { rewrite !E, !Cnorm2_mul in U. rewrite <- Rmult_plus_distr_l, U' in U. lra. }
  assert (KN : k <> C0) by (intros ->; rewrite Cnorm2_0 in K1; lra).
  rewrite (vfirst_scale w w' k) in Ex by auto. rewrite E, Ey in Ex.
  assert (KY : k = RtoC (x / y)).
  { apply (Cmul_cancel_l (RtoC y)); [apply RtoC_neq0; lra|].
    rewrite <- RtoC_mul. replace (y * (x / y)) with x by (field; lra). rewrite <- Ex. ring. }
  rewrite KY in K1 |- *. rewrite Cnorm2_RtoC in K1.
  assert (0 < x / y) by (apply Rdiv_lt_0_compat; auto).
  assert (x / y = 1) by nra. rewrite H0. apply RtoC_1.
Qed.

(* C12 for vectors: proportional canonical diagrams are equal *)
Lemma vcanon_prop : forall t t' n w w' k, vcan n w t -> vcan n w' t' -> w <> C0 -> w' <> C0 ->
  (forall b, vden t b = (k * vden t' b)%C) -> k = C1 /\ t = t'.
Proof.
  induction t as [|q ws s IH]; intros t' n w w' k H H' N N' E.
  - destruct H as [->|]; [|tauto]. destruct t' as [|q' ws' s']; [|destruct H' as (_ & ? & _); discriminate].
    split; auto. specialize (E (fun _ => false)). cbn in E.
    transitivity (k * C1)%C; [ring|congruence].
  - destruct t' as [|q' ws' s'].
    { destruct H' as [->|]; [|tauto]. destruct H as (_ & ? & _); discriminate. }
    destruct H as (_ & -> & U & L). destruct H' as (_ & Q & U' & L'). injection Q as <-.
    assert (KN : k <> C0).
    { intros ->. destruct (vden_nonzero (VNode q ws s) (S q) w) as [b Hb]; auto.
      { cbn; auto. } apply Hb. rewrite E. ring. }
    assert (CE : forall i b, (ws i * vden (s i) b)%C = (k * (ws' i * vden (s' i) b))%C).
    { intros i b. specialize (E (setb b q i)). cbn [vden] in E. rewrite !setb_same in E.
      rewrite (vden_setb (s i) q (ws i)) in E by (auto using vcan_lev).
      rewrite (vden_setb (s' i) q (ws' i)) in E by (auto using vcan_lev). auto. }
    assert (W : forall i, ws i = (k * ws' i)%C /\ s i = s' i).
    { intros i. destruct (Ceq_dec (ws i) C0) as [Z|Z]; destruct (Ceq_dec (ws' i) C0) as [Z'|Z'].
      - split; [rewrite Z, Z'; ring|]. specialize (L i). specialize (L' i). rewrite Z in L. rewrite Z' in L'.
        destruct (s i); [|destruct L; tauto]. destruct (s' i); auto. destruct L'; tauto.
      - destruct (vden_nonzero (s' i) q (ws' i)) as [b Hb]; auto.
        specialize (CE i b). rewrite Z in CE. exfalso. symmetry in CE.
        rewrite Cmul_0_l in CE. revert CE. repeat apply Cmul_neq0; auto.
      - destruct (vden_nonzero (s i) q (ws i)) as [b Hb]; auto.
        specialize (CE i b). rewrite Z' in CE. exfalso.
        assert (A : (ws i * vden (s i) b)%C = C0) by (rewrite CE; ring).
        revert A. apply Cmul_neq0; auto.
      - destruct (IH i (s' i) q (ws i) (ws' i) (k * ws' i / ws i)%C) as [A B]; auto.
        { intros b. apply (Cmul_cancel_l (ws i)); auto. rewrite CE. field; auto. }
        split; auto. transitivity (ws i * (k * ws' i / ws i))%C; [rewrite A; ring|field; auto]. }
    assert (K1 : k = C1) by (apply (vunit_scale ws ws'); auto; intros; apply W).
    split; auto. f_equal; apply functional_extensionality; intros i.
    + rewrite (proj1 (W i)), K1; ring.
    + apply W.
Qed.

Lemma veden_zero_canon n e : vcanon n e -> (forall b, veden e b = C0) -> e = vzero.
Proof.
  intros H Z. destruct e as [w t]. unfold veden in Z; cbn in Z.
  destruct (Ceq_dec w C0) as [->|N].
  - unfold vcanon in H; cbn in H. destruct t; auto. destruct H; tauto.
  - destruct (vden_nonzero t n w) as [b Hb]; auto. destruct (Cmul_neq0 w (vden t b)); auto.
Qed.

Lemma vcanon_unique n e e' : vcanon n e -> vcanon n e' -> (forall b, veden e b = veden e' b) -> e = e'.
Proof.
  intros H H' E.
  destruct (Ceq_dec (fst e) C0) as [Z|Z].
  - assert (A : forall b, veden e b = C0) by (intros b; unfold veden; rewrite Z; ring).
    rewrite (veden_zero_canon n e), (veden_zero_canon n e'); auto. intros b; rewrite <- E; auto.
  - destruct (Ceq_dec (fst e') C0) as [Z'|Z'].
    + assert (A : forall b, veden e' b = C0) by (intros b; unfold veden; rewrite Z'; ring).
      rewrite (veden_zero_canon n e), (veden_zero_canon n e'); auto. intros b; rewrite E; auto.
    + destruct e as [w t], e' as [w' t']; unfold vcanon, veden in *; cbn [fst snd] in *.
      destruct (vcanon_prop t t' n w w' (w' / w)%C) as [A B]; auto.
      { intros b. apply (Cmul_cancel_l w); auto. rewrite E. field; auto. }
      subst t'. f_equal. transitivity (w * (w' / w))%C; [rewrite A; ring|field; auto].
Qed.

(* ---- matrices --------------------------------------------------------------------------------- *)

Lemma mden_nonzero : forall n t w, mcan n w t -> exists r c, mden n t r c <> C0.
Proof.
  induction n as [|n IH]; intros t w H.
  - exists (fun _ => false), (fun _ => false). apply C1_neq_C0.
  - assert (SKIP : mcan n C1 t -> exists r c, mden (S n) t r c <> C0).
    { intros K. destruct (IH t C1 K) as (r & c & Hrc).
      exists (setb r n false), (setb c n false).
      rewrite mden_lift by (eapply mcan_lev; eauto). rewrite !setb_same. cbn [eqb].
      rewrite mden_setb; auto. }
    destruct t as [|q ws s].
    + apply SKIP; exact Logic.I.
    + destruct H as (Hw & Hq & U & NI & L).
      destruct (Nat.eq_dec q n) as [->|Hn].
      * destruct U as (m & M1 & _).
        destruct (IH (s (fst m) (snd m)) (ws (fst m) (snd m))) as (r & c & Hrc); [auto|].
        exists (setb r n (fst m)), (setb c n (snd m)). rewrite mden_node, !setb_same.
        rewrite mden_setb by auto. rewrite M1. rewrite Cmul_1_l; auto.
      * apply SKIP. cbn. split; [apply C1_neq_C0|]. split; [lia|]. auto.
Qed.

Lemma before_total a b : a = b \/ before a b = true \/ before b a = true.
Proof. destruct a as [[] []], b as [[] []]; cbn; auto. Qed.

Lemma munit_scale w w' k : munit w -> munit w' -> (forall i j, w i j = (k * w' i j)%C) -> k = C1.
Proof.
  intros (m & M1 & M) (m' & M1' & M') E.
  assert (K : Cnorm2 k = 1).
  { pose proof (E (fst m) (snd m)) as A. rewrite M1 in A. pose proof (E (fst m') (snd m')) as B. rewrite M1' in B.
    pose proof (M m') as C. pose proof (M' m) as D.
    assert (A2 : 1 = Cnorm2 k * Cnorm2 (w' (fst m) (snd m))).
    { rewrite <- Cnorm2_mul, <- A. symmetry; apply Cnorm2_1. }
    assert (B2 : Cnorm2 (w (fst m') (snd m')) = Cnorm2 k).
    { rewrite B, Cnorm2_mul, Cnorm2_1. ring. }
    rewrite B2 in C. pose proof (Cnorm2_pos k). pose proof (Cnorm2_pos (w' (fst m) (snd m))).
    assert (Cnorm2 k <= 1) by (destruct (before m' m); lra).
    assert (Cnorm2 (w' (fst m) (snd m)) <= 1) by (destruct (before m m'); lra).
    nra. }
  assert (EN : forall i j, Cnorm2 (w i j) = Cnorm2 (w' i j)).
  { intros; rewrite E, Cnorm2_mul, K; ring. }
  destruct (before_total m m') as [->|[B|B]].
  - rewrite E, M1' in M1. rewrite <- M1. ring.
  - specialize (M' m). rewrite B in M'. rewrite <- EN, M1, Cnorm2_1 in M'. lra.
  - specialize (M m'). rewrite B in M. rewrite EN, M1', Cnorm2_1 in M. lra.
Qed.

(* the node at level n of one diagram cannot stand for a skipped level of the other *)
Lemma skip_vs_node n ws s t w' k :
  (forall t t' w w' k, mcan n w t -> mcan n w' t' -> w <> C0 -> w' <> C0 -> k <> C0 ->
     (forall r c, mden n t r c = (k * mden n t' r c)%C) -> k = C1 /\ t = t') ->
  munit ws -> ~ mident ws s -> (forall i j, mcan n (ws i j) (s i j)) -> mcan n w' t -> w' <> C0 -> k <> C0 ->
  (forall r c, mden (S n) (MNode n ws s) r c = (k * mden (S n) t r c)%C) -> False.
Proof.
  intros IH U NI L HT N' KN E.
  assert (CE : forall i j r c, (ws i j * mden n (s i j) r c)%C =
                               if eqb i j then (k * mden n t r c)%C else C0).
  { intros i j r c. specialize (E (setb r n i) (setb c n j)).
    rewrite mden_node, mden_lift, !setb_same, !mden_setb in E by (auto; eapply mcan_lev; eauto).
    rewrite E. destruct (eqb i j); ring. }
  assert (OFF : forall i j, eqb i j = false -> ws i j = C0).
  { intros i j F. destruct (mden_nonzero n (s i j) (ws i j)) as (r & c & Hrc); [auto|].
    specialize (CE i j r c). rewrite F in CE. destruct (Cmul_zero _ _ CE); tauto. }
  assert (ON : forall i, ws i i <> C0).
  { intros i Z. destruct (mden_nonzero n t w') as (r & c & Hrc); [auto|].
    specialize (CE i i r c). rewrite Z, eqb_reflx, Cmul_0_l in CE. symmetry in CE.
    destruct (Cmul_zero _ _ CE); tauto. }
  assert (EQ : forall i, ws i i = k /\ s i i = t).
  { intros i. destruct (IH (s i i) t (ws i i) w' (k / ws i i)%C) as [A B]; auto.
    - unfold Cdiv. apply Cmul_neq0; auto. apply Cinv_neq0; auto.
    - intros r c. apply (Cmul_cancel_l (ws i i)); auto. rewrite CE, eqb_reflx. field; auto.
    - split; auto. transitivity (ws i i * (k / ws i i))%C; [rewrite A; ring|field; auto]. }
  apply NI.
  assert (K1 : k = C1).
  { destruct U as ([i j] & M1 & _). cbn in M1. destruct (eqb i j) eqn:F.
    - apply eqb_prop in F; subst j. rewrite <- M1. symmetry; apply EQ.
    - rewrite OFF in M1 by auto. destruct C1_neq_C0; auto. }
  unfold mident. rewrite <- K1 at 1 2. repeat split; try apply EQ; try (apply OFF; auto).
  rewrite (proj2 (EQ false)), (proj2 (EQ true)); auto.
Qed.

Lemma mcanon_prop : forall n t t' w w' k, mcan n w t -> mcan n w' t' -> w <> C0 -> w' <> C0 -> k <> C0 ->
  (forall r c, mden n t r c = (k * mden n t' r c)%C) -> k = C1 /\ t = t'.
Proof.
  induction n as [|n IH]; intros t t' w w' k H H' N N' KN E.
  - destruct t as [|q ? ?]; [|destruct H as (_ & ? & _); lia].
    destruct t' as [|q' ? ?]; [|destruct H' as (_ & ? & _); lia].
    split; auto. specialize (E (fun _ => false) (fun _ => false)). cbn in E.
    transitivity (k * C1)%C; [ring|congruence].
  - assert (SPLIT : forall t w, mcan (S n) w t -> w <> C0 ->
              mcan n w t \/ exists ws s, t = MNode n ws s /\ munit ws /\ ~ mident ws s /\
                                    forall i j, mcan n (ws i j) (s i j)).
    { intros t0 w0 A B. destruct t0 as [|q ws s]; [left; auto|].
      destruct A as (A1 & A2 & A3 & A4 & A5). destruct (Nat.eq_dec q n) as [->|].
      - right. exists ws, s. auto.
      - left. cbn. split; [auto|]. split; [lia|auto]. }
    destruct (SPLIT _ _ H N) as [K|(ws & s & -> & U & NI & L)];
      destruct (SPLIT _ _ H' N') as [K'|(ws' & s' & -> & U' & NI' & L')].
    + apply (IH t t' w w'); auto. intros r c.
      specialize (E (setb r n false) (setb c n false)).
      rewrite !mden_lift, !setb_same, !mden_setb in E by (auto; eapply mcan_lev; eauto). auto.
    + exfalso. eapply (skip_vs_node n ws' s' t w (/ k)%C); eauto using Cinv_neq0.
      intros r c. rewrite E. field; auto.
    + exfalso. eapply (skip_vs_node n ws s t' w' k); eauto.
    + assert (CE : forall i j r c, (ws i j * mden n (s i j) r c)%C = (k * (ws' i j * mden n (s' i j) r c))%C).
      { intros i j r c. specialize (E (setb r n i) (setb c n j)).
        rewrite !mden_node, !setb_same, !mden_setb in E by auto. auto. }
      assert (W : forall i j, ws i j = (k * ws' i j)%C /\ s i j = s' i j).
      { intros i j. destruct (Ceq_dec (ws i j) C0) as [Z|Z]; destruct (Ceq_dec (ws' i j) C0) as [Z'|Z'].
        - split; [rewrite Z, Z'; ring|]. specialize (L i j). specialize (L' i j). rewrite Z in L. rewrite Z' in L'.
          destruct (s i j); [|destruct L; tauto]. destruct (s' i j); auto. destruct L'; tauto.
        - destruct (mden_nonzero n (s' i j) (ws' i j)) as (r & c & Hb); auto.
          specialize (CE i j r c). rewrite Z in CE. exfalso. symmetry in CE.
          rewrite Cmul_0_l in CE. revert CE. repeat apply Cmul_neq0; auto.
        - destruct (mden_nonzero n (s i j) (ws i j)) as (r & c & Hb); auto.
          specialize (CE i j r c). rewrite Z' in CE. exfalso.
          assert (A : (ws i j * mden n (s i j) r c)%C = C0) by (rewrite CE; ring).
          revert A. apply Cmul_neq0; auto.
        - destruct (IH (s i j) (s' i j) (ws i j) (ws' i j) (k * ws' i j / ws i j)%C) as [A B]; auto.
          { unfold Cdiv. repeat apply Cmul_neq0; auto. apply Cinv_neq0; auto. }
          { intros r c. apply (Cmul_cancel_l (ws i j)); auto. rewrite CE. field; auto. }
          split; auto. transitivity (ws i j * (k * ws' i j / ws i j))%C; [rewrite A; ring|field; auto]. }
      assert (K1 : k = C1) by (apply (munit_scale ws ws'); auto; intros; apply W).
      split; auto. f_equal; apply functional_extensionality; intros i; apply functional_extensionality; intros j.
      * rewrite (proj1 (W i j)), K1; ring.
      * apply W.
Qed.

Lemma meden_zero_canon n e : mcanon n e -> (forall r c, meden n e r c = C0) -> e = mzero.
Proof.
  intros H Z. destruct e as [w t]. unfold meden in Z; cbn in Z.
  destruct (Ceq_dec w C0) as [->|N].
  - unfold mcanon in H; cbn in H. destruct t; auto. destruct H; tauto.
  - destruct (mden_nonzero n t w) as (r & c & Hb); auto. destruct (Cmul_neq0 w (mden n t r c)); auto.
Qed.
Lemma mcanon_unique n e e' : mcanon n e -> mcanon n e' -> (forall r c, meden n e r c = meden n e' r c) -> e = e'.
Proof.
  intros H H' E.
  destruct (Ceq_dec (fst e) C0) as [Z|Z].
  - assert (A : forall r c, meden n e r c = C0) by (intros r c; unfold meden; rewrite Z; ring).
    rewrite (meden_zero_canon n e), (meden_zero_canon n e'); auto. intros r c; rewrite <- E; auto.
  - destruct (Ceq_dec (fst e') C0) as [Z'|Z'].
    + assert (A : forall r c, meden n e' r c = C0) by (intros r c; unfold meden; rewrite Z'; ring).
      rewrite (meden_zero_canon n e), (meden_zero_canon n e'); auto. intros r c; rewrite E; auto.
    + destruct e as [w t], e' as [w' t']; unfold mcanon, meden in *; cbn [fst snd] in *.
      destruct (mcanon_prop n t t' w w' (w' / w)%C) as [A B]; auto.
      { unfold Cdiv. apply Cmul_neq0; auto. apply Cinv_neq0; auto. }
      { intros r c. apply (Cmul_cancel_l w); auto. rewrite E. field; auto. }
      subst t'. f_equal. transitivity (w * (w' / w))%C; [rewrite A; ring|field; auto].
Qed.
