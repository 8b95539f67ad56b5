(* The unique table for real numbers. *)
From Coq Require Import ZArith QArith Qabs Qround List Bool Lia Lqa Sorted.
From Verif Require Import RealTableModel.
Import ListNotations.
Local Open Scope Q_scope.

Lemma Qle_bool_false a b : Qle_bool a b = false <-> b < a.
Proof.
  destruct (Qle_bool a b) eqn:E; split; intros H; try discriminate; auto.
  - apply Qle_bool_iff in E. apply Qlt_not_le in H. tauto.
  - apply Qnot_le_lt. intros L. apply Qle_bool_iff in L. congruence.
Qed.
Lemma Qabs_le_iff a e : Qabs a <= e <-> - e <= a /\ a <= e.
Proof. apply Qabs_Qle_condition. Qed.

Section Proofs.
Context (eps : Q) (eps_pos : 0 <= eps).
Notation approx := (approx eps).

Lemma approx_iff a b : approx a b = true <-> a - b <= eps /\ b - a <= eps.
Proof. unfold RealTableModel.approx. rewrite Qle_bool_iff, Qabs_le_iff. split; intros [A B]; split; lra. Qed.
Lemma approx_false a b : approx a b = false <-> eps < a - b \/ eps < b - a.
Proof.
  destruct (approx a b) eqn:E; split; intros H; try discriminate; auto.
  - apply approx_iff in E. destruct H; lra.
  - destruct (Qlt_le_dec eps (a - b)); auto. destruct (Qlt_le_dec eps (b - a)); auto.
    rewrite (proj2 (approx_iff a b)) in E; [discriminate|auto].
Qed.
Lemma approx_refl a : approx a a = true. Proof. apply approx_iff. split; lra. Qed.
Lemma approx_sym a b : approx a b = approx b a.
Proof. apply eq_true_iff_eq. rewrite !approx_iff. tauto. Qed.
Lemma Qltb_true a b : Qltb a b = true <-> a < b.
Proof. unfold Qltb. rewrite negb_true_iff, Qle_bool_false. tauto. Qed.

Definition lt_gap (a b : entry) : Prop := snd a + eps < snd b.
Definition gapped := StronglySorted lt_gap.

Lemma walk_near n v l : approx (snd (fst (walk eps n v l))) v = true.
Proof.
  induction l as [|[i w] r IH]; cbn [walk]; [apply approx_refl|].
  destruct (Qle_bool w (v + eps)) eqn:A; [|apply approx_refl].
  destruct (approx w v) eqn:B.
  - destruct r as [|[j u] r']; auto. destruct (_ && _) eqn:Cn; auto. cbn [fst snd].
    apply andb_true_iff in Cn as [_ Cn]. apply Qltb_true in Cn. unfold RealTableModel.approx in *.
    apply Qle_bool_iff in B. apply Qle_bool_iff. lra.
  - destruct (walk eps n v r) as [e o]. cbn [fst] in *. auto.
Qed.
Lemma foi_near n v l : approx (snd (fst (find_or_insert eps n v l))) v = true.
Proof.
  unfold find_or_insert. destruct (rev l) as [|[i w] r]; [apply approx_refl|].
  destruct (Qle_bool w v); [|apply walk_near]. destruct (approx v w) eqn:B; [|apply approx_refl].
  cbn [fst snd]. rewrite approx_sym. auto.
Qed.

Lemma walk_inserts n v l e l' : walk eps n v l = (e, Some l') -> gapped l ->
  e = (n, v) /\ (forall x, In x l' <-> x = (n, v) \/ In x l) /\ gapped l' /\
  (forall x, In x l -> approx (snd x) v = false).
Proof.
  revert e l'. induction l as [|[i w] r IH]; intros e l' H G; cbn [walk] in H.
  - injection H as <- <-. split; [auto|]. split; [cbn; intuition|]. split; [repeat constructor|cbn; tauto].
  - inversion G as [|? ? Gr Gh]; subst. destruct (Qle_bool w (v + eps)) eqn:A.
    + destruct (approx w v) eqn:B; [destruct r as [|[j u] r']; [|destruct (_ && _)]; discriminate|].
      destruct (walk eps n v r) as [e1 [r1|]] eqn:W; [|discriminate]. injection H as <- <-.
      destruct (IH _ _ eq_refl Gr) as (E & M & G1 & F). split; [auto|]. split; [|split].
      * intros x. cbn. rewrite M. tauto.
      * constructor; auto. apply Forall_forall. intros x X. apply M in X as [->|X].
        -- unfold lt_gap; cbn. apply Qle_bool_iff in A. apply approx_false in B. lra.
        -- rewrite Forall_forall in Gh. auto.
      * intros x [<-|X]; auto.
    + injection H as <- <-. apply Qle_bool_false in A. rewrite Forall_forall in Gh.
      split; [auto|]. split; [cbn; intuition congruence|]. split.
      * constructor; auto. constructor; [exact A|]. apply Forall_forall. intros x X. specialize (Gh _ X).
        unfold lt_gap in *; cbn in *. lra.
      * intros x [<-|X]; apply approx_false; cbn; [lra|]. specialize (Gh _ X). unfold lt_gap in Gh; cbn in Gh. lra.
Qed.
Lemma gapped_snoc l e : gapped l -> (forall x, In x l -> lt_gap x e) -> gapped (l ++ [e]).
Proof.
  induction l as [|a l IH]; intros G H; cbn; [repeat constructor|]. inversion G; subst. constructor.
  - apply IH; auto. intros; apply H; right; auto.
  - apply Forall_app. split; auto. constructor; auto. apply H; left; auto.
Qed.
Lemma gapped_last l i w : gapped (l ++ [(i, w)]) -> forall x, In x l -> snd x + eps < w.
Proof.
  induction l as [|a l IH]; intros G x X; [destruct X|]. cbn in G. inversion G as [|? ? G1 G2]; subst.
  destruct X as [<-|X]; auto. rewrite Forall_forall in G2. apply (G2 (i, w)). apply in_or_app. right; left; auto.
Qed.
Lemma rev_last (l : list entry) e r : rev l = e :: r -> l = rev r ++ [e].
Proof. intros H. rewrite <- (rev_involutive l), H. auto. Qed.
Lemma foi_inserts n v l e l' : find_or_insert eps n v l = (e, Some l') -> gapped l ->
  e = (n, v) /\ (forall x, In x l' <-> x = (n, v) \/ In x l) /\ gapped l' /\
  (forall x, In x l -> approx (snd x) v = false).
Proof.
  unfold find_or_insert. intros H G. destruct (rev l) as [|[i w] r] eqn:R.
  - injection H as <- <-. assert (l = []) as -> by (destruct l; auto; apply (f_equal (@length _)) in R; cbn in R;
      rewrite app_length in R; cbn in R; lia).
    split; [auto|]. split; [cbn; intuition|]. split; [repeat constructor|cbn; tauto].
  - apply rev_last in R. destruct (Qle_bool w v) eqn:A; [|apply walk_inserts; auto].
    destruct (approx v w) eqn:B; [discriminate|]. injection H as <- <-.
    apply Qle_bool_iff in A. apply approx_false in B. assert (W : w + eps < v) by lra.
    assert (L : forall x, In x l -> snd x + eps < v).
    { intros x X. rewrite R in X, G. apply in_app_or in X as [X|[<-|[]]]; [|exact W].
      pose proof (gapped_last _ _ _ G x X). lra. }
    split; [auto|]. split; [intros x; rewrite in_app_iff; cbn; intuition|]. split.
    + apply gapped_snoc; auto.
    + intros x X. apply approx_false. specialize (L x X). lra.
Qed.
Lemma walk_stored n i w l : gapped l -> In (i, w) l -> walk eps n w l = ((i, w), None).
Proof.
  induction l as [|[j u] r IH]; intros G X; [destruct X|]. inversion G as [|? ? G1 G2]; subst. cbn [walk].
  destruct X as [[= -> ->]|X].
  - assert (A : Qle_bool w (w + eps) = true) by (apply Qle_bool_iff; lra). rewrite A, approx_refl.
    destruct r as [|[j' u'] r']; auto. inversion G2 as [|? ? H _]; subst. unfold lt_gap in H; cbn in H.
    assert (B : Qle_bool u' (w + eps) = false) by (apply Qle_bool_false; auto). rewrite B. auto.
  - rewrite Forall_forall in G2. pose proof (G2 _ X) as H. unfold lt_gap in H; cbn in H.
    assert (A : Qle_bool u (w + eps) = true) by (apply Qle_bool_iff; lra). rewrite A.
    assert (B : approx u w = false) by (apply approx_false; lra). rewrite B, IH by auto. auto.
Qed.
Lemma foi_stored n i w l : gapped l -> In (i, w) l -> find_or_insert eps n w l = ((i, w), None).
Proof.
  intros G X. unfold find_or_insert. destruct (rev l) as [|[j u] r] eqn:R.
  - exfalso. assert (Y : In (i, w) (rev l)) by (apply -> in_rev; exact X). rewrite R in Y. destruct Y.
  - apply rev_last in R. pose proof X as X'. rewrite R in X', G. apply in_app_or in X' as [X'|[[= -> ->]|[]]].
    + pose proof (gapped_last _ _ _ G _ X') as H. cbn in H.
      assert (A : Qle_bool u w = false) by (apply Qle_bool_false; lra). rewrite A. apply walk_stored; auto. rewrite R; auto.
    + assert (A : Qle_bool w w = true) by (apply Qle_bool_iff; lra). rewrite A, approx_refl. auto.
Qed.
Lemma walk_indep n n' v l e : walk eps n v l = (e, None) -> walk eps n' v l = (e, None).
Proof.
  revert e. induction l as [|[i w] r IH]; intros e; cbn [walk]; [discriminate|].
  destruct (Qle_bool w (v + eps)); [|discriminate]. destruct (approx w v); auto.
  destruct (walk eps n v r) as [e1 [|]] eqn:W; [discriminate|]. rewrite (IH _ eq_refl). auto.
Qed.
Lemma foi_indep n n' v l e : find_or_insert eps n v l = (e, None) -> find_or_insert eps n' v l = (e, None).
Proof.
  unfold find_or_insert. destruct (rev l) as [|[i w] r]; [discriminate|]. destruct (Qle_bool w v); [|apply walk_indep].
  destruct (approx v w); auto; discriminate.
Qed.

(* ---- tables -------------------------------------------------------------------------------------- *)
(* values whose tolerance interval lies in one bucket *)
Definition calm (v : Q) : Prop := hash (v + eps) = hash (v - eps).
Definition tracked (v : Q) : Prop := eps < v /\ approx v 1 = false /\ approx v SQRT2_2 = false.
Definition inv (t : table) : Prop := forall k, gapped (buckets t k) /\
  forall e, In e (buckets t k) -> tracked (snd e) /\ calm (snd e) /\ hash (snd e - eps) = k.

Lemma store_inv t v : inv t -> tracked v -> calm v ->
  inv (fst (store t (hash (v - eps)) (find_or_insert eps (fresh t) v (buckets t (hash (v - eps)))))).
Proof.
  intros I T Cv. destruct (find_or_insert _ _ _ _) as [e [l'|]] eqn:F; cbn [store snd fst]; auto.
  intros k. cbn [buckets]. unfold tupd. destruct (Z.eqb_spec k (hash (v - eps))) as [->|]; [|apply I].
  destruct (I (hash (v - eps))) as [G H]. destruct (foi_inserts _ _ _ _ _ F G) as (-> & M & G' & _).
  split; auto. intros e X. apply M in X as [->|X]; auto.
Qed.
Lemma lookupNN_inv t v : inv t -> eps < v -> calm v -> inv (fst (lookupNonNegative eps t v)).
Proof.
  intros I P Cv. unfold lookupNonNegative. destruct (approx v 1) eqn:A; auto. destruct (approx v SQRT2_2) eqn:B; auto.
  rewrite (proj2 (Z.eqb_eq _ _) Cv). cbn [fst]. apply store_inv; auto. repeat split; auto.
Qed.
Lemma collect_inv keep t : inv t -> inv (collect keep t).
Proof.
  intros I k. cbn [collect buckets]. destruct (I k) as [G H]. split.
  - clear H. induction G as [|a l G IH Fa]; cbn; [constructor|]. destruct (keep (fst a)); auto. constructor; auto.
    rewrite Forall_forall in *. intros x X. apply filter_In in X as [X _]. auto.
  - intros e X. apply filter_In in X as [X _]. auto.
Qed.
Lemma pos_of v : approxZero eps v = false -> Qltb v 0 = false -> eps < v.
Proof.
  unfold approxZero. intros A B. apply Qle_bool_false in A. unfold Qltb in B. apply negb_false_iff, Qle_bool_iff in B.
  rewrite Qabs_pos in A; auto.
Qed.
Lemma neg_of v : approxZero eps v = false -> Qltb v 0 = true -> eps < Qabs v.
Proof. unfold approxZero. intros A B. apply Qle_bool_false in A. auto. Qed.
Lemma lookup_inv t v : inv t -> (approxZero eps v = false -> calm (Qabs v)) -> (Qltb v 0 = false -> approxZero eps v = false -> calm v) ->
  inv (fst (lookup eps t v)).
Proof.
  intros I K K'. unfold lookup. destruct (approxZero eps v) eqn:Z; auto. destruct (Qltb v 0) eqn:N.
  - pose proof (lookupNN_inv t (Qabs v) I (neg_of v Z N) (K eq_refl)). destruct lookupNonNegative; auto.
  - pose proof (lookupNN_inv t v I (pos_of v Z N) (K' eq_refl eq_refl)). destruct lookupNonNegative; auto.
Qed.

(* repeating a lookup *)
Lemma repeat_nn t v t' p : inv t -> eps < v -> calm v -> lookupNonNegative eps t v = (t', p) ->
  lookupNonNegative eps t' v = (t', p).
Proof.
  intros I P Cv. unfold lookupNonNegative. destruct (approx v 1) eqn:A; [intros [= <- <-]; auto|].
  destruct (approx v SQRT2_2) eqn:B; [intros [= <- <-]; auto|].
  rewrite (proj2 (Z.eqb_eq _ _) Cv). set (k := hash (v - eps)).
  destruct (I k) as [G H]. destruct (find_or_insert eps (fresh t) v (buckets t k)) as [e [l'|]] eqn:F; cbn [store snd fst]; intros [= <- <-].
  - destruct (foi_inserts _ _ _ _ _ F G) as (-> & M & G' & _). cbn [buckets fresh]. unfold tupd. rewrite Z.eqb_refl.
    rewrite (foi_stored _ (fresh t) v l') by (auto; apply M; auto). reflexivity.
  - rewrite F. reflexivity.
Qed.
Lemma stored_nn t k e : inv t -> In e (buckets t k) -> lookupNonNegative eps t (snd e) = (t, NEntry e).
Proof.
  intros I X. destruct (I k) as [G H]. destruct (H e X) as ((P & A & B) & Cv & K). unfold lookupNonNegative.
  rewrite A, B, (proj2 (Z.eqb_eq _ _) Cv), K. destruct e as [i w]. cbn [snd] in *. rewrite (foi_stored _ i w) by auto. reflexivity.
Qed.

(* the value of the result, for every table *)
Definition numval (p : bool * number) : Q :=
  let v := match snd p with NZero => 0 | NOne => 1 | NSqrt => SQRT2_2 | NEntry e => snd e end in
  if fst p then - v else v.
Lemma near_nn t v : approx (match snd (lookupNonNegative eps t v) with NZero => 0 | NOne => 1 | NSqrt => SQRT2_2 | NEntry e => snd e end) v = true
  /\ snd (lookupNonNegative eps t v) <> NZero.
Proof.
  unfold lookupNonNegative. destruct (approx v 1) eqn:A; [cbn; rewrite approx_sym; split; [auto|discriminate]|].
  destruct (approx v SQRT2_2) eqn:B; [cbn; rewrite approx_sym; split; [auto|discriminate]|].
  destruct (Z.eqb _ _).
  - cbn [snd]. pose proof (foi_near (fresh t) v (buckets t (hash (v - eps)))) as N.
    destruct (find_or_insert _ _ _ _) as [e [l|]]; cbn in *; split; auto; discriminate.
  - destruct (if Z.eqb (hash (v - eps)) (hash v) then _ else _) as [lo up].
    destruct (matches eps v lo) eqn:L; destruct (matches eps v up) eqn:U; destruct lo as [lo|]; destruct up as [up|];
      cbn in L, U; try discriminate; cbn [snd].
    all: try (destruct (Z.eqb _ _); cbn; split; [apply approx_refl|discriminate]).
    all: try (split; [|discriminate]).
    all: try (destruct (Qltb _ _)).
    all: try (rewrite approx_sym; auto).
  all: destruct (Z.eqb (hash v) (hash (v - eps))); apply approx_refl.
Qed.
Lemma lookup_near t v : Qabs (numval (snd (lookup eps t v)) - v) <= eps.
Proof.
  unfold lookup. destruct (approxZero eps v) eqn:Z.
  - change (Qabs (0 - v) <= eps). apply Qle_bool_iff in Z. rewrite Qabs_le_iff in *. lra.
  - destruct (Qltb v 0) eqn:N.
    + pose proof (near_nn t (Qabs v)) as [H _]. destruct (lookupNonNegative eps t (Qabs v)) as [t' p]. cbn [snd] in *.
      apply approx_iff in H. apply Qltb_true in N. rewrite (Qabs_neg v) in H by lra.
      unfold numval; cbn [fst snd]. rewrite Qabs_le_iff. lra.
    + pose proof (near_nn t v) as [H _]. destruct (lookupNonNegative eps t v) as [t' p]. cbn [snd] in *.
      unfold numval; cbn [fst snd]. apply approx_iff in H. rewrite Qabs_le_iff. lra.
Qed.
(* a returned entry is in the table *)
Lemma entry_nn t v e : snd (lookupNonNegative eps t v) = NEntry e -> exists k, In e (buckets (fst (lookupNonNegative eps t v)) k).
Proof.
  assert (ST : forall k r, (snd r = None -> In (fst r) (buckets t k)) -> (forall l, snd r = Some l -> In (fst r) l) ->
     In (snd (store t k r)) (buckets (fst (store t k r)) k)).
  { intros k [e0 [l|]] A B; cbn [store snd fst buckets] in *; [unfold tupd; rewrite Z.eqb_refl; auto|auto]. }
  assert (W : forall l n, (snd (walk eps n v l) = None -> In (fst (walk eps n v l)) l) /\
     (forall l', snd (walk eps n v l) = Some l' -> In (fst (walk eps n v l)) l')).
  { induction l as [|[i w] r IH]; intros n; cbn [walk].
    - split; [discriminate|intros l' [= <-]; left; auto].
    - destruct (Qle_bool w (v + eps)); [|split; [discriminate|intros l' [= <-]; left; auto]].
      destruct (approx w v).
      + split; [|intros l'; destruct r as [|[j u] r']; [discriminate|destruct (_ && _); discriminate]].
        destruct r as [|[j u] r']; [left; auto|]. destruct (_ && _); intros _; [right; left; auto|left; auto].
      + specialize (IH n). destruct (walk eps n v r) as [e1 [r1|]]; cbn [fst snd] in *.
        * split; [discriminate|]. intros l' [= <-]. right. apply (proj2 IH); auto.
        * split; [|discriminate]. intros _; right; apply (proj1 IH); auto. }
  assert (FI : forall l n, (snd (find_or_insert eps n v l) = None -> In (fst (find_or_insert eps n v l)) l) /\
     (forall l', snd (find_or_insert eps n v l) = Some l' -> In (fst (find_or_insert eps n v l)) l')).
  { intros l n. unfold find_or_insert. destruct (rev l) as [|[i w] r] eqn:R; [split; [discriminate|intros l' [= <-]; left; auto]|].
    destruct (Qle_bool w v); [|apply W]. destruct (approx v w).
    - split; [intros _; apply in_rev; rewrite R; left; auto|discriminate].
    - split; [discriminate|intros l' [= <-]; apply in_or_app; right; left; auto]. }
  assert (FB : forall k e0, front (buckets t k) = Some e0 -> In e0 (buckets t k)).
  { intros k e0. unfold front. destruct (buckets t k); [discriminate|intros [= <-]; left; auto]. }
  assert (BB : forall k e0, back (buckets t k) = Some e0 -> In e0 (buckets t k)).
  { intros k e0. unfold back, front. destruct (rev (buckets t k)) eqn:R; [discriminate|intros [= <-]].
    apply in_rev. rewrite R. left; auto. }
  unfold lookupNonNegative. destruct (approx v 1); [discriminate|]. destruct (approx v SQRT2_2); [discriminate|].
  destruct (Z.eqb (hash (v + eps)) (hash (v - eps))).
  - cbn [snd fst]. intros [= <-]. exists (hash (v - eps)). apply ST; apply FI.
  - assert (LU : exists k1 k2, (if Z.eqb (hash (v - eps)) (hash v) then (back (buckets t (hash v)), front (buckets t (hash (v + eps))))
                       else (back (buckets t (hash (v - eps))), front (buckets t (hash v)))) =
                       (back (buckets t k1), front (buckets t k2))) by (destruct Z.eqb; eauto).
    destruct LU as (k1 & k2 & ->).
    destruct (matches eps v (back (buckets t k1))); destruct (matches eps v (front (buckets t k2)));
      destruct (back (buckets t k1)) as [a|] eqn:Ea; destruct (front (buckets t k2)) as [b|] eqn:Eb;
      cbn [snd fst]; try (intros [= <-]);
      try (destruct (Qltb _ _)); eauto;
      try (destruct (Z.eqb (hash v) (hash (v - eps))); exists (hash v); apply ST; cbn [fst snd]; try discriminate;
           intros l [= <-]; [left; auto|apply in_or_app; right; left; auto]).
Qed.
End Proofs.
