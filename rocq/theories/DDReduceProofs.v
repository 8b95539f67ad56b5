(* Reducing ancillary and garbage qubits: proofs. *)
From Coq Require Import Reals Lra Psatz List Bool Arith Lia FunctionalExtensionality.
From Verif Require Import Cplx Qsem DDModel DDSpec DDProofs DDCanonProofs DDOpsProofs DDReduceModel DDReduceSpec.
Import ListNotations.
Local Open Scope R_scope.

(* ---- flags ---------------------------------------------------------------------------------------- *)

Fixpoint hit (fl : list bool) (n : nat) (b : bits) : bool :=
  match n with O => false | S k => hit fl k b || (nth k fl false && b k) end.
Lemma nth_flag fl q : nth q fl false = true <-> nth_error fl q = Some true.
Proof.
  revert q; induction fl as [|a l IH]; intros [|q]; cbn; split; intros H; try congruence; apply IH; auto.
Qed.
Lemma hit_iff fl n b : hit fl n b = true <-> touches fl n b.
Proof.
  induction n as [|k IH]; cbn [hit].
  - split; [discriminate|intros (q & H & _); lia].
  - rewrite orb_true_iff, andb_true_iff, IH, nth_flag. split.
    + intros [(q & A & B & D)|[A B]]; [exists q|exists k]; repeat split; auto; lia.
    + intros (q & A & B & D). destruct (Nat.eq_dec q k) as [->|]; [right; auto|left].
      exists q; repeat split; auto; lia.
Qed.
Lemma flagged_ok fl q : (q < length fl)%nat -> flagged fl q = DOk (nth q fl false).
Proof.
  intros H. unfold flagged. rewrite (nth_error_nth' fl false H). auto.
Qed.
Lemma first_flag_below fl i q : (q < first_flag fl i - i)%nat -> nth q fl false = false.
Proof.
  revert i q; induction fl as [|b r IH]; intros i q; cbn; [destruct q; auto|].
  destruct b; [lia|]. intros H. destruct q; auto. apply (IH (S i)). lia.
Qed.
Lemma below_lb fl q : (q < lowerbound fl)%nat -> nth q fl false = false.
Proof. intros H. apply (first_flag_below fl 0). unfold lowerbound in H. lia. Qed.
Lemma hit_lb fl n b : (n <= lowerbound fl)%nat -> hit fl n b = false.
Proof.
  induction n as [|k IH]; cbn; auto. intros H. rewrite IH, below_lb by lia. auto.
Qed.
Lemma noneflag_all fl q : noneflag fl = true -> nth q fl false = false.
Proof.
  unfold noneflag. rewrite negb_true_iff. revert q; induction fl as [|b r IH]; intros [|q] H; cbn in *; auto.
  - apply orb_false_iff in H; tauto.
  - apply IH. apply orb_false_iff in H; tauto.
Qed.
Lemma hit_none fl n b : noneflag fl = true -> hit fl n b = false.
Proof. intros H; induction n as [|k IH]; cbn; auto. rewrite IH, noneflag_all; auto. Qed.
Lemma hit_ext fl n b b' : (forall q, (q < n)%nat -> b q = b' q) -> hit fl n b = hit fl n b'.
Proof. induction n as [|k IH]; cbn; auto. intros H. rewrite IH, H by auto. auto. Qed.

Lemma first_flag_len fl i : (first_flag fl i <= i + length fl)%nat.
Proof. revert i; induction fl as [|b r IH]; intros i; cbn; [lia|]. destruct b; [lia|]. specialize (IH (S i)). lia. Qed.
Lemma first_flag_lt fl i : noneflag fl = false -> (first_flag fl i < i + length fl)%nat.
Proof.
  unfold noneflag. rewrite negb_false_iff. revert i; induction fl as [|b r IH]; intros i; cbn; [discriminate|].
  destruct b; cbn; [lia|]. intros H. specialize (IH (S i) H). lia.
Qed.

(* ---- makeDDNode keeps canonicity up to zero weights ------------------------------------------------ *)

Lemma mcanon_scale n e k : mcanon n e -> k <> C0 -> mcanon n (mscale k e).
Proof.
  unfold mcanon, mscale; cbn [fst snd]. intros H K. destruct (snd e) eqn:E; [exact Logic.I|].
  eapply mcan_weight; eauto. apply Cmul_neq0; auto. destruct H; auto.
Qed.
Lemma mcanon_mono n m e : (n <= m)%nat -> mcanon n e -> mcanon m e.
Proof. unfold mcanon. intros; eapply mcan_mono; eauto. Qed.
Lemma mcan0_zero n : mcan0 n mzero. Proof. left; auto. Qed.
Lemma meden_zero n r c : meden n mzero r c = C0.
Proof. unfold meden; cbn; ring. Qed.
Lemma meden_lift n e r c : mwf n e -> meden (S n) e r c = if eqb (r n) (c n) then meden n e r c else C0.
Proof. intros H. unfold meden. rewrite mden_lift; auto. destruct eqb; auto. ring. Qed.
Lemma meden_scale n e k r c : meden n (mscale k e) r c = (k * meden n e r c)%C.
Proof. unfold meden, mscale; cbn [fst snd]; ring. Qed.

Lemma two (b : bool) : b = true \/ b = false. Proof. destruct b; auto. Qed.
Ltac pick R :=
  repeat match type of R with
  | ?x = ?y => match goal with |- context [?T] =>
      match T with if x then ?A else ?B =>
        match y with true => replace T with A by (rewrite R; reflexivity) | false => replace T with B by (rewrite R; reflexivity) end end end
  end.

(* ---- ancillary qubits ---------------------------------------------------------------------------- *)

Section anc.
Variables (fl : list bool) (regular : bool).
Definition cleared (n : nat) (g e : medge) : Prop :=
  forall s k, entry regular n g k s = if hit fl n s then C0 else entry regular n e k s.

Lemma entry_node n e s k : (forall i j, mcan0 n (e i j)) ->
  entry regular (S n) (mmk n e) s k = entry regular n (if regular then e (s n) (k n) else e (k n) (s n)) s k.
Proof. intros H. unfold entry. destruct regular; rewrite mmk_den0; auto. Qed.
Lemma entry_lift n e s k : mwf n e -> entry regular (S n) e s k = if eqb (s n) (k n) then entry regular n e s k else C0.
Proof.
  intros H. unfold entry. destruct regular; rewrite meden_lift; auto. destruct (s n), (k n); auto.
Qed.
Lemma entry_zero n s k : entry regular n mzero s k = C0.
Proof. unfold entry; destruct regular; apply meden_zero. Qed.
Lemma entry_scale n x e s k : entry regular n (mscale x e) s k = (x * entry regular n e s k)%C.
Proof. unfold entry; destruct regular; apply meden_scale. Qed.

Lemma cleared_up n g e : mcanon n g -> mwf n e -> cleared n g e ->
  cleared (S n) (if nth n fl false then mmk n (zero_rest g) else g) e /\
  mcanon (S n) (if nth n fl false then mmk n (zero_rest g) else g).
Proof.
  intros Cg W H. destruct (nth n fl false) eqn:F; split.
  - intros s k. rewrite entry_node by (intros [] []; [apply mcan0_zero ..|right; auto]).
    rewrite entry_lift; auto. cbn [hit]. rewrite F. cbn [andb].
    unfold zero_rest, m4. destruct (two regular) as [R|R]; pick R; destruct (s n) eqn:Sn, (k n) eqn:Kn; cbn [eqb];
      rewrite ?orb_true_r, ?orb_false_r; rewrite ?entry_zero; auto; destruct hit; auto.
  - apply mmk_canon. intros [] []; [left; auto ..|right; auto].
  - intros s k. rewrite !entry_lift by (auto; apply mcanon_wf; auto). cbn [hit]. rewrite F. cbn [andb].
    rewrite orb_false_r, H. destruct eqb; auto. destruct hit; auto.
  - apply (mcanon_mono n); auto.
Qed.
Lemma raise_anc : forall k from g e, (from + k <= length fl)%nat -> mcanon from g -> mwf from e ->
  cleared from g e ->
  exists g', raise zero_rest fl from k g = DOk g' /\ mcanon (from + k) g' /\ cleared (from + k) g' e.
Proof.
  induction k as [|k IH]; intros from g e L Cg W H; cbn [raise].
  - rewrite Nat.add_0_r. eauto.
  - rewrite flagged_ok by lia. cbn [dbind]. rewrite <- plus_n_Sm.
    destruct (cleared_up from g e Cg W H) as [A B].
    destruct (IH (S from) _ e ltac:(lia) B (mlev_mono _ _ _ (Nat.le_succ_diag_r _) W) A) as (g' & E & D).
    exists g'. split; auto.
Qed.
Lemma raise_to_anc from upto g e : (from <= upto <= length fl)%nat -> mcanon from g -> mwf from e ->
  cleared from g e ->
  exists g', raise_to zero_rest fl from upto g = DOk g' /\ mcanon upto g' /\ cleared upto g' e.
Proof.
  intros L Cg W H. unfold raise_to.
  destruct (raise_anc (upto - from) from g e ltac:(lia) Cg W H) as (g' & E & D).
  replace (from + (upto - from))%nat with upto in D by lia. eauto.
Qed.
Lemma skip_id_fst e : fst (skip_id e) = fst e.
Proof. unfold skip_id. destruct (snd e); auto. destruct mtree_eq_dec; auto. destruct (_ && _); auto. Qed.
(* on top of the identity the weight stays one *)
Lemma mmk_first n g : fst g <> C0 -> fst (mmk n (zero_rest g)) = fst g.
Proof.
  intros H. unfold mmk, mmakeC. rewrite skip_id_fst. unfold mnormalize, margmax, idx4, zero_rest, m4. cbn [fold_left].
  unfold argmax_step; cbn [fst snd mzero]. rewrite !azero_0.
  rewrite (proj2 (ezero_false _) H), ezero_0. auto.
Qed.
Lemma raise_first : forall k from g g', fst g <> C0 -> raise zero_rest fl from k g = DOk g' -> fst g' = fst g.
Proof.
  induction k as [|k IH]; intros from g g' N; cbn [raise]; [congruence|].
  unfold flagged. destruct nth_error as [[]|]; cbn [dbind]; try discriminate; intros H.
  - rewrite (IH _ _ _ (eq_ind_r (fun x => x <> C0) N (mmk_first from g N)) H). apply mmk_first; auto.
  - eapply IH; eauto.
Qed.

Lemma cleared_below n e : (n <= lowerbound fl)%nat -> cleared n e e.
Proof. intros H s k. rewrite hit_lb; auto. Qed.
Lemma cleared_scale n x g e : cleared n g e -> cleared n (mscale x g) (mscale x e).
Proof. intros H s k. rewrite !entry_scale, H. destruct hit; auto. ring. Qed.

Lemma manc_spec : forall t n w, mcan n w t -> (n <= length fl)%nat -> t <> MT ->
  exists f, manc fl (lowerbound fl) regular t = DOk f /\ mcanon (S (mvar t)) f /\ cleared (S (mvar t)) f (C1, t).
Proof.
  induction t as [|v ws s IH]; intros n w H L NT; [congruence|clear NT].
  cbn [manc mvar]. destruct H as (N & Q & U & NI & K).
  assert (TC : mcanon (S v) (C1, MNode v ws s)).
  { unfold mcanon; cbn. split; [apply C1_neq_C0|]. repeat split; auto. }
  destruct (Nat.ltb_spec v (lowerbound fl)) as [B|B].
  { eexists; split; [reflexivity|split]; auto. apply cleared_below; lia. }
  match goal with |- context [seq4 ?f] => set (child := f) end.
  assert (CH : forall i j, exists g, child i j = DOk g /\ mcan0 v g /\ cleared v g (ws i j, s i j)).
  { intros i j. unfold child. specialize (K i j). destruct (s i j) as [|q ws' s'] eqn:E.
    - destruct (ezero (ws i j)) eqn:Z.
      + apply ezero_true in Z. rewrite Z. eexists; split; [reflexivity|split; [left; auto|]].
        intros a b. unfold entry, meden; cbn [fst snd]. destruct regular; rewrite !Cmul_0_l; destruct hit; auto.
      + apply ezero_false in Z.
        destruct (raise_to_anc (lowerbound fl) v mone mone) as (g & Eg & Cg & Dg);
          [lia|apply mcanon_T|exact Logic.I|apply cleared_below; auto|].
        rewrite Eg. cbn [dbind].
        assert (W1 : fst g = C1) by (apply (raise_first _ _ mone g C1_neq_C0 Eg)).
        assert (EQ : (ws i j, snd g) = mscale (ws i j) g).
        { unfold mscale. rewrite W1. f_equal. ring. }
        rewrite EQ. eexists; split; [reflexivity|split; [right; apply mcanon_scale; auto|]].
        replace (ws i j, MT) with (mscale (ws i j) mone) by (unfold mscale; cbn; f_equal; ring).
        apply cleared_scale; auto.
    - destruct (IH i j v (ws i j)) as (f & Ef & Cf & Df); [rewrite E; auto|lia|rewrite E; congruence|].
      rewrite E in *. rewrite Ef. cbn [dbind mvar] in *.
      destruct K as (N' & Q' & U' & NI' & K').
      assert (TC' : mcanon (S q) (C1, MNode q ws' s')).
      { unfold mcanon; cbn. split; [apply C1_neq_C0|]. repeat split; auto. }
      destruct (raise_to_anc (S q) v f (C1, MNode q ws' s')) as (g & Eg & Cg & Dg);
        [lia|auto|apply mcanon_wf; auto|auto|].
      rewrite Eg. cbn [dbind]. eexists; split; [reflexivity|split; [right; apply mcanon_scale; auto|]].
      replace (ws i j, MNode q ws' s') with (mscale (ws i j) (C1, MNode q ws' s'))
        by (unfold mscale; cbn; f_equal; ring).
      apply cleared_scale; auto. }
  assert (CT : forall i j, mcan0 v (ws i j, s i j)).
  { intros i j. right. apply K. }
  assert (EN : forall a b, entry regular (S v) (C1, MNode v ws s) a b =
            entry regular v (if regular then (ws (a v) (b v), s (a v) (b v)) else (ws (b v) (a v), s (b v) (a v))) a b).
  { intros a b. unfold entry, meden; destruct regular; cbn [fst snd]; rewrite mden_node; ring. }
  rewrite flagged_ok by lia. cbn [dbind].
  destruct (nth v fl false) eqn:F.
  - destruct (CH false false) as (e0 & E0 & C0' & D0). destruct (CH true false) as (e2 & E2 & C2' & D2).
    destruct (CH false true) as (e1 & E1 & C1' & D1).
    cbv beta delta [child] in E0, E1, E2. rewrite E0, E1, E2. cbn [dbind]. clear child CH E0 E1 E2.
    destruct (two regular) as [R|R]; pick R.
    + assert (MC : forall i j, mcan0 v (m4 e0 mzero e2 mzero i j)) by (intros [] []; auto using mcan0_zero).
      eexists; split; [reflexivity|split; [apply mmk_canon; auto|]].
      intros a b. rewrite entry_node, EN by auto. cbn [hit]. rewrite F. cbn [andb]. pick R.
      unfold m4. destruct (b v), (a v); rewrite ?orb_true_r, ?orb_false_r, ?entry_zero; pick R; first [reflexivity|apply D0|apply D1|apply D2].
    + assert (MC : forall i j, mcan0 v (m4 e0 e1 mzero mzero i j)) by (intros [] []; auto using mcan0_zero).
      eexists; split; [reflexivity|split; [apply mmk_canon; auto|]].
      intros a b. rewrite entry_node, EN by auto. cbn [hit]. rewrite F. cbn [andb]. pick R.
      unfold m4. destruct (b v), (a v); rewrite ?orb_true_r, ?orb_false_r, ?entry_zero; pick R; first [reflexivity|apply D0|apply D1|apply D2].
  - destruct (seq4_ok child (fun i j g => mcan0 v g /\ cleared v g (ws i j, s i j)) CH) as (e & Ee & Pe).
    rewrite Ee. cbn [dbind]. eexists; split; [reflexivity|split; [apply mmk_canon; intros; apply Pe|]].
    intros a b. rewrite entry_node, EN by (intros; apply Pe). cbn [hit]. rewrite F. cbn [andb]. rewrite orb_false_r.
    destruct (two regular) as [R|R]; pick R; apply Pe.
Qed.

Lemma reduceAncillae_spec n e : mcanon n e -> (n <= length fl)%nat ->
  exists e', reduceAncillae e fl regular = DOk e' /\ mcanon (length fl) e' /\ cleared (length fl) e' e.
Proof.
  intros H L. unfold reduceAncillae. destruct (noneflag fl) eqn:NF.
  { eexists; split; [reflexivity|split; [eapply mcanon_mono; eauto|]].
    intros s k. rewrite hit_none; auto. }
  destruct e as [w t]. cbn [fst snd]. destruct t as [|v ws s] eqn:Et.
  - destruct (ezero w) eqn:Z.
    + apply ezero_true in Z. subst w. eexists; split; [reflexivity|split; [apply mcanon_T|]].
      intros a b. change (C0, MT) with mzero. rewrite entry_zero. destruct hit; auto.
    + destruct (raise_to_anc 0 (length fl) (w, MT) (w, MT)) as (g & Eg & Cg & Dg);
        [lia|apply mcanon_T|exact Logic.I|apply cleared_below; lia|].
      eexists; split; eauto.
  - rewrite <- Et in *. assert (HN : w <> C0 /\ (v < n)%nat) by (subst t; destruct H as (? & ? & _); auto).
    destruct HN as [N Q].
    assert (TC : mcanon (S v) (C1, t)) by
      (subst t; destruct H as (? & ? & ? & ? & ?); unfold mcanon; cbn; split; [apply C1_neq_C0|]; repeat split; auto).
    assert (F : exists f, (if Nat.leb (lowerbound fl) v then manc fl (lowerbound fl) regular t else DOk (C1, t)) = DOk f /\
                 mcanon (S v) f /\ cleared (S v) f (C1, t)).
    { destruct (Nat.leb_spec (lowerbound fl) v) as [B|B].
      - destruct (manc_spec t n w H L ltac:(subst; congruence)) as (f & Ef & Cf & Df). subst t; eauto.
      - eexists; split; [reflexivity|split; auto; apply cleared_below; lia]. }
    destruct F as (f & Ef & Cf & Df). rewrite Ef. cbn [dbind].
    destruct (raise_to_anc (S v) (length fl) f (C1, t)) as (g & Eg & Cg & Dg);
      [lia|auto|apply mcanon_wf; auto|auto|].
    rewrite Eg. cbn [dbind]. eexists; split; [reflexivity|split; [apply mcanon_scale; auto|]].
    replace (w, t) with (mscale w (C1, t)) by (unfold mscale; cbn; f_equal; ring).
    apply cleared_scale; auto.
Qed.
End anc.
