From Coq Require Import Reals Lra List Bool Arith Lia.
From Verif Require Import Cplx Qsem DDModel DDSpec DDProofs DDCanonProofs DDOpsProofs DDGateProofs DDReduceProofs TravDiagProofs DensModel DensSpec.
Import ListNotations.
Local Open Scope R_scope.

(** Traces of full diagrams *)
Lemma dtrace_full N : forall t n w x, full n w t -> mcan n w t -> (n <= N)%nat ->
  dtrace N w t = DOk (bsum n (fun b => meden n (w, t) b b) x).
Proof.
  induction t as [|v ws s IH]; intros n w x F M L; cbn [dtrace]; unfold ezero; destruct (Ceq_dec w C0) as [->|W].
  - f_equal. symmetry. transitivity (bsum n (fun _ => C0) x); [|apply bsum_zero]. apply bsum_ext. intros b. unfold meden. cbn [fst]. ring.
  - destruct F as [->|F]; [|contradiction]. cbn. f_equal. unfold meden. cbn. ring.
  - destruct M; congruence.
  - destruct F as [-> F]. destruct M as (_ & _ & _ & _ & K). destruct (Nat.leb_spec N v); [lia|].
    rewrite (IH false false v (ws false false) x (F false) (K false false)) by lia. cbn [dbind].
    rewrite (IH true true v (ws true true) x (F true) (K true true)) by lia. cbn [dbind]. f_equal.
    rewrite bsum_S. match goal with |- ((?a + ?b) * w)%C = _ => replace ((a + b) * w)%C with (w * a + w * b)%C by ring end. rewrite <- !bsum_scal. f_equal; apply bsum_ext; intros b; rewrite meden_child; unfold meden; cbn [fst snd]; ring.
Qed.

(** Pure states have full diagrams *)
Lemma pure_scale w A : w <> C0 -> pure (fun r c => (w * A r c)%C) -> pure A.
Proof.
  intros W P r c r' c'. specialize (P r c r' c'). assert (E : (w * w * (A r c * A r' c') = w * w * (A r c' * A r' c))%C).
  { transitivity (w * A r c * (w * A r' c'))%C; [ring|]. rewrite P. ring. }
  apply (Cmul_cancel_l (w * w)) in E; [exact E|now apply Cmul_neq0].
Qed.
Lemma pure_noskip n w t : w <> C0 -> mcan n w t -> pure (meden (S n) (w, t)) -> ~ (forall q ws s, t = MNode q ws s -> q <> n).
Proof.
  intros W M P Q. destruct (mden_nonzero n t w M) as (r & c & D).
  specialize (P (setb r n false) (setb c n false) (setb r n true) (setb c n true)). rewrite !meden_skip in P by exact Q.
  assert (Z : meden (S n) (w, t) (setb r n false) (setb c n true) = C0).
  { unfold meden. cbn [fst snd]. destruct t as [|q ws s]; cbn [mden]; [|destruct (Nat.eqb_spec q n) as [->|]; [now destruct (Q n ws s eq_refl)|]];
      rewrite !setb_same; cbn [eqb]; ring. }
  rewrite Z in P. unfold meden in P. cbn [fst snd] in P. assert (E : (w * mden n t r c * (w * mden n t r c))%C <> C0) by (repeat apply Cmul_neq0; auto).
  apply E. rewrite P. ring.
Qed.
Lemma pure_full : forall n t w, mcan n w t -> pure (meden n (w, t)) -> full n w t.
Proof.
  induction n as [|n IH]; intros t w M P.
  - destruct t as [|v ws s]; [now left|]. destruct M as (_ & L & _). lia.
  - destruct (Ceq_dec w C0) as [->|W]; [destruct t; [now right|destruct M; congruence]|].
    destruct t as [|v ws s].
    + exfalso. apply (pure_noskip n w MT W I P). discriminate.
    + pose proof M as (_ & L & U & NI & K). destruct (Nat.eq_dec v n) as [->|N].
      * split; [reflexivity|]. intros i. apply IH; [apply K|]. intros r c r' c'.
        apply (pure_scale w (meden n (ws i i, s i i)) W). intros r1 c1 r2 c2.
        pose proof (P (setb r1 n i) (setb c1 n i) (setb r2 n i) (setb c2 n i)) as E. rewrite !meden_child in E. unfold meden in *. cbn [fst snd] in *.
        match type of E with ?l = ?r => transitivity l; [ring|]; transitivity r; [exact E|ring] end.
      * exfalso. apply (pure_noskip n w (MNode v ws s) W); [repeat split; auto; lia|exact P|]. intros q ws' s' E. injection E as <- _ _. exact N.
Qed.

(** Projections *)
Lemma agree_split n t r c : (t < n)%nat -> agree_off n [] r c = agree_off n [t] r c && eqb (r t) (c t).
Proof.
  intros L. apply eq_true_iff_eq. rewrite andb_true_iff. unfold agree_off. rewrite !forallb_forall. split.
  - intros H. split; [|apply (H t); apply in_seq; lia]. intros q' I. specialize (H q' I). cbn [existsb orb] in H |- *. rewrite H. apply orb_true_r.
  - intros [H E] q' I. specialize (H q' I). cbn [existsb orb] in *. rewrite orb_false_r in H. destruct (Nat.eqb_spec q' t) as [Q|]; [rewrite Q; exact E|exact H].
Qed.
Lemma meas_gate n nq index i : (n <= nq)%nat -> (index < n)%nat -> exists g, makeGateDD nq (measMat i) [] index = DOk g /\ mcanon n g /\
  forall r c, meden n g r c = if eqb (r index) i then mden n MT r c else C0.
Proof.
  intros Hn L. destruct (makeGateDD_spec n nq (measMat i) [] index Hn) as (g & G & Cg & D).
  { split; [constructor|]. split; [constructor|]. split; [constructor; auto|]. intros t _ []. }
  exists g. split; [exact G|]. split; [exact Cg|]. intros r c. rewrite D. unfold cgate. cbn [sat forallb]. unfold XM. rewrite mden_MT, (agree_split n index r c L).
  unfold measMat, delta. destruct (agree_off n [index] r c), (r index), (c index), i; reflexivity.
Qed.
Lemma mden_MT_real n r c : Cconj (mden n MT r c) = mden n MT r c.
Proof. rewrite mden_MT. unfold delta. destruct (agree_off n [] r c); apply Ceq; cbn; ring. Qed.
Lemma project_ok n nq e index i : mcanon n e -> (n <= nq)%nat -> (index < n)%nat ->
  exists e', projectDensity nq e index i = DOk e' /\ mcanon n e' /\ forall r c, meden n e' r c = projected index i (meden n e) r c.
Proof.
  intros Ce Hn L. unfold projectDensity. destruct (meas_gate n nq index i Hn L) as (g & -> & Cg & D). cbn [dbind].
  destruct (conjugateTranspose_spec n g Cg) as [Cgt Dt].
  destruct (multiplyMM_spec n e (conjugateTranspose g) Ce Cgt) as (t1 & -> & C1' & D1). cbn [dbind].
  destruct (multiplyMM_spec n g t1 Cg C1') as (t2 & E2 & C2 & D2). exists t2. split; [exact E2|]. split; [exact C2|].
  assert (T1 : forall r c, meden n t1 r c = if eqb (c index) i then meden n e r c else C0).
  { intros r c. rewrite (D1 r c r). destruct (eqb (c index) i) eqn:E.
    - transitivity (bsum n (fun k => (mden n MT c k * meden n e r k)%C) r).
      + apply bsum_ext. intros k. rewrite Dt, D, E, mden_MT_real. ring.
      + apply bsum_id. apply meden_local_r.
    - rewrite <- (bsum_zero n r). apply bsum_ext. intros k. rewrite Dt, D, E, Cconj_0. ring. }
  intros r c. rewrite (D2 r c r). unfold projected. destruct (eqb (r index) i) eqn:E; cbn [andb].
  - rewrite <- T1. transitivity (bsum n (fun k => (mden n MT r k * meden n t1 k c)%C) r).
    + apply bsum_ext. intros k. now rewrite D, E.
    + apply (bsum_id n (fun k => meden n t1 k c)). apply meden_local_l.
  - rewrite <- (bsum_zero n r). apply bsum_ext. intros k. rewrite D, E. ring.
Qed.
Lemma projected_pure q i A : pure A -> pure (projected q i A).
Proof.
  intros P r c r' c'. unfold projected. destruct (eqb (r q) i), (eqb (c q) i), (eqb (r' q) i), (eqb (c' q) i); cbn [andb]; try ring. apply P.
Qed.
(** Measurement, if the projected matrices have full diagrams *)
Lemma measure_ok n nq e index d : mcanon (S n) e -> mvar (snd e) = n -> snd e <> MT -> (S n <= nq)%nat -> (index < S n)%nat ->
  (forall i e', mcanon (S n) e' -> (forall r c, meden (S n) e' r c = projected index i (meden (S n) e) r c) -> full (S n) (fst e') (snd e')) ->
  let p i := born (S n) index i (meden (S n) e) in
  exists bit r, measureDensity nq e index d = DOk (bit, r) /\ (bit = true <-> fst (p false) < d) /\
    (p bit = C0 -> r = None) /\
    (p bit <> C0 -> exists e', r = Some e' /\ mcanon (S n) e' /\ forall x y, meden (S n) e' x y = (projected index bit (meden (S n) e) x y / p bit)%C).
Proof.
  intros Ce V T Hn L F p. unfold measureDensity. destruct (snd e) as [|v ws s] eqn:Es; [congruence|]. cbn [mvar] in V. subst v.
  assert (K : forall i, exists e', projectDensity nq e index i = DOk e' /\ mcanon (S n) e' /\
    (forall r c, meden (S n) e' r c = projected index i (meden (S n) e) r c) /\ dtrace (S n) (fst e') (snd e') = DOk (p i)).
  { intros i. destruct (project_ok (S n) nq e index i Ce Hn L) as (e' & E & C' & D). exists e'. split; [exact E|]. split; [exact C'|]. split; [exact D|].
    rewrite (dtrace_full (S n) (snd e') (S n) (fst e') (fun _ => false) (F i e' C' D) C' (le_n _)). f_equal. unfold p, born. apply bsum_ext. intros b.
    replace (fst e', snd e') with e' by now destruct e'. apply D. }
  assert (R : forall i e', mcanon (S n) e' -> (forall r c, meden (S n) e' r c = projected index i (meden (S n) e) r c) ->
    (p i = C0 -> (if ezero (p i) then None else Some ((fst e' / p i)%C, snd e')) = None) /\
    (p i <> C0 -> exists e2, (if ezero (p i) then None else Some ((fst e' / p i)%C, snd e')) = Some e2 /\ mcanon (S n) e2 /\
      forall x y, meden (S n) e2 x y = (projected index i (meden (S n) e) x y / p i)%C)).
  { intros i e' C' D. unfold ezero. destruct (Ceq_dec (p i) C0) as [Z|Z]; (split; [intros Q|intros Q]); try contradiction; [reflexivity|].
    eexists. split; [reflexivity|]. split.
    - unfold mcanon in *. cbn [fst snd]. destruct (snd e') as [|v' ws' s']; [exact I|]. destruct C' as (W & rest). split; [|exact rest].
      unfold Cdiv. apply Cmul_neq0; [exact W|now apply Cinv_neq0].
    - intros x y. rewrite <- D. unfold meden. cbn [fst snd]. unfold Cdiv. ring. }
  destruct (K false) as (z & -> & Cz & Dz & Tz). cbn [dbind]. rewrite Tz. cbn [dbind]. destruct (Rlt_dec (fst (p false)) d) as [Lt|Ge].
  - destruct (K true) as (o & -> & Co & Do & To). cbn [dbind]. rewrite To. cbn [dbind]. do 2 eexists. split; [reflexivity|]. split; [tauto|]. now apply R.
  - cbn [dbind]. do 2 eexists. split; [reflexivity|]. split; [split; [discriminate|contradiction]|]. now apply R.
Qed.
