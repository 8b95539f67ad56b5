(** Diagonals of positive matrices: proofs. *)
From Coq Require Import Reals Lra Psatz List Bool Arith Lia.
From Verif Require Import Cplx Qsem DDModel DDSpec DDProofs DDCanonProofs DDCloseProofs TravModel TravSpec TravProofs.
Import ListNotations.
Local Open Scope R_scope.

(** Every canonical matrix has an entry one, and it is on the diagonal if the 2x2 minors are non-negative. *)
Lemma entry_one : forall n t w, mcan n w t -> exists r c, mden n t r c = C1.
Proof.
  induction n as [|n IH]; intros t w H; [exists (fun _ => false), (fun _ => false); reflexivity|].
  assert (SKIP : forall w', mcan n w' t -> (forall q ws s, t = MNode q ws s -> q <> n) -> exists r c, mden (S n) t r c = C1).
  { intros w' M Q. destruct (IH t w' M) as (r & c & E). exists (setb r n false), (setb c n false). destruct t as [|q ws s]; cbn [mden].
    - rewrite !setb_same. cbn [eqb]. now rewrite mden_setb.
    - destruct (Nat.eqb_spec q n) as [->|]; [now destruct (Q n ws s eq_refl)|]. rewrite !setb_same. cbn [eqb]. now rewrite mden_setb. }
  destruct t as [|q ws s]; [apply (SKIP C1); [exact I|discriminate]|]. destruct H as (W & Q & U & NI & K). destruct (Nat.eq_dec q n) as [->|N].
  - destruct U as ([a b] & E & _). cbn [fst snd] in E. destruct (IH (s a b) (ws a b) (K a b)) as (r & c & D). exists (setb r n a), (setb c n b). rewrite mden_node, !setb_same, E, mden_setb, D by lia. ring.
  - apply (SKIP w); [repeat split; auto; lia|]. intros q' ws' s' E. injection E as <- _ _. exact N.
Qed.
Lemma meden_child n w ws s a b r c : meden (S n) (w, MNode n ws s) (setb r n a) (setb c n b) = meden n ((w * ws a b)%C, s a b) r c.
Proof. unfold meden. cbn [fst snd]. rewrite mden_node, !setb_same, mden_setb by lia. ring. Qed.
Lemma meden_skip n w t r c a : (forall q ws s, t = MNode q ws s -> q <> n) -> meden (S n) (w, t) (setb r n a) (setb c n a) = meden n (w, t) r c.
Proof.
  intros Q. unfold meden. cbn [fst snd]. f_equal. destruct t as [|q ws s]; cbn [mden]; [|destruct (Nat.eqb_spec q n) as [->|]; [now destruct (Q n ws s eq_refl)|]]; rewrite !setb_same, eqb_reflx; now rewrite mden_setb.
Qed.
Lemma minors_child n w ws s b : minors (S n) (w, MNode n ws s) -> minors n ((w * ws b b)%C, s b b).
Proof. intros [D M]. split; [intros r; rewrite <- !(meden_child n w ws s b b r r); apply D|]. intros r c. rewrite <- (meden_child n w ws s b b r c), <- (meden_child n w ws s b b r r), <- (meden_child n w ws s b b c c). apply M. Qed.
Lemma minors_skip n w t : (forall q ws s, t = MNode q ws s -> q <> n) -> minors (S n) (w, t) -> minors n (w, t).
Proof. intros Q [D M]. split; [intros r; rewrite <- !(meden_skip n w t r r false Q); apply D|]. intros r c. rewrite <- (meden_skip n w t r c false Q), <- (meden_skip n w t r r false Q), <- (meden_skip n w t c c false Q). apply M. Qed.
(** Strictly smaller diagonal entries rule out a large entry. *)
Lemma minor_strict (w x y z : C) : w <> C0 -> Cnorm2 x < 1 -> Cnorm2 y <= 1 -> Cnorm2 z = 1 -> snd (w * x)%C = 0 -> snd (w * y)%C = 0 -> Cnorm2 (w * z) <= fst (w * x)%C * fst (w * y)%C -> False.
Proof.
  intros W X Y Z Sx Sy M. rewrite Cnorm2_mul, Z in M. pose proof (Cnorm2_mul w x) as Nx. pose proof (Cnorm2_mul w y) as Ny. unfold Cnorm2 at 1 in Nx. unfold Cnorm2 at 1 in Ny. rewrite Sx in Nx. rewrite Sy in Ny.
  pose proof (Cnorm2_pos w). pose proof (Cnorm2_neq w W). pose proof (Cnorm2_pos x). pose proof (Cnorm2_pos y).
  set (p := fst (w * x)%C) in *. set (q := fst (w * y)%C) in *. set (a := Cnorm2 w) in *. set (u := Cnorm2 x) in *. set (v := Cnorm2 y) in *.
  assert (P : p * p < a) by nra. assert (Q : q * q <= a) by nra. nra.
Qed.
Lemma diag_one : forall n t w, mcan n w t -> w <> C0 -> minors n (w, t) -> exists r, mden n t r r = C1.
Proof.
  induction n as [|n IH]; intros t w H W M; [exists (fun _ => false); reflexivity|].
  assert (SKIP : (forall q ws s, t = MNode q ws s -> q <> n) -> mcan n w t -> exists r, mden (S n) t r r = C1).
  { intros Q C. destruct (IH t w C W (minors_skip _ _ _ Q M)) as (r & E). exists (setb r n false). destruct t as [|q ws s]; cbn [mden].
    - rewrite !setb_same. cbn [eqb]. now rewrite mden_setb.
    - destruct (Nat.eqb_spec q n) as [->|]; [now destruct (Q n ws s eq_refl)|]. rewrite !setb_same. cbn [eqb]. now rewrite mden_setb. }
  destruct t as [|q ws s]; [apply SKIP; [discriminate|exact I]|]. pose proof H as H'. destruct H as (_ & Q & U & NI & K). destruct (Nat.eq_dec q n) as [->|N]; [|apply SKIP; [intros q' ws' s' E; injection E as <- _ _; exact N|repeat split; auto; lia]].
  destruct U as ([a b] & E & B). cbn [fst snd] in E. destruct (Bool.bool_dec a b) as [<-|Nab].
  - pose proof (minors_child n w ws s a M) as Mc. rewrite E in Mc. replace (w * C1)%C with w in Mc by ring.
    assert (Kc : mcan n w (s a a)) by (specialize (K a a); rewrite E in K; destruct (s a a); [exact I|]; destruct K as (_ & K); split; auto).
    destruct (IH (s a a) w Kc W Mc) as (r & D). exists (setb r n a). rewrite mden_node, !setb_same, E, mden_setb, D by lia. ring.
  - exfalso. destruct (entry_one n (s a b) (ws a b) (K a b)) as (r & c & D).
    pose proof (fun r => mden_le1 (S n) (MNode n ws s) (S n) w r r H') as Le.
    assert (Lt : forall r, r n = false -> Cnorm2 (mden (S n) (MNode n ws s) r r) < 1).
    { intros r' Er. rewrite mden_node, Er, Cnorm2_mul. pose proof (mden_le1 n _ _ _ r' r' (K false false)) as L1. specialize (B (false, false)). cbn [fst snd] in B.
      assert (F : before (false, false) (a, b) = true) by (destruct a, b; cbn; congruence). rewrite F in B. pose proof (Cnorm2_pos (ws false false)). pose proof (Cnorm2_pos (mden n (s false false) r' r')). nra. }
    assert (Z : mden (S n) (MNode n ws s) (setb r n a) (setb c n b) = C1) by (rewrite mden_node, !setb_same, E, mden_setb, D by lia; ring).
    destruct M as [Dg Mn]. pose proof (Mn (setb r n a) (setb c n b)) as X. destruct (Dg (setb r n a)) as [Sr _]. destruct (Dg (setb c n b)) as [Sc _]. unfold meden in *. cbn [fst snd] in *.
    assert (N1 : Cnorm2 (mden (S n) (MNode n ws s) (setb r n a) (setb c n b)) = 1) by (rewrite Z; apply Cnorm2_1).
    destruct a.
    + destruct b; [congruence|]. rewrite Rmult_comm in X. refine (minor_strict w _ _ _ W _ (Le _) N1 Sc Sr X). apply Lt. apply setb_same.
    + refine (minor_strict w _ _ _ W _ (Le _) N1 Sr Sc X). apply Lt. apply setb_same.
Qed.
Lemma weight_pos n t w : mcan n w t -> w <> C0 -> minors n (w, t) -> snd w = 0 /\ 0 < fst w.
Proof.
  intros H W M. destruct (diag_one n t w H W M) as (r & E). destruct M as [D _]. specialize (D r). unfold meden in D. cbn [fst snd] in D. rewrite E in D. replace (w * C1)%C with w in D by ring. destruct D as [D0 D1]. split; [exact D0|].
  destruct (Rle_lt_or_eq_dec _ _ D1) as [L|Z]; [exact L|]. destruct W. apply Ceq; [now symmetry|exact D0].
Qed.
Lemma mcan_scale n w w' t : mcan n w t -> w' <> C0 -> mcan n w' t. Proof. destruct t; cbn [mcan]; intuition. Qed.
Lemma real_mul p w : 0 < p -> snd (RtoC p * w)%C = 0 -> snd w = 0. Proof. intros P. cbn. intros H. assert (p * snd w = 0) by lra. nra. Qed.
Lemma RtoC_neq0 p : 0 < p -> RtoC p <> C0. Proof. intros P E. injection E as E. lra. Qed.
(** The calls of the traversal of the diagonal. *)
Lemma dtrav_spec thr : forall n t w p h k v, mcan n w t -> w <> C0 -> 0 < p -> minors n ((RtoC p * w)%C, t) ->
  In (k, v) (traverseDiagonal thr n t w p (2 ^ n * h)) <->
  (k / 2 ^ n = h)%nat /\ mden n t (Nat.testbit k) (Nat.testbit k) <> C0 /\ RtoC v = (RtoC p * (w * mden n t (Nat.testbit k) (Nat.testbit k)))%C /\ thr <= v.
Proof.
  induction n as [|n IH]; intros t w p h k v H W P M.
  all: destruct (weight_pos _ _ _ (mcan_scale _ _ (RtoC p * w) _ H (Cmul_neq0 _ _ (RtoC_neq0 p P) W)) (Cmul_neq0 _ _ (RtoC_neq0 p P) W) M) as [Sw Pw].
  all: assert (Sw' : snd w = 0) by (exact (real_mul p w P Sw)).
  all: assert (Ew : w = RtoC (fst w)) by (apply Ceq; [reflexivity|exact Sw']).
  all: assert (Vw : fst (RtoC p * w)%C = p * fst w) by (cbn; ring). all: rewrite Vw in Pw. all: cbn [traverseDiagonal].
  - cbn [mden]. rewrite !Nat.pow_0_r, !Nat.div_1_r, !Nat.mul_1_l.
    assert (Q : (RtoC p * (w * C1))%C = RtoC (p * fst w)) by (rewrite Ew; apply Ceq; cbn; ring). rewrite Q. destruct (Rlt_dec (p * fst w) thr) as [L|L].
    + split; [intros []|]. intros (_ & _ & E & T). injection E as ->. lra.
    + split; [intros [I|[]]; injection I as <- <-; repeat split; auto; [apply C1_neq_C0|lra]|]. intros (-> & _ & E & _). injection E as ->. now left.
  - destruct (Rlt_dec (p * fst w) thr) as [L|L].
    { split; [intros []|]. intros (_ & _ & E & T). exfalso. pose proof (mden_le1 (S n) t (S n) w (Nat.testbit k) (Nat.testbit k) H) as N1. generalize dependent (mden (S n) t (Nat.testbit k) (Nat.testbit k)). intros z E N1.
      assert (Ev : v = p * fst w * fst z) by (rewrite Ew in E; apply (f_equal fst) in E; cbn in E; lra). unfold Cnorm2 in N1. assert (fst z <= 1) by nra. nra. }
    rewrite idx_right, idx_left.
    set (skip := traverseDiagonal thr n t w p (2 ^ n * (2 * h)) ++ traverseDiagonal thr n t w p (2 ^ n * (2 * h + 1))).
    pose proof (idx_split k n h) as Sk. pose proof (Sk false) as Sk0. pose proof (Sk true) as Sk1. cbn [Nat.b2n] in Sk0, Sk1. rewrite Nat.add_0_r in Sk0.
    assert (SK : mcan n w t -> (forall q ws s, t = MNode q ws s -> q <> n) -> In (k, v) skip <-> (k / 2 ^ S n = h)%nat /\ mden n t (Nat.testbit k) (Nat.testbit k) <> C0 /\ RtoC v = (RtoC p * (w * mden n t (Nat.testbit k) (Nat.testbit k)))%C /\ thr <= v).
    { intros C Q. pose proof (minors_skip _ _ _ Q M) as M'. unfold skip. rewrite in_app_iff, (IH t w p _ k v C W P M'), (IH t w p _ k v C W P M'), Sk0, Sk1. clear. destruct (Nat.testbit k n); intuition congruence. }
    destruct t as [|q ws s].
    + cbn [mden]. rewrite eqb_reflx. apply SK; [exact I|discriminate].
    + destruct H as (_ & Q & U & NI & K). destruct (Nat.ltb_spec q n) as [Lt|Ge].
      * cbn [mden]. destruct (Nat.eqb_spec q n) as [->|Nq]; [lia|]. rewrite eqb_reflx. apply SK; [repeat split; auto|]. intros q' ws' s' E. injection E as <- _ _. exact Nq.
      * assert (q = n) by lia. subst q. rewrite mden_node. clear skip SK.
        assert (X : forall b, In (k, v) (if ezero (ws b b) then [] else traverseDiagonal thr n (s b b) (ws b b) (p * fst w) (2 ^ n * (2 * h + Nat.b2n b))) <->
          (k / 2 ^ S n = h)%nat /\ Nat.testbit k n = b /\ (ws b b * mden n (s b b) (Nat.testbit k) (Nat.testbit k))%C <> C0 /\ RtoC v = (RtoC p * (w * (ws b b * mden n (s b b) (Nat.testbit k) (Nat.testbit k))))%C /\ thr <= v).
        { intros b. destruct (ezero (ws b b)) eqn:Z.
          - apply ezero_true in Z. split; [intros []|]. intros (_ & _ & N & _). destruct N. rewrite Z. ring.
          - apply ezero_false in Z.
            assert (Em : (RtoC p * w * ws b b)%C = (RtoC (p * fst w) * ws b b)%C) by (f_equal; rewrite Ew; apply Ceq; cbn; ring).
            pose proof (minors_child n (RtoC p * w)%C ws s b M) as Mc. rewrite Em in Mc. rewrite (IH (s b b) (ws b b) (p * fst w) _ k v (K b b) Z Pw Mc), idx_split.
            assert (Ev : (RtoC (p * fst w) * (ws b b * mden n (s b b) (Nat.testbit k) (Nat.testbit k)) = RtoC p * (w * (ws b b * mden n (s b b) (Nat.testbit k) (Nat.testbit k))))%C).
            { transitivity (RtoC (p * fst w) * ws b b * mden n (s b b) (Nat.testbit k) (Nat.testbit k))%C; [ring|]. rewrite <- Em. ring. }
            rewrite Ev. split; [intros ((A & B) & N & R); repeat split; try apply R; auto; now apply Cmul_neq0|]. intros (A & B & N & R). repeat split; try apply R; auto. intros D. apply N. rewrite D. ring. }
        pose proof (X false) as X0. pose proof (X true) as X1. cbn [Nat.b2n] in X0, X1. rewrite Nat.add_0_r in X0. rewrite in_app_iff, X0, X1. clear. destruct (Nat.testbit k n); intuition congruence.
Qed.
Lemma diag_calls thr n e k v : mcanon n e -> fst e <> C0 -> minors n e ->
  In (k, v) (traverseDiagonal thr n (snd e) (fst e) 1 0) <-> (k < 2 ^ n)%nat /\ v = fst (mentry n e k k) /\ 0 < v /\ thr <= v.
Proof.
  intros H W M. assert (E1 : (RtoC 1 * fst e)%C = fst e) by (apply Ceq; cbn; ring).
  assert (M' : minors n ((RtoC 1 * fst e)%C, snd e)) by (rewrite E1; now destruct e).
  pose proof (dtrav_spec thr n (snd e) (fst e) 1 0 k v H W Rlt_0_1 M') as S. rewrite Nat.mul_0_r, idx_top in S. rewrite S.
  destruct (proj1 M (Nat.testbit k)) as [Im Re]. unfold mentry, meden in *. set (z := mden n (snd e) (Nat.testbit k) (Nat.testbit k)) in *.
  replace (RtoC 1 * (fst e * z))%C with (fst e * z)%C by (apply Ceq; cbn; ring). split.
  - intros (A & N & E & T). rewrite <- E. cbn [fst RtoC]. repeat split; auto. rewrite <- E in Re. cbn in Re. destruct (Rle_lt_or_eq_dec _ _ Re) as [L|Z]; [exact L|].
    exfalso. apply (Cmul_neq0 _ _ W N). rewrite <- E, <- Z. reflexivity.
  - intros (A & -> & Q & T). repeat split; auto; [|apply Ceq; [reflexivity|now symmetry]]. intros D. rewrite D in Q. cbn in Q. lra.
Qed.
Lemma diag_sparse thr n e k v : mcanon (S n) e -> fst e <> C0 -> minors (S n) e ->
  look Nat.eq_dec k (getSparseProbabilityVector (S n) thr e) = Some v <-> (k < 2 ^ S n)%nat /\ v = fst (mentry (S n) e k k) /\ 0 < v /\ thr <= v.
Proof.
  intros H W M. unfold getSparseProbabilityVector. rewrite look_collect; [now apply diag_calls|].
  intros a b Ia Ib. apply (diag_calls thr (S n) e k _ H W M) in Ia as (_ & -> & _). now apply (diag_calls thr (S n) e k _ H W M) in Ib as (_ & -> & _).
Qed.
(** Keys as strings. *)
Lemma key_nth i nb k : (k < nb)%nat -> nth k (rev (intToBinaryString i nb)) false = Nat.testbit i k.
Proof. intros H. unfold intToBinaryString. rewrite rev_involutive. rewrite (nth_indep _ false (Nat.testbit i 0%nat)) by (rewrite map_length, seq_length; exact H). rewrite map_nth, seq_nth by exact H. reflexivity. Qed.
Lemma key_inj nb i j : (i < 2 ^ nb)%nat -> (j < 2 ^ nb)%nat -> intToBinaryString i nb = intToBinaryString j nb -> i = j.
Proof.
  intros Hi Hj E. apply Nat.bits_inj. intros k. destruct (Nat.lt_ge_cases k nb) as [L|G].
  - rewrite <- (key_nth i nb k L), <- (key_nth j nb k L). now rewrite E.
  - assert (Z : forall x, (x < 2 ^ nb)%nat -> Nat.testbit x k = false).
    { intros x Hx. destruct (Nat.eq_dec x 0) as [->|N]; [apply Nat.bits_0|]. apply Nat.bits_above_log2. apply Nat.lt_le_trans with nb; [|exact G]. apply Nat.log2_lt_pow2; lia. }
    now rewrite !Z.
Qed.
Lemma diag_keys thr n w ws s : mcanon (S n) (w, MNode n ws s) -> minors (S n) (w, MNode n ws s) ->
  exists m, getSparseProbabilityVectorStrKeys (S n) thr (w, MNode n ws s) = DOk m /\
  forall key v, look (list_eq_dec Bool.bool_dec) key m = Some v <-> exists k, (k < 2 ^ S n)%nat /\ key = intToBinaryString k (S n) /\ v = fst (mentry (S n) (w, MNode n ws s) k k) /\ 0 < v /\ thr <= v.
Proof.
  intros H M. set (e := (w, MNode n ws s)) in *. assert (W : fst e <> C0) by apply H.
  unfold getSparseProbabilityVectorStrKeys. cbn [snd e]. eexists. split; [reflexivity|]. intros key v.
  assert (X : forall v, In (key, v) (map (fun ir => (intToBinaryString (fst ir) (S n), snd ir)) (traverseDiagonal thr (S n) (snd e) (fst e) 1 0)) <->
    exists k, (k < 2 ^ S n)%nat /\ key = intToBinaryString k (S n) /\ v = fst (mentry (S n) e k k) /\ 0 < v /\ thr <= v).
  { intros u. rewrite in_map_iff. split.
    - intros ([k u'] & E & I). cbn [fst snd] in E. injection E as <- <-. apply (diag_calls thr (S n) e k u' H W M) in I as (A & B). exists k. repeat split; try apply B; auto.
    - intros (k & A & -> & B). exists (k, u). split; [reflexivity|]. apply (diag_calls thr (S n) e k u H W M). split; auto. }
  change (MNode n ws s) with (snd e). change w with (fst e). rewrite look_collect; [apply X|]. intros a b Ia Ib. apply X in Ia as (k & A & E & -> & _). apply X in Ib as (l & B & E' & -> & _). rewrite E in E'. now rewrite (key_inj _ _ _ A B E').
Qed.
Lemma child_pos n w q ws s b : mcanon n (w, MNode q ws s) -> w <> C0 -> minors n (w, MNode q ws s) -> ws b b <> C0 -> snd (ws b b) = 0 /\ 0 < fst (ws b b).
Proof.
  unfold mcanon. cbn [fst snd]. induction n as [|n IH]; intros H W M Z; pose proof H as (_ & Q & U & NI & K); [lia|]. destruct (Nat.eq_dec q n) as [->|N].
  - destruct (weight_pos _ _ _ H W M) as [S0 P0]. pose proof (minors_child _ _ _ _ b M) as Mc.
    destruct (weight_pos n (s b b) (w * ws b b)%C (mcan_scale _ _ _ _ (K b b) (Cmul_neq0 _ _ W Z)) (Cmul_neq0 _ _ W Z) Mc) as [S1 P1]. cbn in S1, P1. rewrite S0 in S1, P1. split; nra.
  - apply IH; auto; [repeat split; auto; lia|]. apply minors_skip; auto. intros q' ws' s' E. injection E as <- _ _. exact N.
Qed.
