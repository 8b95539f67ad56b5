(** Traversals: proofs. *)
From Coq Require Import Reals Lra Psatz List Bool Arith Lia.
From Verif Require Import Cplx Qsem DDModel DDSpec DDProofs DDCanonProofs DDCloseProofs TravModel TravSpec.
Import ListNotations.
Local Open Scope R_scope.

(** ** Maps and arrays *)
Lemma set_at_ok {A} (l : list A) : forall i c, (i < length l)%nat -> exists l', set_at l i c = Some l' /\ length l' = length l /\ forall k d, nth k l' d = if Nat.eqb k i then c else nth k l d.
Proof.
  induction l as [|x l IH]; intros i c H; cbn [length] in H; [lia|]. destruct i as [|i]; cbn [set_at].
  - eexists. split; [reflexivity|]. split; auto. intros [|k] d; reflexivity.
  - destruct (IH i c) as (l' & -> & L & N); [lia|]. eexists. split; [reflexivity|]. cbn [length]. split; [lia|]. intros [|k] d; [reflexivity|]. cbn [nth]. rewrite N. reflexivity.
Qed.
Lemma set_all_ok {A} (calls : list (nat * A)) : forall l, (forall i c, In (i, c) calls -> (i < length l)%nat) ->
  exists l', set_all l calls = Some l' /\ length l' = length l /\ forall k d, (exists c, In (k, c) calls /\ nth k l' d = c) \/ ((forall c, ~ In (k, c) calls) /\ nth k l' d = nth k l d).
Proof.
  induction calls as [|[i c] r IH]; intros l B; cbn [set_all].
  - exists l. split; [reflexivity|]. split; [reflexivity|]. intros k d. right. split; [intros c []|reflexivity].
  - destruct (set_at_ok l i c) as (l1 & -> & L1 & N1); [apply (B i c); now left|].
    destruct (IH l1) as (l2 & -> & L2 & N2); [intros; rewrite L1; eapply B; right; eauto|]. eexists. split; [reflexivity|]. split; [congruence|].
    intros k d. destruct (N2 k d) as [(c' & I & E)|[N E]]; [left; exists c'; split; [now right|exact E]|]. rewrite E, N1. destruct (Nat.eqb_spec k i) as [->|Hk].
    + left. exists c. split; [now left|reflexivity].
    + right. split; [|reflexivity]. intros c' [H|H]; [injection H as -> ->; auto|exact (N _ H)].
Qed.
Lemma set_all2_ok d : forall calls m, length m = d -> (forall i, (i < d)%nat -> length (nth i m []) = d) -> (forall i j c, In (i, j, c) calls -> (i < d)%nat /\ (j < d)%nat) ->
  exists m', set_all2 m calls = Some m' /\ length m' = d /\ (forall i, (i < d)%nat -> length (nth i m' []) = d) /\
  forall i j, (i < d)%nat -> (exists c, In (i, j, c) calls /\ nth j (nth i m' []) C0 = c) \/ ((forall c, ~ In (i, j, c) calls) /\ nth j (nth i m' []) C0 = nth j (nth i m []) C0).
Proof.
  induction calls as [|[[i j] c] r IH]; intros m L R B; cbn [set_all2].
  - exists m. split; [reflexivity|]. split; [exact L|]. split; [exact R|]. intros i j _. right. split; [intros c []|reflexivity].
  - destruct (B i j c) as [Bi Bj]; [now left|]. rewrite (nth_error_nth' m []) by lia.
    destruct (set_at_ok (nth i m []) j c) as (row & -> & Lr & Nr); [now rewrite R|]. destruct (set_at_ok m i row) as (m1 & -> & L1 & N1); [now rewrite L|].
    destruct (IH m1) as (m2 & -> & L2 & R2 & N2); [congruence| |intros; eapply B; right; eauto|].
    { intros k Hk. rewrite N1. destruct (Nat.eqb_spec k i) as [->|]; [rewrite Lr|]; auto. }
    eexists. split; [reflexivity|]. split; [exact L2|]. split; [exact R2|]. intros k k' Hk. destruct (N2 k k' Hk) as [(c' & I & E)|[N E]]; [left; exists c'; split; [now right|exact E]|].
    rewrite E, N1. destruct (Nat.eqb_spec k i) as [->|Hi]; [rewrite Nr; destruct (Nat.eqb_spec k' j) as [->|Hj]|].
    + left. exists c. split; [now left|reflexivity].
    + right. split; [|reflexivity]. intros c' [H|H]; [injection H as -> ->; auto|exact (N _ H)].
    + right. split; [|reflexivity]. intros c' [H|H]; [injection H as -> -> ->; auto|exact (N _ H)].
Qed.
Section Maps.
Context {K A : Type} (eqK : forall a b : K, {a = b} + {a <> b}).
Lemma look_assign (k k' : K) (v : A) m : look eqK k' (assign eqK k v m) = if eqK k k' then Some v else look eqK k' m.
Proof.
  induction m as [|[k0 v0] m IH]; cbn [assign look]; [reflexivity|]. destruct (eqK k0 k) as [->|N]; cbn [look]; [destruct (eqK k k'); reflexivity|].
  rewrite IH. destruct (eqK k0 k') as [->|]; [|reflexivity]. destruct (eqK k k'); [congruence|reflexivity].
Qed.
Lemma look_fold (calls : list (K * A)) k : forall m, (exists c, In (k, c) calls /\ look eqK k (fold_left (fun m kv => assign eqK (fst kv) (snd kv) m) calls m) = Some c) \/
  ((forall c, ~ In (k, c) calls) /\ look eqK k (fold_left (fun m kv => assign eqK (fst kv) (snd kv) m) calls m) = look eqK k m).
Proof.
  induction calls as [|[i c] r IH]; intros m; cbn [fold_left fst snd]; [right; auto|].
  destruct (IH (assign eqK i c m)) as [(c' & I & E)|[N E]]; [left; exists c'; split; [now right|exact E]|]. rewrite E, look_assign. destruct (eqK i k) as [->|Hk].
  - left. exists c. split; [now left|reflexivity].
  - right. split; [|reflexivity]. intros c' [H|H]; [injection H as -> ->; auto|exact (N _ H)].
Qed.
Lemma look_collect (calls : list (K * A)) k c : (forall c c', In (k, c) calls -> In (k, c') calls -> c = c') -> look eqK k (collect eqK calls) = Some c <-> In (k, c) calls.
Proof.
  intros U. unfold collect. destruct (look_fold calls k []) as [(c' & I & E)|[N E]]; rewrite E; cbn [look].
  - split; [intros H; injection H as <-; exact I|]. intros I'. f_equal. eauto.
  - split; [discriminate|]. intros I. destruct (N _ I).
Qed.
End Maps.
Fixpoint total (k : nat) (calls : list (nat * C)) : C := match calls with [] => C0 | (i, c) :: r => if Nat.eqb i k then (c + total k r)%C else total k r end.
Lemma add_all_ok : forall calls l, (forall i c, In (i, c) calls -> (i < length l)%nat) ->
  exists l', add_all l calls = Some l' /\ length l' = length l /\ forall k, (k < length l)%nat -> nth k l' C0 = (nth k l C0 + total k calls)%C.
Proof.
  induction calls as [|[i c] r IH]; intros l B; cbn [add_all total].
  - eexists. split; [reflexivity|]. split; auto. intros k _. ring.
  - assert (Bi : (i < length l)%nat) by (eapply B; now left). rewrite (nth_error_nth' l C0 Bi). destruct (set_at_ok l i (nth i l C0 + c)%C Bi) as (l1 & -> & L1 & N1).
    destruct (IH l1) as (l2 & -> & L2 & N2); [intros; rewrite L1; eapply B; right; eauto|]. eexists. split; [reflexivity|]. split; [congruence|].
    intros k Hk. rewrite N2, N1 by lia. rewrite (Nat.eqb_sym i k). destruct (Nat.eqb_spec k i) as [->|]; [|reflexivity]. ring.
Qed.
Lemma total_in : forall calls k c, NoDup (map fst calls) -> In (k, c) calls -> total k calls = c.
Proof.
  assert (Z : forall calls k, ~ In k (map fst calls) -> total k calls = C0).
  { induction calls as [|[i c] r IH]; intros k N; cbn [total]; [reflexivity|]. cbn [map fst In] in N. destruct (Nat.eqb_spec i k) as [->|]; [destruct N; now left|]. apply IH. tauto. }
  induction calls as [|[i c'] r IH]; intros k c N I; [destruct I|]. cbn [map fst] in N. inversion N as [|? ? H1 H2]; subst. cbn [total]. destruct I as [E|I].
  - injection E as -> ->. rewrite Nat.eqb_refl, Z by exact H1. ring.
  - destruct (Nat.eqb_spec i k) as [->|]; [|now apply IH]. destruct H1. change k with (fst (k, c)). now apply in_map.
Qed.
Lemma total_out calls k : ~ (exists c, In (k, c) calls) -> total k calls = C0.
Proof.
  induction calls as [|[i c] r IH]; intros N; cbn [total]; [reflexivity|]. destruct (Nat.eqb_spec i k) as [->|]; [destruct N; exists c; now left|]. apply IH. intros [c' I]. apply N. exists c'. now right.
Qed.

(** ** Indices *)
Lemma idx_right d h : Nat.lor (2 ^ S d * h) (Nat.shiftl 1 d) = (2 ^ d * (2 * h + 1))%nat.
Proof.
  rewrite Nat.shiftl_1_l.
  assert (Z : Nat.land (2 ^ S d * h) (2 ^ d) = 0%nat).
  { apply Nat.bits_inj. intros i. rewrite Nat.land_spec, Nat.pow2_bits_eqb, Nat.bits_0. destruct (Nat.eqb_spec d i) as [<-|]; [|apply andb_false_r]. rewrite andb_true_r. rewrite Nat.mul_comm. apply Nat.mul_pow2_bits_low. lia. }
  rewrite <- Nat.lxor_lor, <- Nat.add_nocarry_lxor by exact Z. rewrite Nat.pow_succ_r'. lia.
Qed.
Lemma idx_left d h : (2 ^ S d * h = 2 ^ d * (2 * h))%nat. Proof. rewrite Nat.pow_succ_r'. lia. Qed.
Lemma idx_split k d h b : (k / 2 ^ d = 2 * h + Nat.b2n b <-> k / 2 ^ S d = h /\ Nat.testbit k d = b)%nat.
Proof.
  assert (P : (2 ^ d <> 0)%nat) by (apply Nat.pow_nonzero; lia).
  pose proof (Nat.testbit_spec' k d) as T. rewrite Nat.pow_succ_r', (Nat.mul_comm 2 (2 ^ d)), <- Nat.div_div by lia.
  pose proof (Nat.div_mod (k / 2 ^ d) 2 ltac:(lia)) as D. rewrite <- T in D. split.
  - intros H. generalize dependent (k / 2 ^ d)%nat. intros x T D ->.
    assert (E : ((2 * h + Nat.b2n b) / 2 = h)%nat) by (symmetry; apply Nat.div_unique with (Nat.b2n b); [destruct b; cbn [Nat.b2n]; lia|reflexivity]).
    rewrite E in *. split; [reflexivity|]. apply Nat.b2n_inj. lia.
  - intros [<- <-]. exact D.
Qed.
Lemma idx_top k n : (k / 2 ^ n = 0 <-> k < 2 ^ n)%nat.
Proof. apply Nat.div_small_iff. apply Nat.pow_nonzero. lia. Qed.

(** ** Vectors *)
Lemma small_false thr c : small thr c = false <-> thr <= Cmod c. Proof. unfold small. destruct (Rlt_dec (Cmod c) thr); split; intros; try discriminate; try reflexivity; lra. Qed.
Lemma small_true thr c : small thr c = true <-> Cmod c < thr. Proof. unfold small. destruct (Rlt_dec (Cmod c) thr); split; intros; try discriminate; try reflexivity; lra. Qed.
Lemma vden_le1 : forall t n w b, vcan n w t -> Cnorm2 (vden t b) <= 1.
Proof.
  induction t as [|q ws s IH]; intros n w b H; cbn [vden]; [rewrite Cnorm2_1; lra|]. destruct H as (_ & _ & [U _] & K). rewrite Cnorm2_mul.
  pose proof (IH (b q) _ _ b (K (b q))). pose proof (Cnorm2_pos (ws false)). pose proof (Cnorm2_pos (ws true)). pose proof (Cnorm2_pos (vden (s (b q)) b)). destruct (b q); nra.
Qed.
Lemma Cmod_le1 z : Cnorm2 z <= 1 -> Cmod z <= 1.
Proof. intros H. pose proof (Cmod_sq z). pose proof (Cmod_pos z). nra. Qed.
Lemma pruned a z thr : Cnorm2 z <= 1 -> Cmod a < thr -> ~ thr <= Cmod (a * z).
Proof. intros H L M. rewrite Cmod_mul in M. apply Cmod_le1 in H. pose proof (Cmod_pos a). pose proof (Cmod_pos z). nra. Qed.
Lemma trav_spec thr : forall t n w amp h k c, vcan n w t -> w <> C0 ->
  In (k, c) (traverseVector thr t w amp (2 ^ n * h)) <-> (k / 2 ^ n = h)%nat /\ vden t (Nat.testbit k) <> C0 /\ c = (amp * (w * vden t (Nat.testbit k)))%C /\ thr <= Cmod c.
Proof.
  induction t as [|q ws s IH]; intros n w amp h k c H W; cbn [traverseVector vden].
  - destruct H as [-> | ->]; [|congruence]. rewrite Nat.pow_0_r, Nat.div_1_r, Nat.mul_1_l. replace (amp * (w * C1))%C with (amp * w)%C by ring. destruct (small thr (amp * w)) eqn:E.
    + apply small_true in E. split; [intros []|]. intros (_ & _ & -> & L). lra.
    + apply small_false in E. split; [intros [I|[]]; injection I as <- <-; repeat split; auto; apply C1_neq_C0|]. intros (-> & _ & -> & _). now left.
  - pose proof H as H'. destruct H as (_ & -> & U & K). destruct (small thr (amp * w)) eqn:E.
    + apply small_true in E. split; [intros []|]. intros (_ & _ & -> & L). exfalso. revert L. replace (amp * (w * (ws (Nat.testbit k q) * vden (s (Nat.testbit k q)) (Nat.testbit k))))%C with (amp * w * (ws (Nat.testbit k q) * vden (s (Nat.testbit k q)) (Nat.testbit k)))%C by ring.
      apply pruned; [|exact E]. exact (vden_le1 _ _ _ (Nat.testbit k) H').
    + rewrite in_app_iff, idx_right, idx_left.
      assert (X : forall b, In (k, c) (if ezero (ws b) then [] else traverseVector thr (s b) (ws b) (amp * w) (2 ^ q * (2 * h + Nat.b2n b))) <->
        (k / 2 ^ S q = h)%nat /\ Nat.testbit k q = b /\ (ws b * vden (s b) (Nat.testbit k))%C <> C0 /\ c = (amp * (w * (ws b * vden (s b) (Nat.testbit k))))%C /\ thr <= Cmod c).
      { intros b. destruct (ezero (ws b)) eqn:Z.
        - apply ezero_true in Z. split; [intros []|]. intros (_ & _ & N & _). destruct N. rewrite Z. ring.
        - apply ezero_false in Z. rewrite (IH b q (ws b) (amp * w)%C _ k c (K b) Z), idx_split. replace (amp * w * (ws b * vden (s b) (Nat.testbit k)))%C with (amp * (w * (ws b * vden (s b) (Nat.testbit k))))%C by ring.
          split; [intros ((A & B) & N & Q); repeat split; try apply Q; auto; now apply Cmul_neq0|]. intros (A & B & N & Q). repeat split; try apply Q; auto. intros D. apply N. rewrite D. ring. }
      pose proof (X false) as X0. pose proof (X true) as X1. cbn [Nat.b2n] in X0, X1. rewrite Nat.add_0_r in X0. rewrite X0, X1. clear. destruct (Nat.testbit k q) eqn:B; [|split]; intuition congruence.
Qed.
Lemma NoDup_app2 {A} (l1 l2 : list A) : NoDup l1 -> NoDup l2 -> (forall x, In x l1 -> ~ In x l2) -> NoDup (l1 ++ l2).
Proof.
  induction l1 as [|x l1 IH]; intros N1 N2 D; cbn [app]; [exact N2|]. inversion N1; subst. constructor.
  - rewrite in_app_iff. intros [I|I]; [contradiction|]. exact (D x (or_introl eq_refl) I).
  - apply IH; auto. intros y I. apply D. now right.
Qed.
Lemma trav_nodup thr : forall t n w amp h, vcan n w t -> w <> C0 -> NoDup (map fst (traverseVector thr t w amp (2 ^ n * h))).
Proof.
  induction t as [|q ws s IH]; intros n w amp h H W; cbn [traverseVector].
  - destruct (small thr _); repeat constructor; auto.
  - destruct H as (_ & -> & _ & K). destruct (small thr _); [constructor|]. rewrite idx_right, idx_left, map_app. apply NoDup_app2.
    + destruct (ezero (ws false)) eqn:Z; [constructor|]. apply ezero_false in Z. now apply IH.
    + destruct (ezero (ws true)) eqn:Z; [constructor|]. apply ezero_false in Z. now apply IH.
    + intros k I J. destruct (ezero (ws false)) eqn:Z; [destruct I|]. apply ezero_false in Z. destruct (ezero (ws true)) eqn:Y; [destruct J|]. apply ezero_false in Y.
      apply in_map_iff in I as ([k1 c1] & <- & I). apply in_map_iff in J as ([k2 c2] & E & J). cbn [fst] in E. subst k2.
      apply (trav_spec _ _ _ _ _ _ _ _ (K false) Z) in I as (I & _). apply (trav_spec _ _ _ _ _ _ _ _ (K true) Y) in J as (J & _). lia.
Qed.
(** The calls of the whole traversal, in terms of entries. *)
Lemma vec_calls thr n e k c : vcanon n e -> fst e <> C0 -> In (k, c) (traverseVector thr (snd e) (fst e) C1 0) <-> (k < 2 ^ n)%nat /\ c = ventry e k /\ c <> C0 /\ thr <= Cmod c.
Proof.
  intros H W. pose proof (trav_spec thr (snd e) n (fst e) C1 0 k c H W) as S. rewrite Nat.mul_0_r, idx_top in S. rewrite S. unfold ventry, veden.
  replace (C1 * (fst e * vden (snd e) (Nat.testbit k)))%C with (fst e * vden (snd e) (Nat.testbit k))%C by ring. split.
  - intros (A & N & -> & L). repeat split; auto. now apply Cmul_neq0.
  - intros (A & -> & N & L). repeat split; auto. intros Z. apply N. rewrite Z. ring.
Qed.
Lemma vcanon_top n e : vcanon (S n) e -> fst e <> C0 -> exists w s, snd e = VNode n w s.
Proof. destruct e as [w [|q ws s]]; intros H W; cbn in *; [destruct H; [discriminate|contradiction]|]. destruct H as (_ & E & _). injection E as ->. eauto. Qed.
Lemma shift2 n : Nat.shiftl 2 n = (2 ^ S n)%nat. Proof. rewrite Nat.shiftl_mul_pow2, Nat.pow_succ_r'. reflexivity. Qed.
Lemma vec_dense thr n e : vcanon (S n) e -> fst e <> C0 ->
  exists l, getVector thr e = Some l /\ length l = (2 ^ S n)%nat /\ forall k, (k < 2 ^ S n)%nat -> nth k l C0 = if Rle_dec thr (Cmod (ventry e k)) then ventry e k else C0.
Proof.
  intros H W. destruct (vcanon_top _ _ H W) as (w & s & E). unfold getVector. rewrite E, <- E, shift2.
  destruct (set_all_ok (traverseVector thr (snd e) (fst e) C1 0) (repeat C0 (2 ^ S n))) as (l & -> & L & N).
  { intros i c I. rewrite repeat_length. now apply (vec_calls thr (S n) e i c H W) in I. }
  exists l. split; [reflexivity|]. rewrite repeat_length in L. split; [exact L|]. intros k Hk. destruct (N k C0) as [(c & I & ->)|[O ->]].
  - apply (vec_calls thr (S n) e k c H W) in I as (_ & -> & _ & T). destruct (Rle_dec thr (Cmod (ventry e k))); [reflexivity|contradiction].
  - rewrite nth_repeat. destruct (Rle_dec thr (Cmod (ventry e k))) as [T|]; [|reflexivity]. destruct (Ceq_dec (ventry e k) C0) as [Z|Z]; [now symmetry|].
    destruct (O (ventry e k)). apply (vec_calls thr (S n) e k _ H W). auto.
Qed.
Lemma vec_sparse thr n e k c : vcanon (S n) e -> fst e <> C0 ->
  look Nat.eq_dec k (getSparseVector thr e) = Some c <-> (k < 2 ^ S n)%nat /\ c = ventry e k /\ c <> C0 /\ thr <= Cmod c.
Proof.
  intros H W. destruct (vcanon_top _ _ H W) as (w & s & E). unfold getSparseVector. rewrite E, <- E. rewrite look_collect; [now apply vec_calls|].
  intros a b Ia Ib. apply (vec_calls thr (S n) e k _ H W) in Ia as (_ & -> & _). now apply (vec_calls thr (S n) e k _ H W) in Ib as (_ & -> & _).
Qed.
Lemma vec_add n e l : vcanon n e -> fst e <> C0 -> length l = (2 ^ n)%nat ->
  exists l', addToVector e l = Some l' /\ length l' = (2 ^ n)%nat /\ forall k, (k < 2 ^ n)%nat -> nth k l' C0 = (nth k l C0 + ventry e k)%C.
Proof.
  intros H W L. unfold addToVector.
  assert (Q : match snd e with VT => [(0%nat, fst e)] | _ => traverseVector 0 (snd e) (fst e) C1 0 end = traverseVector 0 (snd e) (fst e) C1 0).
  { destruct (snd e); [|reflexivity]. cbn [traverseVector]. assert (S0 : small 0 (C1 * fst e) = false) by (apply small_false, Cmod_pos). rewrite S0. repeat f_equal. ring. }
  rewrite Q. destruct (add_all_ok (traverseVector 0 (snd e) (fst e) C1 0) l) as (l' & -> & L' & N).
  { intros i c I. rewrite L. now apply (vec_calls 0 n e i c H W) in I. }
  exists l'. split; [reflexivity|]. split; [congruence|]. intros k Hk. rewrite N by lia. f_equal. destruct (Ceq_dec (ventry e k) C0) as [Z|Z].
  - rewrite Z. apply total_out. intros [c I]. apply (vec_calls 0 n e k c H W) in I as (_ & -> & N' & _). contradiction.
  - apply total_in; [|apply (vec_calls 0 n e k _ H W); repeat split; auto; apply Cmod_pos]. pose proof (trav_nodup 0 (snd e) n (fst e) C1 0 H W) as D. now rewrite Nat.mul_0_r in D.
Qed.

(** ** Matrices *)
Lemma mtrav_spec thr : forall n t w amp h g k l c, mcan n w t ->
  In (k, l, c) (traverseMatrix thr n t w amp (2 ^ n * h) (2 ^ n * g)) <->
  (k / 2 ^ n = h)%nat /\ (l / 2 ^ n = g)%nat /\ mden n t (Nat.testbit k) (Nat.testbit l) <> C0 /\ c = (amp * (w * mden n t (Nat.testbit k) (Nat.testbit l)))%C /\ thr <= Cmod c.
Proof.
  induction n as [|n IH]; intros t w amp h g k l c H; cbn [traverseMatrix].
  - cbn [mden]. rewrite !Nat.pow_0_r, !Nat.div_1_r, !Nat.mul_1_l. replace (amp * (w * C1))%C with (amp * w)%C by ring. destruct (small thr (amp * w)) eqn:E.
    + apply small_true in E. split; [intros []|]. intros (_ & _ & _ & -> & L). lra.
    + apply small_false in E. split; [intros [I|[]]; injection I as <- <- <-; repeat split; auto; apply C1_neq_C0|]. intros (-> & -> & _ & -> & _). now left.
  - destruct (small thr (amp * w)) eqn:E.
    { apply small_true in E. split; [intros []|]. intros (_ & _ & _ & -> & L). exfalso. revert L.
      replace (amp * (w * mden (S n) t (Nat.testbit k) (Nat.testbit l)))%C with (amp * w * mden (S n) t (Nat.testbit k) (Nat.testbit l))%C by ring. apply pruned; [|exact E]. eapply mden_le1; eauto. }
    rewrite !idx_right, !idx_left.
    set (skip := traverseMatrix thr n t w amp (2 ^ n * (2 * h)) (2 ^ n * (2 * g)) ++ traverseMatrix thr n t w amp (2 ^ n * (2 * h + 1)) (2 ^ n * (2 * g + 1))).
    assert (SK : mcan n w t -> In (k, l, c) skip <-> (k / 2 ^ S n = h)%nat /\ (l / 2 ^ S n = g)%nat /\ (if eqb (Nat.testbit k n) (Nat.testbit l n) then mden n t (Nat.testbit k) (Nat.testbit l) else C0) <> C0 /\
      c = (amp * (w * (if eqb (Nat.testbit k n) (Nat.testbit l n) then mden n t (Nat.testbit k) (Nat.testbit l) else C0)))%C /\ thr <= Cmod c).
    { intros M. unfold skip. rewrite in_app_iff. pose proof (idx_split k n h) as Sk. pose proof (idx_split l n g) as Sl.
      pose proof (Sk false) as Sk0. pose proof (Sk true) as Sk1. pose proof (Sl false) as Sl0. pose proof (Sl true) as Sl1. cbn [Nat.b2n] in Sk0, Sk1, Sl0, Sl1. rewrite Nat.add_0_r in Sk0, Sl0.
      rewrite (IH t w amp _ _ k l c M), (IH t w amp _ _ k l c M), Sk0, Sk1, Sl0, Sl1. clear. destruct (Nat.testbit k n), (Nat.testbit l n); cbn [eqb]; intuition congruence. }
    destruct t as [|q ws s].
    + cbn [mden]. apply SK. exact I.
    + destruct H as (W & Q & U & NI & K). destruct (Nat.ltb_spec q n) as [Lt|Ge].
      * cbn [mden]. destruct (Nat.eqb_spec q n) as [->|]; [lia|]. apply SK. repeat split; auto.
      * assert (q = n) by lia. subst q. rewrite mden_node. clear skip SK.
        assert (X : forall a b, In (k, l, c) (if ezero (ws a b) then [] else traverseMatrix thr n (s a b) (ws a b) (amp * w) (2 ^ n * (2 * h + Nat.b2n a)) (2 ^ n * (2 * g + Nat.b2n b))) <->
          (k / 2 ^ S n = h)%nat /\ (l / 2 ^ S n = g)%nat /\ Nat.testbit k n = a /\ Nat.testbit l n = b /\ (ws a b * mden n (s a b) (Nat.testbit k) (Nat.testbit l))%C <> C0 /\
          c = (amp * (w * (ws a b * mden n (s a b) (Nat.testbit k) (Nat.testbit l))))%C /\ thr <= Cmod c).
        { intros a b. destruct (ezero (ws a b)) eqn:Z.
          - apply ezero_true in Z. split; [intros []|]. intros (_ & _ & _ & _ & N & _). destruct N. rewrite Z. ring.
          - apply ezero_false in Z. rewrite (IH (s a b) (ws a b) (amp * w)%C _ _ k l c (K a b)), !idx_split.
            replace (amp * w * (ws a b * mden n (s a b) (Nat.testbit k) (Nat.testbit l)))%C with (amp * (w * (ws a b * mden n (s a b) (Nat.testbit k) (Nat.testbit l))))%C by ring.
            split; [intros ((A & B) & (A' & B') & N & P); repeat split; try apply P; auto; now apply Cmul_neq0|]. intros (A & A' & B & B' & N & P). repeat split; try apply P; auto. intros D. apply N. rewrite D. ring. }
        pose proof (X false false) as X0. pose proof (X false true) as X1. pose proof (X true false) as X2. pose proof (X true true) as X3. cbn [Nat.b2n] in X0, X1, X2, X3. rewrite !Nat.add_0_r in *.
        rewrite !in_app_iff, X0, X1, X2, X3. clear. destruct (Nat.testbit k n), (Nat.testbit l n); intuition congruence.
Qed.
Lemma mat_calls thr n e k l c : mcanon n e -> In (k, l, c) (traverseMatrix thr n (snd e) (fst e) C1 0 0) <->
  (k < 2 ^ n)%nat /\ (l < 2 ^ n)%nat /\ mden n (snd e) (Nat.testbit k) (Nat.testbit l) <> C0 /\ c = mentry n e k l /\ thr <= Cmod c.
Proof.
  intros H. pose proof (mtrav_spec thr n (snd e) (fst e) C1 0 0 k l c H) as S. rewrite Nat.mul_0_r, !idx_top in S. rewrite S. unfold mentry, meden.
  replace (C1 * (fst e * mden n (snd e) (Nat.testbit k) (Nat.testbit l)))%C with (fst e * mden n (snd e) (Nat.testbit k) (Nat.testbit l))%C by ring. reflexivity.
Qed.
Lemma nth_repeat_lt {A} (x d : A) : forall n i, (i < n)%nat -> nth i (repeat x n) d = x.
Proof. induction n as [|n IH]; intros [|i] H; cbn; auto; try lia. apply IH. lia. Qed.
Lemma mat_dense thr n e : mcanon (S n) e ->
  exists m, getMatrix (S n) thr e = Some m /\ length m = (2 ^ S n)%nat /\ (forall i, (i < 2 ^ S n)%nat -> length (nth i m []) = (2 ^ S n)%nat) /\
  forall i j, (i < 2 ^ S n)%nat -> (j < 2 ^ S n)%nat -> nth j (nth i m []) C0 = if Rle_dec thr (Cmod (mentry (S n) e i j)) then mentry (S n) e i j else C0.
Proof.
  intros H. unfold getMatrix. rewrite Nat.shiftl_1_l. set (d := (2 ^ S n)%nat).
  destruct (set_all2_ok d (traverseMatrix thr (S n) (snd e) (fst e) C1 0 0) (repeat (repeat C0 d) d)) as (m & -> & L & R & N).
  - apply repeat_length.
  - intros i Hi. rewrite nth_repeat_lt by exact Hi. apply repeat_length.
  - intros i j c I. apply (mat_calls thr (S n) e i j c H) in I. tauto.
  - exists m. split; [reflexivity|]. split; [exact L|]. split; [exact R|]. intros i j Hi Hj. destruct (N i j Hi) as [(c & I & ->)|[O ->]].
    + apply (mat_calls thr (S n) e i j c H) in I as (_ & _ & _ & -> & T). destruct (Rle_dec thr _); [reflexivity|contradiction].
    + rewrite nth_repeat_lt by exact Hi. rewrite nth_repeat. destruct (Rle_dec thr _) as [T|]; [|reflexivity]. destruct (Ceq_dec (mentry (S n) e i j) C0) as [Z|Z]; [now symmetry|].
      destruct (O (mentry (S n) e i j)). apply (mat_calls thr (S n) e i j _ H). repeat split; auto. unfold mentry, meden in Z. intros D. apply Z. rewrite D. ring.
Qed.
Lemma mat_sparse thr n e k l c : mcanon (S n) e -> fst e <> C0 ->
  look eq2_dec (k, l) (getSparseMatrix (S n) thr e) = Some c <-> (k < 2 ^ S n)%nat /\ (l < 2 ^ S n)%nat /\ c = mentry (S n) e k l /\ c <> C0 /\ thr <= Cmod c.
Proof.
  intros H W. unfold getSparseMatrix. rewrite look_collect.
  - rewrite (mat_calls thr (S n) e k l c H). unfold mentry, meden. split.
    + intros (A & B & N & -> & T). repeat split; auto. now apply Cmul_neq0.
    + intros (A & B & -> & N & T). repeat split; auto. intros D. apply N. rewrite D. ring.
  - intros a b Ia Ib. apply (mat_calls thr (S n) e k l _ H) in Ia as (_ & _ & _ & -> & _). now apply (mat_calls thr (S n) e k l _ H) in Ib as (_ & _ & _ & -> & _).
Qed.
