(* State constructors and entry access. *)
From Coq Require Import Reals Lra Psatz List Bool Arith Lia FunctionalExtensionality.
From Verif Require Import Cplx Qsem DDModel DDSpec DDProofs DDCanonProofs DDOpsProofs DDGateProofs.
Import ListNotations.
Local Open Scope R_scope.

Lemma vmkE_left q t : vmkE q (v2 (C1, t) vzero) = (C1, VNode q (fun i => if i then C0 else C1) (fun i => if i then VT else t)).
Proof.
  unfold vmkE, vmakeE, v2. cbn [fst snd vzero]. rewrite ezero_1, ezero_0. f_equal. f_equal.
  apply functional_extensionality; intros []; auto.
Qed.
Lemma vmkE_right q t : vmkE q (v2 vzero (C1, t)) = (C1, VNode q (fun i => if i then C1 else C0) (fun i => if i then t else VT)).
Proof.
  unfold vmkE, vmakeE, v2. cbn [fst snd vzero]. rewrite ezero_1, ezero_0. f_equal. f_equal.
  apply functional_extensionality; intros []; auto.
Qed.
Lemma vmk_left q t : vmk q (v2 (C1, t) vzero) = (C1, VNode q (fun i => if i then C0 else C1) (fun i => if i then VT else t)).
Proof. unfold vmk, vmakeC, v2. cbn [fst snd vzero]. rewrite !azero_0, ezero_1, ezero_0. auto. Qed.
Lemma vmk_right q t : vmk q (v2 vzero (C1, t)) = (C1, VNode q (fun i => if i then C1 else C0) (fun i => if i then t else VT)).
Proof. unfold vmk, vmakeC, v2. cbn [fst snd vzero]. rewrite !azero_0, ezero_1, ezero_0. auto. Qed.

Lemma vmkE_canon v e : (forall i, vcanon v (e i)) -> vcanon (S v) (vmkE v e).
Proof.
  intros H. rewrite vmkE_vmk by (intros i; eapply vcanon_proper; eauto). apply vmk_canon. auto.
Qed.

(* the bits start .. start+n-1 of b are those of st *)
Definition matches (n start : nat) (st : list bool) (b : bits) : bool :=
  forallb (fun k => eqb (b k) (nth k st false)) (seq start n).
Lemma matches_S n start st b :
  matches (S n) start st b = matches n start st b && eqb (b (start + n)%nat) (nth (start + n) st false).
Proof. unfold matches. rewrite seq_S, forallb_app. cbn [forallb]. rewrite andb_true_r; auto. Qed.

Lemma basis_loop_spec : forall n start st, (start + n <= length st)%nat ->
  exists e, basis_loop n start st = DOk e /\ fst e = C1 /\
    (start = 0%nat -> vcanon n e) /\ forall b, veden e b = delta (matches n start st b).
Proof.
  induction n as [|n IH]; intros start st H; cbn [basis_loop].
  - exists vone. split; [auto|]. split; [auto|]. split; [intros; apply vcanon_one|]. intros b. unfold veden; cbn; ring.
  - destruct (IH start st) as (e & E & W & Ca & D); [lia|]. rewrite E; cbn [dbind].
    destruct (nth_error st (start + n)) as [v|] eqn:Q; [|apply nth_error_None in Q; lia].
    apply (nth_error_nth _ _ false) in Q.
    destruct e as [w t]; cbn [fst] in W; subst w.
    exists (vmkE (start + n) (if v then v2 vzero (C1, t) else v2 (C1, t) vzero)). split; [auto|].
    split; [destruct v; rewrite ?vmkE_left, ?vmkE_right; auto|].
    split.
    + intros ->. cbn [Nat.add]. apply vmkE_canon. intros i. destruct v, i; cbn [v2]; auto using vcanon_zero.
    + intros b. rewrite vmkE_den, matches_S, Q.
      assert (Z : veden vzero b = C0) by (unfold veden; cbn; ring).
      destruct v, (b (start + n)%nat); cbn [v2 eqb]; rewrite ?andb_true_r, ?andb_false_r; auto.
Qed.
Lemma zero_loop_basis : forall n start, DOk (zero_loop n start) = basis_loop n start (repeat false (start + n)).
Proof.
  assert (G : forall n start l, (start + n <= l)%nat -> DOk (zero_loop n start) = basis_loop n start (repeat false l)).
  { induction n as [|n IH]; intros start l H; cbn [zero_loop basis_loop]; auto.
    rewrite <- (IH start l) by lia. cbn [dbind].
    rewrite (nth_error_repeat false) by lia. auto. }
  intros; apply G; auto.
Qed.
Lemma zero_loop_spec n start : fst (zero_loop n start) = C1 /\ (start = 0%nat -> vcanon n (zero_loop n start)) /\
  forall b, veden (zero_loop n start) b = delta (forallb (fun k => negb (b k)) (seq start n)).
Proof.
  destruct (basis_loop_spec n start (repeat false (start + n))) as (e & E & A & B & D); [rewrite repeat_length; auto|].
  rewrite <- zero_loop_basis in E. injection E as <-. split; [auto|]. split; [auto|].
  intros b. rewrite D. f_equal. unfold matches. apply forallb_ext_in. intros k _.
  assert (nth k (repeat false (start + n)) false = false).
  { destruct (lt_dec k (start + n)); [apply nth_repeat|apply nth_overflow; rewrite repeat_length; lia]. }
  rewrite H. destruct (b k); auto.
Qed.

(* ---- makeBasisState with product states ------------------------------------------------------------ *)

Definition bamp (s : bstate) (v : bool) : C :=
  match s, v with
  | BZero, v => delta (negb v)
  | BOne, v => delta v
  | BPlus, _ => RtoC s22
  | BMinus, false => RtoC s22 | BMinus, true => RtoC (- s22)
  | BRight, false => RtoC s22 | BRight, true => (0, s22)
  | BLeft, false => RtoC s22 | BLeft, true => (0, - s22)
  end.
Fixpoint bprod (n start : nat) (st : list bstate) (b : bits) : C :=
  match n with
  | O => C1
  | S k => (bprod k start st b * bamp (nth (start + k) st BZero) (b (start + k)%nat))%C
  end.

Lemma s22_pos : 0 < s22.
Proof. unfold s22. apply Rinv_0_lt_compat. apply sqrt_lt_R0; lra. Qed.
Lemma s22_sq : s22 * s22 = / 2.
Proof.
  unfold s22. rewrite <- Rinv_mult, sqrt_sqrt by lra. auto.
Qed.

(* two weights of magnitude 1/sqrt 2, the first positive: the top weight is one *)
Lemma vmk_equal q t0 t1 w1 : Cnorm2 w1 = / 2 -> fst (vmk q (v2 (RtoC s22, t0) (w1, t1))) = C1.
Proof.
  intros H. pose proof s22_pos as SP.
  assert (N0 : RtoC s22 <> C0) by (apply RtoC_neq0; lra).
  assert (N1 : w1 <> C0) by (intros ->; rewrite Cnorm2_0 in H; lra).
  unfold vmk, vmakeC, v2; cbn [fst snd]. rewrite !azero_0.
  assert (ezero (RtoC s22) = false /\ ezero w1 = false) as [-> ->] by (split; apply ezero_false; auto).
  unfold vnorm_both, vargmax; cbn [fst]. rewrite Cnorm2_RtoC, s22_sq, H.
  destruct Rle_dec as [A|A]; [|lra]. cbn [negb fst]. rewrite Cnorm2_RtoC, s22_sq, H.
  replace (/ 2 + / 2) with 1 by lra. rewrite sqrt_1.
  assert (S2 : sqrt (/ 2) = s22).
  { rewrite <- s22_sq. apply sqrt_square. lra. }
  rewrite S2, <- RtoC_mul, <- RtoC_1. f_equal. field. lra.
Qed.

Lemma bnode_spec q s f : fst f = C1 ->
  fst (bnode q s f) = C1 /\ (vcanon q f -> vcanon (S q) (bnode q s f)) /\
  forall b, veden (bnode q s f) b = (veden f b * bamp s (b q))%C.
Proof.
  destruct f as [w t]; cbn [fst]; intros ->. pose proof s22_pos as SP.
  assert (N0 : RtoC s22 <> C0) by (apply RtoC_neq0; lra).
  assert (PC : forall w1, w1 <> C0 -> vcanon q (C1, t) -> vcanon (S q) (vmk q (v2 (RtoC s22, t) (w1, t)))).
  { intros w1 N1 H. apply vmk_canon. intros i; right. unfold vcanon in *. destruct i; cbn [v2 fst snd];
      eapply vcan_weight; eauto using C1_neq_C0. }
  assert (N1 : Cnorm2 (RtoC (- s22)) = / 2) by (rewrite Cnorm2_RtoC, <- s22_sq; ring).
  assert (N2 : Cnorm2 (0, s22) = / 2) by (unfold Cnorm2; cbn [fst snd]; rewrite <- s22_sq; ring).
  assert (N3 : Cnorm2 (0, - s22) = / 2) by (unfold Cnorm2; cbn [fst snd]; rewrite <- s22_sq; ring).
  assert (N4 : Cnorm2 (RtoC s22) = / 2) by (rewrite Cnorm2_RtoC, <- s22_sq; ring).
  assert (NZ : forall w1, Cnorm2 w1 = / 2 -> w1 <> C0) by (intros w1 H ->; rewrite Cnorm2_0 in H; lra).
  destruct s; cbn [bnode fst snd].
  - rewrite vmk_left. split; [auto|]. split.
    + intros H. rewrite <- vmk_left. apply vmk_canon. intros []; right; cbn [v2]; auto using vcanon_zero.
    + intros b. rewrite <- vmk_left, vmk_den. unfold v2, veden, bamp, delta. destruct (b q); cbn [negb fst snd vzero vden]; ring.
  - rewrite vmk_right. split; [auto|]. split.
    + intros H. rewrite <- vmk_right. apply vmk_canon. intros []; right; cbn [v2]; auto using vcanon_zero.
    + intros b. rewrite <- vmk_right, vmk_den. unfold v2, veden, bamp, delta. destruct (b q); cbn [negb fst snd vzero vden]; ring.
  - split; [apply vmk_equal; auto|]. split; [apply PC; auto|].
    intros b. rewrite vmk_den. unfold v2, veden, bamp. destruct (b q); cbn [fst snd]; ring.
  - split; [apply vmk_equal; auto|]. split; [apply PC; auto|].
    intros b. rewrite vmk_den. unfold v2, veden, bamp. destruct (b q); cbn [fst snd]; ring.
  - split; [apply vmk_equal; auto|]. split; [apply PC; auto|].
    intros b. rewrite vmk_den. unfold v2, veden, bamp. destruct (b q); cbn [fst snd]; ring.
  - split; [apply vmk_equal; auto|]. split; [apply PC; auto|].
    intros b. rewrite vmk_den. unfold v2, veden, bamp. destruct (b q); cbn [fst snd]; ring.
Qed.
Lemma bstates_loop_spec : forall n start st, (start + n <= length st)%nat ->
  exists e, bstates_loop n start st = DOk e /\ fst e = C1 /\
    (start = 0%nat -> vcanon n e) /\ forall b, veden e b = bprod n start st b.
Proof.
  induction n as [|n IH]; intros start st H; cbn [bstates_loop bprod].
  - exists vone. split; [auto|]. split; [auto|]. split; [intros; apply vcanon_one|]. intros b. unfold veden; cbn; ring.
  - destruct (IH start st) as (e & E & W & Ca & D); [lia|]. rewrite E; cbn [dbind].
    destruct (nth_error st (start + n)) as [v|] eqn:Q; [|apply nth_error_None in Q; lia].
    apply (nth_error_nth _ _ BZero) in Q.
    destruct (bnode_spec (start + n) v e W) as (A & B & F).
    eexists; split; [reflexivity|]. split; [auto|]. split; [intros ->; apply B; auto|].
    intros b. rewrite F, D, Q. auto.
Qed.

(* ---- GHZ and W ---------------------------------------------------------------------------------------- *)

Lemma ghz_right_spec n : fst (ghz_right n) = C1 /\ vcanon n (ghz_right n) /\
  forall b, veden (ghz_right n) b = delta (forallb b (seq 0 n)).
Proof.
  induction n as [|n (W & Ca & D)]; cbn [ghz_right].
  - split; [auto|]. split; [apply vcanon_one|]. intros b; unfold veden; cbn; ring.
  - destruct (ghz_right n) as [w t]; cbn [fst] in W; subst w.
    split; [rewrite vmkE_right; auto|]. split.
    + apply vmkE_canon. intros []; cbn [v2]; auto using vcanon_zero.
    + intros b. rewrite vmkE_den, seq_S, forallb_app. cbn [forallb Nat.add]. rewrite andb_true_r.
      destruct (b n); cbn [v2]; [rewrite D, andb_true_r; auto|rewrite andb_false_r]. unfold veden; cbn; ring.
Qed.
Definition all_eq (v : bool) (n : nat) (b : bits) : bool := forallb (fun k => eqb (b k) v) (seq 0 n).
Lemma makeGHZState_spec nq n : (n <= nq)%nat -> (1 <= n)%nat ->
  exists e, makeGHZState nq n = DOk e /\ vcanon n e /\
    forall b, veden e b = if all_eq false n b || all_eq true n b then RtoC s22 else C0.
Proof.
  intros H H1. unfold makeGHZState. destruct (Nat.ltb_spec nq n); [lia|].
  destruct n as [|k]; [lia|]. eexists; split; [reflexivity|].
  destruct (zero_loop_spec k 0) as (A & B & D). destruct (ghz_right_spec k) as (A' & B' & D').
  pose proof s22_pos as SP. assert (N0 : RtoC s22 <> C0) by (apply RtoC_neq0; lra).
  destruct (zero_loop k 0) as [w0 t0]. destruct (ghz_right k) as [w1 t1]. cbn [fst snd] in *. subst w0 w1.
  specialize (B eq_refl). split.
  - apply vmkE_canon. unfold vcanon in *. intros []; cbn [v2 fst snd] in *; eapply vcan_weight; eauto using C1_neq_C0.
  - intros b. rewrite vmkE_den. unfold all_eq. rewrite !seq_S, !forallb_app. cbn [forallb Nat.add]. rewrite !andb_true_r.
    specialize (D b). specialize (D' b). unfold veden in *; cbn [fst snd] in *.
    replace (forallb (fun k0 => eqb (b k0) true) (seq 0 k)) with (forallb b (seq 0 k))
      by (apply forallb_ext_in; intros x _; destruct (b x); auto).
    replace (forallb (fun k0 => eqb (b k0) false) (seq 0 k)) with (forallb (fun k => negb (b k)) (seq 0 k))
      by (apply forallb_ext_in; intros x _; destruct (b x); auto).
    unfold delta in *. destruct (b k); cbn [v2 fst snd eqb]; rewrite ?andb_true_r, ?andb_false_r; cbn [orb].
    + destruct (forallb b (seq 0 k)); rewrite <- ?orb_true_l; cbn;
        [transitivity (RtoC s22 * (C1 * vden t1 b))%C; [ring|rewrite D'; ring]
        |transitivity (RtoC s22 * (C1 * vden t1 b))%C; [ring|rewrite D'; ring]].
    + rewrite orb_false_r. destruct (forallb (fun k => negb (b k)) (seq 0 k));
        (transitivity (RtoC s22 * (C1 * vden t0 b))%C; [ring|rewrite D; ring]).
Qed.

(* number of ones among the bits below n *)
Fixpoint weightb (n : nat) (b : bits) : nat :=
  match n with O => 0 | S k => (weightb k b + (if b k then 1 else 0))%nat end.
Lemma w_loop_spec n : (1 <= n)%nat -> forall p, (p <= n)%nat ->
  let '(l, r) := w_loop n p in
  vcanon p l /\ ((p < n)%nat -> vcanon p r) /\
  (forall b, veden l b = if Nat.eqb (weightb p b) 1 then RtoC (/ sqrt (INR n)) else C0) /\
  ((p < n)%nat -> forall b, veden r b = if Nat.eqb (weightb p b) 0 then RtoC (/ sqrt (INR n)) else C0).
Proof.
  intros Hn. induction p as [|p IH]; intros Hp; cbn [w_loop].
  - split; [apply vcanon_zero|]. split; [intros; left; auto|]. split; intros; unfold veden; cbn; ring.
  - specialize (IH ltac:(lia)). destruct (w_loop n p) as [l r]. destruct IH as (A & B & D & E).
    specialize (B ltac:(lia)). specialize (E ltac:(lia)).
    split; [apply vmkE_canon; intros []; cbn; auto|].
    split.
    { intros Hlt. destruct (Nat.eqb_spec p (n - 1)); [lia|].
      apply vmkE_canon; intros []; cbn [v2]; auto using vcanon_zero. }
    split.
    + intros b. rewrite vmkE_den. cbn [weightb]. destruct (b p); cbn [v2].
      * rewrite E. rewrite Nat.add_1_r. auto.
      * rewrite D, Nat.add_0_r. auto.
    + intros Hlt b. destruct (Nat.eqb_spec p (n - 1)); [lia|].
      rewrite vmkE_den. cbn [weightb]. destruct (b p); cbn [v2].
      * rewrite Nat.add_1_r. unfold veden; cbn; ring.
      * rewrite E, Nat.add_0_r. auto.
Qed.
Lemma makeWState_spec nq n : (n <= nq)%nat -> (1 <= n)%nat ->
  exists e, makeWState nq n = DOk e /\ vcanon n e /\
    forall b, veden e b = if Nat.eqb (weightb n b) 1 then RtoC (/ sqrt (INR n)) else C0.
Proof.
  intros H H1. unfold makeWState. destruct (Nat.ltb_spec nq n); [lia|].
  pose proof (w_loop_spec n H1 n (Nat.le_refl n)) as W. destruct n; [lia|].
  eexists; split; [reflexivity|]. destruct (w_loop (S n) (S n)) as [l r]. cbn [fst]. split; apply W.
Qed.

(* ---- makeStateFromVector and makeDDFromMatrix ------------------------------------------------------------ *)

(* the number whose bits below n are those of b *)
Fixpoint index (n : nat) (b : bits) : nat :=
  match n with O => 0 | S k => (index k b + (if b k then 2 ^ k else 0))%nat end.
Lemma nth_skipn_d {A} (d : A) : forall n l i, nth i (skipn n l) d = nth (n + i) l d.
Proof. induction n; intros [|a l] i; cbn [skipn]; auto; [destruct i; auto|cbn [Nat.add nth]; auto]. Qed.
Lemma index_lt n b : (index n b < 2 ^ n)%nat.
Proof. induction n; cbn [index Nat.pow]; [lia|]. destruct (b n); lia. Qed.

Lemma state_of_spec : forall k l, length l = (2 ^ S k)%nat ->
  exists e, state_of l k = DOk e /\ vcanon (S k) e /\
    forall b, veden e b = nth (index (S k) b) l C0.
Proof.
  induction k as [|k IH]; intros l Hl; cbn [state_of].
  - destruct l as [|a [|b [|]]]; try discriminate. eexists; split; [reflexivity|split].
    + apply vmk_canon. intros []; right; left; auto.
    + intros b0. rewrite vmk_den. cbn [index Nat.add]. unfold veden. destruct (b0 0%nat); cbn [v2 fst snd vden nth Nat.pow]; ring.
  - assert (H2 : Nat.div2 (length l) = (2 ^ S k)%nat).
    { rewrite Hl. change (2 ^ S (S k))%nat with (2 * 2 ^ S k)%nat. apply Nat.div2_double. }
    rewrite H2.
    destruct (IH (firstn (2 ^ S k) l)) as (a & Ea & Ca & Da).
    { rewrite firstn_length, Hl. cbn [Nat.pow]. lia. }
    destruct (IH (skipn (2 ^ S k) l)) as (b & Eb & Cb & Db).
    { rewrite skipn_length, Hl. cbn [Nat.pow]. lia. }
    rewrite Ea; cbn [dbind]. rewrite Eb; cbn [dbind]. eexists; split; [reflexivity|split].
    + apply vmk_canon. intros []; right; auto.
    + intros b0. rewrite vmk_den. pose proof (index_lt (S k) b0) as IL.
      change (index (S (S k)) b0) with (index (S k) b0 + (if b0 (S k) then 2 ^ S k else 0))%nat.
      destruct (b0 (S k)); cbn [v2].
      * rewrite Db, nth_skipn_d. f_equal; lia.
      * rewrite Da, Nat.add_0_r. rewrite <- (firstn_skipn (2 ^ S k) l) at 2. rewrite app_nth1; auto.
        rewrite firstn_length, Hl. cbn [Nat.pow] in *. lia.
Qed.

Lemma mat_of_spec : forall k m r0 c0,
  mcanon (S k) (mat_of m k r0 c0) /\
  forall r c, meden (S k) (mat_of m k r0 c0) r c = m (r0 + index (S k) r)%nat (c0 + index (S k) c)%nat.
Proof.
  induction k as [|k IH]; intros m r0 c0; cbn [mat_of].
  - split.
    + apply mmk_canon. intros [] []; right; exact Logic.I.
    + intros r c. rewrite mmk_den by (intros [] []; exact Logic.I). unfold meden. cbn [index Nat.add Nat.pow].
      destruct (r 0%nat), (c 0%nat); cbn [m4 fst snd mden]; rewrite ?Nat.add_0_r; ring.
  - split.
    + apply mmk_canon. intros [] []; right; apply IH.
    + intros r c. rewrite mmk_den by (intros [] []; apply mcanon_wf, IH).
      change (index (S (S k)) r) with (index (S k) r + (if r (S k) then 2 ^ S k else 0))%nat.
      change (index (S (S k)) c) with (index (S k) c + (if c (S k) then 2 ^ S k else 0))%nat.
      destruct (r (S k)), (c (S k)); cbn [m4]; rewrite (proj2 (IH _ _ _)); f_equal; lia.
Qed.

(* ---- entry access ------------------------------------------------------------------------------------------- *)

Lemma vpath_spec : forall l w t c dec (b : bits),
  vlev l w t -> (w = C0 -> c = C0) -> (forall q, (q < l)%nat -> nth_error dec q = Some (if b q then 1 else 0)%nat) ->
  vpath l (w, t) c dec = DOk (c * vden t b)%C.
Proof.
  induction l as [|l IH]; intros w t c dec b L Z D; cbn [vpath fst snd].
  - destruct t as [|q ws s]; [|destruct L; discriminate]. cbn. f_equal; ring.
  - rewrite (D l) by lia. destruct t as [|q ws s].
    + destruct L as [|W]; [discriminate|]. apply ezero_true in W as W'. rewrite W'. cbn [orb].
      f_equal. rewrite (Z W). cbn; ring.
    + destruct L as [Q L]. injection Q as <-. rewrite Nat.eqb_refl. cbn [vden].
      destruct (b l) eqn:Eb.
      * rewrite (IH _ _ _ dec b); auto; [f_equal; ring|]. intros Z'; rewrite Z'; ring.
      * rewrite (IH _ _ _ dec b); auto; [f_equal; ring|]. intros Z'; rewrite Z'; ring.
Qed.
Lemma nth_error_map_seq {A} (f : nat -> A) n q : (q < n)%nat -> nth_error (map f (seq 0 n)) q = Some (f q).
Proof.
  intros H. rewrite nth_error_map. rewrite (nth_error_nth' _ 0%nat) by (rewrite seq_length; auto).
  rewrite seq_nth by auto. auto.
Qed.
Lemma log2_succ_lt i n : (i < 2 ^ n)%nat -> (Nat.log2 (i + 1) <= n)%nat.
Proof.
  intros H. rewrite <- (Nat.log2_pow2 n) by lia. apply Nat.log2_le_mono. lia.
Qed.
(* C18 for vectors *)
Lemma vget_spec n e i : vcanon n e -> (i < 2 ^ n)%nat -> vget e i = DOk (veden e (Nat.testbit i)).
Proof.
  intros H Hi. unfold vget, vget_path.
  destruct (vcanon_root n e H) as [T|[N W]].
  - rewrite T. unfold veden. rewrite T. f_equal. cbn; ring.
  - destruct (snd e) as [|q ws s] eqn:E.
    + unfold veden. rewrite E. f_equal. cbn; ring.
    + cbn [vvar] in N. pose proof (log2_succ_lt i n Hi).
      replace (Nat.max (Nat.log2 (i + 1)) (S q)) with n by lia.
      rewrite (surjective_pairing e) at 1. rewrite E. rewrite (vpath_spec _ _ _ _ _ (Nat.testbit i)).
      * unfold veden. rewrite E. auto.
      * unfold vcanon in H. rewrite E in H. apply vcan_lev; auto.
      * auto.
      * intros x Hx. rewrite nth_error_map_seq by auto. unfold bit_nat. auto.
Qed.

Lemma mpath_spec : forall l w t c dec (r k : bits),
  mlev l t -> (w = C0 -> c = C0) ->
  (forall q, (q < l)%nat -> nth_error dec q = Some ((if r q then 2 else 0) + (if k q then 1 else 0))%nat) ->
  mpath l (w, t) c dec = DOk (c * mden l t r k)%C.
Proof.
  induction l as [|l IH]; intros w t c dec r k L Z D; cbn [mpath fst snd].
  - destruct t as [|q ws s]; [|destruct L; lia]. cbn. f_equal; ring.
  - rewrite (D l) by lia.
    assert (SKIP : mlev l t ->
       (if (match t with MT => ezero w | _ => false end) || Nat.eqb ((if r l then 2 else 0) + (if k l then 1 else 0)) 1
            || Nat.eqb ((if r l then 2 else 0) + (if k l then 1 else 0)) 2
        then DOk C0 else mpath l (w, t) c dec) = DOk (c * mden (S l) t r k)%C).
    { intros L'. rewrite mden_lift by auto.
      destruct (match t with MT => ezero w | _ => false end) eqn:ZZ.
      - cbn [orb]. destruct t; [|discriminate]. apply ezero_true in ZZ. rewrite (Z ZZ). f_equal; ring.
      - destruct (r l), (k l); cbn [orb Nat.eqb Nat.add eqb];
          try (f_equal; ring); apply IH; auto. }
    destruct t as [|q ws s].
    + apply SKIP; exact Logic.I.
    + destruct L as [Lq L]. destruct (Nat.eqb_spec q l) as [->|Q].
      * rewrite mden_node.
        destruct (r l) eqn:Er, (k l) eqn:Ek; cbn [Nat.add]; rewrite (IH _ _ _ dec r k); auto;
          try (f_equal; ring); intros Z'; rewrite Z'; ring.
      * apply SKIP. split; [lia|auto].
Qed.
(* C18 for matrices: off the diagonal a terminal edge answers its weight *)
Lemma mget_spec n e i j : mwf n e -> snd e <> MT \/ agree_off n [] (Nat.testbit i) (Nat.testbit j) = true ->
  mget e n i j = DOk (meden n e (Nat.testbit i) (Nat.testbit j)).
Proof.
  intros H K. unfold mget, mget_path, meden. destruct (snd e) as [|q ws s] eqn:E.
  - destruct K as [K|K]; [tauto|]. rewrite mden_MT, K. f_equal. cbn [delta]. ring.
  - rewrite (surjective_pairing e) at 1. rewrite E. rewrite (mpath_spec _ _ _ _ _ (Nat.testbit i) (Nat.testbit j)).
    + auto.
    + unfold mwf in H. rewrite E in H. auto.
    + auto.
    + intros x Hx. rewrite nth_error_map_seq by auto. unfold bit_nat.
      destruct (Nat.testbit i x), (Nat.testbit j x); auto.
Qed.
