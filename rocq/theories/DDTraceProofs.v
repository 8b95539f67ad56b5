(* Partial trace. *)
From Coq Require Import Reals Lra Psatz List Bool Arith Lia FunctionalExtensionality.
From Verif Require Import Cplx Qsem DDModel DDSpec DDProofs DDCanonProofs DDOpsProofs DDGateProofs DDStateProofs DDMoreModel.
Import ListNotations.
Local Open Scope R_scope.

Section Tr.
Context (el : elims).

(* kept and eliminated qubits below n *)
Fixpoint kept (n : nat) : nat := match n with O => 0 | S k => (kept k + (if elim el k then 0 else 1))%nat end.
Fixpoint gone (n : nat) : nat := match n with O => 0 | S k => (gone k + (if elim el k then 1 else 0))%nat end.
(* the assignment of all qubits given by one of the kept and one of the eliminated qubits *)
Definition ext (r x : bits) : bits := fun q => if elim el q then x q else r (kept q).
(* the average over the eliminated qubits below n *)
Fixpoint esum (n : nat) (f : bits -> C) (x : bits) : C :=
  match n with
  | O => f x
  | S k => if elim el k then (RtoC (/ 2) * (esum k f (setb x k false) + esum k f (setb x k true)))%C else esum k f x
  end.
(* every kept node lies below nodes for all eliminated qubits above it *)
Fixpoint trok (already : nat) (t : mtree) : Prop :=
  match t with
  | MT => True
  | MNode v w s =>
    if elim el v then trok (S already) (s false false) /\ trok (S already) (s true true)
    else (already + gone v = ecount el)%nat /\ forall i j, trok already (s i j)
  end.

Lemma kept_gone n : (kept n + gone n = n)%nat.
Proof. induction n; cbn [kept gone]; auto. destruct (elim el n); lia. Qed.
Lemma kept_le n : (kept n <= n)%nat. Proof. pose proof (kept_gone n); lia. Qed.
Lemma kept_mono n m : (n <= m)%nat -> (kept n <= kept m)%nat.
Proof. induction 1; auto. cbn [kept]. lia. Qed.

Lemma esum_ext n f g x : (forall y, f y = g y) -> esum n f x = esum n g x.
Proof. intros E. replace g with f; auto. apply functional_extensionality; auto. Qed.
Lemma esum_setb n f x q v : (n <= q)%nat -> esum n f (setb x q v) = esum n (fun y => f (setb y q v)) x.
Proof.
  revert x; induction n as [|n IH]; intros x H; cbn [esum]; auto.
  destruct (elim el n); [|apply IH; lia]. rewrite (setb_comm x q n v false), (setb_comm x q n v true) by lia.
  rewrite !IH by lia. auto.
Qed.
Lemma esum_scal n k f x : esum n (fun y => (k * f y)%C) x = (k * esum n f x)%C.
Proof. revert x; induction n as [|n IH]; intros x; cbn [esum]; auto. destruct (elim el n); rewrite !IH; ring. Qed.
Lemma esum_zero n x : esum n (fun _ => C0) x = C0.
Proof. revert x; induction n as [|n IH]; intros x; cbn [esum]; auto. destruct (elim el n); rewrite !IH; ring. Qed.
Lemma esum_none n f x : (forall q, (q < n)%nat -> elim el q = false) -> esum n f x = f x.
Proof. revert x; induction n as [|n IH]; intros x H; cbn [esum]; auto. rewrite H by lia. apply IH; intros; apply H; lia. Qed.

Definition TR (n : nat) (t : mtree) (r c x : bits) : C := esum n (fun y => mden n t (ext r y) (ext c y)) x.

Lemma mden_ext_setb k t r c y q v : mlev k t -> (k <= q)%nat ->
  mden k t (ext r (setb y q v)) (ext c (setb y q v)) = mden k t (ext r y) (ext c y).
Proof.
  intros L H. apply mden_ext; intros z Hz; unfold ext; rewrite setb_other by lia; auto.
Qed.
Lemma half_double (z : C) : (RtoC (/ 2) * (z + z))%C = z.
Proof. apply Ceq; unfold RtoC, Cmul, Cadd; cbn; field. Qed.
Lemma TR_lift k t r c x : mlev k t ->
  TR (S k) t r c x = if elim el k then TR k t r c x
                     else if eqb (r (kept k)) (c (kept k)) then TR k t r c x else C0.
Proof.
  intros L. unfold TR. cbn [esum]. destruct (elim el k) eqn:E.
  - assert (T : forall v, esum k (fun y => mden (S k) t (ext r y) (ext c y)) (setb x k v) =
                          esum k (fun y => mden k t (ext r y) (ext c y)) x).
    { intros v. rewrite esum_setb by auto. apply esum_ext. intros y. rewrite mden_lift by auto.
      unfold ext at 1 2. rewrite E, eqb_reflx. apply mden_ext_setb; auto. }
    rewrite !T. apply half_double.
  - rewrite (esum_ext _ _ (fun y => if eqb (r (kept k)) (c (kept k)) then mden k t (ext r y) (ext c y) else C0)).
    + destruct eqb; auto. apply esum_zero.
    + intros y. rewrite mden_lift by auto. unfold ext at 1 2. rewrite E. auto.
Qed.
Lemma TR_raise k n t e r c : (k <= n)%nat -> mlev k t -> mwf (kept k) e -> forall w x,
  (forall r c x, meden (kept k) e r c = (w * TR k t r c x)%C) -> meden (kept n) e r c = (w * TR n t r c x)%C.
Proof.
  intros H L We w x D. induction H as [|n H IH]; auto.
  rewrite TR_lift by (apply (mlev_mono k); auto). cbn [kept]. destruct (elim el n).
  - rewrite Nat.add_0_r. auto.
  - rewrite Nat.add_1_r. unfold meden in *.
    rewrite mden_lift by (apply (mlev_mono (kept k)); auto; apply kept_mono; auto).
    destruct eqb; auto. ring.
Qed.

Lemma madd_level k v a b : (k <= v)%nat -> mcan0 k a -> mcan0 k b ->
  exists r, madd v a b = DOk r /\ mcan0 k r /\ forall i j, meden k r i j = (meden k a i j + meden k b i j)%C.
Proof.
  intros H Ha Hb.
  assert (UP : forall e, mcan0 k e -> mcan0 v e).
  { intros e [Z|Ce]; [left; auto|right]. unfold mcanon in *. apply (mcan_mono k); auto. }
  destruct (madd_spec v a b (UP _ Ha) (UP _ Hb)) as (r & Er & Cr & Dr).
  destruct (madd_spec k a b Ha Hb) as (r' & Er' & Cr' & Dr').
  assert (UPD : forall e i j, mcan0 k e -> meden v e i j = (mden (v - k) MT (fun q => i (k + q)%nat) (fun q => j (k + q)%nat) * meden k e i j)%C).
  { intros e i j Ce. destruct (Ceq_dec (fst e) C0) as [Z|Z]; [unfold meden; rewrite Z; ring|].
    apply mcan0_lev in Ce; auto. unfold meden. clear -H Ce. replace v with (k + (v - k))%nat at 1 by lia.
    induction (v - k)%nat as [|d IH]; [rewrite Nat.add_0_r; cbn; ring|].
    rewrite Nat.add_succ_r, mden_lift by (apply (mlev_mono k); auto; lia). cbn [mden].
    destruct eqb; [rewrite IH; ring|ring]. }
  assert (SAME : forall i j, meden v r i j = meden v r' i j).
  { intros i j. rewrite Dr, !UPD, Dr' by auto. ring. }
  exists r. split; [auto|].
  assert (L : mlook r = mlook r').
  { apply (mcanon_unique v).
    - apply mlook_canon; auto.
    - apply mlook_canon; auto.
    - intros i j. rewrite !mlook_den. auto. }
  assert (Ck : mcan0 k r).
  { destruct (Ceq_dec (fst r) C0) as [Z|Z]; [left; auto|right]. 
    assert (E : mlook r = r). { unfold mlook. replace (ezero (fst r)) with false by (symmetry; apply ezero_false; auto). destruct r; auto. }
    rewrite <- E, L. apply mlook_canon; auto. }
  split; [auto|]. intros i j. rewrite <- Dr'. rewrite <- (mlook_den k r), L, mlook_den. auto.
Qed.

Lemma firstn_none level n : (n <= level)%nat -> (n <= length el)%nat -> existsb (fun b => b) (firstn level el) = false ->
  forall q, (q < n)%nat -> elim el q = false.
Proof.
  intros H H' E q Hq. unfold elim. destruct (nth q el false) eqn:N; auto. exfalso.
  assert (In true (firstn level el)).
  { assert (Q : nth q (firstn level el) false = true).
    { rewrite <- N. rewrite <- (firstn_skipn level el) at 2. rewrite app_nth1; auto. rewrite firstn_length; lia. }
    rewrite <- Q. apply nth_In. rewrite firstn_length; lia. }
  assert (T : existsb (fun b => b) (firstn level el) = true) by (apply existsb_exists; exists true; auto). congruence.
Qed.

Lemma mtrace_spec : forall t n w level already, mcan n w t -> (n <= level)%nat -> (n <= length el)%nat -> trok already t ->
  exists e, mtrace el w t level already = DOk e /\ mcan0 (kept n) e /\
    forall r c x, meden (kept n) e r c = (w * TR n t r c x)%C.
Proof.
  induction t as [|v ws s IH]; intros n w level already Ca HL HE OK; cbn [mtrace].
  - exists (if ezero w then mzero else (w, MT)). split; [destruct (ezero w); auto|]. split.
    + right. destruct (ezero w); apply mcanon_T.
    + intros r c x. apply (TR_raise 0 n MT (if ezero w then mzero else (w, MT)) r c); [lia|exact Logic.I| |].
      * destruct (ezero w); exact Logic.I.
      * intros r' c' x'. unfold TR, meden. cbn [kept esum mden]. destruct (ezero w) eqn:Z; cbn [fst mzero]; [apply ezero_true in Z; rewrite Z|]; ring.
  - pose proof Ca as (W & Lv & U & NI & Cs). replace (ezero w) with false by (symmetry; apply ezero_false; auto).
    pose proof (mcan_lev _ _ _ Ca) as Lt.
    destruct (negb (existsb (fun b => b) (firstn level el))) eqn:NO.
    { apply negb_true_iff in NO. pose proof (firstn_none level n HL HE NO) as F.
      assert (K : forall q, (q <= n)%nat -> kept q = q).
      { induction q; intros Hq; cbn [kept]; auto. rewrite F, IHq by lia. lia. }
      eexists; split; [reflexivity|]. rewrite (K n) by auto. split; [right; auto|].
      intros r c x. unfold TR, meden; cbn [fst snd]. rewrite esum_none by auto. f_equal.
      apply mden_ext; intros q Hq; unfold ext; rewrite F, K by lia; auto. }
    destruct (Nat.leb_spec (length el) v); [lia|].
    cbn [trok] in OK.
    assert (Lc : forall i j, mlev v (s i j)) by (apply Lt).
    assert (Lf : mlev (S v) (MNode v ws s)) by (split; auto).
    destruct (elim el v) eqn:E.
    + destruct OK as [OK0 OK1].
      destruct (IH false false v (ws false false) (level - 1)%nat (S already)) as (a & Ea & Ka & Da); auto; [lia|lia|].
      destruct (IH true true v (ws true true) (level - 1)%nat (S already)) as (b & Eb & Kb & Db); auto; [lia|lia|].
      rewrite Ea; cbn [dbind]. rewrite Eb; cbn [dbind].
      destruct (madd_level (kept v) v a b (kept_le v) Ka Kb) as (r & Er & Kr & Dr). rewrite Er; cbn [dbind].
      assert (Dn : forall i j x, meden (kept (S v)) ((fst r * RtoC (/ 2) * w)%C, snd r) i j = (w * TR (S v) (MNode v ws s) i j x)%C).
      { intros i j x. cbn [kept]. rewrite E, Nat.add_0_r. unfold TR. cbn [esum]. rewrite E.
        assert (T : forall k, esum v (fun y => mden (S v) (MNode v ws s) (ext i y) (ext j y)) (setb x v k) =
                              (ws k k * TR v (s k k) i j x)%C).
        { intros k. rewrite esum_setb by auto. unfold TR. rewrite <- esum_scal. apply esum_ext. intros y.
          rewrite mden_node. unfold ext at 1 2 3 4. rewrite E, setb_same. rewrite mden_ext_setb by auto. auto. }
        rewrite !T. rewrite <- Da, <- Db, <- Dr. unfold meden; cbn [fst snd]. ring. }
      destruct (Ceq_dec (fst r) C0) as [Z|Z].
      * eexists; split; [reflexivity|]. split; [left; cbn [fst]; rewrite Z; ring|].
        intros i j x. transitivity C0; [unfold meden; cbn [fst]; rewrite Z; ring|].
        symmetry. transitivity (meden (kept n) mzero i j); [|unfold meden; cbn [fst mzero]; ring].
        symmetry. apply (TR_raise (S v) n (MNode v ws s) mzero); [lia|auto|exact Logic.I|].
        intros i' j' x'. rewrite <- Dn. unfold meden; cbn [fst mzero]. rewrite Z. ring.
      * eexists; split; [reflexivity|].
        assert (Kn : mcan0 (kept n) r).
        { right. destruct Kr as [Kr|Kr]; [tauto|]. unfold mcanon in *. apply (mcan_mono (kept v)); auto. apply kept_mono; lia. }
        split.
        { pose proof (mcan0_scale _ _ (RtoC (/ 2)) Kn) as K1. pose proof (mcan0_scale _ _ w K1) as K2. exact K2. }
        intros i j x. apply (TR_raise (S v) n (MNode v ws s)); [lia|auto| |apply Dn].
        unfold mwf; cbn [snd kept]. rewrite E, Nat.add_0_r. apply mcan0_lev; auto.
    + destruct OK as [OKn OK].
      destruct (IH false false v (ws false false) (level - 1)%nat already) as (e0 & E0 & K0 & D0); auto; [lia|lia|].
      destruct (IH false true v (ws false true) (level - 1)%nat already) as (e1 & E1 & K1 & D1); auto; [lia|lia|].
      destruct (IH true false v (ws true false) (level - 1)%nat already) as (e2 & E2 & K2 & D2); auto; [lia|lia|].
      destruct (IH true true v (ws true true) (level - 1)%nat already) as (e3 & E3 & K3 & D3); auto; [lia|lia|].
      rewrite E0; cbn [dbind]. rewrite E1; cbn [dbind]. rewrite E2; cbn [dbind]. rewrite E3; cbn [dbind].
      pose proof (kept_gone v). destruct (Nat.ltb_spec (v + already) (ecount el)); [lia|].
      replace (v + already - ecount el)%nat with (kept v) by lia.
      eexists; split; [reflexivity|].
      assert (K4 : forall i j, mcan0 (kept v) (m4 e0 e1 e2 e3 i j)) by (intros [] []; auto).
      set (r := mmk (kept v) (m4 e0 e1 e2 e3)).
      assert (Cr : mcanon (S (kept v)) r) by (apply mmk_canon; auto).
      assert (KS : kept (S v) = S (kept v)) by (cbn [kept]; rewrite E; lia).
      assert (Cn : mcan0 (kept n) r).
      { right. unfold mcanon in *. apply (mcan_mono (S (kept v))); auto. rewrite <- KS. apply kept_mono; lia. }
      split.
      { apply (mcan0_scale _ _ w Cn). }
      intros i j x. apply (TR_raise (S v) n (MNode v ws s)); [lia|auto| |].
      * unfold mwf; cbn [snd]. rewrite KS. apply mcanon_wf in Cr. exact Cr.
      * intros i' j' x'. rewrite KS. unfold meden; cbn [fst snd].
        transitivity (w * meden (S (kept v)) r i' j')%C; [unfold meden; ring|]. f_equal.
        unfold r. rewrite mmk_den0 by auto. unfold TR. cbn [esum]. rewrite E.
        rewrite (esum_ext _ _ (fun y => ws (i' (kept v)) (j' (kept v)) * mden v (s (i' (kept v)) (j' (kept v))) (ext i' y) (ext j' y))%C).
        2:{ intros y. rewrite mden_node. unfold ext at 1 2 3 4. rewrite E. auto. }
        rewrite esum_scal. fold (TR v (s (i' (kept v)) (j' (kept v))) i' j' x').
        destruct (i' (kept v)), (j' (kept v)); cbn [m4]; auto.
Qed.

(* C20 *)
Lemma partialTrace_spec n a : mcanon n a -> (n <= length el)%nat -> trok 0 (snd a) ->
  exists e, partialTrace a el = DOk e /\ mcan0 (kept n) e /\
    forall r c x, meden (kept n) e r c = esum n (fun y => meden n a (ext r y) (ext c y)) x.
Proof.
  intros Ca H OK. destruct (mtrace_spec (snd a) n (fst a) (length el) 0 Ca H H OK) as (e & E & K & D).
  exists e. split; [exact E|]. split; [auto|]. intros r c x. rewrite (D r c x). unfold TR, meden.
  rewrite esum_scal. auto.
Qed.

End Tr.

Lemma elim_all n q : elim (repeat true n) q = Nat.ltb q n.
Proof.
  unfold elim. destruct (Nat.ltb_spec q n).
  - revert q H; induction n; intros [|q] H; cbn; auto; try lia. apply IHn; lia.
  - apply nth_overflow. rewrite repeat_length; auto.
Qed.
Lemma trok_all : forall t n k already, mlev k t -> (k <= n)%nat -> trok (repeat true n) already t.
Proof.
  induction t as [|v w s IH]; intros n k already L H; cbn [trok]; auto.
  destruct L as [L1 L2]. rewrite elim_all. destruct (Nat.ltb_spec v n); [|lia].
  split; apply (IH _ _ n v); auto; lia.
Qed.
(* the lowest k of n qubits *)
Definition low (k n : nat) : elims := repeat true k ++ repeat false (n - k).
Lemma elim_low k n q : elim (low k n) q = Nat.ltb q k.
Proof.
  unfold low, elim. destruct (Nat.ltb_spec q k).
  - rewrite app_nth1 by (rewrite repeat_length; auto). pose proof (elim_all k q) as E. unfold elim in E. rewrite E.
    apply Nat.ltb_lt; auto.
  - rewrite app_nth2 by (rewrite repeat_length; auto). rewrite repeat_length. generalize (q - k)%nat.
    induction (n - k)%nat; intros [|m]; cbn; auto.
Qed.
Lemma gone_low k n q : gone (low k n) q = Nat.min q k.
Proof.
  induction q as [|q IH]; cbn [gone]; auto. rewrite elim_low, IH. destruct (Nat.ltb_spec q k); lia.
Qed.
Lemma ecount_low k n : ecount (low k n) = k.
Proof.
  unfold ecount, low. rewrite filter_app, app_length.
  assert (A : length (filter (fun b => b) (repeat true k)) = k) by (induction k; cbn; auto).
  assert (B : length (filter (fun b : bool => b) (repeat false (n - k))) = 0%nat) by (induction (n - k)%nat; cbn; auto).
  lia.
Qed.
Lemma trok_elim_low k n : forall t m already, mlev m t -> (m <= k)%nat -> trok (low k n) already t.
Proof.
  induction t as [|v w s IH]; intros m already L H; cbn [trok]; auto.
  destruct L as [L1 L2]. rewrite elim_low. destruct (Nat.ltb_spec v k); [|lia].
  split; apply (IH _ _ v); auto; lia.
Qed.
Lemma trok_low k n : forall t m, mlev m t -> trok (low k n) 0 t.
Proof.
  induction t as [|v w s IH]; intros m L; cbn [trok]; auto.
  destruct L as [L1 L2]. rewrite elim_low. destruct (Nat.ltb_spec v k).
  - split; apply (trok_elim_low k n _ v); auto; lia.
  - rewrite gone_low, ecount_low. split; [lia|]. intros i j. apply (IH _ _ v); auto.
Qed.
Lemma low_length k n : (k <= n)%nat -> length (low k n) = n.
Proof. intros. unfold low. rewrite app_length, !repeat_length. lia. Qed.

(* full trace: the normalised sum of the diagonal *)
Lemma kept_all n q : (q <= n)%nat -> kept (repeat true n) q = 0%nat.
Proof.
  induction q; intros H; cbn [kept]; auto. rewrite IHq, elim_all by lia. destruct (Nat.ltb_spec q n); lia.
Qed.
Lemma esum_all N n f x : (n <= N)%nat -> esum (repeat true N) n f x = (RtoC (/ 2 ^ n) * bsum n f x)%C.
Proof.
  revert x; induction n as [|n IH]; intros x H; cbn [esum bsum].
  - cbn [pow]. rewrite Rinv_1, RtoC_1. ring.
  - rewrite elim_all. destruct (Nat.ltb_spec n N); [|lia]. rewrite !IH by lia.
    cbn [pow]. rewrite Rinv_mult, RtoC_mul. ring.
Qed.
Lemma trace_spec n a x : mcanon n a -> trace a n = DOk (RtoC (/ 2 ^ n) * bsum n (fun b => meden n a b b) x)%C.
Proof.
  intros Ca. pose proof (mcanon_wf _ _ Ca) as L.
  destruct (partialTrace_spec (repeat true n) n a Ca) as (e & E & K & D); [rewrite repeat_length; auto|eapply trok_all; eauto|].
  assert (V : fst e = (RtoC (/ 2 ^ n) * bsum n (fun b => meden n a b b) x)%C).
  { specialize (D x x x). rewrite kept_all, esum_all in D by auto. unfold meden at 1 in D. cbn [mden] in D.
    transitivity (fst e * C1)%C; [ring|]. rewrite D. f_equal. apply bsum_ext. intros y. unfold meden. f_equal.
    apply mden_ext; intros q Hq; unfold ext; rewrite elim_all; destruct (Nat.ltb_spec q n); auto; lia. }
  unfold trace. destruct (snd a) as [|v ws s] eqn:Ea.
  - rewrite <- V. f_equal. unfold partialTrace in E. rewrite Ea in E. cbn [mtrace] in E.
    destruct (ezero (fst a)) eqn:Z; injection E as <-; auto. apply ezero_true in Z. rewrite Z. auto.
  - unfold partialTrace in E. rewrite Ea, repeat_length in E. rewrite E. cbn [dbind]. rewrite V. auto.
Qed.
