(* Normalisation and makeDDNode preserve what the successors denote, and produce canonical nodes. *)
From Coq Require Import Reals Lra Psatz List Bool Arith Lia FunctionalExtensionality.
From Verif Require Import Cplx Qsem DDModel DDSpec.
Import ListNotations.
Local Open Scope R_scope.

Lemma ezero_true w : ezero w = true <-> w = C0.
Proof. unfold ezero; destruct Ceq_dec; split; auto; discriminate. Qed.
Lemma ezero_false w : ezero w = false <-> w <> C0.
Proof. unfold ezero; destruct Ceq_dec; split; auto; try discriminate; tauto. Qed.
Lemma ezero_0 : ezero C0 = true.
Proof. apply ezero_true; auto. Qed.
Lemma ezero_1 : ezero C1 = false.
Proof. apply ezero_false, C1_neq_C0. Qed.
Lemma eone_true w : eone w = true <-> w = C1.
Proof. unfold eone; destruct Ceq_dec; split; auto; discriminate. Qed.
Lemma azero_0 w : azero 0 w = ezero w.
Proof.
  unfold azero, ezero.
  destruct (Ceq_dec w C0) as [->|n]; cbn [fst snd C0].
  - rewrite !Rabs_R0. destruct Rle_dec; [auto|lra].
  - destruct Rle_dec as [A|]; auto. destruct Rle_dec as [B|]; auto.
    exfalso; apply n. apply Ceq; cbn [fst snd C0].
    + pose proof (Rabs_pos (fst w)). destruct (Req_dec (fst w) 0); auto.
      apply Rabs_pos_lt in H0; lra.
    + pose proof (Rabs_pos (snd w)). destruct (Req_dec (snd w) 0); auto.
      apply Rabs_pos_lt in H0; lra.
Qed.
Lemma azero_zero eps : 0 <= eps -> azero eps C0 = true.
Proof. intros. unfold azero; cbn [fst snd C0]. rewrite Rabs_R0. destruct Rle_dec; auto; lra. Qed.
Lemma azero_nz eps w : 0 <= eps -> azero eps w = false -> w <> C0.
Proof. intros H A ->. rewrite azero_zero in A; auto; discriminate. Qed.

Lemma Cnorm2_gt w : w <> C0 -> 0 < Cnorm2 w.
Proof.
  intros H. destruct (Cnorm2_pos w) as [A|A]; auto. symmetry in A. apply Cnorm2_zero in A; tauto.
Qed.
Lemma Cmul_1_l x : (C1 * x)%C = x. Proof. ring. Qed.
Lemma Cmul_0_l x : (C0 * x)%C = C0. Proof. ring. Qed.
Lemma Cmul_0_r x : (x * C0)%C = C0. Proof. ring. Qed.

(* ---- vectors -------------------------------------------------------------------------------- *)

Section both.
  Variables (eps : R) (v : nat) (w : bool -> C) (t : bool -> vtree).
  Hypothesis nz : forall i, w i <> C0.
  Let m := vargmax eps w.
  Let norm := sqrt (Cnorm2 (w m) + Cnorm2 (w (negb m))).
  Let mx := sqrt (Cnorm2 (w m)).
  Lemma mx_pos : 0 < mx.
  Proof. apply sqrt_lt_R0, Cnorm2_gt, nz. Qed.
  Lemma norm_pos : 0 < norm.
  Proof.
    apply sqrt_lt_R0. pose proof (Cnorm2_gt _ (nz m)). pose proof (Cnorm2_pos (w (negb m))). lra.
  Qed.
  Lemma top_nz : (w m * RtoC (norm / mx))%C <> C0.
  Proof.
    apply Cmul_neq0; auto. apply RtoC_neq0. pose proof mx_pos. pose proof norm_pos.
    apply Rgt_not_eq. apply Rdiv_lt_0_compat; auto.
  Qed.
  Lemma min_nz : (w (negb m) / (w m * RtoC (norm / mx)))%C <> C0.
  Proof. unfold Cdiv. apply Cmul_neq0; auto. apply Cinv_neq0, top_nz. Qed.

  Lemma vnorm_both_eq :
    vnorm_both eps v w t =
    ((w m * RtoC (norm / mx))%C,
     VNode v (fun i => (w i / (w m * RtoC (norm / mx)))%C) t).
  Proof.
    unfold vnorm_both. fold m. fold norm. fold mx. f_equal. f_equal.
    - apply functional_extensionality; intros i. destruct (eqb i m) eqn:E.
      + apply eqb_prop in E; subst i.
        pose proof mx_pos. pose proof norm_pos.
        assert (A : (RtoC (mx / norm) * RtoC (norm / mx))%C = C1).
        { rewrite <- RtoC_mul, <- RtoC_1. f_equal. field. lra. }
        apply (Cmul_cancel_l (w m * RtoC (norm / mx))%C); [apply top_nz|].
        transitivity (w m * (RtoC (mx / norm) * RtoC (norm / mx)))%C; [ring|]. rewrite A.
        field. repeat split; try apply nz; apply RtoC_neq0, Rgt_not_eq, Rdiv_lt_0_compat; auto.
      + assert (i = negb m) as -> by (destruct i, m; auto; discriminate). auto.
    - apply functional_extensionality; intros i. destruct (eqb i m) eqn:E.
      + apply eqb_prop in E; subst i; auto.
      + assert (i = negb m) as -> by (destruct i, m; auto; discriminate).
        destruct (ezero _) eqn:Z; auto. apply ezero_true in Z. destruct (min_nz Z).
  Qed.
  Lemma vnorm_both_den b : veden (vnorm_both eps v w t) b = (w (b v) * vden (t (b v)) b)%C.
  Proof.
    rewrite vnorm_both_eq. unfold veden; cbn [fst snd vden]. field.
    pose proof mx_pos; pose proof norm_pos.
    split; auto. apply RtoC_neq0, Rgt_not_eq, Rdiv_lt_0_compat; auto.
  Qed.
End both.

Lemma nz2 (w : bool -> C) : w false <> C0 -> w true <> C0 -> forall i, w i <> C0.
Proof. intros A B []; auto. Qed.

(* C11, vEdge *)
Lemma vmakeE_den eps v e b : veden (vmakeE eps v e) b = veden (e (b v)) b.
Proof.
  unfold vmakeE. destruct (ezero (fst (e false))) eqn:A; destruct (ezero (fst (e true))) eqn:B.
  - apply ezero_true in A, B. unfold veden, vzero; cbn [fst snd].
    destruct (b v); rewrite ?A, ?B; ring.
  - apply ezero_true in A. unfold veden; cbn [fst snd vden]. destruct (b v); rewrite ?A; ring.
  - apply ezero_true in B. unfold veden; cbn [fst snd vden]. destruct (b v); rewrite ?B; ring.
  - apply ezero_false in A, B.
    rewrite vnorm_both_den; auto. intros []; auto.
Qed.

(* C11, vCachedEdge: successors within the tolerance are dropped, the others are exact *)
Lemma vmakeC_den eps v e b : 0 <= eps ->
  veden (vmakeC eps v e) b = if azero eps (fst (e (b v))) then C0 else veden (e (b v)) b.
Proof.
  intros H. unfold vmakeC.
  destruct (azero eps (fst (e false))) eqn:A; destruct (azero eps (fst (e true))) eqn:B.
  - unfold veden, vzero; cbn [fst snd vden]. destruct (b v); rewrite ?A, ?B; ring.
  - unfold veden; cbn [fst snd vden]. destruct (b v); rewrite ?A, ?B; ring.
  - unfold veden; cbn [fst snd vden]. destruct (b v); rewrite ?A, ?B; ring.
  - pose proof (azero_nz _ _ H A). pose proof (azero_nz _ _ H B).
    rewrite vnorm_both_den; [|intros []; auto]. destruct (b v); rewrite ?A, ?B; auto.
Qed.
Lemma vmk_den v e b : veden (vmk v e) b = veden (e (b v)) b.
Proof.
  unfold vmk. rewrite vmakeC_den by lra. rewrite azero_0.
  destruct (ezero _) eqn:E; auto. apply ezero_true in E. unfold veden. rewrite E; ring.
Qed.
Lemma vmkE_den v e b : veden (vmkE v e) b = veden (e (b v)) b.
Proof. apply vmakeE_den. Qed.

(* the Edge and CachedEdge versions agree on proper edges *)
Definition vproper (e : vedge) : Prop := fst e = C0 -> snd e = VT.
Lemma vmkE_vmk v e : (forall i, vproper (e i)) -> vmkE v e = vmk v e.
Proof.
  intros P. unfold vmkE, vmk, vmakeE, vmakeC. rewrite !azero_0.
  destruct (ezero (fst (e false))) eqn:A; destruct (ezero (fst (e true))) eqn:B; auto.
  - apply ezero_true in A. pose proof (P false A). f_equal. f_equal.
    + apply functional_extensionality; intros []; auto.
    + apply functional_extensionality; intros []; auto.
  - apply ezero_true in B. pose proof (P true B). f_equal. f_equal.
    + apply functional_extensionality; intros []; auto.
    + apply functional_extensionality; intros []; auto.
Qed.

Lemma vcan_lev : forall t n w, vcan n w t -> vlev n w t.
Proof.
  induction t as [|q ws s IH]; intros n w H; cbn in *; auto.
  destruct H as (_ & A & _ & B). split; auto.
Qed.
Lemma vcanon_wf n e : vcanon n e -> vwf n e.
Proof. apply vcan_lev. Qed.
Lemma vcanon_proper n e : vcanon n e -> vproper e.
Proof.
  destruct e as [w [|q ws s]]; unfold vcanon, vproper; cbn; auto. intros (A & _) ->; tauto.
Qed.
Lemma vcanon_zero n : vcanon n vzero.
Proof. right; auto. Qed.
Lemma vcanon_one : vcanon 0 vone.
Proof. left; auto. Qed.
Lemma vcanon_scale n w t k : k <> C0 -> vcanon n (w, t) -> vcanon n ((k * w)%C, t).
Proof.
  unfold vcanon; destruct t; cbn; intros K.
  - intros [A|A]; auto. right; rewrite A; ring.
  - intros (A & B). split; auto using Cmul_neq0.
Qed.
Lemma vcan_weight n w w' t : vcan n w t -> w <> C0 -> w' <> C0 -> vcan n w' t.
Proof. destruct t; cbn; [intros [A|A]; tauto|tauto]. Qed.

Lemma vunit_both w : (forall i, w i <> C0) ->
  let m := vargmax 0 w in
  let top := (w m * RtoC (sqrt (Cnorm2 (w m) + Cnorm2 (w (negb m))) / sqrt (Cnorm2 (w m))))%C in
  vunit (fun i => (w i / top)%C).
Proof.
  intros nz m top.
  set (norm := sqrt (Cnorm2 (w m) + Cnorm2 (w (negb m)))) in *.
  set (mx := sqrt (Cnorm2 (w m))) in *.
  assert (MP : 0 < mx) by (apply sqrt_lt_R0, Cnorm2_gt, nz).
  assert (NP : 0 < norm).
  { apply sqrt_lt_R0. pose proof (Cnorm2_gt _ (nz m)). pose proof (Cnorm2_pos (w (negb m))). lra. }
  assert (TN : top <> C0).
  { apply Cmul_neq0; auto. apply RtoC_neq0, Rgt_not_eq, Rdiv_lt_0_compat; auto. }
  assert (N2 : norm * norm = Cnorm2 (w false) + Cnorm2 (w true)).
  { unfold norm. rewrite sqrt_sqrt.
    - destruct m; simpl; lra.
    - pose proof (Cnorm2_pos (w m)). pose proof (Cnorm2_pos (w (negb m))). lra. }
  assert (M2 : mx * mx = Cnorm2 (w m)) by (apply sqrt_sqrt, Cnorm2_pos).
  assert (T2 : Cnorm2 top = norm * norm).
  { unfold top. rewrite Cnorm2_mul, Cnorm2_RtoC, <- M2. field. lra. }
  assert (D : forall i, Cnorm2 (w i / top)%C = Cnorm2 (w i) / (norm * norm)).
  { intros i. assert (E : w i = (w i / top * top)%C) by (field; auto).
    rewrite E at 2. rewrite Cnorm2_mul, T2. field. lra. }
  assert (P : 0 < norm * norm) by nra.
  split.
  - rewrite !D. rewrite N2. field. rewrite <- N2. lra.
  - exists (mx / norm). split; [apply Rdiv_lt_0_compat; auto|].
    assert (F : vfirst (fun i => (w i / top)%C) = m).
    { unfold vfirst, m, vargmax. rewrite !D.
      destruct (Rle_dec (Cnorm2 (w true)) (Cnorm2 (w false) + 0)) as [A|A];
        destruct Rle_dec as [B|B]; auto; exfalso.
      - apply B. unfold Rdiv. apply Rmult_le_compat_r; [|lra].
        apply Rlt_le, Rinv_0_lt_compat; auto.
      - apply A. apply (Rmult_le_compat_r (norm * norm)) in B; [|lra].
        unfold Rdiv in B. rewrite !Rmult_assoc, Rinv_l in B by lra. lra. }
    rewrite F.
    apply (Cmul_cancel_l top); auto.
    transitivity (w m); [field; auto|].
    unfold top. rewrite <- (Cmul_1_l (w m)) at 1.
    assert (A : (RtoC (norm / mx) * RtoC (mx / norm))%C = C1).
    { rewrite <- RtoC_mul, <- RtoC_1. f_equal. field. lra. }
    rewrite <- A. ring.
Qed.

Lemma vunit_01 : vunit (fun i => if i then C1 else C0).
Proof.
  split; [rewrite Cnorm2_0, Cnorm2_1; lra|].
  exists 1; split; [lra|]. unfold vfirst. rewrite Cnorm2_0, Cnorm2_1.
  destruct Rle_dec; auto; lra.
Qed.
Lemma vunit_10 : vunit (fun i => if i then C0 else C1).
Proof.
  split; [rewrite Cnorm2_0, Cnorm2_1; lra|].
  exists 1; split; [lra|]. unfold vfirst. rewrite Cnorm2_0, Cnorm2_1.
  destruct Rle_dec; auto; lra.
Qed.

(* makeDDNode preserves canonicity *)
Lemma vmk_canon v e : (forall i, fst (e i) = C0 \/ vcanon v (e i)) -> vcanon (S v) (vmk v e).
Proof.
  intros H. unfold vmk, vmakeC. rewrite !azero_0.
  destruct (ezero (fst (e false))) eqn:A; destruct (ezero (fst (e true))) eqn:B.
  - apply vcanon_zero.
  - apply ezero_false in B. destruct (H true) as [|K]; [tauto|].
    unfold vcanon; cbn. split; [auto|]. split; [auto|]. split; [apply vunit_01|].
    intros []; [|right; auto]. eapply vcan_weight; eauto using C1_neq_C0.
  - apply ezero_false in A. destruct (H false) as [|K]; [tauto|].
    unfold vcanon; cbn. split; [auto|]. split; [auto|]. split; [apply vunit_10|].
    intros []; [right; auto|]. eapply vcan_weight; eauto using C1_neq_C0.
  - apply ezero_false in A, B.
    assert (nz : forall i, fst (e i) <> C0) by (intros []; auto).
    rewrite vnorm_both_eq; auto.
    unfold vcanon; cbn [fst snd vcan].
    split; [apply (top_nz 0 (fun i => fst (e i))); auto|]. split; [auto|].
    split; [apply (vunit_both (fun i => fst (e i))); auto|].
    intros i. destruct (H i) as [K|K]; [destruct (nz i K)|].
    eapply vcan_weight; [apply K|auto|].
    unfold Cdiv. apply Cmul_neq0; auto. apply Cinv_neq0. apply (top_nz 0 (fun i => fst (e i))); auto.
Qed.
Lemma vmk_wf v e : (forall i, fst (e i) = C0 \/ vwf v (e i)) -> vwf (S v) (vmk v e).
Proof.
  intros H.
  assert (W : forall i w', fst (e i) <> C0 -> vlev v w' (snd (e i))).
  { intros i w' Hi. destruct (H i) as [|K]; [tauto|]. unfold vwf in K. destruct (snd (e i)); cbn in *; tauto. }
  unfold vmk, vmakeC. rewrite !azero_0.
  destruct (ezero (fst (e false))) eqn:A; destruct (ezero (fst (e true))) eqn:B.
  - right; auto.
  - apply ezero_false in B. split; [auto|]. intros []; [auto|right; auto].
  - apply ezero_false in A. split; [auto|]. intros []; [right; auto|auto].
  - apply ezero_false in A, B.
    assert (nz : forall i, fst (e i) <> C0) by (intros []; auto).
    rewrite vnorm_both_eq; auto. unfold vwf; cbn [fst snd vlev]. split; auto.
Qed.

(* ---- matrices --------------------------------------------------------------------------------- *)

Lemma idx4_all ij : In ij idx4.
Proof. destruct ij as [[] []]; cbn; auto. Qed.

(* a diagram below level n is an identity factor on level n *)
Lemma mden_lift n t r c : mlev n t ->
  mden (S n) t r c = if eqb (r n) (c n) then mden n t r c else C0.
Proof.
  destruct t as [|q w s]; cbn [mden mlev]; auto. intros [A _].
  destruct (Nat.eqb_spec q n); [lia|auto].
Qed.
Lemma mlev_mono n m t : (n <= m)%nat -> mlev n t -> mlev m t.
Proof. destruct t; cbn; intros; auto. intuition lia. Qed.
Lemma mden_node n w s r c : mden (S n) (MNode n w s) r c = (w (r n) (c n) * mden n (s (r n) (c n)) r c)%C.
Proof. cbn [mden]. rewrite Nat.eqb_refl; auto. Qed.

(* margmax returns an entry that is not flagged zero, if there is one *)
Lemma argmax_some eps z w l : forall best,
  (forall b, best = Some b -> z (fst b) (snd b) = false) ->
  match fold_left (argmax_step eps z w) l best with
  | Some m => z (fst m) (snd m) = false
  | None => best = None /\ forall ij, In ij l -> z (fst ij) (snd ij) = true
  end.
Proof.
  induction l as [|p l IH]; intros best Hb; cbn [fold_left].
  - destruct best; [auto|]. split; [auto|]. intros ? [].
  - assert (Hs : forall b, argmax_step eps z w best p = Some b -> z (fst b) (snd b) = false).
    { unfold argmax_step. intros b. destruct (z (fst p) (snd p)) eqn:Z; auto.
      destruct best as [b0|]; [|intros E; injection E as <-; auto].
      destruct Rlt_dec; intros E; injection E as <-; auto. }
    specialize (IH _ Hs). destruct (fold_left _ l _); auto.
    destruct IH as [A B]. unfold argmax_step in A.
    destruct (z (fst p) (snd p)) eqn:Z.
    + split; auto. intros ij [<-|I]; auto.
    + destruct best; [destruct Rlt_dec; discriminate|discriminate].
Qed.
Lemma margmax_spec eps z w :
  match margmax eps z w with
  | Some m => z (fst m) (snd m) = false
  | None => forall i j, z i j = true
  end.
Proof.
  unfold margmax. pose proof (argmax_some eps z w idx4 None) as H.
  destruct (fold_left _ idx4 None).
  - apply H; discriminate.
  - destruct H as [_ H]; [discriminate|]. intros i j. apply (H (i, j)), idx4_all.
Qed.

Lemma skip_id_den n e r c : mwf n e -> meden n (skip_id e) r c = meden n e r c.
Proof.
  destruct e as [w0 [|q w t]]; unfold skip_id; cbn [fst snd]; auto.
  intros [Hq Hs]. destruct mtree_eq_dec as [E|]; auto.
  destruct (eone (w false false)) eqn:A; cbn [andb]; auto.
  destruct (ezero (w false true)) eqn:B; cbn [andb]; auto.
  destruct (ezero (w true false)) eqn:D; cbn [andb]; auto.
  destruct (eone (w true true)) eqn:F; auto.
  apply eone_true in A, F. apply ezero_true in B, D.
  unfold meden; cbn [fst snd]. f_equal.
  replace n with (n - S q + S q)%nat by lia. induction (n - S q)%nat as [|d IH]; cbn [Nat.add].
  - rewrite mden_node, mden_lift by auto.
    destruct (r q), (c q); cbn [eqb]; rewrite ?A, ?B, ?D, ?F, <- ?E; ring.
  - rewrite mden_lift by (eapply mlev_mono; [|apply Hs]; lia).
    rewrite mden_lift by (cbn; split; [lia|auto]). rewrite IH; auto.
Qed.

Lemma mnormalize_wf eps z v w t : (forall i j, mlev v (t i j)) -> mwf (S v) (mnormalize eps z v w t).
Proof.
  intros H. unfold mnormalize. destruct margmax; [|cbn; auto].
  unfold mwf; cbn [fst snd mlev]. split; [lia|]. intros i j.
  destruct (z i j); [exact Logic.I|]. destruct (eqb _ _ && _); auto. destruct ezero; cbn; auto.
Qed.
Lemma mnormalize_den eps z v w t r c :
  (forall i j, z i j = false -> w i j <> C0) ->
  meden (S v) (mnormalize eps z v w t) r c =
  if z (r v) (c v) then C0 else (w (r v) (c v) * mden v (t (r v) (c v)) r c)%C.
Proof.
  intros H. unfold mnormalize. pose proof (margmax_spec eps z w) as M.
  destruct (margmax eps z w) as [m|].
  - unfold meden; cbn [fst snd]. rewrite mden_node.
    set (i := r v) in *. set (j := c v) in *. destruct (z i j) eqn:Z; [ring|].
    pose proof (H _ _ M) as TN.
    destruct (eqb i (fst m) && eqb j (snd m)) eqn:E.
    + apply andb_prop in E as [E1 E2]. apply eqb_prop in E1, E2. rewrite <- E1, <- E2. ring.
    + destruct (ezero _) eqn:Q.
      * apply ezero_true in Q. exfalso. unfold Cdiv in Q.
        destruct (Cmul_zero _ _ Q) as [K|K]; [apply (H _ _ Z K)|].
        apply (Cinv_neq0 _ TN K).
      * field; auto.
  - rewrite M. unfold meden; cbn [fst snd mzero]. ring.
Qed.

Lemma skip_id_wf n e : mwf n e -> mwf n (skip_id e).
Proof.
  destruct e as [w0 [|q w t]]; unfold skip_id; cbn [fst snd]; auto.
  intros [A B]. destruct mtree_eq_dec; [|split; auto].
  destruct (_ && _); [|split; auto]. unfold mwf; cbn. eapply mlev_mono; [|apply B]; lia.
Qed.
Lemma mmakeE_wf eps v e : (forall i j, mwf v (e i j)) -> mwf (S v) (mmakeE eps v e).
Proof. intros H. apply skip_id_wf, mnormalize_wf, H. Qed.
Lemma mmakeC_wf eps v e : (forall i j, mwf v (e i j)) -> mwf (S v) (mmakeC eps v e).
Proof. intros H. apply skip_id_wf, mnormalize_wf, H. Qed.

(* C11, mEdge *)
Lemma mmakeE_den eps v e r c : (forall i j, mwf v (e i j)) ->
  meden (S v) (mmakeE eps v e) r c = meden v (e (r v) (c v)) r c.
Proof.
  intros H. unfold mmakeE. rewrite skip_id_den by (apply mnormalize_wf, H).
  rewrite mnormalize_den by (intros i j E; apply ezero_false; auto).
  destruct (ezero _) eqn:Z; auto. apply ezero_true in Z. unfold meden. rewrite Z; ring.
Qed.
(* C11, mCachedEdge *)
Lemma mmakeC_den eps v e r c : 0 <= eps -> (forall i j, mwf v (e i j)) ->
  meden (S v) (mmakeC eps v e) r c =
  if azero eps (fst (e (r v) (c v))) then C0 else meden v (e (r v) (c v)) r c.
Proof.
  intros P H. unfold mmakeC. rewrite skip_id_den by (apply mnormalize_wf, H).
  rewrite mnormalize_den by (intros i j E; eapply azero_nz; eauto). auto.
Qed.
Lemma mmk_den v e r c : (forall i j, mwf v (e i j)) ->
  meden (S v) (mmk v e) r c = meden v (e (r v) (c v)) r c.
Proof.
  intros H. unfold mmk. rewrite mmakeC_den by (auto; lra). rewrite azero_0.
  destruct (ezero _) eqn:Z; auto. apply ezero_true in Z. unfold meden. rewrite Z; ring.
Qed.
Lemma mmk_wf v e : (forall i j, mwf v (e i j)) -> mwf (S v) (mmk v e).
Proof. apply mmakeC_wf. Qed.
Lemma mmkE_mmk v e : mmakeE 0 v e = mmk v e.
Proof.
  unfold mmakeE, mmk, mmakeC. f_equal. f_equal. apply functional_extensionality; intros i.
  apply functional_extensionality; intros j. symmetry; apply azero_0.
Qed.

Lemma mcan_lev : forall t n w, mcan n w t -> mlev n t.
Proof.
  induction t as [|q ws s IH]; intros n w H; cbn in *; auto.
  destruct H as (_ & A & _ & _ & B). split; eauto.
Qed.
Lemma mcanon_wf n e : mcanon n e -> mwf n e.
Proof. apply mcan_lev. Qed.
Lemma mcanon_T n w : mcanon n (w, MT).
Proof. exact Logic.I. Qed.
Lemma mcan_weight n w w' t : mcan n w t -> w' <> C0 -> mcan n w' t.
Proof. destruct t; cbn; tauto. Qed.
Lemma mcan_mono n m w t : (n <= m)%nat -> mcan n w t -> mcan m w t.
Proof. destruct t; cbn; auto. intuition lia. Qed.

(* at tolerance zero margmax is the first maximum *)
Definition better (w : bool -> bool -> C) (p q : bool * bool) : Prop :=
  Cnorm2 (w (fst p) (snd p)) < Cnorm2 (w (fst q) (snd q)).
Lemma margmax_first z w :
  (forall i j, z i j = true -> w i j = C0) -> (forall i j, z i j = false -> w i j <> C0) ->
  match margmax 0 z w with
  | Some m => forall p, if before p m then better w p m else ~ better w m p
  | None => True
  end.
Proof.
  intros Z1 Z2. unfold margmax, idx4, better. cbn [fold_left].
  assert (P : forall i j, if z i j then Cnorm2 (w i j) = 0 else 0 < Cnorm2 (w i j)).
  { intros i j. destruct (z i j) eqn:E; [rewrite (Z1 _ _ E); apply Cnorm2_0|apply Cnorm2_gt; auto]. }
  unfold argmax_step; cbn [fst snd].
  pose proof (P false false) as P0. pose proof (P false true) as P1.
  pose proof (P true false) as P2. pose proof (P true true) as P3.
  destruct (z false false); destruct (z false true); destruct (z true false); destruct (z true true);
    repeat (match goal with |- context [Rlt_dec ?a ?b] => destruct (Rlt_dec a b) end; cbn [fst snd] in *);
    auto; intros [[] []]; cbn [before fst snd negb andb] in *; lra.
Qed.

Lemma mmk_canon v e : (forall i j, fst (e i j) = C0 \/ mcanon v (e i j)) -> mcanon (S v) (mmk v e).
Proof.
  intros H. unfold mmk, mmakeC.
  replace (fun i j => azero 0 (fst (e i j))) with (fun i j => ezero (fst (e i j)))
    by (apply functional_extensionality; intros i; apply functional_extensionality; intros j;
        symmetry; apply azero_0).
  set (z := fun i j => ezero (fst (e i j))). set (w := fun i j => fst (e i j)).
  set (t := fun i j => snd (e i j)).
  assert (Z1 : forall i j, z i j = true -> w i j = C0) by (intros i j; apply ezero_true).
  assert (Z2 : forall i j, z i j = false -> w i j <> C0) by (intros i j; apply ezero_false).
  assert (K : forall i j w', z i j = false -> w' <> C0 -> mcan v w' (t i j)).
  { intros i j w' E N. destruct (H i j) as [A|A]; [destruct (Z2 _ _ E A)|].
    eapply mcan_weight; [apply A|auto]. }
  unfold mnormalize. pose proof (margmax_spec 0 z w) as M. pose proof (margmax_first z w Z1 Z2) as F.
  destruct (margmax 0 z w) as [m|]; [|apply mcanon_T].
  pose proof (Z2 _ _ M) as TN.
  set (nw := fun i j => if z i j then C0 else if eqb i (fst m) && eqb j (snd m) then C1 else
              (w i j / w (fst m) (snd m))%C).
  assert (NW : forall i j, nw i j = (w i j / w (fst m) (snd m))%C).
  { intros i j. unfold nw. destruct (z i j) eqn:E; [rewrite (Z1 _ _ E); unfold Cdiv; ring|].
    destruct (eqb i (fst m) && eqb j (snd m)) eqn:Q; auto.
    apply andb_prop in Q as [Q1 Q2]. apply eqb_prop in Q1, Q2. subst. field; auto. }
  assert (NZ : forall i j, z i j = false -> nw i j <> C0).
  { intros i j E. rewrite NW. unfold Cdiv. apply Cmul_neq0; auto. apply Cinv_neq0; auto. }
  assert (NN : forall i j, Cnorm2 (nw i j) = Cnorm2 (w i j) / Cnorm2 (w (fst m) (snd m))).
  { intros i j. rewrite NW. assert (E : w i j = (w i j / w (fst m) (snd m) * w (fst m) (snd m))%C) by (field; auto).
    rewrite E at 2. rewrite Cnorm2_mul. field. apply Cnorm2_neq; auto. }
  pose proof (Cnorm2_gt _ TN) as TP.
  assert (U : munit nw).
  { exists m. split; [rewrite NW; field; auto|]. intros p. specialize (F p). rewrite !NN.
    unfold better in F. destruct (before p m).
    - apply (Rmult_lt_reg_r (Cnorm2 (w (fst m) (snd m)))); auto. unfold Rdiv.
      rewrite Rmult_assoc, Rinv_l by lra. lra.
    - apply (Rmult_le_reg_r (Cnorm2 (w (fst m) (snd m)))); auto. unfold Rdiv.
      rewrite Rmult_assoc, Rinv_l by lra. lra. }
  set (nt := fun i j => if z i j then MT else if eqb i (fst m) && eqb j (snd m) then t i j
              else if ezero (nw i j) then MT else t i j).
  assert (CH : forall i j, mcan v (nw i j) (nt i j)).
  { intros i j. unfold nt. destruct (z i j) eqn:E; [exact Logic.I|].
    destruct (_ && _); [apply K; auto|].
    destruct (ezero (nw i j)); [exact Logic.I|]. apply K; auto. }
  unfold skip_id. cbn [fst snd].
  assert (FIN : ~ mident nw nt -> mcanon (S v) (w (fst m) (snd m), MNode v nw nt)).
  { intros NI. unfold mcanon; cbn [fst snd mcan]. split; [auto|]. split; [lia|]. split; [auto|]. auto. }
  change (mcanon (S v)
    (if mtree_eq_dec (nt false false) (nt true true) then
       if eone (nw false false) && ezero (nw false true) && ezero (nw true false) && eone (nw true true)
       then (w (fst m) (snd m), nt false false) else (w (fst m) (snd m), MNode v nw nt)
     else (w (fst m) (snd m), MNode v nw nt))).
  destruct mtree_eq_dec as [E|E].
  - destruct (eone (nw false false) && ezero (nw false true) && ezero (nw true false) && eone (nw true true)) eqn:Q.
    + unfold mcanon; cbn [fst snd]. apply (mcan_mono v); [lia|].
      eapply mcan_weight; [apply CH|auto].
    + apply FIN. intros (A & B & D & G & _). apply eone_true in A, G. apply ezero_true in B, D.
      rewrite A, B, D, G in Q. discriminate.
  - apply FIN. intros (_ & _ & _ & _ & G). auto.
Qed.
