(* Kronecker products and traces. *)
From Coq Require Import Reals Lra Psatz List Bool Arith Lia FunctionalExtensionality.
From Verif Require Import Cplx Qsem DDModel DDSpec DDProofs DDCanonProofs DDOpsProofs DDGateProofs DDStateProofs DDMoreModel.
Import ListNotations.
Local Open Scope R_scope.

Definition shift (n : nat) (b : bits) : bits := fun k => b (n + k)%nat.
Lemma shift_0 b : shift 0 b = b. Proof. reflexivity. Qed.

(* ---- the top weight of a rebuilt canonical node ---------------------------------------------------- *)

Lemma vmk_top v e w k : vunit w -> k <> C0 -> (forall i, fst (e i) = (w i * k)%C) -> fst (vmk v e) = k.
Proof.
  intros [U (x & Px & X)] K E. unfold vmk, vmakeC. rewrite !azero_0, !E.
  assert (Z : forall i, ezero (w i * k) = ezero (w i)).
  { intros i. destruct (ezero (w i)) eqn:Z.
    - apply ezero_true in Z. rewrite Z. apply ezero_true. ring.
    - apply ezero_false in Z. apply ezero_false. apply Cmul_neq0; auto. }
  rewrite !Z.
  assert (S1 : forall y, 0 < y -> y * y = 1 -> y = 1) by (intros; nra).
  unfold vfirst in X.
  destruct (ezero (w false)) eqn:Z0.
  - apply ezero_true in Z0. rewrite Z0, Cnorm2_0 in *. destruct (ezero (w true)) eqn:Z1.
    + apply ezero_true in Z1. rewrite Z1, Cnorm2_0 in U. lra.
    + apply ezero_false in Z1. pose proof (Cnorm2_gt _ Z1). destruct Rle_dec; [lra|].
      rewrite X in *. rewrite Cnorm2_RtoC in U. cbn [fst]. rewrite ?E, ?X, (S1 x) by lra. rewrite RtoC_1; ring.
  - destruct (ezero (w true)) eqn:Z1.
    + apply ezero_true in Z1. rewrite Z1, Cnorm2_0 in *. pose proof (Cnorm2_pos (w false)). destruct Rle_dec; [|lra].
      rewrite X in *. rewrite Cnorm2_RtoC in U. cbn [fst]. rewrite ?E, ?X, (S1 x) by lra. rewrite RtoC_1; ring.
    + replace (fun i => fst (e i)) with (fun i => w i * k)%C by (apply functional_extensionality; auto).
      unfold vnorm_both. cbn [fst]. unfold vargmax. rewrite !Cnorm2_mul.
      pose proof (Cnorm2_gt _ K) as KP.
      assert (M : (if Rle_dec (Cnorm2 (w true) * Cnorm2 k) (Cnorm2 (w false) * Cnorm2 k + 0) then false else true) = vfirst w).
      { unfold vfirst. destruct (Rle_dec (Cnorm2 (w true)) (Cnorm2 (w false))) as [A|A], (Rle_dec (Cnorm2 (w true) * Cnorm2 k) (Cnorm2 (w false) * Cnorm2 k + 0)) as [B|B]; auto; exfalso; nra. }
      rewrite M. cbv beta. change (w (vfirst w) = RtoC x) in X. rewrite ?Cnorm2_mul, X, Cnorm2_RtoC.
      assert (T : x * x + Cnorm2 (w (negb (vfirst w))) = 1).
      { rewrite <- Cnorm2_RtoC, <- X. destruct (vfirst w); cbn [negb]; lra. }
      replace (x * x * Cnorm2 k + Cnorm2 (w (negb (vfirst w))) * Cnorm2 k) with (Cnorm2 k) by nra.
      rewrite sqrt_mult by nra. rewrite sqrt_square by lra.
      assert (SK : 0 < sqrt (Cnorm2 k)) by (apply sqrt_lt_R0; auto).
      transitivity (k * (RtoC x * RtoC (sqrt (Cnorm2 k) / (x * sqrt (Cnorm2 k)))))%C; [ring|].
      rewrite <- RtoC_mul. replace (x * (sqrt (Cnorm2 k) / (x * sqrt (Cnorm2 k)))) with 1 by (field; lra).
      rewrite RtoC_1; ring.
Qed.

Lemma before_trich p m : p <> m -> before p m = true \/ before m p = true.
Proof. destruct p as [[] []], m as [[] []]; cbn; auto; tauto. Qed.
Lemma before_irr p m : before p m = true -> before m p = false.
Proof. destruct p as [[] []], m as [[] []]; cbn; auto; discriminate. Qed.
Lemma mmk_top v e w k : munit w -> k <> C0 -> (forall i j, fst (e i j) = (w i j * k)%C) -> fst (mmk v e) = k.
Proof.
  intros (m & M1 & M) K E. unfold mmk, mmakeC.
  assert (FS : forall x, fst (skip_id x) = fst x).
  { intros [a t]. unfold skip_id; cbn [snd]. destruct t; auto. destruct mtree_eq_dec; auto.
    match goal with |- context [if ?b then _ else _] => destruct b end; auto. }
  rewrite FS. unfold mnormalize.
  set (z := fun i j => azero 0 (fst (e i j))). set (ww := fun i j => fst (e i j)).
  pose proof (margmax_first z ww) as F. pose proof (margmax_spec 0 z ww) as P.
  assert (Z1 : forall i j, z i j = true -> ww i j = C0).
  { unfold z, ww. intros i j. rewrite azero_0. apply ezero_true. }
  assert (Z2 : forall i j, z i j = false -> ww i j <> C0).
  { unfold z, ww. intros i j. rewrite azero_0. apply ezero_false. }
  specialize (F Z1 Z2). pose proof (Cnorm2_gt _ K) as KP.
  assert (NM : Cnorm2 (ww (fst m) (snd m)) = Cnorm2 k) by (unfold ww; rewrite E, M1; f_equal; ring).
  destruct (margmax 0 z ww) as [m'|].
  - cbn [fst]. assert (m' = m) as ->.
    { destruct (bool_dec (fst m') (fst m)) as [A|A], (bool_dec (snd m') (snd m)) as [B|B].
      1: { destruct m', m; cbn in *; congruence. }
      all: exfalso; assert (N : m' <> m) by (intros ->; tauto);
        specialize (F m); specialize (M m'); unfold better in F; rewrite NM in F; unfold ww in F; rewrite E, Cnorm2_mul in F;
        destruct (before_trich _ _ N) as [T|T]; rewrite T in *; rewrite (before_irr _ _ T) in *; nra. }
    change (ww (fst m) (snd m) = k). unfold ww. rewrite E, M1. ring.
  - exfalso. assert (Q : z (fst m) (snd m) = true) by apply P.
    apply Z1 in Q. rewrite Q, Cnorm2_0 in NM. lra.
Qed.

(* ---- vectors ------------------------------------------------------------------------------------------ *)

Lemma vshift_den t n b q v m w : vlev m w t -> (n + m <= q)%nat -> vden t (shift n (setb b q v)) = vden t (shift n b).
Proof.
  intros L H. apply (vden_ext t m w); auto. intros x Hx. unfold shift. rewrite setb_other; auto. lia.
Qed.

Definition VI (c : vktable) : Prop :=
  forall x y e, In (x, y, e) c -> forall m n wx wy, vcan m wx x -> vcan n wy y -> wx <> C0 -> wy <> C0 -> x <> VT -> y <> VT ->
    vcan (n + m) C1 (snd e) /\ forall b, vden (snd e) b = (vden x (shift n b) * vden y b)%C.
Lemma vkfind_in c x y e : vkfind c x y = Some e -> In (x, y, e) c.
Proof.
  induction c as [|[[x' y'] e'] c IH]; cbn; [discriminate|].
  destruct vtree_eq_dec as [->|]; [destruct vtree_eq_dec as [->|]|]; auto. intros [= ->]; auto.
Qed.

Lemma vkron_spec : forall x m wx c y n, vcan m wx x -> vcanon n y -> VI c ->
  let '(c', r) := vkron c wx x y true in
  VI c' /\ vcanon (n + m) r /\ fst r = (wx * fst y)%C /\
  forall b, veden r b = (wx * vden x (shift n b) * veden y b)%C.
Proof.
  assert (ZERO : forall (x : vtree) m n wx (y : vedge), ezero wx || ezero (fst y) = true ->
     vcanon (n + m) vzero /\ fst vzero = (wx * fst y)%C /\ forall b, veden vzero b = (wx * vden x (shift n b) * veden y b)%C).
  { intros x m n wx y H. split; [apply vcanon_zero|]. apply orb_true_iff in H.
    split; [cbn; destruct H as [H|H]; apply ezero_true in H; rewrite H; ring|].
    intros b. unfold veden; cbn. destruct H as [H|H]; apply ezero_true in H; rewrite H; ring. }
  induction x as [|v w t IH]; intros m wx c y n Hx Hy HI; cbn [vkron].
  - destruct (ezero wx || ezero (fst y)) eqn:Z; [split; [auto|]; apply (ZERO VT); auto|].
    apply orb_false_iff in Z as [Z1 Z2]. apply ezero_false in Z1, Z2.
    destruct Hx as [->|Hx]; [|tauto]. rewrite Nat.add_0_r. split; [auto|]. split.
    + unfold vcanon in *. cbn [fst snd]. apply (vcan_weight _ (fst y)); auto. apply Cmul_neq0; auto.
    + split; [auto|]. intros b. unfold veden; cbn [fst snd vden]. ring.
  - destruct (ezero wx || ezero (fst y)) eqn:Z; [split; [auto|]; apply (ZERO (VNode v w t)); auto|].
    apply orb_false_iff in Z as [Z1 Z2]. apply ezero_false in Z1, Z2.
    destruct (snd y) as [|vy wy ty] eqn:Ey.
    { unfold vcanon in Hy. rewrite Ey in Hy. destruct Hy as [->|Hy]; [|tauto]. split; [auto|]. split.
      - unfold vcanon; cbn [fst snd Nat.add]. apply (vcan_weight _ wx); auto. apply Cmul_neq0; auto.
      - split; [auto|]. intros b. rewrite shift_0. unfold veden. rewrite Ey. cbn [fst snd]. cbn [vden]. ring. }
    assert (Hy' : vcan n (fst y) (VNode vy wy ty)) by (unfold vcanon in Hy; rewrite Ey in Hy; auto).
    destruct (vkfind c (VNode v w t) (VNode vy wy ty)) as [e|] eqn:F.
    { apply vkfind_in in F. destruct (HI _ _ _ F m n wx (fst y)) as [A B]; auto; try discriminate.
      split; [auto|]. split; [|split; [auto|]].
      - unfold vcanon; cbn [fst snd]. apply (vcan_weight _ C1); auto using C1_neq_C0. apply Cmul_neq0; auto.
      - intros b. unfold veden at 1; cbn [fst snd]. rewrite B. unfold veden. rewrite Ey. ring. }
    destruct Hx as (_ & -> & U & Hx). pose proof Hy' as (_ & -> & _ & _).
    pose proof (IH false v (w false) c y (S vy) (Hx false) Hy HI) as I0.
    destruct (vkron c (w false) (t false) y true) as [c0 e0]. destruct I0 as (V0 & Ca0 & F0 & D0).
    pose proof (IH true v (w true) c0 y (S vy) (Hx true) Hy V0) as I1.
    destruct (vkron c0 (w true) (t true) y true) as [c1 e1]. destruct I1 as (V1 & Ca1 & F1 & D1).
    set (e := vmk (v + S vy) (v2 e0 e1)).
    assert (T : fst e = fst y). { apply (vmk_top _ _ w); auto. intros []; auto. }
    assert (Ce : vcanon (S vy + S v) e).
    { unfold e. replace (S vy + S v)%nat with (S (v + S vy)) by lia. apply vmk_canon.
      intros []; right; cbn [v2]; replace (v + S vy)%nat with (S vy + v)%nat by lia; auto. }
    assert (De : forall b, vden (snd e) b = (vden (VNode v w t) (shift (S vy) b) * vden (VNode vy wy ty) b)%C).
    { intros b. apply (Cmul_cancel_l (fst e)); [rewrite T; auto|].
      change (fst e * vden (snd e) b)%C with (veden e b). unfold e at 1. rewrite vmk_den.
      cbn [vden]. unfold shift at 1 2. replace (S vy + v)%nat with (v + S vy)%nat by lia.
      destruct (b (v + S vy)%nat); cbn [v2]; [rewrite D1|rewrite D0]; unfold veden; rewrite Ey; cbn [vden]; rewrite T; ring. }
    assert (Cn : vcan (S vy + S v) C1 (snd e)).
    { unfold vcanon in Ce. apply (vcan_weight _ (fst e)); auto using C1_neq_C0. rewrite T; auto. }
    split.
    + intros x' y' e' [Q|Q]; [|apply V1; auto]. injection Q as <- <- <-.
      intros m' n' wx' wy' Cx' Cy' Nx' Ny' _ _. destruct Cx' as (_ & -> & _). destruct Cy' as (_ & -> & _). auto.
    + split; [|split; [auto|]].
      * unfold vcanon; cbn [fst snd]. apply (vcan_weight _ C1); auto using C1_neq_C0. apply Cmul_neq0; auto.
      * intros b. unfold veden at 1; cbn [fst snd]. rewrite De. unfold veden. rewrite Ey. ring.
Qed.

(* ---- matrices -------------------------------------------------------------------------------------------- *)

Lemma mden_lift_many n t r c : mlev n t -> forall m,
  mden (n + m) t r c = (mden m MT (shift n r) (shift n c) * mden n t r c)%C.
Proof.
  intros L. induction m as [|m IH].
  - rewrite Nat.add_0_r. cbn. ring.
  - rewrite Nat.add_succ_r, mden_lift by (apply (mlev_mono n); auto; lia). rewrite IH. cbn [mden]. unfold shift at 3 4.
    destruct eqb; ring.
Qed.
(* the number of qubits the diagram y is taken to have *)
Definition width (K : nat) (y : mtree) : nat := match y with MT => K | MNode vy _ _ => S vy end.
Definition MI (K : nat) (c : mktable) : Prop :=
  forall x y e, In (x, y, e) c -> forall m wx wy, mcan m wx x -> mcan (width K y) wy y -> wx <> C0 -> wy <> C0 -> x <> MT ->
    mcan (width K y + m) C1 (snd e) /\
    forall r d, mden (width K y + m) (snd e) r d =
      (mden m x (shift (width K y) r) (shift (width K y) d) * mden (width K y) y r d)%C.
Lemma mkfind_in c x y e : mkfind c x y = Some e -> In (x, y, e) c.
Proof.
  induction c as [|[[x' y'] e'] c IH]; cbn; [discriminate|].
  destruct mtree_eq_dec as [->|]; [destruct mtree_eq_dec as [->|]|]; auto. intros [= ->]; auto.
Qed.
Lemma mden_shift_lift n m k x r d : mlev m x -> (m <= k)%nat ->
  mden k x (shift n r) (shift n d) = (mden (k - m) MT (shift (n + m) r) (shift (n + m) d) * mden m x (shift n r) (shift n d))%C.
Proof.
  intros L H. pose proof (mden_lift_many m x (shift n r) (shift n d) L (k - m)) as E.
  replace (m + (k - m))%nat with k in E by lia. rewrite E. f_equal. f_equal; apply functional_extensionality; intros q; unfold shift; f_equal; lia.
Qed.
Lemma mkron_spec K : forall x m wx c y n, mcan m wx x -> mcan n (fst y) (snd y) -> n = width K (snd y) -> MI K c ->
  let '(c', r) := mkron c wx x y n true in
  MI K c' /\ mcanon (n + m) r /\ fst r = (wx * fst y)%C /\
  forall b d, meden (n + m) r b d = (wx * mden m x (shift n b) (shift n d) * meden n y b d)%C.
Proof.
  assert (ZERO : forall (x : mtree) m n wx (y : medge), ezero wx || ezero (fst y) = true ->
     mcanon (n + m) mzero /\ fst mzero = (wx * fst y)%C /\
     forall b d, meden (n + m) mzero b d = (wx * mden m x (shift n b) (shift n d) * meden n y b d)%C).
  { intros x m n wx y H. split; [apply mcanon_T|]. apply orb_true_iff in H.
    split; [cbn; destruct H as [H|H]; apply ezero_true in H; rewrite H; ring|].
    intros b d. unfold meden; cbn [mzero fst]. destruct H as [H|H]; apply ezero_true in H; rewrite H; ring. }
  induction x as [|v w t IH]; intros m wx c y n Hx Hy Hn HI; cbn [mkron].
  - destruct (ezero wx || ezero (fst y)) eqn:Z; [split; [auto|]; apply (ZERO MT); auto|].
    apply orb_false_iff in Z as [Z1 Z2]. apply ezero_false in Z1, Z2.
    split; [auto|]. split.
    + unfold mcanon. cbn [fst snd]. apply (mcan_mono n); [lia|]. apply (mcan_weight _ (fst y)); auto. apply Cmul_neq0; auto.
    + split; [auto|]. intros b d. unfold meden; cbn [fst snd]. rewrite mden_lift_many by (eapply mcan_lev; eauto). ring.
  - destruct (ezero wx || ezero (fst y)) eqn:Z; [split; [auto|]; apply (ZERO (MNode v w t)); auto|].
    apply orb_false_iff in Z as [Z1 Z2]. apply ezero_false in Z1, Z2.
    destruct (mkfind c (MNode v w t) (snd y)) as [e|] eqn:F.
    { apply mkfind_in in F. destruct (HI _ _ _ F m wx (fst y)) as [A B]; auto; try discriminate; [rewrite <- Hn; auto|].
      rewrite <- Hn in A, B. split; [auto|]. split; [|split; [auto|]].
      - unfold mcanon; cbn [fst snd]. apply (mcan_weight _ C1); auto. apply Cmul_neq0; auto.
      - intros b d. unfold meden; cbn [fst snd]. rewrite B. ring. }
    pose proof Hx as (_ & Lv & U & NI & Hc).
    pose proof (IH false false v (w false false) c y n (Hc false false) Hy Hn HI) as I0.
    destruct (mkron c (w false false) (t false false) y n true) as [c0 e0]. destruct I0 as (V0 & Ca0 & F0 & D0).
    pose proof (IH false true v (w false true) c0 y n (Hc false true) Hy Hn V0) as I1.
    destruct (mkron c0 (w false true) (t false true) y n true) as [c1 e1]. destruct I1 as (V1 & Ca1 & F1 & D1).
    pose proof (IH true false v (w true false) c1 y n (Hc true false) Hy Hn V1) as I2.
    destruct (mkron c1 (w true false) (t true false) y n true) as [c2 e2]. destruct I2 as (V2 & Ca2 & F2 & D2).
    pose proof (IH true true v (w true true) c2 y n (Hc true true) Hy Hn V2) as I3.
    destruct (mkron c2 (w true true) (t true true) y n true) as [c3 e3]. destruct I3 as (V3 & Ca3 & F3 & D3).
    replace (match snd y with MT => (v + n)%nat | MNode vy _ _ => (v + S vy)%nat end) with (n + v)%nat
      by (rewrite Hn; destruct (snd y); cbn [width]; lia).
    set (e := mmk (n + v) (m4 e0 e1 e2 e3)).
    assert (T : fst e = fst y). { apply (mmk_top _ _ w); auto. intros [] []; auto. }
    assert (Ce : mcanon (S (n + v)) e).
    { unfold e. apply mmk_canon. intros [] []; right; auto. }
    assert (De : forall b d, mden (S (n + v)) (snd e) b d = (mden (S v) (MNode v w t) (shift n b) (shift n d) * mden n (snd y) b d)%C).
    { intros b d. apply (Cmul_cancel_l (fst e)); [rewrite T; auto|].
      change (fst e * mden (S (n + v)) (snd e) b d)%C with (meden (S (n + v)) e b d). unfold e at 1.
      rewrite mmk_den by (intros [] []; cbn [m4]; apply mcanon_wf; auto).
      rewrite mden_node. change (shift n b v) with (b (n + v)%nat). change (shift n d v) with (d (n + v)%nat).
      destruct (b (n + v)%nat), (d (n + v)%nat); cbn [m4]; rewrite ?D0, ?D1, ?D2, ?D3; unfold meden; rewrite T; ring. }
    assert (Cn : mcan (S (n + v)) C1 (snd e)).
    { unfold mcanon in Ce. apply (mcan_weight _ (fst e)); auto using C1_neq_C0. }
    assert (Full : forall k, (S v <= k)%nat -> mcan (n + k) C1 (snd e) /\ forall b d, mden (n + k) (snd e) b d =
       (mden k (MNode v w t) (shift n b) (shift n d) * mden n (snd y) b d)%C).
    { intros k Hk. split; [apply (mcan_mono (S (n + v))); auto; lia|]. intros b d.
      replace (n + k)%nat with (S (n + v) + (k - S v))%nat by lia.
      rewrite mden_lift_many by (eapply mcan_lev; eauto). rewrite De.
      rewrite (mden_shift_lift n (S v) k); [|apply mcan_lev in Hx; destruct Hx; split; auto|auto].
      replace (n + S v)%nat with (S (n + v)) by lia. ring. }
    split.
    + intros x' y' e' [Q|Q]; [|apply V3; auto]. injection Q as <- <- <-.
      intros m' wx' wy' Cx' _ Nx' _ _. rewrite <- Hn. apply Full. destruct Cx' as (_ & L & _). lia.
    + destruct (Full m Lv) as [G1 G2]. split; [|split; [auto|]].
      * unfold mcanon; cbn [fst snd]. apply (mcan_weight _ C1); auto. apply Cmul_neq0; auto.
      * intros b d. unfold meden; cbn [fst snd]. rewrite G2. ring.
Qed.
