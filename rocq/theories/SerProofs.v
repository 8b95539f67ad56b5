(** Reading back what has been written. *)
From Coq Require Import Reals List Bool ZArith Arith Lia FunctionalExtensionality.
From Verif Require Import Cplx Qsem DDModel DDSpec DDProofs DDCanonProofs DDOpsProofs DDMoreModel DDTransferProofs SerModel.
Import ListNotations.
Local Open Scope Z_scope.

(** ** Vectors *)
Lemma vmk_id v w s : cnode (VNode v w s) -> vmk v (fun i => (w i, s i)) = (C1, VNode v w s).
Proof.
  intros N. apply cnode_inv in N as [Ca H]. apply (vcanon_unique (S v)).
  - apply vmk_canon. intros i. right. apply H.
  - exact Ca.
  - intros b. rewrite vmk_den. unfold veden. cbn [fst snd vden]. destruct (b v); ring.
Qed.
Lemma vmemi_cons m a k t : vmemi ((a, k) :: m) t = if vtree_eq_dec t a then true else vmemi m t.
Proof. unfold vmemi; cbn. destruct vtree_eq_dec; auto. Qed.
Lemma vmemi_find m t : vmemi m t = true -> exists k, vfindi m t = Some k.
Proof. unfold vmemi. destruct (vfindi m t); [eauto|discriminate]. Qed.

Definition vread (out : list vline) : vnodes * vedge := fold_left vread_line out (fun _ => None, (C0, VT)).
Lemma vread_snoc out l : vread (out ++ [l]) = vread_line (vread out) l.
Proof. unfold vread. now rewrite fold_left_app. Qed.

(** What has been written so far can be read back. *)
Record vgood (m : vindex) (next : Z) (out : list vline) : Prop := {
  vg_next : 0 <= next;
  vg_find : forall a k, vfindi m a = Some k -> 0 <= k < next /\ fst (vread out) k = Some a;
  vg_node : forall v w s, vmemi m (VNode v w s) = true -> cnode (VNode v w s) /\ forall i, s i = VT \/ vmemi m (s i) = true;
  vg_term : vmemi m VT = false
}.
Definition vreach (bin : bool) (s s' : vsstate) : Prop := exists n, vsiter bin n s = s'.
Lemma vsiter_add bin n : forall m s, vsiter bin (n + m) s = vsiter bin m (vsiter bin n s).
Proof. induction n as [|n IH]; intros m s; cbn; auto. Qed.
Lemma vreach_refl bin s : vreach bin s s. Proof. exists 0%nat; auto. Qed.
Lemma vreach_trans bin a b c : vreach bin a b -> vreach bin b c -> vreach bin a c.
Proof. intros [n A] [m B]. exists (n + m)%nat. now rewrite vsiter_add, A. Qed.
Lemma vreach_step bin a b c : vsstep bin a = b -> vreach bin b c -> vreach bin a c.
Proof. intros A [n B]. exists (S n). cbn. now rewrite A. Qed.

Lemma vwrite_ok bin m e : snd e = VT \/ vmemi m (snd e) = true -> (fst e = C0 -> snd e = VT) ->
  exists x, vwrite bin m e = (x, m) /\ forall nodes, (forall k, vfindi m (snd e) = Some k -> 0 <= k /\ nodes k = Some (snd e)) ->
    vedge_of nodes x = e.
Proof.
  destruct e as [w t]. cbn [fst snd]. intros H Z. unfold vwrite. cbn [fst snd].
  destruct (bin || negb (ezero w))%bool eqn:B.
  - unfold vref. destruct t as [|v w' s].
    + eexists. split; [reflexivity|]. intros nodes _. reflexivity.
    + destruct H as [H|H]; [discriminate|]. apply vmemi_find in H as [k K]. rewrite K.
      eexists. split; [reflexivity|]. intros nodes N. destruct (N k eq_refl) as [P Q]. cbn [vedge_of].
      destruct (Z.eqb_spec k (-2)); [lia|]. destruct (Z.eqb_spec k (-1)); [lia|]. now rewrite Q.
  - apply orb_false_iff in B as [_ B]. apply negb_false_iff, ezero_true in B. rewrite (Z B), B.
    eexists. split; [reflexivity|]. reflexivity.
Qed.
(** Writing a node all of whose successors are written. *)
Lemma vemit bin v w s st m next out : cnode (VNode v w s) -> vgood m next out ->
  (forall i, s i = VT \/ vmemi m (s i) = true) -> vmemi m (VNode v w s) = false ->
  exists l, let m1 := (VNode v w s, next) :: m in
  (let '(e0, m2) := vwrite bin m1 (w false, s false) in
   let '(e1, m3) := vwrite bin m2 (w true, s true) in
   vfinish st m3 (next + 1) (out ++ [{| vl_idx := next; vl_v := v; vl_e := fun i => if i then e1 else e0 |}]))
  = vfinish st m1 (next + 1) (out ++ [l])
  /\ vgood m1 (next + 1) (out ++ [l]) /\ snd (vread (out ++ [l])) = (C1, VNode v w s).
Proof.
  intros N G D M. cbv zeta. pose proof (cnode_inv _ _ _ N) as [Ca H].
  set (m1 := (VNode v w s, next) :: m).
  assert (D1 : forall i, s i = VT \/ vmemi m1 (s i) = true).
  { intros i. unfold m1. rewrite vmemi_cons. destruct (D i); auto. destruct vtree_eq_dec; auto. }
  assert (F1 : forall i nodes, (forall k, vfindi m (s i) = Some k -> nodes k = Some (s i)) -> s i <> VNode v w s ->
     forall k, vfindi m1 (s i) = Some k -> 0 <= k /\ nodes k = Some (s i)).
  { intros i nodes Q NE k. unfold m1. cbn [vfindi]. destruct vtree_eq_dec as [E|_]; [congruence|].
    intros K. split; [apply (vg_find _ _ _ G _ _ K)|auto]. }
  destruct (vwrite_ok bin m1 (w false, s false) (D1 false) (fun Z => proj1 (proj2 (H false)) Z)) as (x0 & E0 & R0).
  destruct (vwrite_ok bin m1 (w true, s true) (D1 true) (fun Z => proj1 (proj2 (H true)) Z)) as (x1 & E1 & R1).
  rewrite E0, E1. eexists. split; [reflexivity|].
  assert (NE : forall i, s i <> VNode v w s).
  { intros i E. destruct (s i) as [|v' w' s'] eqn:Es; [discriminate|]. destruct (H i) as (_ & _ & K). rewrite Es in K.
    destruct K as [_ K]; [discriminate|]. injection E as -> _ _. cbn in K. lia. }
  assert (RD : snd (vread (out ++ [{| vl_idx := next; vl_v := v; vl_e := fun i => if i then x1 else x0 |}])) = (C1, VNode v w s)
     /\ fst (vread (out ++ [{| vl_idx := next; vl_v := v; vl_e := fun i => if i then x1 else x0 |}])) =
        fun k => if k =? next then Some (VNode v w s) else fst (vread out) k).
  { rewrite vread_snoc. unfold vread_line. cbn [vl_idx vl_v vl_e]. destruct (Z.eqb_spec next (-1)) as [X|_]; [pose proof (vg_next _ _ _ G); lia|].
    replace (vmk v (fun i => vedge_of (fst (vread out)) (if i then x1 else x0))) with (C1, VNode v w s); [auto|].
    symmetry. etransitivity; [|apply vmk_id; auto]. f_equal. apply functional_extensionality. intros i.
    assert (Q : forall k, vfindi m (s i) = Some k -> fst (vread out) k = Some (s i)) by (intros k K; apply (vg_find _ _ _ G _ _ K)).
    destruct i; [rewrite R1|rewrite R0]; auto; apply F1; auto. }
  split; [|apply RD]. destruct RD as [_ RD]. pose proof (vg_next _ _ _ G). split.
  - lia.
  - intros a k. rewrite RD. unfold m1. cbn [vfindi]. destruct vtree_eq_dec as [->|_].
    + intros [= <-]. rewrite Z.eqb_refl. split; [lia|auto].
    + intros K. apply (vg_find _ _ _ G) in K as [K1 K2]. destruct (Z.eqb_spec k next); [lia|]. split; [lia|auto].
  - intros v' w' s' K. unfold m1 in K. rewrite vmemi_cons in K. destruct vtree_eq_dec as [E|_].
    + injection E as -> -> ->. auto.
    + apply (vg_node _ _ _ G) in K as [K1 K2]. split; auto. intros i. destruct (K2 i); auto. right. unfold m1. rewrite vmemi_cons.
      destruct vtree_eq_dec; auto.
  - unfold m1. rewrite vmemi_cons. destruct vtree_eq_dec; [discriminate|]. apply (vg_term _ _ _ G).
Qed.
Lemma vup_no_child bin v w s st m next out : Forall (fun x => x <> VT) st ->
  (s true = VT \/ vmemi m (s true) = true) ->
  vsstep bin (VUp (VNode v w s :: st) m next out) =
  if vmemi m (VNode v w s) then vfinish st m next out
  else
    let m1 := (VNode v w s, next) :: m in
    let '(e0, m2) := vwrite bin m1 (w false, s false) in
    let '(e1, m3) := vwrite bin m2 (w true, s true) in
    vfinish st m3 (next + 1) (out ++ [{| vl_idx := next; vl_v := v; vl_e := fun i => if i then e1 else e0 |}]).
Proof.
  intros F D. cbn [vsstep].
  assert (X : (if (ezero (w true) || vmemi m (s true))%bool then false
    else match st with [] => false | p :: _ => if vtree_eq_dec (s true) p then true else false end) = false).
  { destruct D as [E|E].
    - rewrite E. destruct (_ || _)%bool; auto. destruct st as [|p st]; auto. destruct vtree_eq_dec as [<-|]; auto.
      inversion F; subst; congruence.
    - rewrite E, orb_true_r. auto. }
  rewrite X. reflexivity.
Qed.
(** A leftover entry is popped without effect. *)
Lemma vleftover bin t st m next out : vgood m next out -> vmemi m t = true -> Forall (fun x => x <> VT) st ->
  vreach bin (vfinish (t :: st) m next out) (vfinish st m next out).
Proof.
  intros G M F. cbn [vfinish]. destruct t as [|v w s]; [rewrite (vg_term _ _ _ G) in M; discriminate|].
  eapply vreach_step; [|apply vreach_refl]. rewrite vup_no_child; auto. { now rewrite M. }
  apply (vg_node _ _ _ G _ _ _ M).
Qed.

Lemma vdown_spec bin : forall t st m next out, cnode t -> vgood m next out -> Forall (fun x => x <> VT) st ->
  exists m' next' out', vreach bin (VDown t st m next out) (vfinish st m' next' out') /\ vgood m' next' out' /\
    (forall a, vmemi m a = true -> vmemi m' a = true) /\ vmemi m' t = true /\
    (forall a, vmemi m' a = true -> vmemi m a = true \/ (height a <= height t)%nat) /\
    (vmemi m t = false -> snd (vread out') = (C1, t)).
Proof.
  induction t as [|v w s IH]; intros st m next out N G F; [destruct N; tauto|].
  pose proof (cnode_inv _ _ _ N) as [Ca H]. set (t := VNode v w s) in *.
  set (P := if (negb (match s true with VT => true | _ => false end) && negb (ezero (w true)) && negb (vmemi m (s true)))%bool then [s true] else []).
  assert (FT : Forall (fun x => x <> VT) (t :: P ++ st)).
  { constructor; [discriminate|]. apply Forall_app. split; auto. unfold P. destruct (s true); cbn; auto. destruct (_ && _)%bool; auto.
    constructor; auto. discriminate. }
  (* the first successor *)
  assert (A0 : exists m0 next0 out0, vreach bin (VDown t st m next out) (VUp (t :: P ++ st) m0 next0 out0) /\ vgood m0 next0 out0 /\
     (forall a, vmemi m a = true -> vmemi m0 a = true) /\ (s false = VT \/ vmemi m0 (s false) = true) /\
     (forall a, vmemi m0 a = true -> vmemi m a = true \/ (height a < height t)%nat)).
  { destruct (vtree_eq_dec (s false) VT) as [E|E].
    - exists m, next, out. split; [|auto 6]. apply (vreach_step bin _ (VDown (s false) (t :: P ++ st) m next out)); [reflexivity|]. eapply vreach_step; [|apply vreach_refl]. rewrite E. reflexivity.
    - destruct (H false) as (_ & _ & K). destruct (K E) as [K1 K2].
      destruct (IH false (t :: P ++ st) m next out K1 G FT) as (m0 & n0 & o0 & R & G0 & I0 & M0 & B0 & _).
      exists m0, n0, o0. split; [|split; [auto|split; [auto|split; [auto|]]]].
      + apply (vreach_step bin _ (VDown (s false) (t :: P ++ st) m next out)); [reflexivity|]. exact R.
      + intros a X. destruct (B0 a X) as [Y|Y]; auto. right. rewrite K2 in Y. cbn. lia. }
  destruct A0 as (m0 & n0 & o0 & R0 & G0 & I0 & D0 & B0).
  (* the second successor *)
  assert (A1 : exists m1 next1 out1 P', (P' = [] \/ P' = P) /\ vreach bin (VUp (t :: P ++ st) m0 n0 o0) (VUp (t :: P' ++ st) m1 next1 out1) /\
     vgood m1 next1 out1 /\ (forall a, vmemi m0 a = true -> vmemi m1 a = true) /\ (s true = VT \/ vmemi m1 (s true) = true) /\
     (forall a, vmemi m1 a = true -> vmemi m a = true \/ (height a < height t)%nat)).
  { destruct (vtree_eq_dec (s true) VT) as [E|E]; [exists m0, n0, o0, P; auto 8 using vreach_refl|].
    destruct (vmemi m0 (s true)) eqn:M1; [exists m0, n0, o0, P; auto 8 using vreach_refl|].
    destruct (H true) as (_ & KZ & K). destruct (K E) as [K1 K2].
    assert (WZ : ezero (w true) = false) by (apply ezero_false; intros X; apply E; auto).
    assert (EP : P = [s true]).
    { unfold P. rewrite WZ. destruct (vmemi m (s true)) eqn:X; [rewrite (I0 _ X) in M1; discriminate|]. destruct (s true); [congruence|reflexivity]. }
    assert (FT1 : Forall (fun x => x <> VT) (t :: st)) by (constructor; [discriminate|auto]).
    destruct (IH true (t :: st) m0 n0 o0 K1 G0 FT1) as (m1 & n1 & o1 & R & G1 & I1 & M1' & B1 & _).
    exists m1, n1, o1, []. split; [auto|split; [|split; [auto|split; [auto|split; [auto|]]]]].
    - rewrite EP. eapply vreach_step; [|exact R]. unfold t. cbn [vsstep app]. rewrite WZ, M1. cbn [orb].
      destruct vtree_eq_dec; [reflexivity|congruence].
    - intros a X. destruct (B1 a X) as [Y|Y]; [apply B0; auto|]. right. rewrite K2 in Y. cbn. lia. }
  destruct A1 as (m1 & n1 & o1 & P' & EP' & R1 & G1 & I1 & D1 & B1).
  assert (FP : Forall (fun x => x <> VT) (P' ++ st)).
  { destruct EP' as [->| ->]; auto. now inversion FT. }
  assert (MP : forall m2, (forall a, vmemi m1 a = true -> vmemi m2 a = true) -> Forall (fun x => vmemi m2 x = true) P').
  { intros m2 I2. destruct EP' as [->| ->]; auto. unfold P. destruct (_ && _)%bool eqn:X; auto. constructor; auto. apply I2.
    destruct D1 as [D1|D1]; auto. rewrite D1 in X. discriminate. }
  assert (CL : forall m2 n2 o2, vgood m2 n2 o2 -> Forall (fun x => vmemi m2 x = true) P' ->
     vreach bin (vfinish (P' ++ st) m2 n2 o2) (vfinish st m2 n2 o2)).
  { intros m2 n2 o2 G2 M2. clear EP' R1 MP. induction P' as [|p P' IHP]; [apply vreach_refl|].
    inversion M2; subst. inversion FP; subst. eapply vreach_trans; [apply vleftover; auto|]. apply IHP; auto. }
  assert (DD : forall i, s i = VT \/ vmemi m1 (s i) = true) by (intros [|]; [auto|destruct D0; auto]).
  pose proof (vup_no_child bin v w s (P' ++ st) m1 n1 o1 FP D1) as UP. fold t in UP.
  destruct (vmemi m1 t) eqn:M.
  - exists m1, n1, o1. split; [|split; [auto|split; [auto|split; [auto|split]]]].
    + eapply vreach_trans; [exact R0|]. eapply vreach_trans; [exact R1|]. eapply vreach_step; [exact UP|]. apply CL; auto.
    + intros a X. destruct (B1 a X); auto. right. lia.
    + intros X. exfalso. destruct (B1 t M) as [Y|Y]; [congruence|lia].
  - destruct (vemit bin v w s (P' ++ st) m1 n1 o1 N G1 DD M) as (l & E & G2 & RD). fold t in E, G2, RD.
    exists ((t, n1) :: m1), (n1 + 1), (o1 ++ [l]).
    assert (I2 : forall a, vmemi m1 a = true -> vmemi ((t, n1) :: m1) a = true) by (intros a X; rewrite vmemi_cons; destruct vtree_eq_dec; auto).
    split; [|split; [auto|split; [auto|split; [|split]]]].
    + eapply vreach_trans; [exact R0|]. eapply vreach_trans; [exact R1|]. eapply vreach_step; [exact UP|]. cbv zeta in E |- *. rewrite E. apply CL; auto.
    + rewrite vmemi_cons. destruct vtree_eq_dec; congruence.
    + intros a. rewrite vmemi_cons. destruct vtree_eq_dec as [->|_]; [auto|]. intros X. destruct (B1 a X); auto. right. lia.
    + intros _. exact RD.
Qed.
Lemma vgood_nil : vgood [] 0 [].
Proof. split; [lia|discriminate|discriminate|reflexivity]. Qed.
Lemma vserialize_ok bin n e : vcanon n e -> snd e <> VT ->
  exists lines, vserializes bin e lines /\ vdeserialize (fst e) lines = e.
Proof.
  destruct e as [c t]. cbn [fst snd]. intros Ca NT.
  assert (N : cnode t). { split; auto. exists n. destruct t; [tauto|]. destruct Ca as (W & X). split; [apply C1_neq_C0|exact X]. }
  destruct (vdown_spec bin t [] [] 0 [] N vgood_nil ltac:(constructor)) as (m' & n' & out & [k R] & _ & _ & _ & _ & RD).
  exists out. split.
  - unfold vserializes. cbn [snd]. destruct t; [tauto|]. exists k. exact R.
  - unfold vdeserialize. fold (vread out). rewrite RD by reflexivity. cbn [fst snd]. f_equal. ring.
Qed.
Lemma vsiter_done bin k out : vsiter bin k (VDone out) = VDone out. Proof. induction k; auto. Qed.
Lemma vserializes_unique bin e l l' : vserializes bin e l -> vserializes bin e l' -> l = l'.
Proof.
  unfold vserializes. destruct (snd e) as [|v w s]; [congruence|]. intros [a A] [b B].
  destruct (Nat.le_ge_cases a b) as [L|L].
  - replace b with (a + (b - a))%nat in B by lia. rewrite vsiter_add, A, vsiter_done in B. congruence.
  - replace a with (b + (a - b))%nat in A by lia. rewrite vsiter_add, B, vsiter_done in A. congruence.
Qed.

(** ** Matrices *)
Fixpoint msize (t : mtree) : nat :=
  match t with
  | MT => 0
  | MNode _ _ s => S (msize (s false false) + msize (s false true) + msize (s true false) + msize (s true true))
  end.
Definition mnode (t : mtree) : Prop := t <> MT /\ exists n, mcan n C1 t.
Lemma mnode_inv v w s : mnode (MNode v w s) -> mcan (S v) C1 (MNode v w s) /\
  forall i j, mcan v (w i j) (s i j) /\ (w i j = C0 -> s i j = MT) /\ (s i j <> MT -> mnode (s i j)).
Proof.
  intros [_ (n & Ca)]. destruct Ca as (W & Q & U & NI & H). split; [split; [auto|split; [lia|split; auto]]|].
  intros i j. specialize (H i j). split; [auto|split].
  - intros Z. rewrite Z in H. destruct (s i j); auto. destruct H; tauto.
  - intros N. split; auto. exists v. destruct (s i j) eqn:E; [tauto|]. apply (mcan_weight _ (w i j)); auto using C1_neq_C0.
Qed.
Lemma msize_child v w s i j : (msize (s i j) < msize (MNode v w s))%nat.
Proof. cbn [msize]. destruct i, j; lia. Qed.
Lemma mmk_id v w s : mnode (MNode v w s) -> mmk v (fun i j => (w i j, s i j)) = (C1, MNode v w s).
Proof.
  intros N. apply mnode_inv in N as [Ca H]. apply (mcanon_unique (S v)).
  - apply mmk_canon. intros i j. right. apply H.
  - exact Ca.
  - intros r c. rewrite mmk_den0 by (intros i j; right; apply H). unfold meden. cbn [fst snd].
    rewrite mden_node by auto. ring.
Qed.
Definition mmemi (m : mindex) (t : mtree) : bool := match mfindi m t with Some _ => true | None => false end.
Lemma mmemi_cons m a k t : mmemi ((a, k) :: m) t = if mtree_eq_dec t a then true else mmemi m t.
Proof. unfold mmemi; cbn. destruct mtree_eq_dec; auto. Qed.
Lemma mmemi_find m t : mmemi m t = true -> exists k, mfindi m t = Some k.
Proof. unfold mmemi. destruct (mfindi m t); [eauto|discriminate]. Qed.
Definition mread (out : list mline) : mnodes * medge := fold_left mread_line out (fun _ => None, (C0, MT)).
Lemma mread_snoc out l : mread (out ++ [l]) = mread_line (mread out) l.
Proof. unfold mread. now rewrite fold_left_app. Qed.
Record mgood (s : msstate) : Prop := {
  mg_next : 0 <= ms_next s;
  mg_find : forall a k, mfindi (ms_idx s) a = Some k -> 0 <= k < ms_next s /\ fst (mread (ms_out s)) k = Some a
}.
Lemma mwrite_ok bin m e : snd e = MT \/ mmemi m (snd e) = true -> (fst e = C0 -> snd e = MT) ->
  exists x, mwrite bin m e = (x, m) /\ forall nodes, (forall k, mfindi m (snd e) = Some k -> 0 <= k /\ nodes k = Some (snd e)) ->
    medge_of nodes x = e.
Proof.
  destruct e as [w t]. cbn [fst snd]. intros H Z. unfold mwrite. cbn [fst snd].
  destruct (bin || negb (ezero w))%bool eqn:B.
  - unfold mref. destruct t as [|v w' s].
    + eexists. split; [reflexivity|]. intros nodes _. reflexivity.
    + destruct H as [H|H]; [discriminate|]. apply mmemi_find in H as [k K]. rewrite K.
      eexists. split; [reflexivity|]. intros nodes N. destruct (N k eq_refl) as [P Q]. cbn [medge_of].
      destruct (Z.eqb_spec k (-2)); [lia|]. destruct (Z.eqb_spec k (-1)); [lia|]. now rewrite Q.
  - apply orb_false_iff in B as [_ B]. apply negb_false_iff, ezero_true in B. rewrite (Z B), B.
    eexists. split; [reflexivity|]. reflexivity.
Qed.
Lemma memit_ok bin v w u s : mnode (MNode v w u) -> mgood s ->
  (forall i j, u i j = MT \/ mmemi (ms_idx s) (u i j) = true) ->
  let s' := memit bin v w u s in
  mgood s' /\ ms_visited s' = ms_visited s /\ snd (mread (ms_out s')) = (C1, MNode v w u)
  /\ forall a, mmemi (ms_idx s') a = true <-> mmemi (ms_idx s) a = true \/ a = MNode v w u.
Proof.
  intros N G D. cbv zeta. unfold memit. pose proof (mnode_inv _ _ _ N) as [Ca H]. pose proof (mg_next _ G) as GN.
  set (n := MNode v w u) in *.
  assert (X : exists k m0 next, (match mfindi (ms_idx s) n with
      | Some k => (k, ms_idx s, ms_next s) | None => (ms_next s, (n, ms_next s) :: ms_idx s, ms_next s + 1) end) = (k, m0, next)
      /\ 0 <= k < next /\ ms_next s <= next /\ mfindi m0 n = Some k /\ (forall a, a <> n -> mfindi m0 a = mfindi (ms_idx s) a)
      /\ (forall a k', a <> n -> mfindi (ms_idx s) a = Some k' -> k' <> k)).
  { destruct (mfindi (ms_idx s) n) as [k|] eqn:K.
    - exists k, (ms_idx s), (ms_next s). pose proof (mg_find _ G _ _ K) as [K1 K2]. split; [auto|split; [lia|split; [lia|split; [auto|split; [auto|]]]]].
      intros a k' NE K' ->. apply (mg_find _ G) in K' as [_ K']. congruence.
    - exists (ms_next s), ((n, ms_next s) :: ms_idx s), (ms_next s + 1). split; [auto|split; [lia|split; [lia|split; [|split]]]].
      + cbn [mfindi]. destruct mtree_eq_dec; congruence.
      + intros a NE. cbn [mfindi]. destruct mtree_eq_dec; congruence.
      + intros a k' _ K'. apply (mg_find _ G) in K' as [K' _]. lia. }
  destruct X as (k & m0 & next & -> & K1 & K2 & K3 & K4 & K5).
  assert (NE : forall i j, u i j <> n).
  { intros i j E. pose proof (msize_child v w u i j) as L. fold n in L. rewrite E in L. lia. }
  assert (D0 : forall i j, u i j = MT \/ mmemi m0 (u i j) = true).
  { intros i j. destruct (D i j); auto. right. unfold mmemi. rewrite K4 by auto. exact H0. }
  assert (W : forall i j, exists x, mwrite bin m0 (w i j, u i j) = (x, m0) /\ medge_of (fst (mread (ms_out s))) x = (w i j, u i j)).
  { intros i j. destruct (mwrite_ok bin m0 (w i j, u i j) (D0 i j) (fun Z => proj1 (proj2 (H i j)) Z)) as (x & E & R).
    exists x. split; auto. apply R. cbn [snd]. intros k' K'. rewrite K4 in K' by auto. apply (mg_find _ G) in K' as [Q1 Q2]. split; [lia|auto]. }
  destruct (W false false) as (x00 & -> & R00). destruct (W false true) as (x01 & -> & R01).
  destruct (W true false) as (x10 & -> & R10). destruct (W true true) as (x11 & -> & R11).
  cbn [ms_visited ms_idx ms_next ms_out].
  set (l := {| ml_idx := k; ml_v := v; ml_e := fun i j => if i then (if j then x11 else x10) else (if j then x01 else x00) |}).
  assert (RD : mread (ms_out s ++ [l]) = (fun k' => if k' =? k then Some n else fst (mread (ms_out s)) k', (C1, n))).
  { rewrite mread_snoc. unfold mread_line. cbn [ml_idx ml_v ml_e l]. destruct (Z.eqb_spec k (-1)); [lia|].
    replace (mmk v _) with (C1, n); [reflexivity|]. symmetry. etransitivity; [|apply mmk_id; auto]. f_equal.
    apply functional_extensionality. intros [|]; apply functional_extensionality; intros [|]; auto. }
  split; [|split; [auto|split]].
  - split; cbn [ms_visited ms_idx ms_next ms_out]; [lia|]. intros a k' K'. rewrite RD. cbn [fst].
    destruct (mtree_eq_dec a n) as [->|Na].
    + rewrite K3 in K'. injection K' as <-. rewrite Z.eqb_refl. split; [lia|auto].
    + rewrite K4 in K' by auto. pose proof (K5 a k' Na K'). destruct (Z.eqb_spec k' k); [congruence|].
      apply (mg_find _ G) in K' as [Q1 Q2]. split; [lia|auto].
  - now rewrite RD.
  - intros a. unfold mmemi. destruct (mtree_eq_dec a n) as [->|Na].
    + rewrite K3. tauto.
    + rewrite K4 by auto. tauto.
Qed.

Lemma mvisited_in t s : mvisited t s = true <-> In t (ms_visited s).
Proof.
  unfold mvisited. rewrite existsb_exists. split.
  - intros (x & I & E). destruct mtree_eq_dec; [congruence|discriminate].
  - intros I. exists t. split; auto. destruct mtree_eq_dec; congruence.
Qed.
(** Visited nodes are written, or they are being worked on, above [t]. *)
Definition above (b : nat) (s : msstate) : Prop :=
  forall x, In x (ms_visited s) -> x = MT \/ mmemi (ms_idx s) x = true \/ (b <= msize x)%nat.
Definition grows (s s' : msstate) : Prop :=
  (forall a, mmemi (ms_idx s) a = true -> mmemi (ms_idx s') a = true) /\
  (forall x, In x (ms_visited s') -> In x (ms_visited s) \/ x = MT \/ mmemi (ms_idx s') x = true).
Lemma grows_refl s : grows s s. Proof. split; auto. Qed.
Lemma grows_trans a b c : grows a b -> grows b c -> grows a c.
Proof.
  intros [A1 A2] [B1 B2]. split; auto. intros x X. destruct (B2 x X) as [Y|Y]; auto. destruct (A2 x Y) as [Z|[Z|Z]]; auto.
Qed.
Lemma above_grows b s s' : above b s -> grows s s' -> above b s'.
Proof. intros A [G1 G2] x X. destruct (G2 x X) as [Y|[Y|Y]]; auto. destruct (A x Y) as [Z|[Z|Z]]; auto. Qed.

Lemma mser_ok bin : forall t s, mnode t -> mgood s -> above (msize t) s ->
  let s' := mser bin t s in
  mgood s' /\ grows s s' /\ mmemi (ms_idx s') t = true /\ snd (mread (ms_out s')) = (C1, t).
Proof.
  induction t as [|v w u IH]; intros s N G A; [destruct N; tauto|]. cbv zeta. cbn [mser].
  pose proof (mnode_inv _ _ _ N) as [Ca H].
  set (visit := fun i j (s : msstate) => if mvisited (u i j) s then s else mser bin (u i j) (mmark (u i j) s)).
  assert (V : forall i j s, mgood s -> above (msize (MNode v w u)) s ->
     mgood (visit i j s) /\ grows s (visit i j s) /\ (u i j = MT \/ mmemi (ms_idx (visit i j s)) (u i j) = true)).
  { clear s G A. intros i j s G A. unfold visit. pose proof (msize_child v w u i j) as L.
    destruct (mvisited (u i j) s) eqn:E.
    - split; auto. split; [apply grows_refl|]. apply mvisited_in in E. destruct (A _ E) as [X|[X|X]]; auto. lia.
    - destruct (mtree_eq_dec (u i j) MT) as [T|T].
      + rewrite T. cbn [mser]. split; [split; apply G|]. split; [split; cbn; auto|auto].
        intros x [<-|X]; auto.
      + destruct (H i j) as (_ & _ & K).
        assert (G' : mgood (mmark (u i j) s)) by (split; apply G).
        assert (A' : above (msize (u i j)) (mmark (u i j) s)).
        { intros x [<-|X]; [auto|]. destruct (A x X) as [Y|[Y|Y]]; auto. right. right. lia. }
        destruct (IH i j _ (K T) G' A') as (G1 & [R1 R2] & M1 & _). split; [auto|split; [|auto]]. split; [exact R1|].
        intros x X. destruct (R2 x X) as [[<-|Y]|Y]; auto. }
  destruct (V false false s G A) as (G1 & R1 & D1). set (s1 := visit false false s) in *.
  assert (A1 := above_grows _ _ _ A R1). destruct (V false true s1 G1 A1) as (G2 & R2 & D2). set (s2 := visit false true s1) in *.
  assert (A2 := above_grows _ _ _ A1 R2). destruct (V true false s2 G2 A2) as (G3 & R3 & D3). set (s3 := visit true false s2) in *.
  assert (A3 := above_grows _ _ _ A2 R3). destruct (V true true s3 G3 A3) as (G4 & R4 & D4). set (s4 := visit true true s3) in *.
  assert (R14 : grows s s4) by eauto using grows_trans.
  assert (DD : forall i j, u i j = MT \/ mmemi (ms_idx s4) (u i j) = true).
  { intros [|] [|]; auto.
    - destruct D3; auto. right. now apply R4.
    - destruct D2; auto. right. now apply R4, R3.
    - destruct D1; auto. right. now apply R4, R3, R2. }
  destruct (memit_ok bin v w u s4 N G4 DD) as (G5 & V5 & RD & M5). split; [auto|split; [|split; [apply M5; auto|auto]]].
  eapply grows_trans; [exact R14|]. split; [intros a X; apply M5; auto|]. intros x X. left. rewrite <- V5. exact X.
Qed.
Lemma mserialize_ok bin n e : mcanon n e -> snd e <> MT -> mdeserialize (fst e) (mserialize bin e) = e.
Proof.
  destruct e as [c t]. cbn [fst snd]. intros Ca NT.
  assert (N : mnode t). { split; auto. exists n. destruct t; [tauto|]. destruct Ca as (W & X). split; [apply C1_neq_C0|exact X]. }
  unfold mserialize. cbn [snd]. set (s0 := {| ms_visited := []; ms_idx := []; ms_next := 0; ms_out := [] |}).
  assert (G : mgood s0) by (split; cbn; [lia|discriminate]).
  assert (A : above (msize t) s0) by (intros x []).
  destruct (mser_ok bin t s0 N G A) as (_ & _ & _ & RD).
  unfold mdeserialize. fold (mread (ms_out (mser bin t s0))). rewrite RD. cbn [fst snd]. f_equal. ring.
Qed.
