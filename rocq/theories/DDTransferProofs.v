(* Transferring diagrams between packages. *)
From Coq Require Import Reals Lra Psatz List Bool Arith Lia FunctionalExtensionality.
From Verif Require Import Cplx Qsem DDModel DDSpec DDProofs DDCanonProofs DDOpsProofs DDGateProofs DDStateProofs DDMoreModel.
Import ListNotations.
Local Open Scope R_scope.

Notation vmem := (@tmem vtree vtree vtree_eq_dec).
Notation vfind := (@tfind vtree vtree vtree_eq_dec).
Notation vterm := (isterm vtree_eq_dec VT).
Notation vfinish := (@finish vtree vtree).
Notation vchild := (@has_child vtree vtree vtree_eq_dec).

Definition reach (s s' : @tstate vtree vtree) : Prop := exists n, vtiter n s = s'.
Lemma titer_add n : forall m s, vtiter (n + m) s = vtiter m (vtiter n s).
Proof. induction n as [|n IH]; intros m s; cbn; auto. Qed.
Lemma reach_refl s : reach s s. Proof. exists 0%nat; auto. Qed.
Lemma reach_trans a b c : reach a b -> reach b c -> reach a c.
Proof. intros [n A] [m B]. exists (n + m)%nat. rewrite titer_add, A. auto. Qed.
Lemma reach_step a b c : vtstep a = b -> reach b c -> reach a c.
Proof. intros A [n B]. exists (S n). cbn. change (vtiter n (vtstep a) = c). rewrite A; auto. Qed.

Definition height (t : vtree) : nat := match t with VT => 0 | VNode v _ _ => S v end.
(* a canonical node *)
Definition cnode (t : vtree) : Prop := t <> VT /\ exists n, vcan n C1 t.
Definition good (m : @tmap vtree vtree) : Prop :=
  forall a b, vfind m a = Some b -> a = b /\ cnode a /\
    forall e, In e (vsucc a) -> snd e <> VT -> fst e <> C0 -> vmem m (snd e) = true.

Lemma vmem_cons m a b t : vmem ((a, b) :: m) t = if vtree_eq_dec t a then true else vmem m t.
Proof. unfold tmem; cbn. destruct vtree_eq_dec; auto. Qed.
Lemma good_VT m : good m -> vmem m VT = false.
Proof.
  intros G. unfold tmem. destruct (vfind m VT) as [b|] eqn:F; auto. destruct (G _ _ F) as (_ & [N _] & _). congruence.
Qed.
Lemma good_find m t : good m -> vmem m t = true -> vfind m t = Some t.
Proof. intros G M. unfold tmem in M. destruct (vfind m t) as [b|] eqn:F; [|discriminate]. destruct (G _ _ F) as [-> _]; auto. Qed.
Lemma vterm_VT : vterm VT = true. Proof. unfold isterm. destruct vtree_eq_dec; congruence. Qed.
Lemma vterm_node t : t <> VT -> vterm t = false. Proof. unfold isterm. destruct vtree_eq_dec; congruence. Qed.

Lemma cnode_inv v w s : cnode (VNode v w s) -> vcan (S v) C1 (VNode v w s) /\
  forall i, vcan v (w i) (s i) /\ (w i = C0 -> s i = VT) /\ (s i <> VT -> cnode (s i) /\ height (s i) = v).
Proof.
  intros [_ (n & Ca)]. pose proof Ca as (_ & -> & U & H). split; [auto|]. intros i. split; [auto|].
  specialize (H i). split.
  - intros Z. rewrite Z in H. destruct (s i); auto. destruct H; tauto.
  - intros N. destruct (s i) as [|q w' s'] eqn:Es; [tauto|]. pose proof H as (W & Q & _).
    split; [|cbn; lia]. split; [discriminate|]. exists v. apply (vcan_weight _ (w i)); auto using C1_neq_C0.
Qed.
Lemma rebuild_id v w s : cnode (VNode v w s) ->
  vrebuild (VNode v w s) [(w false, s false); (w true, s true)] = (C1, VNode v w s).
Proof.
  intros N. apply cnode_inv in N as [Ca H]. apply (vcanon_unique (S v)).
  - apply vmkE_canon. intros []; apply H.
  - exact Ca.
  - intros b. cbn [vrebuild]. rewrite vmkE_den. unfold veden. cbn [fst snd vden].
    destruct (b v); cbn [v2 fst snd]; ring.
Qed.
(* one visit of a node whose successors are all mapped *)
Lemma build v w s st m root : cnode (VNode v w s) -> good m ->
  (forall i, s i = VT \/ vmem m (s i) = true) -> vchild [(w true, s true)] st m = Some false ->
  exists m', vtstep (Up (VNode v w s :: st) m root) =
      vfinish st m' (if vmem m (VNode v w s) then root else (C1, VNode v w s)) /\
    good m' /\ (forall a, vmem m a = true -> vmem m' a = true) /\ vmem m' (VNode v w s) = true /\
    (forall a, vmem m' a = true -> vmem m a = true \/ a = VNode v w s).
Proof.
  intros N G D HC. unfold vtstep. cbn [tstep vsucc tl]. rewrite HC.
  destruct (vmem m (VNode v w s)) eqn:M.
  - exists m. split; [auto|]. split; [auto|]. split; [auto|]. split; [auto|]. auto.
  - exists ((VNode v w s, VNode v w s) :: m).
    assert (MS : map_succ vtree_eq_dec VT VT [(w false, s false); (w true, s true)] m =
                 ([(w false, s false); (w true, s true)], m)).
    { assert (E : forall i l es, map_succ vtree_eq_dec VT VT l m = (es, m) ->
        map_succ vtree_eq_dec VT VT ((w i, s i) :: l) m = ((w i, s i) :: es, m)).
      { intros i l es E. cbn [map_succ fst snd]. destruct (D i) as [T|T].
        - rewrite T, vterm_VT, E. auto.
        - rewrite (good_find m _ G T). rewrite E. unfold isterm. destruct (vtree_eq_dec (s i) VT) as [->|]; auto. }
      apply E. apply E. auto. }
    rewrite MS, rebuild_id by auto. split; [auto|]. split; [|split; [|split]].
    + intros a b F. cbn [tfind] in F. destruct (vtree_eq_dec a (VNode v w s)) as [->|NE].
      * injection F as <-. split; [auto|]. split; [auto|]. intros e I NT NZ. rewrite vmem_cons.
        destruct vtree_eq_dec; auto. cbn in I. destruct I as [<-|[<-|[]]]; cbn [snd] in *.
        -- destruct (D false); [tauto|auto].
        -- destruct (D true); [tauto|auto].
      * destruct (G _ _ F) as (A & B & E). split; [auto|]. split; [auto|]. intros e I NT NZ. rewrite vmem_cons.
        destruct vtree_eq_dec; auto.
    + intros a A. rewrite vmem_cons. destruct vtree_eq_dec; auto.
    + rewrite vmem_cons. destruct vtree_eq_dec; congruence.
    + intros a. rewrite vmem_cons. destruct vtree_eq_dec; auto.
Qed.
(* a leftover stack entry whose node is mapped *)
Lemma leftover t st m root : good m -> vmem m t = true -> vchild (tl (vsucc t)) st m = Some false ->
  vtstep (Up (t :: st) m root) = vfinish st m root.
Proof. intros G M H. unfold vtstep. cbn [tstep]. change (vchild (@tl (C * vtree) (vsucc t)) st m = Some false) in H. rewrite H, M. auto. Qed.
Lemma leftover_child t st m : good m -> vmem m t = true -> st <> [] -> Forall (fun x => x <> VT) st ->
  vchild (tl (vsucc t)) st m = Some false.
Proof.
  intros G M NE F. pose proof (good_find _ _ G M) as Ft. destruct (G _ _ Ft) as (_ & Ct & Cl).
  destruct t as [|v w s]; [destruct Ct; tauto|]. cbn [vsucc tl has_child fst snd].
  destruct (ezero (w true)) eqn:Z; cbn [orb]; auto. apply ezero_false in Z.
  destruct (vmem m (s true)) eqn:Ms; auto. destruct st as [|p r]; [tauto|].
  destruct (vtree_eq_dec (s true) p) as [E|]; auto. exfalso. inversion F as [|? ? Np]; subst.
  assert (X : vmem m (s true) = true) by (apply (Cl (w true, s true)); [right; left; auto|cbn [snd]; congruence|auto]). congruence.
Qed.

Lemma down_spec : forall t st m root, cnode t -> good m -> st <> [] -> Forall (fun x => x <> VT) st ->
  exists m' root', reach (Down t st m root) (Up st m' root') /\ good m' /\
    (forall a, vmem m a = true -> vmem m' a = true) /\ vmem m' t = true /\
    (forall a, vmem m' a = true -> vmem m a = true \/ (height a <= height t)%nat).
Proof.
  induction t as [|v w s IH]; intros st m root N G NE F; [destruct N; tauto|].
  pose proof (cnode_inv _ _ _ N) as [Ca H].
  set (t := VNode v w s) in *. set (P := @pushed vtree vtree vtree_eq_dec VT vsucc m t).
  assert (FS : forall m r, vfinish st m r = Up st m r) by (intros; destruct st; [tauto|auto]).
  assert (PP : P = if negb (vterm (s true)) && negb (ezero (w true)) && negb (vmem m (s true)) then [s true] else []).
  { unfold P, pushed. cbn [t vsucc tl filter fst snd]. destruct (_ && _); auto. }
  assert (FP : Forall (fun x => x <> VT) (t :: P ++ st)).
  { constructor; [discriminate|]. apply Forall_app. split; auto. rewrite PP.
    destruct (vterm (s true)) eqn:T; cbn; auto. destruct (_ && _); repeat constructor.
    intros E. rewrite E, vterm_VT in T. discriminate. }
  (* the first successor *)
  assert (L : exists m1 root1, reach (Down t st m root) (Up (t :: P ++ st) m1 root1) /\ good m1 /\
     (forall a, vmem m a = true -> vmem m1 a = true) /\ (s false = VT \/ vmem m1 (s false) = true) /\
     (forall a, vmem m1 a = true -> vmem m a = true \/ (height a < height t)%nat)).
  { assert (S1 : vtstep (Down t st m root) = Down (s false) (t :: P ++ st) m root).
    { unfold vtstep. cbn [tstep]. rewrite vterm_node by discriminate. cbn [t vsucc snd]. auto. }
    destruct (vtree_eq_dec (s false) VT) as [T|T].
    - exists m, root. split; [|auto]. eapply reach_step; [exact S1|]. eapply reach_step; [|apply reach_refl].
      rewrite T. unfold vtstep. cbn [tstep]. rewrite vterm_VT. auto.
    - destruct (proj2 (proj2 (H false)) T) as [C0' Hh].
      destruct (IH false (t :: P ++ st) m root) as (m1 & r1 & R & G1 & I1 & M1 & B1); auto; try discriminate.
      exists m1, r1. split; [eapply reach_step; eauto|]. split; [auto|]. split; [auto|]. split; [auto|].
      intros a A. destruct (B1 a A) as [|B]; auto. right. cbn [t height]. lia. }
  destruct L as (m1 & r1 & R1 & G1 & I1 & D0 & B1).
  assert (BT : forall a, (height a < height t)%nat \/ a = t -> (height a <= height t)%nat) by (intros a [ | -> ]; lia).
  (* all successors available *)
  assert (FIN : s true = VT \/ vmem m1 (s true) = true ->
    vchild [(w true, s true)] (P ++ st) m1 = Some false ->
    exists m' root', reach (Up (t :: P ++ st) m1 r1) (Up st m' root') /\ good m' /\
      (forall a, vmem m1 a = true -> vmem m' a = true) /\ vmem m' t = true /\
      (forall a, vmem m' a = true -> vmem m1 a = true \/ a = t)).
  { intros D1 HC. destruct (build v w s (P ++ st) m1 r1 N G1) as (m' & S1 & G' & I' & M' & B').
    { intros []; auto. } { auto. }
    rewrite PP in *. destruct (negb (vterm (s true)) && negb (ezero (w true)) && negb (vmem m (s true))) eqn:PB.
    - apply andb_true_iff in PB as [PB _]. apply andb_true_iff in PB as [PB _]. apply negb_true_iff in PB.
      destruct D1 as [D1|D1]; [rewrite D1, vterm_VT in PB; discriminate|].
      exists m'. eexists. split; [|auto]. eapply reach_step; [exact S1|]. cbn [app finish].
      eapply reach_step; [|apply reach_refl]. rewrite leftover; [apply FS|auto|auto|apply leftover_child; auto].
    - exists m'. eexists. split; [|auto]. eapply reach_step; [exact S1|]. cbn [app]. rewrite FS. apply reach_refl. }
  assert (DONE : s true = VT \/ vmem m1 (s true) = true -> vchild [(w true, s true)] (P ++ st) m1 = Some false ->
    exists m' root', reach (Down t st m root) (Up st m' root') /\ good m' /\
      (forall a, vmem m a = true -> vmem m' a = true) /\ vmem m' t = true /\
      (forall a, vmem m' a = true -> vmem m a = true \/ (height a <= height t)%nat)).
  { intros D1 HC. destruct (FIN D1 HC) as (m' & root' & R & G' & I' & M' & B').
    exists m', root'. split; [eapply reach_trans; eauto|]. split; [auto|]. split; [auto|]. split; [auto|].
    intros a A. destruct (B' a A) as [X|X]; [destruct (B1 a X); auto; right; lia|right; auto]. }
  destruct (ezero (w true)) eqn:Z.
  { apply DONE; [left; apply (H true), ezero_true; auto|]. cbn [has_child fst snd]. rewrite Z. auto. }
  destruct (vmem m1 (s true)) eqn:M1.
  { apply DONE; [auto|]. cbn [has_child fst snd]. rewrite M1, orb_true_r. auto. }
  destruct (vtree_eq_dec (s true) VT) as [T|T].
  { apply DONE; [auto|]. cbn [has_child fst snd]. rewrite Z, M1. cbn [orb].
    destruct (P ++ st) as [|p q] eqn:Q; [apply app_eq_nil in Q as [_ ->]; tauto|].
    inversion FP as [|? ? _ FQ]; subst. inversion FQ; subst. destruct vtree_eq_dec; congruence. }
  (* the second successor still has to be visited *)
  assert (MF : vmem m (s true) = false).
  { destruct (vmem m (s true)) eqn:X; auto. apply I1 in X. congruence. }
  rewrite vterm_node, MF in PP by auto. cbn [negb andb] in PP.
  assert (S2 : vtstep (Up (t :: P ++ st) m1 r1) = Down (s true) (t :: st) m1 r1).
  { rewrite PP. unfold vtstep. cbn [tstep t vsucc tl has_child fst snd app]. rewrite Z, M1. cbn [orb].
    destruct vtree_eq_dec; [auto|congruence]. }
  destruct (proj2 (proj2 (H true)) T) as [C1' Hh].
  destruct (IH true (t :: st) m1 r1) as (m2 & r2 & R2 & G2 & I2 & M2 & B2); auto; [discriminate|constructor; [discriminate|auto]|].
  destruct (build v w s st m2 r2 N G2) as (m' & S3 & G' & I' & M' & B').
  { intros []; [auto|]. destruct D0; auto. }
  { cbn [has_child fst snd]. rewrite M2, orb_true_r. auto. }
  exists m'. eexists. split.
  { eapply reach_trans; [exact R1|]. eapply reach_step; [exact S2|]. eapply reach_trans; [exact R2|].
    eapply reach_step; [exact S3|]. rewrite FS. apply reach_refl. }
  split; [auto|]. split; [auto|]. split; [auto|].
  intros a A. destruct (B' a A) as [X|X]; [|right; auto].
  destruct (B2 a X) as [Y|Y]; [destruct (B1 a Y); auto; right; lia|right; cbn [t height]; lia].
Qed.

Lemma good_nil : good []. Proof. intros a b F. discriminate. Qed.
Lemma no_tall m t : (forall a, vmem m a = true -> (height a < height t)%nat) -> vmem m t = false.
Proof. intros H. destruct (vmem m t) eqn:M; auto. apply H in M. lia. Qed.

(* the whole run: the node itself is rebuilt, or the top of an empty stack is read *)
Lemma transfer_run v w s : cnode (VNode v w s) ->
  reach (Down (VNode v w s) [] [] vzero) (Done (C1, VNode v w s)) \/
  (reach (Down (VNode v w s) [] [] vzero) Stuck /\ w true <> C0 /\ (v <= 1)%nat).
Proof.
  intros N. pose proof (cnode_inv _ _ _ N) as [Ca H]. set (t := VNode v w s) in *.
  set (P := @pushed vtree vtree vtree_eq_dec VT vsucc [] t).
  assert (PP : P = if negb (vterm (s true)) && negb (ezero (w true)) then [s true] else []).
  { unfold P, pushed. cbn [t vsucc tl filter fst snd tmem tfind negb]. rewrite andb_true_r. destruct (_ && _); auto. }
  assert (FP : Forall (fun x => x <> VT) (t :: P)).
  { constructor; [discriminate|]. rewrite PP. destruct (vterm (s true)) eqn:T; cbn [negb andb]; auto.
    destruct (ezero (w true)); cbn [negb]; auto. constructor; auto.
    intros E. rewrite E, vterm_VT in T. discriminate. }
  assert (L : exists m1 root1, reach (Down t [] [] vzero) (Up (t :: P) m1 root1) /\ good m1 /\
     (s false = VT \/ vmem m1 (s false) = true) /\
     (forall a, vmem m1 a = true -> (height a < height t)%nat)).
  { assert (S1 : vtstep (Down t [] [] vzero) = Down (s false) (t :: P) [] vzero).
    { unfold vtstep. cbn [tstep]. rewrite vterm_node by discriminate. cbn [t vsucc snd]. unfold P.
      rewrite app_nil_r. auto. }
    destruct (vtree_eq_dec (s false) VT) as [T|T].
    - exists [], vzero. split; [|split; [apply good_nil|split; [auto|intros a A; discriminate]]].
      eapply reach_step; [exact S1|]. eapply reach_step; [|apply reach_refl].
      rewrite T. unfold vtstep. cbn [tstep]. rewrite vterm_VT. auto.
    - destruct (proj2 (proj2 (H false)) T) as [C0' Hh].
      destruct (down_spec (s false) (t :: P) [] vzero) as (m1 & r1 & R & G1 & I1 & M1 & B1); auto using good_nil; [discriminate|].
      exists m1, r1. split; [eapply reach_step; eauto|]. split; [auto|]. split; [auto|].
      intros a A. destruct (B1 a A) as [B|B]; [discriminate|]. cbn [t height]. lia. }
  destruct L as (m1 & r1 & R1 & G1 & D0 & B1). pose proof (no_tall m1 t B1) as NT.
  destruct (ezero (w true)) eqn:Z.
  { left. destruct (build v w s [] m1 r1 N G1) as (m' & S1 & _).
    { intros []; [left; apply (H true), ezero_true; auto|auto]. }
    { cbn [has_child fst snd]. rewrite Z. auto. }
    rewrite andb_false_r in PP. rewrite PP in R1.
    eapply reach_trans; [exact R1|]. eapply reach_step; [exact S1|]. fold t. rewrite NT. apply reach_refl. }
  apply ezero_false in Z as NZ.
  destruct (vtree_eq_dec (s true) VT) as [T|T].
  { right. rewrite T, vterm_VT in PP. cbn [negb andb] in PP. rewrite PP in R1. split; [|split; [auto|]].
    - eapply reach_trans; [exact R1|]. eapply reach_step; [|apply reach_refl].
      unfold vtstep. cbn [tstep t vsucc tl has_child fst snd]. rewrite Z, T, (good_VT m1 G1). auto.
    - destruct (H true) as (V & _). rewrite T in V. destruct V as [->|]; [lia|tauto]. }
  rewrite vterm_node in PP by auto. cbn [negb andb] in PP.
  destruct (proj2 (proj2 (H true)) T) as [C1' Hh].
  destruct (vmem m1 (s true)) eqn:M1.
  - (* a leftover entry remains below the root *)
    destruct (build v w s P m1 r1 N G1) as (m' & S1 & G' & I' & M' & B').
    { intros []; auto. } { cbn [has_child fst snd]. rewrite M1, orb_true_r. auto. }
    fold t in S1. rewrite NT, PP in S1. cbn [finish] in S1. rewrite PP in R1.
    assert (R2 : reach (Down t [] [] vzero) (Up [s true] m' (C1, t))).
    { eapply reach_trans; [exact R1|]. eapply reach_step; [exact S1|]. apply reach_refl. }
    assert (Ms : vmem m' (s true) = true) by auto.
    destruct (vchild (tl (vsucc (s true))) [] m') as [[]|] eqn:HC.
    + exfalso. destruct (s true) as [|v' w' s']; [tauto|]. cbn [vsucc tl has_child] in HC. destruct (_ || _); discriminate.
    + left. eapply reach_trans; [exact R2|]. eapply reach_step; [apply leftover; auto|]. apply reach_refl.
    + right. split; [|split; [auto|]].
      * eapply reach_trans; [exact R2|]. eapply reach_step; [|apply reach_refl].
        unfold vtstep. cbn [tstep].
        change (vchild (@tl (C * vtree) (vsucc (s true))) [] m' = None) in HC. rewrite HC. auto.
      * destruct (s true) as [|v' w' s'] eqn:Es; [tauto|]. cbn [vsucc tl has_child fst snd] in HC.
        destruct (ezero (w' true)) eqn:Z'; cbn [orb] in HC; [discriminate|]. destruct (vmem m' (s' true)) eqn:M2; [discriminate|].
        apply ezero_false in Z'.
        pose proof (good_find _ _ G' Ms) as Ft. destruct (G' _ _ Ft) as (_ & _ & Cl).
        destruct (vtree_eq_dec (s' true) VT) as [T'|T'].
        -- apply cnode_inv in C1' as [_ C']. destruct (C' true) as (V & _). rewrite T' in V. cbn in Hh.
           destruct V as [V|V]; [lia|tauto].
        -- assert (X : vmem m' (s' true) = true) by (apply (Cl (w' true, s' true)); [right; left; auto|auto|auto]). congruence.
  - left.
    assert (S2 : vtstep (Up (t :: P) m1 r1) = Down (s true) [t] m1 r1).
    { rewrite PP. unfold vtstep. cbn [tstep t vsucc tl has_child fst snd]. rewrite Z, M1. cbn [orb].
      destruct vtree_eq_dec; [auto|congruence]. }
    destruct (down_spec (s true) [t] m1 r1) as (m2 & r2 & R2 & G2 & I2 & M2 & B2); auto; [discriminate|constructor; [discriminate|auto]|].
    destruct (build v w s [] m2 r2 N G2) as (m' & S3 & _).
    { intros []; [auto|]. destruct D0; auto. }
    { cbn [has_child fst snd]. rewrite M2, orb_true_r. auto. }
    assert (NT2 : vmem m2 t = false).
    { apply no_tall. intros a A. destruct (B2 a A) as [Y|Y]; [auto|cbn [t height]; lia]. }
    eapply reach_trans; [exact R1|]. eapply reach_step; [exact S2|]. eapply reach_trans; [exact R2|].
    eapply reach_step; [exact S3|]. fold t. rewrite NT2. apply reach_refl.
Qed.

Lemma vtransfer_spec n e : vcanon n e -> vtransfers e e \/ (vtransfer_ub e /\ (n <= 2)%nat).
Proof.
  intros H. destruct e as [w0 [|v w s]]; [left; cbn; auto|].
  unfold vcanon in H; cbn [fst snd] in H. pose proof H as (W & -> & _).
  assert (N : cnode (VNode v w s)) by (split; [discriminate|exists (S v); apply (vcan_weight _ w0); auto using C1_neq_C0]).
  destruct (transfer_run v w s N) as [[k R]|[[k R] [_ L]]].
  - left. unfold vtransfers; cbn [fst snd]. exists k. eexists. split; [exact R|]. cbn [fst snd].
    replace (w0 * C1)%C with w0 by ring. auto.
  - right. split; [|lia]. split; [discriminate|]. exists k. exact R.
Qed.
