(* Fusion of phase gadgets. *)
From Coq Require Import Reals QArith Qreals ZArith Bool List Arith Lia Lra Permutation FunctionalExtensionality.
From Verif Require Import Cplx Qsem PiModel ZXModel ZXSpec ZXPhaseProofs ZXSemProofs ZXUpdProofs ZXUpd2Proofs ZXUpd3Proofs ZXRuleProofs ZXRule2Proofs ZXRule3Proofs.
Import ListNotations.
Local Close Scope Q_scope.
Local Open Scope nat_scope.

Definition graphlike (d : diag) : Prop := forall u, live d u = true -> isX d u = false.
Definition leaf (d : diag) (n : nat) : bool := (degree d n =? 1) && negb (isBoundary d n).
Definition one_leaf (d : diag) (n : nat) : Prop :=
  forall a b, In a (map fst (d_edges d n)) -> In b (map fst (d_edges d n)) -> leaf d a = true -> leaf d b = true -> a = b.
(* the cases in which gadget fusion is right: a gadget on a single vertex does not sit on a boundary vertex,
   and the second gadget has one phase spider only *)
Definition gadget_guard (d : diag) (v : nat) : Prop :=
  let id0 := fst (nth 0 (d_edges d v) (0, false)) in
  if degree d id0 =? 2 then forall n, In n (map fst (d_edges d id0)) -> n <> v -> isBoundary d n = false
  else forall n, live d n = true -> degree d n = degree d id0 -> connected d n id0 = false -> n <> id0 -> one_leaf d n.

Lemma par_perm l m x : Permutation l m -> par l x = par m x.
Proof. induction 1; cbn [par]; auto; try congruence. now rewrite <- !xorb_assoc, (xorb_comm (x y)). Qed.
Lemma par_ext l x y : (forall n, In n l -> x n = y n) -> par l x = par l y.
Proof. induction l; cbn [par]; intros H; auto. rewrite H by (now left). f_equal. apply IHl. intros. apply H. now right. Qed.

Section Gadget.
Variable rho : nat -> R.
Notation wx := (wx rho).
Notation same_map := (same_map rho).
Lemma Xrow d v (Zd : zwf d) : live d v = true -> isBoundary d v = false -> isX d v = false -> (forall e, In e (d_edges d v) -> snd e = true /\ isX d (fst e) = false) ->
  forall ex x, ex v = false -> wx ex d x = (wx (plus ex v) d x * ((if x v then pexp rho (vphase d v) else C1) *
    cprod (d_edges d v) (fun e => if ex (fst e) then C1 else kap * sg (x v && x (fst e)))))%C.
Proof.
  intros L B X H ex x Ex. rewrite (wx_split rho ex d _ v) by auto. rewrite B. do 2 f_equal. apply cprod_ext. intros [n h] I. cbn [fst snd]. destruct (H _ I) as [E1 E2]. cbn [fst snd] in *. subst h.
  destruct (ex n); auto. unfold eh. rewrite X, E2. cbn [xorb]. apply wgt_sg.
Qed.
(* phases of left-out vertices do not matter *)
Lemma wx_out d d' ex x : frame d d' -> (forall u, d_edges d' u = d_edges d u) -> (forall u, ex u = false -> vphase d' u = vphase d u) -> wx ex d' x = wx ex d x.
Proof.
  intros F E V. unfold ZXSemProofs.wx. f_equal.
  - unfold pv. rewrite (f_size _ _ F). apply cprod_ext. intros u _. rewrite (f_inner _ _ _ F). destruct (ex u) eqn:Ex; [cbn; now rewrite !andb_false_r|]. unfold ZXSemProofs.phw. now rewrite V.
  - unfold pe. rewrite (f_size _ _ F). apply dprod_ext. intros i j _ _ _. unfold eg, ew. rewrite !(f_live _ _ F). rewrite (hv_edges d d') by auto. destruct (hv d i j); auto. now rewrite (f_eh _ _ _ _ _ F).
Qed.
Lemma one_row {A} (l : list A) a : length l = 1 -> l = [nth 0 l a].
Proof. destruct l as [|b [|c l]]; cbn; intros H; try lia. reflexivity. Qed.
Lemma fuse_phase k0 p a : pexp rho p <> C0 -> ((if xorb a k0 then pexp rho p else C1) = (if k0 then pexp rho p else C1) * (if a then (if k0 then Cconj (pexp rho p) else pexp rho p) else C1))%C.
Proof. intros H. pose proof (pexp_conj_mul rho p) as E. destruct a, k0; cbn [xorb]; try ring. transitivity (Cconj (pexp rho p) * pexp rho p)%C; [now rewrite E|ring]. Qed.

(* the sum over one gadget *)
Lemma gadget_sum (f : bool -> C) k0 A :
  ((f false * sg (k0 && false) * sg (false && false) * sg (false && A) + f false * sg (k0 && true) * sg (false && true) * sg (true && A)) +
   (f true * sg (k0 && false) * sg (true && false) * sg (false && A) + f true * sg (k0 && true) * sg (true && true) * sg (true && A)))%C =
  ((C1 + C1) * f (xorb A k0))%C.
Proof. destruct k0, A; cbn [andb sg xorb]; ring. Qed.

Lemma last_neighbour_ok v es : forall acc r, last_neighbour v es acc = Some r -> forall e, In e es -> fst e <> v -> snd e = true.
Proof.
  induction es as [|[n h] es IH]; cbn; intros acc r E e I N; [tauto|]. destruct (Nat.eqb_spec n v) as [->|Nn].
  - destruct I as [<-|I]; [cbn in N; congruence|]. eapply IH; eauto.
  - destruct h; cbn in E; [|discriminate]. destruct I as [<-|I]; auto. eapply IH; eauto.
Qed.
Lemma last_neighbour_In v es : forall acc n, last_neighbour v es acc = Some (Some n) -> acc = Some n \/ In n (map fst es).
Proof.
  induction es as [|[m h] es IH]; cbn; intros acc n E; [left; congruence|]. destruct (m =? v).
  - destruct (IH _ _ E); auto.
  - destruct h; cbn in E; [|discriminate]. destruct (IH _ _ E) as [Q|Q]; auto. right. left. congruence.
Qed.
Lemma scan_ok d id0 es : forall ps r, scan_gadget d id0 es ps = (true, r) ->
  (forall e, In e es -> snd e = true /\ (leaf d (fst e) = false -> hv d (fst e) id0 <> None)) /\
  ((exists n, r = Some n /\ In n (map fst es) /\ leaf d n = true) \/ (r = ps /\ forall e, In e es -> leaf d (fst e) = false)).
Proof.
  induction es as [|[n h] es IH]; cbn [scan_gadget]; intros ps r E.
  - split; [intros e []|]. right. split; [congruence|intros e []].
  - destruct h; cbn [negb orb] in E; [|discriminate]. destruct (live d n); cbn [negb] in E; [|discriminate]. fold (leaf d n) in E. destruct (leaf d n) eqn:Lf.
    + destruct (IH _ _ E) as [A B]. split.
      * intros e [<-|I]; [cbn; split; auto; congruence|auto].
      * left. destruct B as [(m & -> & I & Lm)|[-> B]]; [exists m; cbn; auto|exists n; cbn; auto].
    + destruct (getEdge d n id0) as [p|] eqn:G; [|discriminate]. destruct (IH _ _ E) as [A B]. split.
      * intros e [<-|I]; [cbn; split; auto; intros _; unfold hv; rewrite G; discriminate|auto].
      * destruct B as [(m & -> & I & Lm)|[-> B]]; [left; exists m; cbn; auto|right]. split; auto. intros e [<-|I]; auto.
Qed.
Lemma find_ok d id0 es : forall ps n r, find_gadget d id0 es ps = Some (n, r) ->
  In n (map fst es) /\ n <> id0 /\ live d n = true /\ isPauliV d n = true /\ degree d n = degree d id0 /\ connected d n id0 = false /\ exists ps0, scan_gadget d id0 (d_edges d n) ps0 = (true, r).
Proof.
  induction es as [|[m h] es IH]; cbn [find_gadget]; intros ps n r E; [discriminate|]. destruct (_ || _) eqn:Q.
  - destruct (IH _ _ _ E) as (A & B). split; [now right|exact B].
  - apply orb_false_iff in Q as [Q Q6]. apply orb_false_iff in Q as [Q Q5]. apply orb_false_iff in Q as [Q Q4]. apply orb_false_iff in Q as [Q Q3]. apply orb_false_iff in Q as [Q1 Q2].
    apply Nat.eqb_neq in Q1. apply negb_false_iff in Q2, Q3, Q4, Q5. apply Nat.eqb_eq in Q5.
    destruct (scan_gadget d id0 (d_edges d m) ps) as [[|] r'] eqn:S.
    + injection E as -> ->. split; [now left|]. repeat (split; auto). eauto.
    + destruct (IH _ _ _ E) as (A & B). split; [now right|exact B].
Qed.
Lemma degree_nobnd d u : bdeg d -> live d u = true -> 2 <= degree d u -> isBoundary d u = false.
Proof. intros D L H. destruct (isBoundary d u) eqn:B; auto. pose proof (D u L B). lia. Qed.
Lemma nodup_filter_len (l : list nat) v : NoDup l -> In v l -> length l = S (length (filter (neq v) l)).
Proof.
  induction l as [|a l IH]; cbn; [tauto|]. intros N I. inversion N; subst. unfold neq at 1. destruct (Nat.eqb_spec a v) as [->|Na]; cbn [negb].
  - f_equal. rewrite filter_all; auto. intros b B. unfold neq. apply negb_true_iff, Nat.eqb_neq. intros ->. tauto.
  - destruct I as [|I]; [congruence|]. cbn. f_equal. auto.
Qed.
Lemma par_setb l v s x : ~ In v l -> par l (setb x v s) = par l x.
Proof. intros N. apply par_ext. intros n I. apply setb_other. intros ->. tauto. Qed.
Lemma neq_In v l n : In n (filter (neq v) l) <-> In n l /\ n <> v.
Proof. rewrite filter_In. unfold neq. rewrite negb_true_iff, Nat.eqb_neq. tauto. Qed.

(* a gadget on a single vertex *)
Lemma gadget2_ok d v id0 v0 : wf d -> graphlike d -> live d v = true -> isBoundary d v = false -> d_edges d v = [(id0, true)] -> p_isPauli (vphase d id0) = true ->
  d_edges d id0 = [(v, true); (v0, true)] \/ d_edges d id0 = [(v0, true); (v, true)] -> isBoundary d v0 = false ->
  let d' := removeVertex (removeVertex (addPhase d v0 (if p_isZero (vphase d id0) then vphase d v else p_neg (vphase d v))) v) id0 in wf d' /\ same_map d d'.
Proof.
  intros W G L NB Row P Row0 NB0. pose proof (w_z d W) as Zd. cbn zeta.
  assert (Iv : In (id0, true) (d_edges d v)) by (rewrite Row; now left). destruct (z_sym d Zd v id0 true L Iv) as (Li & Nvi & Ji).
  assert (I0 : In (v0, true) (d_edges d id0)) by (destruct Row0 as [-> | ->]; cbn; auto). destruct (z_sym d Zd id0 v0 true Li I0) as (L0 & Ni0 & J0).
  assert (Nv0 : v <> v0). { pose proof (z_nodup d Zd id0 Li) as N. destruct Row0 as [E|E]; rewrite E in N; cbn in N; inversion N; subst; cbn in *; intros ->; tauto. }
  assert (NBi : isBoundary d id0 = false). { apply degree_nobnd; auto; [apply (w_d d W)|]. unfold degree. destruct Row0 as [-> | ->]; cbn; lia. }
  set (q := if p_isZero (vphase d id0) then vphase d v else p_neg (vphase d v)). assert (Pq : ph_ok q). { unfold q. destruct (p_isZero _); [|apply ph_ok_neg]; apply (w_ph d W v L). }
  set (d1 := addPhase d v0 q). pose proof (frame_addPhase d v0 q) as F1. fold d1 in F1. assert (Z1 : zwf d1) by (now apply addPhase_zwf).
  assert (W1 : wf d1). { constructor; auto; [apply addPhase_book, (w_b d W)| | |apply phok_addPhase; auto; apply (w_ph d W)].
    - intros u Lu Bu. rewrite (f_live _ _ F1) in Lu. rewrite (f_bnd _ _ _ F1) in Bu. apply (w_d d W u Lu Bu).
    - apply (g_io d); [now apply frame_w|apply (w_io d W)]. }
  assert (L1v : live d1 v = true) by (now rewrite (f_live _ _ F1)). pose proof (remove_vertex rho d1 v Z1 L1v) as R. set (d2 := removeVertex d1 v) in *.
  assert (W2 : wf d2) by (apply remove_wf'; auto; now rewrite (f_bnd _ _ _ F1)).
  assert (L2 : live d2 id0 = true). { rewrite (rv_live _ _ _ _ R), (f_live _ _ F1), Li. cbn. apply negb_true_iff, Nat.eqb_neq. auto. }
  assert (NB2 : isBoundary d2 id0 = false). { unfold isBoundary. rewrite (rv_vty _ _ _ _ _ R) by auto. rewrite (f_vty _ _ F1). exact NBi. }
  pose proof (remove_vertex rho d2 id0 (w_z _ W2) L2) as R'.
  assert (Inn : forall u, inner (removeVertex d2 id0) u = inner d u && negb (u =? v) && negb (u =? id0)).
  { intros u. rewrite (rv_inner _ _ _ _ _ R'), (rv_inner _ _ _ _ _ R), (f_inner _ _ _ F1). reflexivity. }
  split; [now apply remove_wf'|].
  set (k0 := negb (p_isZero (vphase d id0))).
  assert (Pk : pexp rho (vphase d id0) = sg k0). { unfold k0. destruct (p_isZero (vphase d id0)) eqn:Q; cbn; [now apply pexp_zero|]. apply pauli_nonzero; auto. apply (w_ph d W id0 Li). }
  set (f := pexp rho (vphase d v)). assert (Hf : f <> C0) by apply pexp_neq0.
  assert (Qv : pexp rho q = if k0 then Cconj f else f). { unfold q, k0. destruct (p_isZero (vphase d id0)); cbn; auto. apply pexp_neg. }
  assert (H2 : (C1 + C1)%C <> C0) by (intros E; injection E; lra).
  assert (Hk : (if k0 then f else C1) <> C0) by (destruct k0; auto using C1_neq_C0).
  apply (conclude rho d _ [v; id0] [] (kap * kap * (C1 + C1) * (if k0 then f else C1))%C); auto.
  - apply (rv_zwf _ _ _ _ R').
  - rewrite (rv_in _ _ _ _ R'), (rv_in _ _ _ _ R). apply (f_in _ _ F1).
  - rewrite (rv_out _ _ _ _ R'), (rv_out _ _ _ _ R). apply (f_out _ _ F1).
  - repeat apply Cmul_neq0; auto using kap_neq0.
  - constructor; [intros [E|[]]; congruence|]. constructor; [intros []|constructor].
  - constructor.
  - intros u [<-|[<-|[]]]; unfold inner; rewrite ?L, ?Li, ?NB, ?NBi; auto.
  - intros u Nu Iu. split; [|intros []]. rewrite Inn, Iu. cbn [andb]. rewrite (proj2 (Nat.eqb_neq u v)), (proj2 (Nat.eqb_neq u id0)); auto; intros ->; apply Nu; cbn; auto.
  - intros u _ Iu. rewrite Inn in Iu. apply andb_true_iff in Iu as [Iu Q2]. apply andb_true_iff in Iu as [Iu Q3]. apply negb_true_iff, Nat.eqb_neq in Q2, Q3.
    split; auto. intros [E|[E|[]]]; congruence.
  - intros x. cbn [vsum]. rewrite (rv_wx _ _ _ _ R'), (rv_wx _ _ _ _ R). set (ex := plus (plus none id0) v).
    assert (Ex : ex v0 = false). { unfold ex, plus, none. cbn. rewrite (proj2 (Nat.eqb_neq v0 id0)), (proj2 (Nat.eqb_neq v0 v)); auto. }
    unfold d1. rewrite addPhase_wx by auto. rewrite Qv.
    assert (S : forall a b, wx none d (setb (setb x v a) id0 b) = (wx ex d x * (kap * kap) * ((if a then f else C1) * sg (k0 && b) * sg (a && b) * sg (b && x v0)))%C).
    { intros a b. rewrite (Xrow d id0 Zd Li NBi (G _ Li)); auto.
      2:{ intros e I. destruct Row0 as [E|E]; rewrite E in I; destruct I as [<-|[<-|[]]]; cbn; auto. }
      rewrite (Xrow d v Zd L NB (G _ L)); auto.
      2:{ intros e I. rewrite Row in I. destruct I as [<-|[]]. cbn; auto. }
      2:{ unfold plus, none. cbn. now apply Nat.eqb_neq. }
      fold ex. rewrite Row. cbn [cprod fst snd none]. assert (E1 : plus none id0 id0 = true) by (unfold plus; now rewrite Nat.eqb_refl, orb_true_r). rewrite E1.
      assert (Wd : wx ex d (setb (setb x v a) id0 b) = wx ex d x).
      { apply wx_ext. intros u _ E. unfold ex, plus, none in E. cbn in E. apply orb_false_iff in E as [E2 E3]. apply Nat.eqb_neq in E2, E3. rewrite !setb_other; auto. }
      rewrite Wd, Pk. fold f. rewrite !setb_get, !Nat.eqb_refl, (proj2 (Nat.eqb_neq v id0)) by auto.
      assert (S : cprod (d_edges d id0) (fun e => (kap * sg (b && setb (setb x v a) id0 b (fst e)))%C) = (kap * sg (b && a) * (kap * sg (b && x v0)))%C).
      { destruct Row0 as [-> | ->]; cbn [cprod fst]; rewrite !setb_get, !Nat.eqb_refl, (proj2 (Nat.eqb_neq v id0)), (proj2 (Nat.eqb_neq v0 id0)), (proj2 (Nat.eqb_neq v0 v)) by auto; ring. }
      rewrite S. destruct k0, a, b; cbn [andb sg]; ring. }
    rewrite !S. pose proof (gadget_sum (fun a => if a then f else C1) k0 (x v0)) as GS. cbn beta iota in GS.
    pose proof (fuse_phase k0 (vphase d v) (x v0) Hf) as FP. fold f in FP.
    transitivity (wx ex d x * (kap * kap) * ((C1 + C1) * (if xorb (x v0) k0 then f else C1)))%C; [rewrite <- GS; ring|]. rewrite FP. ring.
Qed.

(* two gadgets on the same vertices *)
Lemma gadget_fuse_ok d v id0 ps id1 : wf d -> graphlike d -> live d v = true -> isBoundary d v = false -> d_edges d v = [(id0, true)] -> p_isPauli (vphase d id0) = true ->
  2 <= degree d id0 -> (forall e, In e (d_edges d id0) -> snd e = true) -> id1 <> id0 -> live d id1 = true -> p_isPauli (vphase d id1) = true -> 2 <= degree d id1 ->
  hv d id1 id0 = None -> (forall e, In e (d_edges d id1) -> snd e = true) -> In ps (map fst (d_edges d id1)) -> leaf d ps = true ->
  Permutation (filter (neq ps) (map fst (d_edges d id1))) (filter (neq v) (map fst (d_edges d id0))) ->
  let d1 := if negb (p_isZero (vphase d id0)) then setPhase (setPhase d v (p_neg (vphase d v))) id0 (p_const 0) else d in
  let d2 := addPhase d1 v (if p_isZero (vphase d1 id1) then vphase d1 ps else p_neg (vphase d1 ps)) in
  let d' := removeVertex (removeVertex d2 ps) id1 in wf d' /\ same_map d d'.
Proof.
  intros W G L NB Row P0 D0 H0 N01 L1 P1 D1 X H1 Ips Lps Pm. pose proof (w_z d W) as Zd. cbn zeta.
  assert (Iv : In (id0, true) (d_edges d v)) by (rewrite Row; now left). destruct (z_sym d Zd v id0 true L Iv) as (Li & Nvi & Ji).
  assert (Iv' : In v (map fst (d_edges d id0))) by (apply (in_map fst) in Ji; exact Ji).
  assert (NBi : isBoundary d id0 = false) by (apply degree_nobnd; auto; apply (w_d d W)). assert (NB1 : isBoundary d id1 = false) by (apply degree_nobnd; auto; apply (w_d d W)).
  apply in_map_iff in Ips as ([ps' hp] & Eps & Ips). cbn in Eps. subst ps'. assert (hp = true) by (apply (H1 _ Ips)). subst hp.
  destruct (z_sym d Zd id1 ps true L1 Ips) as (Lp & N1p & Jp). unfold leaf in Lps. apply andb_true_iff in Lps as [Dp NBp]. apply Nat.eqb_eq in Dp. apply negb_true_iff in NBp.
  assert (Rowp : d_edges d ps = [(id1, true)]). { unfold degree in Dp. destruct (d_edges d ps) as [|e [|e' l]]; cbn in Dp; try lia. destruct Jp as [->|[]]. reflexivity. }
  assert (Nvp : v <> ps). { intros <-. rewrite Row in Rowp. injection Rowp as E. congruence. }
  assert (Nv1 : v <> id1). { intros <-. unfold degree in D1. rewrite Row in D1. cbn in D1. lia. }
  assert (N0p : id0 <> ps). { intros <-. unfold degree in D0. rewrite Rowp in D0. cbn in D0. lia. }
  set (S0 := filter (neq v) (map fst (d_edges d id0))) in *. set (S1 := filter (neq ps) (map fst (d_edges d id1))) in *.
  assert (HS : forall n, In n S0 -> n <> v /\ n <> id0 /\ n <> ps /\ n <> id1).
  { intros n I. apply neq_In in I as [I Nn]. split; auto. apply in_map_iff in I as ([m h] & <- & I). cbn [fst] in *. destruct (z_sym d Zd id0 m h Li I) as (Lm & Nm & Jm). split; [congruence|]. split.
    - intros ->. rewrite Rowp in Jm. destruct Jm as [E|[]]. congruence.
    - intros ->. apply hv_none in X. apply X. apply (in_map fst) in Jm. exact Jm. }
  assert (HS1 : forall n, In n S1 -> n <> v /\ n <> id0 /\ n <> ps /\ n <> id1). { intros n I. apply HS. eapply Permutation_in; eauto. }
  set (k0 := negb (p_isZero (vphase d id0))). set (k1 := negb (p_isZero (vphase d id1))).
  set (d1 := if k0 then setPhase (setPhase d v (p_neg (vphase d v))) id0 (p_const 0) else d).
  assert (Fs : frame d d1). { unfold d1. destruct k0; [|apply frame_refl]. eapply frame_trans; apply frame_setPhase. }
  assert (Es : forall u, d_edges d1 u = d_edges d u) by (intros u; unfold d1; now destruct k0).
  assert (Ph1 : forall u, vphase d1 u = if u =? v then (if k0 then p_neg (vphase d v) else vphase d v) else if u =? id0 then (if k0 then p_const 0 else vphase d id0) else vphase d u).
  { intros u. unfold d1. destruct k0.
    - rewrite setPhase_vphase by (now rewrite (f_live _ _ (frame_setPhase d v _))). rewrite setPhase_vphase by auto. destruct (Nat.eqb_spec u id0) as [Q1|Q1]; destruct (Nat.eqb_spec u v) as [Q2|Q2]; auto; congruence.
    - destruct (Nat.eqb_spec u v) as [Q1|Q1]; destruct (Nat.eqb_spec u id0) as [Q2|Q2]; subst; auto. }
  assert (E1 : vphase d1 id1 = vphase d id1). { rewrite Ph1. rewrite (proj2 (Nat.eqb_neq id1 v)), (proj2 (Nat.eqb_neq id1 id0)); auto. }
  assert (Ep : vphase d1 ps = vphase d ps). { rewrite Ph1. rewrite (proj2 (Nat.eqb_neq ps v)), (proj2 (Nat.eqb_neq ps id0)); auto. }
  rewrite E1, Ep. set (q := if p_isZero (vphase d id1) then vphase d ps else p_neg (vphase d ps)).
  assert (Pq : ph_ok q). { unfold q. destruct (p_isZero (vphase d id1)); [|apply ph_ok_neg]; apply (w_ph d W ps Lp). }
  assert (W1 : zwf d1 /\ book d1 /\ phases_ok d1).
  { unfold d1. destruct k0; [|split; [auto|split; [apply (w_b d W)|apply (w_ph d W)]]]. split; [now apply setPhase_zwf, setPhase_zwf|]. split; [apply setPhase_book, setPhase_book, (w_b d W)|].
    apply setPhase_phok; [now rewrite (f_live _ _ (frame_setPhase d v _))| |apply ph_ok_const0]. apply setPhase_phok; auto; [apply (w_ph d W)|]. apply ph_ok_neg, (w_ph d W v L). }
  destruct W1 as (Z1 & B1 & Pok1). set (d2 := addPhase d1 v q). pose proof (frame_trans _ _ _ Fs (frame_addPhase d1 v q)) as F. fold d2 in F.
  assert (E2 : forall u, d_edges d2 u = d_edges d u) by (intros u; apply Es).
  assert (W2 : wf d2). { constructor; [now apply addPhase_zwf|now apply addPhase_book| | |now apply phok_addPhase].
    - intros u Lu Bu. rewrite (f_live _ _ F) in Lu. rewrite (f_bnd _ _ _ F) in Bu. unfold degree. rewrite E2. apply (w_d d W u Lu Bu).
    - apply (g_io d); [now apply frame_w|apply (w_io d W)]. }
  assert (Ph2 : forall u, vphase d2 u = if u =? v then p_add (if k0 then p_neg (vphase d v) else vphase d v) q else vphase d1 u).
  { intros u. unfold d2. rewrite addPhase_vphase by (now rewrite (f_live _ _ Fs)). rewrite (Ph1 v), Nat.eqb_refl. reflexivity. }
  assert (L2p : live d2 ps = true) by (now rewrite (f_live _ _ F)). pose proof (remove_vertex rho d2 ps (w_z _ W2) L2p) as R. set (d3 := removeVertex d2 ps) in *.
  assert (W3 : wf d3) by (apply remove_wf'; auto; now rewrite (f_bnd _ _ _ F)).
  assert (L3 : live d3 id1 = true). { rewrite (rv_live _ _ _ _ R), (f_live _ _ F), L1. cbn. apply negb_true_iff, Nat.eqb_neq. auto. }
  assert (NB3 : isBoundary d3 id1 = false). { unfold isBoundary. rewrite (rv_vty _ _ _ _ _ R) by auto. rewrite (f_vty _ _ F). exact NB1. }
  pose proof (remove_vertex rho d3 id1 (w_z _ W3) L3) as R'. split; [now apply remove_wf'|].
  assert (Inn : forall u, inner (removeVertex d3 id1) u = inner d u && negb (u =? ps) && negb (u =? id1)).
  { intros u. rewrite (rv_inner _ _ _ _ _ R'), (rv_inner _ _ _ _ _ R), (f_inner _ _ _ F). reflexivity. }
  assert (K0 : pexp rho (vphase d id0) = sg k0). { unfold k0. destruct (p_isZero (vphase d id0)) eqn:Q; cbn; [now apply pexp_zero|]. apply pauli_nonzero; auto. apply (w_ph d W id0 Li). }
  assert (K1 : pexp rho (vphase d id1) = sg k1). { unfold k1. destruct (p_isZero (vphase d id1)) eqn:Q; cbn; [now apply pexp_zero|]. apply pauli_nonzero; auto. apply (w_ph d W id1 L1). }
  set (f := pexp rho (vphase d v)). set (g := pexp rho (vphase d ps)). assert (Hf : f <> C0) by apply pexp_neq0. assert (Hg : g <> C0) by apply pexp_neq0.
  set (f' := if k0 then Cconj f else f). set (g' := if k1 then Cconj g else g).
  assert (Pv2 : pexp rho (vphase d2 v) = (f' * g')%C). { rewrite Ph2, Nat.eqb_refl, pexp_add. unfold f', g', q, k1. f_equal; [destruct k0; auto; apply pexp_neg|]. destruct (p_isZero (vphase d id1)); cbn [negb]; auto. apply pexp_neg. }
  assert (Pi2 : pexp rho (vphase d2 id0) = C1). { rewrite Ph2, Ph1. rewrite (proj2 (Nat.eqb_neq id0 v)), Nat.eqb_refl by auto. destruct k0 eqn:Q; [apply pexp_const0|]. rewrite K0. reflexivity. }
  assert (H2 : (C1 + C1)%C <> C0) by (intros E; injection E; lra).
  assert (Hk0 : (if k0 then f else C1) <> C0) by (destruct k0; auto using C1_neq_C0). assert (Hk1 : (if k1 then g else C1) <> C0) by (destruct k1; auto using C1_neq_C0).
  set (ex := plus (plus (plus (plus none id1) ps) id0) v).
  assert (Ex : forall n, n <> v -> n <> id0 -> n <> ps -> n <> id1 -> ex n = false).
  { intros n A B C D. unfold ex, plus, none. now rewrite (proj2 (Nat.eqb_neq _ _) A), (proj2 (Nat.eqb_neq _ _) B), (proj2 (Nat.eqb_neq _ _) C), (proj2 (Nat.eqb_neq _ _) D). }
  (* one gadget split off *)
  assert (Sp : forall dd (e0 : nat -> bool) x vv ii SS, zwf dd -> frame d dd -> (forall u, d_edges dd u = d_edges d u) -> live d vv = true -> isBoundary d vv = false -> live d ii = true -> isBoundary d ii = false ->
    vv <> ii -> d_edges d vv = [(ii, true)] -> (forall e, In e (d_edges d ii) -> snd e = true) -> In (vv, true) (d_edges d ii) -> SS = filter (neq vv) (map fst (d_edges d ii)) ->
    e0 vv = false -> e0 ii = false -> (forall n, In n SS -> e0 n = false) ->
    wx e0 dd x = (wx (plus (plus e0 ii) vv) dd x * (kap * kc SS) * ((if x vv then pexp rho (vphase dd vv) else C1) * (if x ii then pexp rho (vphase dd ii) else C1) * sg (x vv && x ii) * sg (x ii && par SS x)))%C).
  { clear - G Zd. intros dd e0 x vv ii SS Zdd Fd Ed Lv Bv Li Bi Nvi Rv Hi Iv -> E1 E2 E3.
    assert (Gd : forall u, live d u = true -> isX dd u = false) by (intros u Lu; rewrite (f_isX _ _ _ Fd); now apply G).
    rewrite (Xrow dd ii Zdd); auto; try (rewrite ?(f_live _ _ Fd), ?(f_bnd _ _ _ Fd); auto).
    2:{ rewrite Ed. intros [n h] I. split; [now apply Hi|]. apply Gd. cbn [fst]. destruct (z_sym d Zd ii n h Li I). auto. }
    rewrite (Xrow dd vv Zdd); auto; try (rewrite ?(f_live _ _ Fd), ?(f_bnd _ _ _ Fd); auto).
    2:{ rewrite Ed, Rv. intros e [<-|[]]. cbn. auto. }
    2:{ unfold plus. rewrite E1. cbn. now apply Nat.eqb_neq. }
    rewrite !Ed, Rv. cbn [cprod fst]. assert (Q : plus e0 ii ii = true) by (unfold plus; now rewrite Nat.eqb_refl, orb_true_r). rewrite Q.
    rewrite (row_extract rho (d_edges d ii) (vv, true)) by (auto; now apply (z_nodup d Zd)). cbn [fst]. rewrite E1.
    rewrite (cprod_ext (d_edges d ii) _ (fun e => if fst e =? vv then C1 else (kap * sg (x ii && x (fst e)))%C)).
    2:{ intros e I. destruct (Nat.eqb_spec (fst e) vv) as [|Ne]; auto. rewrite E3; auto. apply neq_In. split; auto. now apply in_map. }
    rewrite row_par. rewrite (andb_comm (x vv)). ring. }
  assert (Par : forall x, par S1 x = par S0 x) by (intros x; now apply par_perm).
  apply (conclude rho d _ [ps; id1; v; id0] [v; id0] (kap * kc S1 * (C1 + C1) * (if k0 then f else C1) * (if k1 then g else C1))%C); auto.
  - apply (rv_zwf _ _ _ _ R').
  - rewrite (rv_in _ _ _ _ R'), (rv_in _ _ _ _ R). apply (f_in _ _ F).
  - rewrite (rv_out _ _ _ _ R'), (rv_out _ _ _ _ R). apply (f_out _ _ F).
  - repeat apply Cmul_neq0; auto using kap_neq0, kc_neq0.
  - repeat constructor; cbn; intros H; decompose [or] H; congruence || tauto.
  - repeat constructor; cbn; intros H; decompose [or] H; congruence || tauto.
  - intros u [<-|[<-|[<-|[<-|[]]]]]; unfold inner; rewrite ?L, ?Li, ?L1, ?Lp, ?NB, ?NBi, ?NB1, ?NBp; auto.
  - intros u [<-|[<-|[]]]; rewrite Inn; unfold inner; rewrite ?L, ?Li, ?NB, ?NBi; cbn [andb negb].
    + rewrite (proj2 (Nat.eqb_neq v ps)), (proj2 (Nat.eqb_neq v id1)); auto.
    + rewrite (proj2 (Nat.eqb_neq id0 ps)), (proj2 (Nat.eqb_neq id0 id1)); auto.
  - intros u Nu Iu. cbn in Nu. split; [|cbn; tauto]. rewrite Inn, Iu. cbn [andb]. rewrite (proj2 (Nat.eqb_neq u ps)), (proj2 (Nat.eqb_neq u id1)); auto; intros ->; tauto.
  - intros u Nu Iu. cbn in Nu. rewrite Inn in Iu. apply andb_true_iff in Iu as [Iu Q2]. apply andb_true_iff in Iu as [Iu Q3]. apply negb_true_iff, Nat.eqb_neq in Q2, Q3.
    split; auto. cbn. intros [E|[E|[E|[E|[]]]]]; try congruence; tauto.
  - intros x.
    assert (Sd : forall c e a b, wx none d (setb (setb (setb (setb x ps c) id1 e) v a) id0 b) =
      (wx ex d x * (kap * kc S1) * (kap * kc S0) * (((if c then g else C1) * sg (k1 && e) * sg (c && e) * sg (e && par S0 x)) * ((if a then f else C1) * sg (k0 && b) * sg (a && b) * sg (b && par S0 x))))%C).
    { intros c e a b. set (y := setb (setb (setb (setb x ps c) id1 e) v a) id0 b).
      rewrite (Sp d none y ps id1 S1); auto using frame_refl.
      rewrite (Sp d (plus (plus none id1) ps) y v id0 S0); auto using frame_refl.
      2:{ unfold plus, none. rewrite (proj2 (Nat.eqb_neq v id1)), (proj2 (Nat.eqb_neq v ps)); auto. }
      2:{ unfold plus, none. rewrite (proj2 (Nat.eqb_neq id0 id1)), (proj2 (Nat.eqb_neq id0 ps)); auto. }
      2:{ intros n I. destruct (HS n I) as (? & ? & ? & ?). unfold plus, none. rewrite (proj2 (Nat.eqb_neq n id1)), (proj2 (Nat.eqb_neq n ps)); auto. }
      fold ex. rewrite K0, K1. fold f g.
      assert (Yp : y ps = c) by (unfold y; rewrite !setb_get, Nat.eqb_refl, ?(proj2 (Nat.eqb_neq ps id0)), ?(proj2 (Nat.eqb_neq ps v)), ?(proj2 (Nat.eqb_neq ps id1)); auto).
      assert (Y1 : y id1 = e) by (unfold y; rewrite !setb_get, Nat.eqb_refl, ?(proj2 (Nat.eqb_neq id1 id0)), ?(proj2 (Nat.eqb_neq id1 v)); auto).
      assert (Yv : y v = a) by (unfold y; rewrite !setb_get, Nat.eqb_refl, ?(proj2 (Nat.eqb_neq v id0)); auto).
      assert (Y0 : y id0 = b) by (unfold y; now rewrite !setb_get, Nat.eqb_refl). rewrite Yp, Y1, Yv, Y0.
      assert (Yn : forall n, n <> v -> n <> id0 -> n <> ps -> n <> id1 -> y n = x n) by (intros; unfold y; now rewrite !setb_other).
      assert (Wd : wx ex d y = wx ex d x). { apply wx_ext. intros u _ E. unfold ex, plus, none in E. cbn in E. apply orb_false_iff in E as [E E4]. apply orb_false_iff in E as [E E3]. apply orb_false_iff in E as [E5 E6].
        apply Nat.eqb_neq in E3, E4, E5, E6. now apply Yn. }
      rewrite Wd, Par. assert (Py : par S0 y = par S0 x). { apply par_ext. intros n I. destruct (HS n I) as (? & ? & ? & ?). now apply Yn. } rewrite Py.
      destruct k0, k1, a, b, c, e; cbn [andb sg]; ring. }
    assert (Sd' : forall a b, wx none (removeVertex d3 id1) (setb (setb x v a) id0 b) =
      (wx ex d x * (kap * kc S0) * ((if a then f' * g' else C1) * sg (false && b) * sg (a && b) * sg (b && par S0 x)))%C).
    { intros a b. set (y := setb (setb x v a) id0 b). rewrite (rv_wx _ _ _ _ R'), (rv_wx _ _ _ _ R).
      rewrite (Sp d2 (plus (plus none id1) ps) y v id0 S0); auto; try apply (w_z _ W2).
      2:{ unfold plus, none. rewrite (proj2 (Nat.eqb_neq v id1)), (proj2 (Nat.eqb_neq v ps)); auto. }
      2:{ unfold plus, none. rewrite (proj2 (Nat.eqb_neq id0 id1)), (proj2 (Nat.eqb_neq id0 ps)); auto. }
      2:{ intros n I. destruct (HS n I) as (? & ? & ? & ?). unfold plus, none. rewrite (proj2 (Nat.eqb_neq n id1)), (proj2 (Nat.eqb_neq n ps)); auto. }
      fold ex. rewrite Pv2, Pi2.
      assert (Yv : y v = a) by (unfold y; rewrite !setb_get, Nat.eqb_refl, ?(proj2 (Nat.eqb_neq v id0)); auto).
      assert (Y0 : y id0 = b) by (unfold y; now rewrite !setb_get, Nat.eqb_refl). rewrite Yv, Y0.
      assert (Yn : forall n, n <> v -> n <> id0 -> y n = x n) by (intros; unfold y; now rewrite !setb_other).
      assert (Wd : wx ex d2 y = wx ex d x).
      { transitivity (wx ex d y).
        - apply wx_out; auto. intros u E. assert (Nu : u <> v /\ u <> id0). { unfold ex, plus, none in E. cbn in E. apply orb_false_iff in E as [E E4]. apply orb_false_iff in E as [E E3]. apply Nat.eqb_neq in E3, E4. auto. }
          destruct Nu. rewrite Ph2, Ph1. now rewrite (proj2 (Nat.eqb_neq u v)), (proj2 (Nat.eqb_neq u id0)).
        - apply wx_ext. intros u _ E. unfold ex, plus, none in E. cbn in E. apply orb_false_iff in E as [E E4]. apply orb_false_iff in E as [E E3]. apply Nat.eqb_neq in E3, E4. now apply Yn. }
      rewrite Wd. assert (Py : par S0 y = par S0 x). { apply par_ext. intros n I. destruct (HS n I) as (? & ? & ? & ?). now apply Yn. } rewrite Py.
      destruct a, b; cbn [andb sg]; ring. }
    cbn [vsum]. rewrite !Sd, !Sd'.
    pose proof (gadget_sum (fun a => if a then f else C1) k0 (par S0 x)) as G0. cbn beta iota in G0.
    pose proof (gadget_sum (fun a => if a then g else C1) k1 (par S0 x)) as G1. cbn beta iota in G1.
    pose proof (gadget_sum (fun a => if a then f' * g' else C1)%C false (par S0 x)) as G2. cbn beta iota in G2.
    pose proof (fuse_phase k0 (vphase d v) (par S0 x) Hf) as FP0. fold f in FP0. fold f' in FP0.
    pose proof (fuse_phase k1 (vphase d ps) (par S0 x) Hg) as FP1. fold g in FP1. fold g' in FP1.
    transitivity (wx ex d x * (kap * kc S1) * (kap * kc S0) * (((C1 + C1) * (if xorb (par S0 x) k1 then g else C1)) * ((C1 + C1) * (if xorb (par S0 x) k0 then f else C1))))%C.
    { rewrite <- G0, <- G1. ring. }
    transitivity (kap * kc S1 * (C1 + C1) * (if k0 then f else C1) * (if k1 then g else C1) * (wx ex d x * (kap * kc S0) * ((C1 + C1) * (if xorb (par S0 x) false then f' * g' else C1))))%C.
    { rewrite FP0, FP1. destruct (par S0 x); cbn [xorb]; ring. }
    rewrite <- G2. ring.
Qed.
Lemma checkAndFuseGadget_ok d v d' : wf d -> graphlike d -> live d v = true -> gadget_guard d v -> checkAndFuseGadget d v = Some d' -> wf d' /\ same_map d d'.
Proof.
  intros W G L Gd E. pose proof (w_z d W) as Zd. unfold checkAndFuseGadget in E. destruct (negb (degree d v =? 1) || isBoundary d v) eqn:Q1; [discriminate|].
  apply orb_false_iff in Q1 as [Q1 NB]. apply negb_false_iff, Nat.eqb_eq in Q1. unfold degree in Q1. pose proof (one_row _ (0, false) Q1) as Row. unfold gadget_guard in Gd.
  destruct (nth 0 (d_edges d v) (0, false)) as [id0 h0]. cbn [fst] in Gd.
  destruct (negb (isPauliV d id0) || (degree d id0 <? 2) || negb h0) eqn:Q2; [discriminate|]. apply orb_false_iff in Q2 as [Q2 Qh]. apply orb_false_iff in Q2 as [Qp Qd].
  apply negb_false_iff in Qp, Qh. subst h0. apply Nat.ltb_ge in Qd.
  assert (Iv : In (id0, true) (d_edges d v)) by (rewrite Row; now left). destruct (z_sym d Zd v id0 true L Iv) as (Li & Nvi & Ji).
  destruct (degree d id0 =? 2) eqn:Dg.
  - apply Nat.eqb_eq in Dg. pose proof (two_row _ (0, false) Dg) as R0.
    destruct (nth 0 (d_edges d id0) (0, false)) as [a ha]. destruct (nth 1 (d_edges d id0) (0, false)) as [b hb]. cbn [fst] in E.
    pose proof (z_nodup d Zd id0 Li) as ND. rewrite R0 in ND, Ji, Gd. cbn [map fst] in ND, Gd.
    destruct (Nat.eqb_spec a v) as [->|Na].
    + destruct hb; cbn [negb] in E; [|discriminate]. injection E as <-. assert (ha = true). { destruct Ji as [Q|[Q|[]]]; injection Q; intros; subst; auto. inversion ND; subst. cbn in *; tauto. }
      subst ha. apply gadget2_ok; auto. apply Gd; [cbn; auto|]. intros ->. inversion ND; subst. cbn in *; tauto.
    + destruct ha; cbn [negb] in E; [|discriminate]. injection E as <-. destruct Ji as [Q|[Q|[]]]; [injection Q; intros; congruence|]. injection Q; intros; subst.
      apply gadget2_ok; auto. apply Gd; [cbn; auto|auto].
  - apply Nat.eqb_neq in Dg. destruct (last_neighbour v (d_edges d id0) None) as [[n0|]|] eqn:LN; try discriminate.
    pose proof (last_neighbour_ok _ _ _ _ LN) as H0. destruct (find_gadget d id0 (d_edges d n0) None) as [[id1 [ps|]]|] eqn:Fg; try discriminate.
    destruct (find_ok _ _ _ _ _ _ Fg) as (I1 & N1 & L1 & P1 & D1 & C1' & ps0 & Sc). destruct (scan_ok _ _ _ _ _ Sc) as (Hs & Hp).
    assert (X : hv d id1 id0 = None). { unfold connected in C1'. rewrite L1, Li in C1'. cbn in C1'. unfold hv. now destruct (getEdge d id1 id0). }
    assert (H0' : forall e, In e (d_edges d id0) -> snd e = true).
    { intros [n h] I. destruct (Nat.eq_dec n v) as [->|Nn]; [|now apply (H0 _ I)]. cbn. apply hv_In in I; [|now apply (z_nodup d Zd)]. apply hv_In in Ji; [|now apply (z_nodup d Zd)]. congruence. }
    assert (Lv : leaf d v = true). { unfold leaf, degree. now rewrite Q1, NB. }
    assert (Nd0 : NoDup (map fst (d_edges d id0))) by (now apply (z_nodup d Zd)). assert (Nd1 : NoDup (map fst (d_edges d id1))) by (now apply (z_nodup d Zd)).
    assert (Iv' : In v (map fst (d_edges d id0))) by (apply (in_map fst) in Ji; exact Ji).
    assert (Nv1 : ~ In v (map fst (d_edges d id1))).
    { intros I. apply in_map_iff in I as ([m h] & Em & I). cbn in Em. subst m. destruct (z_sym d Zd id1 v h L1 I) as (_ & _ & J). rewrite Row in J. destruct J as [J|[]]. congruence. }
    assert (Sub : forall n, In n (map fst (d_edges d id1)) -> leaf d n = false -> In n (filter (neq v) (map fst (d_edges d id0)))).
    { intros n I Ln. apply neq_In. split; [|intros ->; tauto]. apply in_map_iff in I as (e & <- & I). destruct (Hs e I) as [_ Q]. specialize (Q Ln).
      destruct e as [n h]. cbn [fst] in *. destruct (z_sym d Zd id1 n h L1 I) as (Ln' & _ & _). destruct (hv d n id0) as [k|] eqn:Hn; [|congruence].
      destruct (zwf_hv d n id0 k Zd Ln' Hn) as (_ & _ & Hn'). apply hv_In' in Hn'. apply (in_map fst) in Hn'. exact Hn'. }
    pose proof (nodup_filter_len _ v Nd0 Iv') as Len0. rewrite map_length in Len0.
    destruct Hp as [(n & En & In1 & Ln)|[_ NoL]].
    + injection En as <-. specialize (Gd id1 L1 D1 C1' N1).
      injection E as <-. apply (gadget_fuse_ok d v id0 ps id1); auto; try lia.
      * intros e I. apply (Hs e I).
      * apply NoDup_Permutation_bis.
        -- now apply NoDup_filter.
        -- pose proof (nodup_filter_len _ ps Nd1 In1) as Len1. rewrite map_length in Len1. unfold degree in D1. lia.
        -- intros n I. apply neq_In in I as [I Nn]. apply Sub; auto. destruct (leaf d n) eqn:Lf; auto. exfalso. apply Nn. apply Gd; auto.
    + exfalso. assert (length (map fst (d_edges d id1)) <= length (filter (neq v) (map fst (d_edges d id0)))).
      { apply NoDup_incl_length; auto. intros n I. apply Sub; auto. apply in_map_iff in I as (e & <- & I). now apply NoL. }
      rewrite map_length in H. unfold degree in D1. lia.
Qed.
End Gadget.
