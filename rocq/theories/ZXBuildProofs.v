(* What the pieces of buildFunctionality do to the state carried by the open diagram. *)
From Coq Require Import Reals QArith ZArith Bool List Arith Lia Lra FunctionalExtensionality.
From Verif Require Import Cplx Qsem GateModel IRModel PiModel ZXModel ZXSpec ZXPhaseProofs ZXSemProofs ZXUpdProofs ZXUpd3Proofs ZXRuleProofs ZXRule2Proofs ZXRule3Proofs ZXBuildModel ZXBuildSpec.
Import ListNotations.
Local Close Scope Q_scope.
Local Open Scope nat_scope.

(* ---- lists ------------------------------------------------------------------------------------------------------- *)
Lemma set_nth_len {A} i (a : A) l : length (set_nth i a l) = length l.
Proof. revert i. induction l; intros [|i]; cbn; auto. Qed.
Lemma set_nth_eq {A} i (a : A) l z : i < length l -> nth i (set_nth i a l) z = a.
Proof. revert i. induction l; intros [|i]; cbn; intros; try lia; auto. apply IHl. lia. Qed.
Lemma set_nth_neq {A} i j (a : A) l z : j <> i -> nth j (set_nth i a l) z = nth j l z.
Proof. revert i j. induction l; intros [|i] [|j]; cbn; intros; try lia; auto. Qed.
Lemma nodup_nth (l : list nat) : NoDup l <-> forall i j, i < length l -> j < length l -> i <> j -> nth i l 0 <> nth j l 0.
Proof.
  rewrite (NoDup_nth l 0). split; intros H i j Hi Hj.
  - intros N E. apply N. now apply H.
  - intros E. destruct (Nat.eq_dec i j); auto. exfalso. now apply (H i j).
Qed.
Lemma cprod_extract n q (f : nat -> C) : q < n -> cprod (seq 0 n) f = (f q * cprod (seq 0 n) (fun i => if i =? q then C1 else f i))%C.
Proof.
  intros H. transitivity (cprod (seq 0 n) (fun i => ((if i =? q then f i else C1) * (if i =? q then C1 else f i))%C)).
  - apply cprod_ext. intros i _. destruct (i =? q); ring.
  - rewrite cprod_mul. f_equal. apply cprod_at; [apply seq_NoDup|apply in_seq; lia].
Qed.
Lemma vsum_ext_out vs f g b : (forall x, (forall u, ~ In u vs -> x u = b u) -> f x = g x) -> vsum vs f b = vsum vs g b.
Proof.
  revert b. induction vs as [|v vs IH]; cbn; intros b H; [apply H; auto|].
  f_equal; apply IH; intros x X; apply H; intros u U; (rewrite X by tauto; apply setb_other; intros ->; tauto).
Qed.

(* ---- edge weights ------------------------------------------------------------------------------------------------ *)
Definition bsum (f : bool -> C) : C := (f false + f true)%C.
Lemma kap_sq : (kap * kap + kap * kap)%C = C1.
Proof.
  unfold kap. rewrite <- RtoC_mul, <- RtoC_add, <- RtoC_1. f_equal. rewrite <- Rinv_mult. rewrite sqrt_sqrt by lra. lra.
Qed.
Lemma wgt_comp a b s t : bsum (fun z => wgt a s z * wgt b z t)%C = wgt (xorb a b) s t.
Proof.
  unfold bsum. pose proof kap_sq as K. destruct a, b, s, t; cbn [xorb]; rewrite ?wgt_sg; cbn; try ring;
    (transitivity (kap * kap + kap * kap)%C; [ring|exact K]).
Qed.
Lemma wgt_id s t : wgt false s t = if eqb s t then C1 else C0.
Proof. reflexivity. Qed.

(* one- and two-qubit maps *)
Definition u1 (K : bool -> bool -> C) (q : nat) (psi : state) : state := fun y => bsum (fun a => K a (y q) * psi (setb y q a))%C.
Definition spK (tx h : bool) (e : C) (a c : bool) : C := bsum (fun z => (if z then e else C1) * wgt (xorb h tx) a z * wgt tx z c)%C.
Definition dgK (ia ib : bool) (G : bool -> bool -> C) (a b c e : bool) : C :=
  bsum (fun s => bsum (fun t => wgt ia a s * wgt ib b t * G s t * wgt ia s c * wgt ib t e))%C.
Definition u2 (ia ib : bool) (G : bool -> bool -> C) (p q : nat) (psi : state) : state :=
  fun y => bsum (fun a => bsum (fun b => dgK ia ib G a b (y p) (y q) * psi (setb (setb y q b) p a)))%C.
Definition swapq (p q : nat) (psi : state) : state := fun y => psi (setb (setb y q (y p)) p (y q)).
(* the sum over the two vertices of a phase gadget *)
Definition midG (e : C) (s t : bool) : C := if xorb s t then (kap * e)%C else kap.

Lemma sp_alg ox tx h e s c :
  bsum (fun z => (if z then e else C1) * (wgt (xorb h (xorb ox tx)) s z * wgt tx z c))%C = bsum (fun a => spK tx h e a c * wgt ox s a)%C.
Proof.
  transitivity (bsum (fun z => (if z then e else C1) * (bsum (fun a => wgt ox s a * wgt (xorb h tx) a z) * wgt tx z c)))%C.
  - unfold bsum at 1 2. rewrite !wgt_comp. replace (xorb ox (xorb h tx)) with (xorb h (xorb ox tx)) by (destruct h, ox, tx; auto). reflexivity.
  - unfold spK, bsum. ring.
Qed.
Lemma dg_alg ia ib G S T c e :
  (G S T * (wgt ia S c * wgt ib T e))%C = bsum (fun a => bsum (fun b => dgK ia ib G a b c e * (wgt ia S a * wgt ib T b)))%C.
Proof.
  assert (ES : forall s, wgt false S s = bsum (fun a => wgt ia S a * wgt ia a s)%C) by (intros; now rewrite wgt_comp, xorb_nilpotent).
  assert (ET : forall t, wgt false T t = bsum (fun a => wgt ib T a * wgt ib a t)%C) by (intros; now rewrite wgt_comp, xorb_nilpotent).
  transitivity (bsum (fun s => bsum (fun t => wgt false S s * wgt false T t * (G s t * (wgt ia s c * wgt ib t e)))))%C.
  - unfold bsum. rewrite !wgt_id. destruct S, T; cbn [eqb]; ring.
  - unfold dgK, bsum in *. rewrite !ES, !ET. ring.
Qed.
Lemma mid_alg e s t k0 k1 : (k0 = true) -> (k1 = true) ->
  bsum (fun m0 => bsum (fun m1 => (if m1 then e else C1) * (wgt k0 s m0 * wgt k1 t m0 * wgt true m0 m1)))%C = midG e s t.
Proof.
  intros -> ->. unfold bsum, midG. rewrite !wgt_sg. pose proof kap_sq as K.
  assert (K3 : (kap * kap * kap + kap * kap * kap = kap)%C) by (transitivity (kap * (kap * kap + kap * kap))%C; [ring|rewrite K; ring]).
  destruct s, t; cbn [andb xorb sg];
    first [transitivity (kap * kap * kap + kap * kap * kap)%C; [ring|exact K3]|transitivity ((kap * kap * kap + kap * kap * kap) * e)%C; [ring|now rewrite K3]].
Qed.

Section Build.
Variable rho : nat -> R.
Variable n : nat.
Notation wx := (wx rho).

Definition fr (d : diag) (qs : list nat) (x y : bits) : C := cprod (seq 0 n) (fun i => wgt (isX d (nth i qs 0)) (x (nth i qs 0)) (y i)).
Definition fden (d : diag) (F : bits -> C) (b : bits) : C := (pexp rho (d_gphase d) * vsum (interior d) (fun x => wx none d x * F x) b)%C.
(* the amplitude of y on the open ends for the bits b of inputs *)
Definition T (st : bst) (b : bits) : state := fun y => fden (fst st) (fun x => fr (fst st) (snd st) x y) b.

Record good (st : bst) : Prop := {
  g_z : zwf (fst st); g_b : book (fst st); g_ph : phases_ok (fst st);
  g_len : length (snd st) = n; g_nd : NoDup (snd st);
  g_live : forall i, i < n -> live (fst st) (nth i (snd st) 0) = true;
  g_in : d_in (fst st) = seq 0 n; g_out : d_out (fst st) = seq n n;
  g_bd : forall v, live (fst st) v = true -> (isBoundary (fst st) v = true <-> v < 2 * n);
  g_io : forall v, v < 2 * n -> live (fst st) v = true;
  g_bdeg : bdeg (fst st);
  g_outdeg : forall v, n <= v < 2 * n -> d_edges (fst st) v = [];
  g_front : forall i, i < n -> (nth i (snd st) 0 < n /\ d_edges (fst st) (nth i (snd st) 0) = []) \/ 2 * n <= nth i (snd st) 0
}.

Lemma fden_ext d F G b : (forall x, F x = G x) -> fden d F b = fden d G b.
Proof. intros H. unfold fden. f_equal. apply vsum_ext. intros x. now rewrite H. Qed.
Lemma fden_scale d c F b : fden d (fun x => c * F x)%C b = (c * fden d F b)%C.
Proof.
  unfold fden. rewrite (vsum_ext _ _ (fun x => c * (wx none d x * F x))%C) by (intros; ring). rewrite vsum_scale. ring.
Qed.
Lemma fden_add d F G b : fden d (fun x => F x + G x)%C b = (fden d F b + fden d G b)%C.
Proof.
  unfold fden. rewrite (vsum_ext _ _ (fun x => (wx none d x * F x) + (wx none d x * G x))%C) by (intros; ring). rewrite vsum_add. ring.
Qed.
Lemma fden_bsum d F b : fden d (fun x => bsum (fun a => F a x)) b = bsum (fun a => fden d (F a) b).
Proof. apply fden_add. Qed.
Lemma fden_vertex d a d' w F b : zwf d -> av_ok rho d a d' w -> v_type a <> VBoundary ->
  fden d' F b = fden d (fun x => bsum (fun z => (if z then pexp rho (v_phase a) else C1) * F (setb x w z)))%C b.
Proof.
  intros Z A V. unfold fden. rewrite (av_gp _ _ _ _ _ A). f_equal.
  assert (Vb : vtype_eqb (v_type a) VBoundary = false) by (destruct (v_type a); auto; congruence).
  assert (Fr : ~ In w (interior d)). { rewrite interior_In by auto. unfold inner. rewrite (av_fresh _ _ _ _ _ A). discriminate. }
  rewrite (vsum_same (interior d') (w :: interior d)).
  - rewrite vsum_out by auto. apply vsum_ext. intros x. rewrite !(av_wx _ _ _ _ _ A). unfold none at 2 4. rewrite Vb. cbn [orb]. rewrite !setb_same.
    assert (E : forall z, wx none d (setb x w z) = wx none d x).
    { intros z. apply wx_ext. intros v L _. apply setb_other. intros ->. rewrite (av_fresh _ _ _ _ _ A) in L. discriminate. }
    rewrite !E. unfold bsum. ring.
  - apply interior_nodup.
  - constructor; auto. apply interior_nodup.
  - intros v. cbn. rewrite !interior_In by (auto; apply (av_zwf _ _ _ _ _ A)). unfold inner. rewrite (av_live _ _ _ _ _ A).
    destruct (Nat.eq_dec v w) as [->|N].
    + rewrite Nat.eqb_refl, orb_true_r. cbn. unfold isBoundary, vty. rewrite (av_data _ _ _ _ _ A), Vb. cbn. tauto.
    + rewrite (proj2 (Nat.eqb_neq v w) N), orb_false_r. unfold isBoundary. rewrite (av_vty _ _ _ _ _ _ A N). split; [tauto|intros [E|E]; [congruence|auto]].
Qed.
Lemma interior_frame d d' : frame d d' -> interior d' = interior d.
Proof. intros F. unfold interior. rewrite (f_size _ _ F). apply filter_ext. intros v. apply (f_inner _ _ v F). Qed.
Lemma fden_edge d a c h F b : zwf d -> a <> c -> live d a = true -> live d c = true -> hv d a c = None ->
  fden (addEdge d a c h) F b = fden d (fun x => wgt (eh d a c h) (x a) (x c) * F x)%C b.
Proof.
  intros Z N La Lc H. pose proof (frame_addEdge d a c h) as Fr. unfold fden. rewrite (f_gp _ _ Fr), (interior_frame _ _ Fr). f_equal.
  apply vsum_ext. intros x. rewrite addEdge_wx by auto. ring.
Qed.
Lemma fr_split d qs x y q : q < n ->
  fr d qs x y = (wgt (isX d (nth q qs 0)) (x (nth q qs 0)) (y q) *
    cprod (seq 0 n) (fun i => if i =? q then C1 else wgt (isX d (nth i qs 0)) (x (nth i qs 0)) (y i)))%C.
Proof. intros H. unfold fr. now rewrite (cprod_extract n q). Qed.
Lemma fr_split2 d qs x y p q : p < n -> q < n -> p <> q ->
  fr d qs x y = (wgt (isX d (nth p qs 0)) (x (nth p qs 0)) (y p) * wgt (isX d (nth q qs 0)) (x (nth q qs 0)) (y q) *
    cprod (seq 0 n) (fun i => if (i =? p) || (i =? q) then C1 else wgt (isX d (nth i qs 0)) (x (nth i qs 0)) (y i)))%C.
Proof.
  intros Hp Hq N. rewrite (fr_split _ _ _ _ p Hp). rewrite (cprod_extract n q) by auto. apply Nat.eqb_neq in N. rewrite Nat.eqb_sym in N. rewrite N.
  rewrite (cprod_ext _ (fun i => if i =? q then C1 else if i =? p then C1 else wgt (isX d (nth i qs 0)) (x (nth i qs 0)) (y i))
    (fun i => if (i =? p) || (i =? q) then C1 else wgt (isX d (nth i qs 0)) (x (nth i qs 0)) (y i))).
  - ring.
  - intros i _. destruct (i =? p), (i =? q); auto.
Qed.

(* multiplying by a function of the bits of two open ends *)
Lemma T_diag d qs b G p q f : p < n -> q < n -> p <> q ->
  (forall y, f y = fden d (fun x => G (x (nth p qs 0)) (x (nth q qs 0)) * fr d qs x y)%C b) ->
  f = u2 (isX d (nth p qs 0)) (isX d (nth q qs 0)) G p q (T (d, qs) b).
Proof.
  intros Hp Hq N H. apply functional_extensionality. intros y. rewrite H. unfold u2, T. cbn [fst snd].
  set (Q := fun x : bits => cprod (seq 0 n) (fun i => if (i =? p) || (i =? q) then C1 else wgt (isX d (nth i qs 0)) (x (nth i qs 0)) (y i))).
  set (ia := isX d (nth p qs 0)). set (ib := isX d (nth q qs 0)).
  assert (E : forall x a c, fr d qs x (setb (setb y q c) p a) = (wgt ia (x (nth p qs 0)) a * wgt ib (x (nth q qs 0)) c * Q x)%C).
  { intros x a c. rewrite (fr_split2 _ _ _ _ p q) by auto. unfold Q. rewrite setb_same. rewrite (setb_other _ p a q), setb_same by auto. f_equal.
    apply cprod_ext. intros i _. destruct (Nat.eqb_spec i p), (Nat.eqb_spec i q); cbn; auto. now rewrite !setb_other. }
  transitivity (fden d (fun x => bsum (fun a => bsum (fun c => dgK ia ib G a c (y p) (y q) * fr d qs x (setb (setb y q c) p a))))%C b).
  - apply fden_ext. intros x. rewrite (fr_split2 _ _ _ _ p q) by auto. fold (Q x). fold ia ib.
    transitivity (G (x (nth p qs 0)) (x (nth q qs 0)) * (wgt ia (x (nth p qs 0)) (y p) * wgt ib (x (nth q qs 0)) (y q)) * Q x)%C; [ring|].
    rewrite dg_alg. unfold bsum. rewrite !E. ring.
  - rewrite fden_bsum. unfold bsum at 1 4. rewrite !fden_bsum. unfold bsum. rewrite !fden_scale. reflexivity.
Qed.

(* ---- one spider -------------------------------------------------------------------------------------------------- *)
Definition tX (ty : vtype) : bool := vtype_eqb ty VX.
Record spider_ok (q : nat) (ty : vtype) (st st' : bst) : Prop := {
  so_good : good st';
  so_len : nth q (snd st') 0 < 2 * n -> False;
  so_ty : isX (fst st') (nth q (snd st') 0) = tX ty;
  so_isX : forall i, i < n -> i <> q -> nth i (snd st') 0 = nth i (snd st) 0 /\ isX (fst st') (nth i (snd st) 0) = isX (fst st) (nth i (snd st) 0);
  so_nbr : forall i, i < n -> i <> q -> hv (fst st') (nth q (snd st') 0) (nth i (snd st) 0) = None
}.
Lemma good_qlt st i : good st -> i < n -> i < length (snd st).
Proof. intros G H. now rewrite (g_len _ G). Qed.
Lemma front_neq st i j : good st -> i < n -> j < n -> i <> j -> nth i (snd st) 0 <> nth j (snd st) 0.
Proof. intros G Hi Hj N. apply (proj1 (nodup_nth _) (g_nd _ G)); auto using good_qlt. Qed.
Lemma isX_vty d d' u : vty d' u = vty d u -> isX d' u = isX d u.
Proof. unfold isX. now intros ->. Qed.

Lemma spider_step q ty p h st : good st -> q < n -> ty <> VBoundary -> ph_ok p ->
  spider_ok q ty st (addSpider ty q p h st) /\
  forall b, T (addSpider ty q p h st) b = u1 (spK (tX ty) h (pexp rho p)) q (T st b).
Proof.
  intros G Hq V P. destruct st as [d qs]. unfold addSpider. cbn [fst snd].
  pose proof (g_live _ G q Hq) as Lq. cbn [fst snd] in Lq. destruct (d_verts d (nth q qs 0)) as [av|] eqn:Ev; [|unfold live in Lq; rewrite Ev in Lq; discriminate].
  pose proof (g_z _ G) as Z. pose proof (g_b _ G) as B. cbn [fst] in Z, B.
  pose proof (add_vertex rho d (mkV (Z.of_nat q) p ty) Z B) as A. destruct (addVertex d (mkV (Z.of_nat q) p ty)) as [d1 w]. cbn [fst snd] in A.
  set (o := nth q qs 0) in *. set (d2 := addEdge d1 o w h).
  assert (No : o <> w) by (eapply av_neq; eauto).
  assert (Lo : live d1 o = true) by (rewrite (av_live _ _ _ _ _ A), Lq; auto).
  assert (Lw : live d1 w = true) by (rewrite (av_live _ _ _ _ _ A), Nat.eqb_refl; apply orb_true_r).
  assert (Hn : hv d1 o w = None) by (eapply fresh_none; eauto).
  assert (Hn' : hv d1 w o = None) by (apply hv_none; rewrite (av_row _ _ _ _ _ A); auto).
  assert (Z1 : zwf d1) by apply (av_zwf _ _ _ _ _ A). assert (B1 : book d1) by apply (av_book _ _ _ _ _ A).
  pose proof (frame_addEdge d1 o w h) as F2. fold d2 in F2.
  assert (Lw0 : live d w = false) by apply (av_fresh _ _ _ _ _ A).
  assert (W2n : 2 * n <= w). { destruct (le_lt_dec (2 * n) w) as [|Q]; auto. pose proof (g_io _ G w Q). cbn in H. congruence. }
  assert (Ql : length qs = n) by apply (g_len _ G).
  assert (Tw : vty d1 w = ty) by (unfold vty; now rewrite (av_data _ _ _ _ _ A)).
  assert (E2 : forall u, u <> o -> u <> w -> d_edges d2 u = d_edges d u).
  { intros u N1 N2. unfold d2. rewrite addEdge_edges by auto. rewrite (proj2 (Nat.eqb_neq u o) N1), (proj2 (Nat.eqb_neq u w) N2). now apply (av_edges _ _ _ _ _ A). }
  assert (Ty2 : forall u, u <> w -> vty d2 u = vty d u).
  { intros u N. rewrite (f_vty _ _ F2). eapply av_vty; eauto. }
  assert (Li2 : forall u, live d2 u = live d u || (u =? w)).
  { intros u. rewrite (f_live _ _ F2). apply (av_live _ _ _ _ _ A). }
  assert (Fw : forall i, i < n -> nth i qs 0 <> w).
  { intros i Hi. eapply av_neq; eauto. apply (g_live _ G i Hi). }
  assert (GG : good (d2, set_nth q w qs)).
  { constructor; cbn [fst snd].
    - apply addEdge_zwf; auto.
    - apply addEdge_book; auto.
    - apply phok_addEdge. apply (av_phok _ _ _ _ _ A); auto. apply (g_ph _ G).
    - now rewrite set_nth_len.
    - apply nodup_nth. rewrite set_nth_len, Ql. intros i j Hi Hj N.
      destruct (Nat.eq_dec i q) as [->|Ni]; [rewrite set_nth_eq, set_nth_neq by (auto; lia); intros E; symmetry in E; revert E; now apply Fw|].
      destruct (Nat.eq_dec j q) as [->|Nj]; [rewrite set_nth_eq, set_nth_neq by (auto; lia); now apply Fw|].
      rewrite !set_nth_neq by auto. apply (front_neq (d, qs)); auto.
    - intros i Hi. rewrite Li2. destruct (Nat.eq_dec i q) as [->|Ni]; [rewrite set_nth_eq by lia; rewrite Nat.eqb_refl; apply orb_true_r|].
      rewrite set_nth_neq by auto. pose proof (g_live _ G i Hi) as L. cbn in L. now rewrite L.
    - rewrite (f_in _ _ F2), (av_in _ _ _ _ _ A). apply (g_in _ G).
    - rewrite (f_out _ _ F2), (av_out _ _ _ _ _ A). apply (g_out _ G).
    - intros v L. rewrite Li2 in L. destruct (Nat.eq_dec v w) as [->|N].
      + unfold isBoundary. rewrite (f_vty _ _ F2), Tw. split; [destruct ty; cbn; congruence|lia].
      + unfold isBoundary. rewrite Ty2 by auto. apply (g_bd _ G v). rewrite (proj2 (Nat.eqb_neq v w) N), orb_false_r in L. exact L.
    - intros v Hv. rewrite Li2. pose proof (g_io _ G v Hv) as L. cbn in L. now rewrite L.
    - intros v L Bd. destruct (Nat.eq_dec v w) as [->|N].
      + unfold isBoundary in Bd. rewrite (f_vty _ _ F2), Tw in Bd. destruct ty; cbn in Bd; congruence.
      + rewrite Li2, (proj2 (Nat.eqb_neq v w) N), orb_false_r in L. unfold isBoundary in Bd. rewrite Ty2 in Bd by auto.
        destruct (Nat.eq_dec v o) as [->|No'].
        * unfold degree, d2. rewrite addEdge_edges, Nat.eqb_refl by auto. rewrite app_length. cbn.
          rewrite (av_edges _ _ _ _ _ A) by auto. pose proof (g_front _ G q Hq) as [[_ E]|E]; cbn [fst snd] in E.
          { fold o in E. rewrite E. cbn. lia. }
          { apply (g_bd _ G o L) in Bd. fold o in E. lia. }
        * unfold degree. rewrite E2 by auto. now apply (g_bdeg _ G v).
    - intros v Hv. assert (Lv : live d v = true) by (apply (g_io _ G); lia). rewrite E2; [now apply (g_outdeg _ G)| |lia].
      intros ->. pose proof (g_front _ G q Hq) as [[E _]|E]; cbn [fst snd] in E; fold o in E; lia.
    - intros i Hi. destruct (Nat.eq_dec i q) as [->|Ni]; [rewrite set_nth_eq by lia; auto|]. rewrite set_nth_neq by auto.
      destruct (g_front _ G i Hi) as [[E1 E]|E]; cbn [fst snd] in *; auto. left. split; auto. rewrite E2; auto.
      apply (front_neq (d, qs)); auto. }
  split.
  - constructor; cbn [fst snd]; auto.
    + rewrite set_nth_eq by lia. lia.
    + rewrite set_nth_eq by lia. unfold isX, tX. now rewrite (f_vty _ _ F2), Tw.
    + intros i Hi N. rewrite set_nth_neq by auto. split; auto. apply isX_vty. now apply Ty2, Fw.
    + intros i Hi N. rewrite set_nth_eq by lia. unfold d2. rewrite addEdge_hv by auto. unfold on_pair. rewrite Nat.eqb_refl.
      assert (N1 : nth i qs 0 <> o) by (apply (front_neq (d, qs)); auto).
      rewrite (proj2 (Nat.eqb_neq w o)) by auto. rewrite (proj2 (Nat.eqb_neq _ o) N1). cbn. apply hv_none. rewrite (av_row _ _ _ _ _ A). auto.
  - intros b. apply functional_extensionality. intros y. unfold T, u1. cbn [fst snd].
    set (Q := fun x : bits => cprod (seq 0 n) (fun i => if i =? q then C1 else wgt (isX d (nth i qs 0)) (x (nth i qs 0)) (y i))).
    assert (EA : forall x a, fr d qs x (setb y q a) = (wgt (isX d o) (x o) a * Q x)%C).
    { intros x a. rewrite (fr_split _ _ _ _ q) by auto. rewrite setb_same. f_equal. apply cprod_ext. intros i _. destruct (Nat.eqb_spec i q); auto. now rewrite setb_other. }
    assert (EB : forall x z, fr d2 (set_nth q w qs) (setb x w z) y = (wgt (tX ty) z (y q) * Q x)%C).
    { intros x z. rewrite (fr_split _ _ _ _ q) by auto. rewrite set_nth_eq by lia. rewrite setb_same. unfold isX at 1. rewrite (f_vty _ _ F2), Tw. f_equal.
      apply cprod_ext. intros i I. apply in_seq in I. destruct (Nat.eqb_spec i q); auto. rewrite set_nth_neq by auto. rewrite setb_other by (apply Fw; lia).
      f_equal. apply isX_vty, Ty2, Fw. lia. }
    unfold d2 at 1. rewrite fden_edge by auto. rewrite (fden_vertex _ _ _ _ _ _ Z A) by auto. cbn [v_phase].
    transitivity (fden d (fun x => bsum (fun a => spK (tX ty) h (pexp rho p) a (y q) * fr d qs x (setb y q a)))%C b).
    + apply fden_ext. intros x.
      assert (X : eh d1 o w h = xorb h (xorb (isX d o) (tX ty))).
      { unfold eh. rewrite (isX_vty d d1 o) by (eapply av_vty; eauto). unfold isX at 2. now rewrite Tw. }
      transitivity (bsum (fun z => (if z then pexp rho p else C1) * (wgt (xorb h (xorb (isX d o) (tX ty))) (x o) z * wgt (tX ty) z (y q))) * Q x)%C.
      * unfold bsum. rewrite !EB, X, !setb_same, !(setb_other x w _ o) by auto. ring.
      * rewrite sp_alg. unfold bsum. rewrite !EA. ring.
    + rewrite fden_bsum. unfold bsum. rewrite !fden_scale. reflexivity.
Qed.

(* ---- structure ---------------------------------------------------------------------------------------------------- *)
Lemma good_vertex d qs a d' w : good (d, qs) -> av_ok rho d a d' w -> v_type a <> VBoundary -> ph_ok (v_phase a) ->
  good (d', qs) /\ 2 * n <= w /\ (forall i, i < n -> nth i qs 0 <> w).
Proof.
  intros G A V P.
  assert (W2n : 2 * n <= w). { destruct (le_lt_dec (2 * n) w) as [|Q]; auto. pose proof (g_io _ G w Q). cbn in H. pose proof (av_fresh _ _ _ _ _ A). congruence. }
  assert (Fw : forall i, i < n -> nth i qs 0 <> w). { intros i Hi. eapply av_neq; eauto. apply (g_live _ G i Hi). }
  split; [|auto].
  assert (Tw : vty d' w = v_type a) by (unfold vty; now rewrite (av_data _ _ _ _ _ A)).
  constructor; cbn [fst snd].
  - apply (av_zwf _ _ _ _ _ A).
  - apply (av_book _ _ _ _ _ A).
  - apply (av_phok _ _ _ _ _ A); auto. apply (g_ph _ G).
  - apply (g_len _ G).
  - apply (g_nd _ G).
  - intros i Hi. rewrite (av_live _ _ _ _ _ A). pose proof (g_live _ G i Hi) as L. cbn in L. now rewrite L.
  - rewrite (av_in _ _ _ _ _ A). apply (g_in _ G).
  - rewrite (av_out _ _ _ _ _ A). apply (g_out _ G).
  - intros v L. rewrite (av_live _ _ _ _ _ A) in L. destruct (Nat.eq_dec v w) as [->|N].
    + unfold isBoundary. rewrite Tw. split; [destruct (v_type a); cbn; congruence|lia].
    + unfold isBoundary. rewrite (av_vty _ _ _ _ _ _ A N). apply (g_bd _ G v). rewrite (proj2 (Nat.eqb_neq v w) N), orb_false_r in L. exact L.
  - intros v Hv. rewrite (av_live _ _ _ _ _ A). pose proof (g_io _ G v Hv) as L. cbn in L. now rewrite L.
  - intros v L Bd. destruct (Nat.eq_dec v w) as [->|N]; [unfold degree; rewrite (av_row _ _ _ _ _ A); cbn; lia|].
    unfold degree. rewrite (av_edges _ _ _ _ _ A) by auto. rewrite (av_live _ _ _ _ _ A), (proj2 (Nat.eqb_neq v w) N), orb_false_r in L.
    apply (g_bdeg _ G v); auto. unfold isBoundary in *. now rewrite (av_vty _ _ _ _ _ _ A N) in Bd.
  - intros v Hv. rewrite (av_edges _ _ _ _ _ A) by lia. now apply (g_outdeg _ G).
  - intros i Hi. destruct (g_front _ G i Hi) as [[E1 E]|E]; cbn [fst snd] in *; auto. left. split; auto. rewrite (av_edges _ _ _ _ _ A); auto.
Qed.
Lemma good_edge d qs a c h : good (d, qs) -> a <> c -> live d a = true -> live d c = true -> 2 * n <= a -> 2 * n <= c -> hv d a c = None -> good (addEdge d a c h, qs).
Proof.
  intros G N La Lc Ha Hc H. pose proof (frame_addEdge d a c h) as F. pose proof (g_z _ G) as Z. pose proof (g_b _ G) as B. cbn [fst] in Z, B.
  assert (E : forall u, u <> a -> u <> c -> d_edges (addEdge d a c h) u = d_edges d u).
  { intros u N1 N2. rewrite addEdge_edges by auto. now rewrite (proj2 (Nat.eqb_neq u a) N1), (proj2 (Nat.eqb_neq u c) N2). }
  constructor; cbn [fst snd].
  - now apply addEdge_zwf.
  - now apply addEdge_book.
  - apply phok_addEdge, (g_ph _ G).
  - apply (g_len _ G).
  - apply (g_nd _ G).
  - intros i Hi. rewrite (f_live _ _ F). now apply (g_live _ G).
  - rewrite (f_in _ _ F). apply (g_in _ G).
  - rewrite (f_out _ _ F). apply (g_out _ G).
  - intros v L. rewrite (f_live _ _ F) in L. rewrite (f_bnd _ _ _ F). now apply (g_bd _ G).
  - intros v Hv. rewrite (f_live _ _ F). now apply (g_io _ G).
  - intros v L Bd. rewrite (f_live _ _ F) in L. rewrite (f_bnd _ _ _ F) in Bd. pose proof (proj1 (g_bd _ G v L) Bd). unfold degree. rewrite E by lia. now apply (g_bdeg _ G).
  - intros v Hv. rewrite E by lia. now apply (g_outdeg _ G).
  - intros i Hi. destruct (g_front _ G i Hi) as [[E1 E2]|E1]; cbn [fst snd] in *; auto. left. split; auto. rewrite E; auto; lia.
Qed.
(* continuing an open end at an existing spider *)
Lemma good_move d qs q w h : good (d, qs) -> q < n -> live d w = true -> 2 * n <= w -> (forall i, i < n -> nth i qs 0 <> w) ->
  hv d (nth q qs 0) w = None -> good (addEdge d (nth q qs 0) w h, set_nth q w qs).
Proof.
  intros G Hq Lw Hw Fw Hn. set (o := nth q qs 0) in *. pose proof (frame_addEdge d o w h) as F. pose proof (g_z _ G) as Z. pose proof (g_b _ G) as B. cbn [fst] in Z, B.
  assert (Lo : live d o = true) by apply (g_live _ G q Hq). assert (No : o <> w) by (now apply Fw). assert (Ql : length qs = n) by apply (g_len _ G).
  assert (E2 : forall u, u <> o -> u <> w -> d_edges (addEdge d o w h) u = d_edges d u).
  { intros u N1 N2. rewrite addEdge_edges by auto. now rewrite (proj2 (Nat.eqb_neq u o) N1), (proj2 (Nat.eqb_neq u w) N2). }
  constructor; cbn [fst snd].
  - now apply addEdge_zwf.
  - now apply addEdge_book.
  - apply phok_addEdge, (g_ph _ G).
  - now rewrite set_nth_len.
  - apply nodup_nth. rewrite set_nth_len, Ql. intros i j Hi Hj N.
    destruct (Nat.eq_dec i q) as [->|Ni]; [rewrite set_nth_eq, set_nth_neq by (auto; lia); intros E; symmetry in E; revert E; now apply Fw|].
    destruct (Nat.eq_dec j q) as [->|Nj]; [rewrite set_nth_eq, set_nth_neq by (auto; lia); now apply Fw|].
    rewrite !set_nth_neq by auto. apply (front_neq (d, qs)); auto.
  - intros i Hi. rewrite (f_live _ _ F). destruct (Nat.eq_dec i q) as [->|Ni]; [now rewrite set_nth_eq by lia|]. rewrite set_nth_neq by auto. now apply (g_live _ G i).
  - rewrite (f_in _ _ F). apply (g_in _ G).
  - rewrite (f_out _ _ F). apply (g_out _ G).
  - intros v L. rewrite (f_live _ _ F) in L. rewrite (f_bnd _ _ _ F). now apply (g_bd _ G).
  - intros v Hv. rewrite (f_live _ _ F). now apply (g_io _ G).
  - intros v L Bd. rewrite (f_live _ _ F) in L. rewrite (f_bnd _ _ _ F) in Bd. pose proof (proj1 (g_bd _ G v L) Bd).
    destruct (Nat.eq_dec v o) as [->|No'].
    + unfold degree. rewrite addEdge_edges, Nat.eqb_refl by auto. rewrite app_length. cbn.
      pose proof (g_front _ G q Hq) as [[_ E]|E]; cbn [fst snd] in E; fold o in E; [rewrite E; cbn; lia|lia].
    + unfold degree. rewrite E2 by (auto; lia). now apply (g_bdeg _ G v).
  - intros v Hv. rewrite E2; [now apply (g_outdeg _ G)| |lia]. intros ->. pose proof (g_front _ G q Hq) as [[E _]|E]; cbn [fst snd] in E; fold o in E; lia.
  - intros i Hi. destruct (Nat.eq_dec i q) as [->|Ni]; [rewrite set_nth_eq by lia; auto|]. rewrite set_nth_neq by auto.
    destruct (g_front _ G i Hi) as [[E1 E]|E]; cbn [fst snd] in *; auto. left. split; auto. rewrite E2; auto. apply (front_neq (d, qs)); auto.
Qed.
Lemma good_perm d qs qs' : good (d, qs) -> length qs' = n -> NoDup qs' -> (forall i, i < n -> exists j, j < n /\ nth i qs' 0 = nth j qs 0) -> good (d, qs').
Proof.
  intros G Ql Nd H. constructor; cbn [fst snd]; try apply G; auto.
  - intros i Hi. destruct (H i Hi) as (j & Hj & ->). now apply (g_live _ G).
  - intros i Hi. destruct (H i Hi) as (j & Hj & ->). now apply (g_front _ G).
Qed.

(* ---- edges and gadgets between two open ends ---------------------------------------------------------------------- *)
Lemma fr_isX d d' qs x y : (forall i, i < n -> isX d' (nth i qs 0) = isX d (nth i qs 0)) -> fr d' qs x y = fr d qs x y.
Proof. intros H. unfold fr. apply cprod_ext. intros i I. apply in_seq in I. now rewrite H by lia. Qed.
Lemma fr_setb d qs x y w z : (forall i, i < n -> nth i qs 0 <> w) -> fr d qs (setb x w z) y = fr d qs x y.
Proof. intros H. unfold fr. apply cprod_ext. intros i I. apply in_seq in I. now rewrite setb_other by (apply H; lia). Qed.
Lemma edge_step c t h st : good st -> c < n -> t < n -> c <> t -> 2 * n <= nth c (snd st) 0 -> 2 * n <= nth t (snd st) 0 ->
  hv (fst st) (nth c (snd st) 0) (nth t (snd st) 0) = None ->
  good (joinE c t h st) /\ forall b, T (joinE c t h st) b =
    u2 (isX (fst st) (nth c (snd st) 0)) (isX (fst st) (nth t (snd st) 0)) (wgt (eh (fst st) (nth c (snd st) 0) (nth t (snd st) 0) h)) c t (T st b).
Proof.
  destruct st as [d qs]. cbn [fst snd]. intros G Hc Ht N Uc Ut H. unfold joinE. cbn [fst snd].
  assert (Lc : live d (nth c qs 0) = true) by apply (g_live _ G c Hc). assert (Lt : live d (nth t qs 0) = true) by apply (g_live _ G t Ht).
  assert (Nn : nth c qs 0 <> nth t qs 0) by (apply (front_neq (d, qs)); auto).
  split; [apply good_edge; auto|]. intros b. apply T_diag; auto. intros y. unfold T. cbn [fst snd]. rewrite fden_edge by (auto; apply (g_z _ G)).
  apply fden_ext. intros x. reflexivity.
Qed.
Lemma mid_step ty0 ty1 h p c t st : good st -> c < n -> t < n -> c <> t -> 2 * n <= nth c (snd st) 0 -> 2 * n <= nth t (snd st) 0 ->
  ty0 <> VBoundary -> ty1 <> VBoundary -> ph_ok p ->
  xorb (isX (fst st) (nth c (snd st) 0)) (tX ty0) = true -> xorb h (xorb (isX (fst st) (nth t (snd st) 0)) (tX ty0)) = true -> xorb (tX ty0) (tX ty1) = true ->
  good (addMid ty0 ty1 h p c t st) /\ forall b, T (addMid ty0 ty1 h p c t st) b =
    u2 (isX (fst st) (nth c (snd st) 0)) (isX (fst st) (nth t (snd st) 0)) (midG (pexp rho p)) c t (T st b).
Proof.
  destruct st as [d qs]. cbn [fst snd]. intros G Hc Ht N Uc Ut V0 V1 P X0 X1 X2. unfold addMid.
  assert (Z : zwf d) by apply (g_z _ G).
  pose proof (add_vertex rho d (mkV (-1) p_zero ty0) (g_z _ G) (g_b _ G)) as A0. destruct (addVertex d (mkV (-1) p_zero ty0)) as [d1 m0]. cbn [fst snd] in A0.
  destruct (good_vertex _ _ _ _ _ G A0) as (G1 & M0 & F0); auto using ph_ok_zero.
  pose proof (add_vertex rho d1 (mkV (-1) p ty1) (g_z _ G1) (g_b _ G1)) as A1. destruct (addVertex d1 (mkV (-1) p ty1)) as [d2 m1]. cbn [fst snd] in A1.
  destruct (good_vertex _ _ _ _ _ G1 A1) as (G2 & M1 & F1); auto.
  set (u := nth c qs 0) in *. set (v := nth t qs 0) in *.
  assert (Nuv : u <> v) by (apply (front_neq (d, qs)); auto). assert (Nu0 : u <> m0) by (now apply F0). assert (Nv0 : v <> m0) by (now apply F0).
  assert (Nu1 : u <> m1) by (now apply F1). assert (Nv1 : v <> m1) by (now apply F1).
  assert (L01 : live d1 m0 = true) by (rewrite (av_live _ _ _ _ _ A0), Nat.eqb_refl; apply orb_true_r).
  assert (N01 : m0 <> m1) by (eapply av_neq; eauto).
  assert (L0 : live d2 m0 = true) by (rewrite (av_live _ _ _ _ _ A1), L01; auto).
  assert (L1 : live d2 m1 = true) by (rewrite (av_live _ _ _ _ _ A1), Nat.eqb_refl; apply orb_true_r).
  assert (Lu : live d2 u = true) by apply (g_live _ G2 c Hc). assert (Lv : live d2 v = true) by apply (g_live _ G2 t Ht).
  assert (R0 : d_edges d2 m0 = []) by (rewrite (av_edges _ _ _ _ _ A1) by auto; apply (av_row _ _ _ _ _ A0)).
  assert (R1 : d_edges d2 m1 = []) by apply (av_row _ _ _ _ _ A1).
  assert (Z2 : zwf d2) by apply (g_z _ G2).
  assert (H0 : forall k, live d2 k = true -> hv d2 k m0 = None) by (intros k Lk; rewrite hv_sym by auto; apply hv_none; rewrite R0; auto).
  assert (H0' : forall k, hv d2 m0 k = None) by (intros k; apply hv_none; rewrite R0; auto).
  set (d3 := addEdge d2 u m0 false). assert (G3 : good (d3, qs)) by (apply good_edge; auto).
  pose proof (frame_addEdge d2 u m0 false) as Fr3. fold d3 in Fr3.
  assert (Hv3 : forall k l, hv d3 k l = if on_pair u m0 k l then Some false else hv d2 k l) by (intros; apply addEdge_hv; auto).
  assert (E3 : hv d3 v m0 = None). { rewrite Hv3. unfold on_pair. rewrite (proj2 (Nat.eqb_neq v u)), (proj2 (Nat.eqb_neq v m0)) by auto. cbn. auto. }
  set (d4 := addEdge d3 v m0 h).
  assert (L3 : forall k, live d3 k = live d2 k) by apply Fr3.
  assert (G4 : good (d4, qs)) by (apply good_edge; auto; now rewrite L3).
  pose proof (frame_addEdge d3 v m0 h) as Fr4. fold d4 in Fr4.
  assert (E4 : hv d4 m0 m1 = None).
  { unfold d4. rewrite addEdge_hv by (auto; rewrite hv_sym; auto; apply (g_z _ G3)).
    unfold on_pair. rewrite (proj2 (Nat.eqb_neq m1 m0)), (proj2 (Nat.eqb_neq m0 v)), (proj2 (Nat.eqb_neq m1 v)) by auto. rewrite andb_false_r. cbn [orb andb]. rewrite Hv3.
    unfold on_pair. rewrite (proj2 (Nat.eqb_neq m1 m0)), (proj2 (Nat.eqb_neq m0 u)), (proj2 (Nat.eqb_neq m1 u)) by auto. rewrite andb_false_r. cbn. auto. }
  assert (L4 : forall k, live d4 k = live d2 k) by (intros; rewrite (f_live _ _ Fr4); apply L3).
  pose proof (frame_addEdge d4 m0 m1 false) as Fr5. set (d5 := addEdge d4 m0 m1 false) in *.
  split; [apply good_edge; auto; now rewrite L4|].
  assert (Xf : forall k, k <> m0 -> k <> m1 -> isX d2 k = isX d k).
  { intros k K0 K1. rewrite (isX_vty d1 d2 k) by (eapply av_vty; eauto). apply isX_vty. eapply av_vty; eauto. }
  assert (T0 : isX d2 m0 = tX ty0). { rewrite (isX_vty d1 d2 m0) by (eapply av_vty; eauto). unfold isX, vty. now rewrite (av_data _ _ _ _ _ A0). }
  assert (T1 : isX d2 m1 = tX ty1). { unfold isX, vty. now rewrite (av_data _ _ _ _ _ A1). }
  assert (X25 : forall k, isX d4 k = isX d2 k) by (intros; rewrite (f_isX _ _ _ Fr4); apply (f_isX _ _ _ Fr3)).
  intros b. apply T_diag; auto. intros y. unfold T. cbn [fst snd].
  unfold d5 at 1. rewrite fden_edge by (rewrite ?L4; auto; apply (g_z _ G4)).
  unfold d4 at 1. rewrite fden_edge by (rewrite ?L3; auto; apply (g_z _ G3)).
  unfold d3 at 1. rewrite fden_edge by auto. rewrite (fden_vertex _ _ _ _ _ _ (g_z _ G1) A1) by auto. rewrite (fden_vertex _ _ _ _ _ _ Z A0) by auto.
  cbn [v_phase]. apply fden_ext. intros x. rewrite pexp_p_zero.
  assert (FR : forall z0 z1, fr d5 qs (setb (setb x m0 z0) m1 z1) y = fr d qs x y).
  { intros z0 z1. rewrite !fr_setb by auto. apply fr_isX. intros i Hi. rewrite (f_isX _ _ _ Fr5), X25. apply Xf; auto. }
  assert (Eu : eh d2 u m0 false = true). { unfold eh. rewrite Xf, T0, xorb_false_l by auto. apply X0. }
  assert (Ev : eh d3 v m0 h = true). { rewrite (f_eh _ _ _ _ _ Fr3). unfold eh. rewrite Xf, T0 by auto. apply X1. }
  assert (Em : eh d4 m0 m1 false = true). { unfold eh. rewrite !X25, T0, T1, xorb_false_l. apply X2. }
  fold u v. rewrite <- (mid_alg (pexp rho p) (x u) (x v) true true eq_refl eq_refl). unfold bsum. rewrite !FR, Eu, Ev, Em.
  repeat rewrite ?(setb_other _ m1 _ u), ?(setb_other _ m1 _ v), ?(setb_other _ m1 _ m0), ?(setb_other _ m0 _ u), ?(setb_other _ m0 _ v), ?setb_same by auto.
  rewrite !(wgt_sym true (x u)), !(wgt_sym true (x v)). fold u v. ring.
Qed.

Lemma swap_step t1 t2 st : good st -> t1 < n -> t2 < n -> t1 <> t2 -> good (addSwap t1 t2 st) /\ forall b, T (addSwap t1 t2 st) b = swapq t1 t2 (T st b).
Proof.
  destruct st as [d qs]. intros G H1 H2 N. unfold addSwap.
  assert (Z : zwf d) by apply (g_z _ G). assert (Ql : length qs = n) by apply (g_len _ G).
  set (s0 := nth t2 qs 0). set (s1 := nth t1 qs 0).
  assert (Ls0 : live d s0 = true) by apply (g_live _ G t2 H2). destruct (d_verts d s0) as [av|] eqn:Ev; [|unfold live in Ls0; rewrite Ev in Ls0; discriminate].
  pose proof (add_vertex rho d (mkV (Z.of_nat t2) p_zero VZ) (g_z _ G) (g_b _ G)) as A0. destruct (addVertex d (mkV (Z.of_nat t2) p_zero VZ)) as [d1 v0]. cbn [fst snd] in A0.
  destruct (good_vertex _ _ _ _ _ G A0) as (G1 & M0 & F0); [cbn; congruence|apply ph_ok_zero|].
  pose proof (add_vertex rho d1 (mkV (Z.of_nat t1) p_zero VZ) (g_z _ G1) (g_b _ G1)) as A1. destruct (addVertex d1 (mkV (Z.of_nat t1) p_zero VZ)) as [d2 v1]. cbn [fst snd] in A1.
  destruct (good_vertex _ _ _ _ _ G1 A1) as (G2 & M1 & F1); [cbn; congruence|apply ph_ok_zero|].
  assert (L01 : live d1 v0 = true) by (rewrite (av_live _ _ _ _ _ A0), Nat.eqb_refl; apply orb_true_r).
  assert (N01 : v0 <> v1) by (eapply av_neq; eauto).
  assert (L0 : live d2 v0 = true) by (rewrite (av_live _ _ _ _ _ A1), L01; auto).
  assert (L1 : live d2 v1 = true) by (rewrite (av_live _ _ _ _ _ A1), Nat.eqb_refl; apply orb_true_r).
  assert (R0 : d_edges d2 v0 = []) by (rewrite (av_edges _ _ _ _ _ A1) by auto; apply (av_row _ _ _ _ _ A0)).
  assert (R1 : d_edges d2 v1 = []) by apply (av_row _ _ _ _ _ A1).
  assert (Z2 : zwf d2) by apply (g_z _ G2).
  assert (K0 : forall k, live d2 k = true -> hv d2 k v0 = None) by (intros k Lk; rewrite hv_sym by auto; apply hv_none; rewrite R0; auto).
  assert (K1 : forall k, live d2 k = true -> hv d2 k v1 = None) by (intros k Lk; rewrite hv_sym by auto; apply hv_none; rewrite R1; auto).
  assert (Ns : s0 <> s1) by (apply (front_neq (d, qs)); auto).
  assert (Ls0' : live d2 s0 = true) by apply (g_live _ G2 t2 H2). assert (Ls1' : live d2 s1 = true) by apply (g_live _ G2 t1 H1).
  assert (Ns00 : s0 <> v0) by (now apply F0). assert (Ns10 : s1 <> v0) by (now apply F0). assert (Ns01 : s0 <> v1) by (now apply F1). assert (Ns11 : s1 <> v1) by (now apply F1).
  set (d3 := addEdge d2 s0 v1 false). pose proof (frame_addEdge d2 s0 v1 false) as Fr3. fold d3 in Fr3.
  assert (G3 : good (d3, set_nth t2 v1 qs)) by (apply good_move; auto).
  assert (Q1 : nth t1 (set_nth t2 v1 qs) 0 = s1) by (now rewrite set_nth_neq).
  assert (E3 : hv d3 s1 v0 = None).
  { unfold d3. rewrite addEdge_hv; auto; [|now apply hv_none; rewrite R1].
    unfold on_pair. rewrite (proj2 (Nat.eqb_neq s1 s0)), (proj2 (Nat.eqb_neq s1 v1)) by auto. cbn. auto. }
  set (d4 := addEdge d3 s1 v0 false). pose proof (frame_addEdge d3 s1 v0 false) as Fr4. fold d4 in Fr4.
  assert (G4 : good (d4, set_nth t1 v0 (set_nth t2 v1 qs))).
  { unfold d4. rewrite <- Q1. apply good_move; auto.
    - intros i Hi. destruct (Nat.eq_dec i t2) as [->|Ni]; [rewrite set_nth_eq by lia; auto|rewrite set_nth_neq by auto; now apply F0].
    - now rewrite Q1. }
  split.
  - apply (good_perm _ _ _ G4).
    + now rewrite !set_nth_len.
    + apply nodup_nth. rewrite !set_nth_len, Ql. intros i j Hi Hj Nij.
      destruct (Nat.eq_dec i t1) as [->|]; [rewrite set_nth_eq by (rewrite set_nth_len; lia)|rewrite set_nth_neq by auto; destruct (Nat.eq_dec i t2) as [->|]; [rewrite set_nth_eq by lia|rewrite set_nth_neq by auto]];
      (destruct (Nat.eq_dec j t1) as [->|]; [rewrite set_nth_eq by (rewrite set_nth_len; lia)|rewrite set_nth_neq by auto; destruct (Nat.eq_dec j t2) as [->|]; [rewrite set_nth_eq by lia|rewrite set_nth_neq by auto]]); auto;
      try (intros E; symmetry in E; revert E; now (apply F0 || apply F1)); try (now (apply F0 || apply F1)); try (now apply (front_neq (d, qs))); congruence.
    + intros i Hi. destruct (Nat.eq_dec i t1) as [->|N1]; [|destruct (Nat.eq_dec i t2) as [->|N2]].
      * exists t2. split; auto. rewrite set_nth_eq by (rewrite set_nth_len; lia). rewrite set_nth_neq by auto. now rewrite set_nth_eq by lia.
      * exists t1. split; auto. rewrite set_nth_neq by auto. rewrite set_nth_eq by lia. now rewrite set_nth_eq by (rewrite set_nth_len; lia).
      * exists i. split; auto. now rewrite !set_nth_neq.
  - assert (Xf : forall k, k <> v0 -> k <> v1 -> isX d2 k = isX d k).
    { intros k K2 K3. rewrite (isX_vty d1 d2 k) by (eapply av_vty; eauto). apply isX_vty. eapply av_vty; eauto. }
    assert (T0 : isX d2 v0 = false). { rewrite (isX_vty d1 d2 v0) by (eapply av_vty; eauto). unfold isX, vty. now rewrite (av_data _ _ _ _ _ A0). }
    assert (T1 : isX d2 v1 = false). { unfold isX, vty. now rewrite (av_data _ _ _ _ _ A1). }
    assert (X24 : forall k, isX d4 k = isX d2 k) by (intros; rewrite (f_isX _ _ _ Fr4); apply (f_isX _ _ _ Fr3)).
    intros b. apply functional_extensionality. intros y. unfold swapq, T. cbn [fst snd].
    unfold d4 at 1. rewrite fden_edge by (rewrite ?(f_live _ _ Fr3); auto; apply (g_z _ G3)).
    unfold d3 at 1. rewrite fden_edge by auto. rewrite (fden_vertex _ _ _ _ _ _ (g_z _ G1) A1) by (cbn; congruence). rewrite (fden_vertex _ _ _ _ _ _ Z A0) by (cbn; congruence).
    cbn [v_phase]. apply fden_ext. intros x. rewrite pexp_p_zero.
    set (Q := cprod (seq 0 n) (fun i => if (i =? t1) || (i =? t2) then C1 else wgt (isX d (nth i qs 0)) (x (nth i qs 0)) (y i))).
    assert (FR : forall z0 z1, fr d4 (set_nth t1 v1 (set_nth t2 v0 qs)) (setb (setb x v0 z0) v1 z1) y = (wgt false z1 (y t1) * wgt false z0 (y t2) * Q)%C).
    { intros z0 z1. rewrite (fr_split2 _ _ _ _ t1 t2) by auto. rewrite (set_nth_eq t1) by (rewrite set_nth_len; lia). rewrite (set_nth_neq t1 t2) by auto. rewrite (set_nth_eq t2) by lia.
      rewrite setb_same. rewrite (setb_other _ v1 _ v0) by auto. rewrite setb_same, !X24, T0, T1. f_equal. unfold Q. apply cprod_ext. intros i I. apply in_seq in I.
      destruct (Nat.eqb_spec i t1), (Nat.eqb_spec i t2); cbn [orb]; auto. rewrite !set_nth_neq by auto. rewrite X24, Xf by (now (apply F0 || apply F1); lia || auto; lia).
      rewrite !setb_other; auto; [apply F0; lia|apply F1; lia]. }
    assert (FR' : fr d qs x (setb (setb y t2 (y t1)) t1 (y t2)) = (wgt (isX d s1) (x s1) (y t2) * wgt (isX d s0) (x s0) (y t1) * Q)%C).
    { rewrite (fr_split2 _ _ _ _ t1 t2) by auto. rewrite setb_same. rewrite (setb_other _ t1 _ t2), setb_same by auto. f_equal. unfold Q. apply cprod_ext. intros i _.
      destruct (Nat.eqb_spec i t1), (Nat.eqb_spec i t2); cbn [orb]; auto. now rewrite !setb_other. }
    rewrite FR'.
    assert (Eu : eh d2 s0 v1 false = isX d s0). { unfold eh. rewrite Xf, T1 by auto. now rewrite xorb_false_l, xorb_false_r. }
    assert (Ev' : eh d3 s1 v0 false = isX d s1). { rewrite (f_eh _ _ _ _ _ Fr3). unfold eh. rewrite Xf, T0 by auto. now rewrite xorb_false_l, xorb_false_r. }
    unfold bsum. rewrite !FR, Eu, Ev'.
    repeat rewrite ?(setb_other _ v1 _ s0), ?(setb_other _ v1 _ s1), ?(setb_other _ v1 _ v0), ?(setb_other _ v0 _ s0), ?(setb_other _ v0 _ s1), ?setb_same by auto.
    rewrite !wgt_id. destruct (y t1), (y t2); cbn [eqb]; ring.
Qed.
Lemma gp_step p st : good st -> good (addGP p st) /\ forall b, T (addGP p st) b = sscal (pexp rho p) (T st b).
Proof.
  intros G. destruct st as [d qs]. unfold addGP. cbn [fst snd]. split.
  - destruct G as [g1 g2 g3 g4 g5 g6 g7 g8 g9 g10 g11 g12 g13]. constructor; cbn [fst snd] in *; auto.
    + destruct g1. constructor; auto.
    + destruct g2. constructor; auto.
  - intros b. apply functional_extensionality. intros y. unfold T, fden, sscal. cbn [fst snd]. change (d_gphase (addGlobalPhase d p)) with (p_add (d_gphase d) p). rewrite pexp_add.
    change (interior (addGlobalPhase d p)) with (interior d).
    rewrite (vsum_ext _ (fun x => wx none (addGlobalPhase d p) x * fr (addGlobalPhase d p) qs x y)%C (fun x => wx none d x * fr d qs x y)%C) by reflexivity. ring.
Qed.
End Build.
