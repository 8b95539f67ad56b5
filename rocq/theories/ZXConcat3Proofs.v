(* ZXDiagram::concat: its map is the composition of the maps. *)
From Coq Require Import Reals QArith Qreals ZArith Bool List Arith Lia Lra Permutation FunctionalExtensionality.
From Verif Require Import Cplx Qsem PiModel ZXModel ZXSpec ZXPhaseProofs ZXSemProofs ZXUpdProofs ZXUpd3Proofs ZXRuleProofs ZXRule2Proofs ZXRule3Proofs ZXBuildProofs ZXDiscProofs ZXCompSpec ZXConcatProofs ZXConcat2Proofs.
Import ListNotations.
Local Close Scope Q_scope.
Local Open Scope nat_scope.

(* ---- products and sums -------------------------------------------------------------------------------------------------- *)
Lemma cprod_row (l : list edge) v (F : bool -> C) : NoDup (map fst l) ->
  cprod l (fun t => if fst t =? v then F (snd t) else C1) = match option_map snd (find (fun t => fst t =? v) l) with Some h => F h | None => C1 end.
Proof.
  induction l as [|[a h] l IH]; cbn [map cprod find fst snd]; intros N; [reflexivity|]. apply NoDup_cons_iff in N as [N1 N2]. destruct (Nat.eqb_spec a v) as [->|].
  - rewrite cprod_one; [cbn; ring|]. intros [b k] I. cbn [fst snd]. destruct (Nat.eqb_spec b v) as [->|]; auto. exfalso. apply N1. now apply (in_map fst) in I.
  - rewrite IH by auto. ring.
Qed.
Lemma cprod_nth (l : list nat) f : cprod l f = cprod (seq 0 (length l)) (fun q => f (nth q l 0)).
Proof.
  induction l as [|a l IH]; cbn [length seq cprod]; auto. rewrite IH, <- seq_shift, cprod_map. reflexivity.
Qed.
Lemma lsum_ext {A} (l : list A) f g : (forall a, In a l -> f a = g a) -> lsum l f = lsum l g.
Proof. unfold lsum. induction l; cbn; intros H; auto. rewrite IHl by auto. now rewrite H by auto. Qed.
Lemma lsum_scale {A} (l : list A) c f : lsum l (fun a => (c * f a)%C) = (c * lsum l f)%C.
Proof. unfold lsum. induction l; cbn [fold_right]; [ring|]. rewrite IHl. ring. Qed.
Lemma lsum_app {A} (l k : list A) f : lsum (l ++ k) f = (lsum l f + lsum k f)%C.
Proof. unfold lsum. induction l; cbn [fold_right app]; [ring|]. rewrite IHl. ring. Qed.
Lemma lsum_map {A B} (g : A -> B) l f : lsum (map g l) f = lsum l (fun a => f (g a)).
Proof. unfold lsum. induction l; cbn; auto. now rewrite IHl. Qed.
Lemma lsum_vsum {A} (l : list A) vs (f : A -> bits -> C) b : lsum l (fun a => vsum vs (f a) b) = vsum vs (fun x => lsum l (fun a => f a x)) b.
Proof.
  unfold lsum. induction l as [|a l IH]; cbn [fold_right].
  - symmetry. transitivity (vsum vs (fun x => (C0 * C0)%C) b); [apply vsum_ext; intros; ring|]. rewrite (vsum_scale vs C0 (fun _ => C0) b). ring.
  - rewrite IH. symmetry. apply (vsum_add vs (f a)).
Qed.
Lemma lsum_prod n (g : nat -> bool -> C) : lsum (bools n) (fun m => cprod (seq 0 n) (fun q => g q (nth q m false))) = cprod (seq 0 n) (fun q => (g q false + g q true)%C).
Proof.
  revert g. induction n as [|n IH]; intros g; [cbn; ring|]. cbn [bools seq cprod]. rewrite lsum_app, !lsum_map, <- seq_shift, cprod_map.
  assert (E : forall s, lsum (bools n) (fun m => (g 0 (nth 0 (s :: m) false) * cprod (map S (seq 0 n)) (fun q => g q (nth q (s :: m) false)))%C)
     = (g 0 s * cprod (seq 0 n) (fun q => (g (S q) false + g (S q) true)%C))%C).
  { intros s. cbn [nth]. rewrite lsum_scale. f_equal. rewrite <- (IH (fun q => g (S q))). apply lsum_ext. intros m _. now rewrite cprod_map. }
  rewrite !E. ring.
Qed.
Lemma bools_length n m : In m (bools n) -> length m = n.
Proof.
  revert m. induction n as [|n IH]; cbn; intros m I.
  - now destruct I as [<-|[]].
  - apply in_app_or in I as [I|I]; apply in_map_iff in I as (k & <- & I); cbn; f_equal; auto.
Qed.
Lemma setl_out x l vs v : ~ In v l -> setl x l vs v = x v.
Proof. revert vs. induction l as [|a l IH]; intros vs N; [reflexivity|]. destruct vs as [|s vs]; [reflexivity|]. cbn [setl]. rewrite setb_other by (intros ->; apply N; now left). apply IH. intros I; apply N; now right. Qed.
Lemma setl_nth x l vs q : NoDup l -> length vs = length l -> q < length l -> setl x l vs (nth q l 0) = nth q vs false.
Proof.
  revert vs q. induction l as [|a l IH]; cbn [length]; intros vs q N E H; [lia|]. destruct vs as [|s vs]; [discriminate|]. apply NoDup_cons_iff in N as [N1 N2]. destruct q as [|q]; cbn [nth setl].
  - apply setb_same.
  - rewrite setb_other; [apply IH; auto; lia|]. intros E'. apply N1. rewrite <- E'. apply nth_In. lia.
Qed.
Lemma vsum_map (m : nat -> nat) (K : nat -> Prop) vs : forall (G : bits -> C) x,
  (forall y z, (forall v, K v -> y v = z v) -> G y = G z) -> (forall v, In v vs -> K v) -> (forall u v, K u -> K v -> m u = m v -> u = v) ->
  vsum (map m vs) (fun x' => G (fun k => x' (m k))) x = vsum vs G (fun k => x (m k)).
Proof.
  induction vs as [|v vs IH]; intros G x H V I; cbn [map vsum]; auto.
  assert (E : forall s, vsum vs G (fun k => setb x (m v) s (m k)) = vsum vs G (setb (fun k => x (m k)) v s)).
  { intros s. apply (vsum_dep (fun _ => 0%R) vs G K); auto. intros k Kk _. rewrite !setb_get. destruct (Nat.eqb_spec (m k) (m v)) as [Q|Q], (Nat.eqb_spec k v) as [Q'|Q']; auto; [|congruence].
    exfalso. apply Q', I; auto. apply V. now left. }
  rewrite !IH by (auto; intros; apply V; now right). now rewrite !E.
Qed.

Section Sem.
Variable rho : nat -> R.
Notation wx := (wx rho).
(* the weight without the vertices ex, row by row *)
Lemma wx_rows ex d x : zwf d -> wx ex d x =
  (cprod (filter (fun i => live d i && negb (ex i)) (seq 0 (d_size d))) (fun i => if isBoundary d i then C1 else phw rho d i x) *
   cprod (filter (fun i => live d i && negb (ex i)) (seq 0 (d_size d))) (fun v => cprod (d_edges d v) (fun e =>
     if negb (ex (fst e)) && (v <? fst e) then wgt (eh d v (fst e) (snd e)) (x v) (x (fst e)) else C1)))%C.
Proof.
  intros Z. unfold wx, pv, pe. f_equal.
  - rewrite cprod_filter. apply cprod_ext. intros v _. unfold inner. destruct (live d v), (isBoundary d v), (ex v); auto.
  - rewrite cprod_filter. unfold dprod. apply cprod_ext. intros v Hv. apply in_seq in Hv. destruct (live d v) eqn:L; cbn [andb].
    + destruct (ex v) eqn:X; cbn [negb].
      * apply cprod_one. intros u _. unfold eg. rewrite L, X. cbn [negb]. rewrite andb_false_r. cbn [andb]. now destruct (v <? u).
      * pose proof (row_prod rho (d_size d) (d_edges d v) (fun u h => if negb (ex u) && (v <? u) then wgt (eh d v u h) (x v) (x u) else C1) (z_nodup d Z v L)) as RP.
        rewrite RP.
        -- apply cprod_ext. intros u _. fold (getEdge d v u). change (option_map snd (getEdge d v u)) with (hv d v u).
           unfold eg, ew. rewrite L, X. cbn [negb andb]. rewrite andb_true_r. destruct (hv d v u) as [h|] eqn:E.
           ++ destruct (hv_live d v u h Z L E) as [Lu _]. rewrite Lu. cbn [andb]. destruct (v <? u), (ex u); auto.
           ++ destruct (v <? u), (live d u), (ex u); auto.
        -- intros [u h] I. destruct (z_sym d Z v u h L I) as (Lu & _). cbn. now apply live_lt.
    + apply cprod_one. intros u _. unfold eg. rewrite L. cbn [andb]. now destruct (v <? u).
Qed.
(* splitting off a list of boundary vertices with one edge each *)
Lemma split_list d x (U : nat -> nat) (H : nat -> bool) : zwf d -> forall l ex, NoDup l ->
  (forall v, In v l -> live d v = true /\ isBoundary d v = true /\ ex v = false /\ d_edges d v = [(U v, H v)] /\ ~ In (U v) l /\ ex (U v) = false) ->
  wx ex d x = (wx (fun u => ex u || memb u l) d x * cprod l (fun v => wgt (eh d v (U v) (H v)) (x v) (x (U v))))%C.
Proof.
  intros Z. induction l as [|v l IH]; intros ex N A.
  - cbn [cprod]. rewrite (wx_ex_ext rho ex (fun u => ex u || memb u [])) by (intros u; cbn; now rewrite orb_false_r). ring.
  - apply NoDup_cons_iff in N as [N1 N2]. destruct (A v) as (L & B & X & E & NI & XU); [now left|]. rewrite (wx_split rho ex d x v) by auto. rewrite B, E. cbn [cprod fst snd]. rewrite XU.
    rewrite (IH (plus ex v)); auto.
    + rewrite (wx_ex_ext rho (fun u => plus ex v u || memb u l) (fun u => ex u || memb u (v :: l))); [ring|]. intros u. unfold plus. cbn [memb existsb]. destruct (ex u), (u =? v); auto.
    + intros w I. destruct (A w) as (L' & B' & X' & E' & NI' & XU'); [now right|]. repeat split; auto.
      * unfold plus. rewrite X'. cbn. apply Nat.eqb_neq. intros ->. contradiction.
      * intros J. apply NI'. now right.
      * unfold plus. rewrite XU'. cbn. apply Nat.eqb_neq. intros Q. apply NI'. left. auto.
Qed.

Variables (d e : diag).
Hypothesis Wd : wf d.
Hypothesis We : wf e.
Hypothesis Cm : composable d e.
Notation N := (length (d_in e)).
Notation oV := (oV d).
Notation iV := (iV e).
Notation lD := (lD d).
Notation lE := (lE e).
Definition exO (u : nat) : bool := memb u (d_out d).
Definition exI (u : nat) : bool := memb u (d_in e).
Definition aD (q : nat) : bool := xorb (snd (lD q)) (isX d (fst (lD q))).
Definition aE (q : nat) : bool := xorb (snd (lE q)) (isX e (fst (lE q))).
Lemma nodup_r {A} (l k : list A) : NoDup (l ++ k) -> NoDup k /\ NoDup l /\ forall a, In a l -> ~ In a k.
Proof.
  induction l as [|a l IH]; cbn; intros H; [split; auto; split; [constructor|auto]|]. apply NoDup_cons_iff in H as [H1 H2]. destruct (IH H2) as (A1 & A2 & A3). split; auto. split.
  - constructor; auto. intros I. apply H1, in_or_app. now left.
  - intros b [->|I]; auto. intros I. apply H1, in_or_app. now right.
Qed.
Lemma outs_nodup : NoDup (d_out d). Proof. apply (nodup_r _ _ (cm_nd _ _ Cm)). Qed.
Lemma ins_nodup : NoDup (d_in e). Proof. apply (nodup_r _ _ (cm_ne _ _ Cm)). Qed.
Lemma wxD x : wx none d x = (wx exO d x * cprod (seq 0 N) (fun q => wgt (aD q) (x (oV q)) (x (fst (lD q)))))%C.
Proof.
  rewrite (split_list d x (fun v => fst (hd (0, false) (d_edges d v))) (fun v => snd (hd (0, false) (d_edges d v))) (w_z _ Wd) (d_out d) none outs_nodup).
  - rewrite (wx_ex_ext rho (fun u => none u || memb u (d_out d)) exO) by auto. f_equal. rewrite cprod_nth, (cm_mid _ _ Cm). apply cprod_ext. intros q I. apply in_seq in I.
    assert (H : q < N) by lia. cbv beta. change (nth q (d_out d) 0) with (oV q). change (hd (0, false) (d_edges d (oV q))) with (lD q). f_equal. unfold eh, aD.
    destruct (oV_live d e Wd Cm q H) as [_ B]. rewrite (bnd_notX _ _ B). now rewrite xorb_false_l.
  - intros v I. destruct (In_nth _ _ 0 I) as (q & H & <-). rewrite (cm_mid _ _ Cm) in H. change (nth q (d_out d) 0) with (oV q). change (hd (0, false) (d_edges d (oV q))) with (lD q).
    destruct (oV_live d e Wd Cm q H) as [L B]. destruct (lD_spec d e Wd Cm q H) as (_ & NI & _). rewrite (rowD d e Cm q H). destruct (lD q). repeat split; auto.
Qed.
Lemma wxE x : wx none e x = (wx exI e x * cprod (seq 0 N) (fun q => wgt (aE q) (x (iV q)) (x (fst (lE q)))))%C.
Proof.
  rewrite (split_list e x (fun v => fst (hd (0, false) (d_edges e v))) (fun v => snd (hd (0, false) (d_edges e v))) (w_z _ We) (d_in e) none ins_nodup).
  - rewrite (wx_ex_ext rho (fun u => none u || memb u (d_in e)) exI) by auto. f_equal. rewrite cprod_nth. apply cprod_ext. intros q I. apply in_seq in I.
    assert (H : q < N) by lia. cbv beta. change (nth q (d_in e) 0) with (iV q). change (hd (0, false) (d_edges e (iV q))) with (lE q). f_equal. unfold eh, aE.
    destruct (iV_live e We q H) as [_ B]. rewrite (bnd_notX _ _ B). now rewrite xorb_false_l.
  - intros v I. destruct (In_nth _ _ 0 I) as (q & H & <-). change (nth q (d_in e) 0) with (iV q). change (hd (0, false) (d_edges e (iV q))) with (lE q).
    destruct (iV_live e We q H) as [L B]. destruct (lE_spec d e We Cm q H) as (_ & NI & _). rewrite (rowE d e Cm q H). destruct (lE q). repeat split; auto.
Qed.

Variables (d1 : diag) (m : nat -> nat).
Hypothesis Cv : cv_ok rho d e (seq 0 (d_size e)) d1 m.
Notation L := (alladds d e m).
Notation d2 := (adds L d1).
Notation d3 := (fold_left removeVertex (d_out d) d2).
Lemma ad2 : adds_ok rho L d1 d2. Proof. now apply adds_all. Qed.
Lemma out_live2 v : In v (d_out d) -> live d2 v = true.
Proof. intros I. rewrite (f_live _ _ (ad_f _ _ _ _ ad2)). eapply old_live1; eauto. now apply (w_io _ Wd); auto. Qed.
Lemma rm3 : rems_ok rho (d_out d) d2 d3.
Proof. apply rems_spec; [apply ad2|apply outs_nodup|apply out_live2]. Qed.
Lemma isX_new i : own e i = true -> isX d1 (m i) = isX e i.
Proof. intros O. unfold isX, vty. destruct (cv_new _ _ _ _ _ _ Cv i (own_seq e We i O) O) as (_ & -> & _). reflexivity. Qed.
Lemma isX_old u : live d u = true -> isX d1 u = isX d u.
Proof. intros O. unfold isX, vty. destruct (cv_old _ _ _ _ _ _ Cv u O) as (-> & _). reflexivity. Qed.
(* the lines joined at the inputs of e *)
Lemma lines (G : nat -> nat -> bool -> C) :
  cprod (filter (own e) (seq 0 (d_size e))) (fun i => cprod (d_edges e i) (fun t => if memb (fst t) (d_in e) then G (ix e (fst t)) i (snd t) else C1)) =
  cprod (seq 0 N) (fun q => G q (fst (lE q)) (snd (lE q))).
Proof.
  transitivity (cprod (filter (own e) (seq 0 (d_size e))) (fun i => cprod (seq 0 N) (fun q => if i =? fst (lE q) then G q i (snd (lE q)) else C1))).
  - apply cprod_ext. intros i I. apply filter_In in I as [I O].
    transitivity (cprod (d_edges e i) (fun t => cprod (seq 0 N) (fun q => if fst t =? iV q then G q i (snd t) else C1))).
    + apply cprod_ext. intros [to h] _. cbn [fst snd]. destruct (memb to (d_in e)) eqn:M.
      * apply memb_In in M. destruct (in_iV e to M) as (q & H & ->). rewrite (ix_iV d e Cm q H). symmetry. apply (cprod_seq_single _ q); auto. intros p P.
        destruct (Nat.eqb_spec (iV q) (iV p)) as [E|E], (Nat.eqb_spec p q) as [E'|E']; subst; auto; [|congruence]. exfalso. apply E'.
        apply (proj1 (NoDup_nth (d_in e) 0) ins_nodup p q); auto.
      * symmetry. apply cprod_one. intros q P. apply in_seq in P. destruct (Nat.eqb_spec to (iV q)) as [->|]; auto. apply not_true_iff_false in M. exfalso. apply M, memb_In, iV_In. lia.
    + rewrite cprod_comm. apply cprod_ext. intros q P. apply in_seq in P. assert (H : q < N) by lia. pose proof O as O'. apply andb_true_iff in O' as [Li _].
      rewrite cprod_row by (now apply (z_nodup e (w_z _ We))). fold (getEdge e i (iV q)). change (option_map snd (getEdge e i (iV q))) with (hv e i (iV q)).
      destruct (hv e i (iV q)) as [h|] eqn:E.
      * apply hv_In' in E. rewrite (nbr_iV d e We Cm i h q O H E). cbn [fst snd]. now rewrite Nat.eqb_refl.
      * destruct (Nat.eqb_spec i (fst (lE q))) as [->|]; auto. destruct (lE_spec d e We Cm q H) as (_ & _ & Q). congruence.
  - rewrite cprod_comm. apply cprod_ext. intros q P. apply in_seq in P. assert (H : q < N) by lia.
    rewrite (cprod_at (filter (own e) (seq 0 (d_size e))) (fst (lE q)) (fun i => G q i (snd (lE q)))); auto.
    + apply NoDup_filter, seq_NoDup.
    + pose proof (own_lE d e We Cm q H) as O. apply filter_In. split; auto. now apply own_seq.
Qed.
Lemma new_edges x :
  cprod L (fun t => let '(a, b, h) := t in wgt (eh d1 a b h) (x a) (x b)) =
  (cprod (filter (own e) (seq 0 (d_size e))) (fun v => cprod (d_edges e v) (fun t => if negb (exI (fst t)) && (v <? fst t) then wgt (eh e v (fst t) (snd t)) (x (m v)) (x (m (fst t))) else C1)) *
   cprod (seq 0 N) (fun q => wgt (xorb (aD q) (aE q)) (x (fst (lD q))) (x (m (fst (lE q))))))%C.
Proof.
  transitivity (cprod (filter (own e) (seq 0 (d_size e))) (fun v => cprod (d_edges e v) (fun t =>
    ((if negb (exI (fst t)) && (v <? fst t) then wgt (eh e v (fst t) (snd t)) (x (m v)) (x (m (fst t))) else C1) *
     (if memb (fst t) (d_in e) then (fun q i h => wgt (xorb (aD q) (xorb h (isX e i))) (x (fst (lD q))) (x (m i))) (ix e (fst t)) v (snd t) else C1))%C))).
  - unfold alladds. rewrite cprod_flat. apply cprod_ext. intros i I. apply filter_In in I as [I O]. unfold rowadds. rewrite cprod_flat. apply cprod_ext. intros [to h] J. cbn [fst snd]. unfold exI.
    destruct (memb to (d_in e)) eqn:M; cbn [negb andb].
    + apply memb_In in M. destruct (in_iV e to M) as (q & H & ->). rewrite (ix_iV d e Cm q H). cbn [cprod]. unfold eh. rewrite (isX_new i O), (isX_old (fst (lD q))) by (now apply (lD_spec d e Wd Cm)).
      unfold aD. replace (xorb (xorb (snd (lD q)) h) (xorb (isX d (fst (lD q))) (isX e i))) with (xorb (xorb (snd (lD q)) (isX d (fst (lD q)))) (xorb h (isX e i))); [ring|].
      destruct (snd (lD q)), h, (isX d (fst (lD q))), (isX e i); reflexivity.
    + destruct (i <? to); cbn [cprod]; [|ring]. unfold eh. rewrite !isX_new by (auto; now apply (own_nbr e We i to h)). ring.
  - rewrite (cprod_ext _ _ (fun v => (cprod (d_edges e v) (fun t => if negb (exI (fst t)) && (v <? fst t) then wgt (eh e v (fst t) (snd t)) (x (m v)) (x (m (fst t))) else C1) *
      cprod (d_edges e v) (fun t => if memb (fst t) (d_in e) then (fun q i h => wgt (xorb (aD q) (xorb h (isX e i))) (x (fst (lD q))) (x (m i))) (ix e (fst t)) v (snd t) else C1))%C))
      by (intros; apply cprod_mul).
    rewrite cprod_mul. f_equal. apply (lines (fun q i h => wgt (xorb (aD q) (xorb h (isX e i))) (x (fst (lD q))) (x (m i)))).
Qed.
Lemma wx3 x : wx none d3 x = (wx exO d x * wx exI e (fun k => x (m k)) * cprod (seq 0 N) (fun q => wgt (xorb (aD q) (aE q)) (x (fst (lD q))) (x (m (fst (lE q))))))%C.
Proof.
  rewrite (rm_wx _ _ _ _ rm3). rewrite (wx_ex_ext rho (fun u => none u || memb u (d_out d)) exO) by auto.
  rewrite (ad_wx _ _ _ _ ad2).
  - rewrite (cv_wx _ _ _ _ _ _ Cv).
    + rewrite new_edges, (wx_rows exI e) by apply We. change (fun i => live e i && negb (exI i)) with (own e). ring.
    + intros u F. apply not_true_iff_false. intros T. apply memb_In in T. destruct (w_io _ Wd u); auto. congruence.
  - intros a b h I. apply (alladds_In d e We Cm m) in I as (i & to & k & O & J & H).
    assert (Mo : forall j, own e j = true -> exO (m j) = false). { intros j Oj. apply not_true_iff_false. unfold exO. rewrite memb_In. now apply (m_out rho d e Wd We d1 m Cv). }
    destruct H as [(M & Lt & E)|(q & H & -> & E)]; injection E as -> -> ->; split; auto.
    + apply Mo. now apply (own_nbr e We i to k).
    + apply not_true_iff_false. unfold exO. rewrite memb_In. now apply (lD_spec d e Wd Cm).
Qed.

(* ---- the sum ------------------------------------------------------------------------------------------------------------ *)
Notation Id := (interior d).
Notation Ie := (interior e).
Lemma inner_own i : inner e i = true -> own e i = true.
Proof.
  intros I. apply andb_true_iff in I as [Li B]. unfold own. rewrite Li. cbn. apply negb_true_iff, not_true_iff_false. intros M. apply memb_In in M.
  destruct (w_io _ We i); auto. rewrite H0 in B. discriminate.
Qed.
Lemma verts3 v : ~ In v (d_out d) -> d_verts d3 v = d_verts d1 v.
Proof. intros I. rewrite (rm_verts _ _ _ _ rm3) by auto. apply (ad_v _ _ _ _ ad2). Qed.
Lemma live3 v : live d3 v = true <-> (live d v = true /\ ~ In v (d_out d)) \/ exists i, own e i = true /\ v = m i.
Proof.
  rewrite (rm_live _ _ _ _ rm3), (f_live _ _ (ad_f _ _ _ _ ad2)), andb_true_iff, negb_true_iff. rewrite (cv_live _ _ _ _ _ _ Cv). 
  rewrite <- not_true_iff_false, memb_In. split.
  - intros [[H|(i & _ & O & ->)] N]; [now left|]. right. now exists i.
  - intros [[H N]|(i & O & ->)]; [auto|]. split; [|now apply (m_out rho d e Wd We d1 m Cv)]. right. exists i. split; auto. now apply own_seq.
Qed.
Lemma vert_old v : live d v = true -> ~ In v (d_out d) -> d_verts d3 v = d_verts d v.
Proof. intros Lv N. rewrite verts3 by auto. apply (cv_old _ _ _ _ _ _ Cv v Lv). Qed.
Lemma vert_new i : own e i = true -> d_verts d3 (m i) = d_verts e i.
Proof. intros O. rewrite verts3 by (now apply (m_out rho d e Wd We d1 m Cv)). apply (cv_new _ _ _ _ _ _ Cv i (own_seq e We i O) O). Qed.
Lemma inner3 v : inner d3 v = true <-> inner d v = true \/ exists i, inner e i = true /\ v = m i.
Proof.
  unfold inner at 1. rewrite andb_true_iff, live3. split.
  - intros [[[Lv N]|(i & O & ->)] B].
    + left. unfold inner. rewrite Lv. unfold isBoundary, vty in *. now rewrite (vert_old v Lv N) in B.
    + right. exists i. split; auto. apply andb_true_iff in O as O'. destruct O' as [Li _]. unfold inner. rewrite Li. unfold isBoundary, vty in *. now rewrite (vert_new i O) in B.
  - intros [I|(i & I & ->)].
    + apply andb_true_iff in I as [Lv B]. assert (N : ~ In v (d_out d)). { intros J. destruct (w_io _ Wd v); auto. rewrite H0 in B. discriminate. }
      split; [now left|]. unfold isBoundary, vty in *. now rewrite (vert_old v Lv N).
    + pose proof (inner_own i I) as O. split; [right; now exists i|]. apply andb_true_iff in I as [_ B]. unfold isBoundary, vty in *. now rewrite (vert_new i O).
Qed.
Lemma int3 F b : vsum (interior d3) F b = vsum Id (vsum (map m Ie) F) b.
Proof.
  rewrite <- vsum_app. apply vsum_same.
  - apply interior_nodup.
  - apply NoDup_app'.
    + apply interior_nodup.
    + apply nodup_fst_map; [apply interior_nodup|]. intros i j I J. apply (interior_In rho _ _ (w_z _ We)) in I. apply (interior_In rho _ _ (w_z _ We)) in J. apply (m_inj rho d e We d1 m Cv); now apply inner_own.
    + intros v I J. apply (interior_In rho _ _ (w_z _ Wd)) in I. apply in_map_iff in J as (i & <- & J). apply (interior_In rho _ _ (w_z _ We)) in J. apply inner_own in J.
      apply andb_true_iff in I as [I _]. now apply (m_old rho d e We d1 m Cv i (m i) J I).
  - intros v. rewrite (interior_In rho _ _ (rm_z _ _ _ _ rm3)). rewrite inner3, in_app_iff, (interior_In rho _ _ (w_z _ Wd)). split; intros [H|H]; auto; right.
    + destruct H as (i & I & ->). apply in_map. now apply (interior_In rho _ _ (w_z _ We)).
    + apply in_map_iff in H as (i & <- & I). apply (interior_In rho _ _ (w_z _ We)) in I. now exists i.
Qed.
Definition rest (y : bits) (F : nat -> bool -> C) : C := (wx exI e y * cprod (seq 0 N) (fun q => F q (y (fst (lE q)))))%C.
Lemma rest_dep F y z : (forall v, own e v = true -> y v = z v) -> rest y F = rest z F.
Proof.
  intros H. unfold rest. f_equal.
  - apply wx_ext. intros v Lv X. apply H. unfold exI in X. unfold own. now rewrite Lv, X.
  - apply cprod_ext. intros q I. apply in_seq in I. rewrite H; auto. apply (own_lE d e We Cm). lia.
Qed.
Lemma own_not_inner v : own e v = true -> ~ In v Ie -> In v (d_out e).
Proof.
  intros O NI. apply andb_true_iff in O as [Lv X]. apply negb_true_iff, not_true_iff_false in X. rewrite memb_In in X. destruct (isBoundary e v) eqn:B.
  - destruct (cm_bnd _ _ Cm v Lv B); auto. contradiction.
  - exfalso. apply NI, (interior_In rho _ _ (w_z _ We)). unfold inner. now rewrite Lv, B.
Qed.
Lemma oute_own v : In v (d_out e) -> own e v = true.
Proof.
  intros I. destruct (w_io _ We v) as [Lv _]; auto. unfold own. rewrite Lv. cbn. apply negb_true_iff, not_true_iff_false. rewrite memb_In. intros J.
  now apply (proj2 (proj2 (nodup_r _ _ (cm_ne _ _ Cm))) v J).
Qed.
Lemma oute_not_inner v : In v (d_out e) -> ~ In v Ie.
Proof. intros I J. apply (interior_In rho _ _ (w_z _ We)) in J. apply andb_true_iff in J as [_ B]. destruct (w_io _ We v) as [_ B']; auto. rewrite B' in B. discriminate. Qed.
Lemma in_not_inner v : In v (d_in e) -> ~ In v Ie.
Proof. intros I J. apply (interior_In rho _ _ (w_z _ We)) in J. apply andb_true_iff in J as [_ B]. destruct (w_io _ We v) as [_ B']; auto. rewrite B' in B. discriminate. Qed.
Lemma outd_not_inner v : In v (d_out d) -> ~ In v Id.
Proof. intros I J. apply (interior_In rho _ _ (w_z _ Wd)) in J. apply andb_true_iff in J as [_ B]. destruct (w_io _ Wd v) as [_ B']; auto. rewrite B' in B. discriminate. Qed.
Lemma sum_d b mid : length mid = N -> vsum Id (weight rho d) (setl b (d_out d) mid) =
  vsum Id (fun x => (wx exO d x * cprod (seq 0 N) (fun q => wgt (aD q) (nth q mid false) (x (fst (lD q)))))%C) b.
Proof.
  intros Lm. transitivity (vsum Id (fun x => (wx exO d x * cprod (seq 0 N) (fun q => wgt (aD q) (nth q mid false) (x (fst (lD q)))))%C) (setl b (d_out d) mid)).
  - apply vsum_ext_out. intros x H. rewrite weight_wx by apply Wd. rewrite wxD. f_equal. apply cprod_ext. intros q I. apply in_seq in I. assert (Hq : q < N) by lia. f_equal.
    rewrite H by (apply outd_not_inner; now apply (oV_In d e Cm)). apply setl_nth; [apply outs_nodup|now rewrite (cm_mid _ _ Cm)|now rewrite (cm_mid _ _ Cm)].
  - apply (vsum_dep rho _ _ (fun v => ~ In v (d_out d))).
    + intros x y H. f_equal.
      * apply wx_ext. intros v _ X. apply H. intros I. apply memb_In in I. unfold exO in X. congruence.
      * apply cprod_ext. intros q I. apply in_seq in I. rewrite H; auto. apply (lD_spec d e Wd Cm). lia.
    + intros v Nv _. now apply setl_out.
Qed.
Lemma sum_e ov mid : length mid = N -> length ov = length (d_out e) -> vsum Ie (weight rho e) (setl (setl (fun _ => false) (d_in e) mid) (d_out e) ov) =
  vsum Ie (fun y => rest y (fun q s => wgt (aE q) (nth q mid false) s)) (setl (fun _ => false) (d_out e) ov).
Proof.
  intros Lm Lo. transitivity (vsum Ie (fun y => rest y (fun q s => wgt (aE q) (nth q mid false) s)) (setl (setl (fun _ => false) (d_in e) mid) (d_out e) ov)).
  - apply vsum_ext_out. intros x H. rewrite weight_wx by apply We. rewrite wxE. unfold rest. f_equal. apply cprod_ext. intros q I. apply in_seq in I. assert (Hq : q < N) by lia. f_equal.
    pose proof (iV_In e q Hq) as J. rewrite H by (now apply in_not_inner). rewrite setl_out by (now apply (proj2 (proj2 (nodup_r _ _ (cm_ne _ _ Cm))))). apply setl_nth; auto. apply ins_nodup.
  - apply (vsum_dep rho _ _ (fun v => own e v = true)); [intros; now apply rest_dep|]. intros v O NI. pose proof (own_not_inner v O NI) as I. destruct (In_nth _ _ 0 I) as (q & H & <-).
    rewrite !setl_nth; auto; apply (nodup_r _ _ (cm_ne _ _ Cm)).
Qed.
Lemma sum3 b : vsum (interior d3) (weight rho d3) b =
  lsum (bools (length (d_out d))) (fun mid => (vsum Id (weight rho d) (setl b (d_out d) mid) *
    vsum Ie (weight rho e) (setl (setl (fun _ => false) (d_in e) mid) (d_out e) (map (fun o => b (m o)) (d_out e))))%C).
Proof.
  set (ov := map (fun o => b (m o)) (d_out e)). set (b2 := setl (fun _ => false) (d_out e) ov).
  transitivity (vsum Id (fun x => (wx exO d x * vsum Ie (fun y => rest y (fun q s => wgt (xorb (aD q) (aE q)) (x (fst (lD q))) s)) b2)%C) b).
  - rewrite (vsum_ext _ _ (wx none d3)) by (intros; apply weight_wx, rm3). rewrite int3. apply vsum_ext_out. intros x H.
    transitivity (vsum (map m Ie) (fun x' => (wx exO d x * rest (fun k => x' (m k)) (fun q s => wgt (xorb (aD q) (aE q)) (x (fst (lD q))) s))%C) x).
    + apply vsum_ext_out. intros x' H'. rewrite wx3. unfold rest.
      assert (Old : forall u, live d u = true -> x' u = x u).
      { intros u Lu. apply H'. intros J. apply in_map_iff in J as (i & E & J). apply (interior_In rho _ _ (w_z _ We)) in J. apply inner_own in J. now apply (m_old rho d e We d1 m Cv i u J Lu). }
      rewrite (wx_ext rho exO d x' x) by (intros; now apply Old).
      rewrite (cprod_ext _ (fun q => wgt (xorb (aD q) (aE q)) (x' (fst (lD q))) (x' (m (fst (lE q))))) (fun q => wgt (xorb (aD q) (aE q)) (x (fst (lD q))) (x' (m (fst (lE q)))))); [ring|].
      intros q I. apply in_seq in I. rewrite Old; auto. apply (lD_spec d e Wd Cm). lia.
    + rewrite vsum_scale. f_equal. set (G := fun y => rest y (fun q s => wgt (xorb (aD q) (aE q)) (x (fst (lD q))) s)).
      change (vsum (map m Ie) (fun x' => G (fun k => x' (m k))) x = vsum Ie G b2). rewrite (vsum_map m (fun v => own e v = true)).
      * apply (vsum_dep rho _ _ (fun v => own e v = true)); [intros; now apply rest_dep|]. intros v O NI. pose proof (own_not_inner v O NI) as I.
        rewrite H.
        -- destruct (In_nth _ _ 0 I) as (q & Hq & <-). unfold b2, ov. rewrite setl_nth; auto; [|apply (nodup_r _ _ (cm_ne _ _ Cm))|now rewrite map_length].
           rewrite (nth_indep _ false (b (m 0))) by (now rewrite map_length). now rewrite (map_nth (fun o => b (m o))).
        -- intros J. apply (interior_In rho _ _ (w_z _ Wd)) in J. apply andb_true_iff in J as [J _]. now apply (m_old rho d e We d1 m Cv v (m v) O J).
      * intros. now apply rest_dep.
      * intros v I. apply (interior_In rho _ _ (w_z _ We)) in I. now apply inner_own.
      * intros u v. apply (m_inj rho d e We d1 m Cv).
  - assert (Lo : length ov = length (d_out e)) by apply map_length.
    rewrite (lsum_ext (bools (length (d_out d))) _ (fun mid => vsum Id (fun x => vsum Ie (fun y =>
      (wx exO d x * wx exI e y * cprod (seq 0 N) (fun q => wgt (aD q) (nth q mid false) (x (fst (lD q))) * wgt (aE q) (nth q mid false) (y (fst (lE q)))))%C) b2) b)).
    + rewrite lsum_vsum. apply vsum_ext. intros x. rewrite lsum_vsum, <- vsum_scale. apply vsum_ext. intros y. rewrite lsum_scale. unfold rest. rewrite (cm_mid _ _ Cm).
      rewrite (lsum_prod N (fun q s => (wgt (aD q) s (x (fst (lD q))) * wgt (aE q) s (y (fst (lE q))))%C)).
      rewrite (cprod_ext _ (fun q => (wgt (aD q) false (x (fst (lD q))) * wgt (aE q) false (y (fst (lE q))) + wgt (aD q) true (x (fst (lD q))) * wgt (aE q) true (y (fst (lE q))))%C)
        (fun q => wgt (xorb (aD q) (aE q)) (x (fst (lD q))) (y (fst (lE q))))); [ring|].
      intros q _. rewrite <- wgt_comp. unfold bsum. rewrite !(wgt_sym (aD q) (x (fst (lD q)))). ring.
    + intros mid I. apply bools_length in I. rewrite (cm_mid _ _ Cm) in I. rewrite sum_d, sum_e by auto.
      transitivity (vsum Id (fun x => (vsum Ie (fun y => rest y (fun q s => wgt (aE q) (nth q mid false) s)) b2 * (wx exO d x * cprod (seq 0 N) (fun q => wgt (aD q) (nth q mid false) (x (fst (lD q))))))%C) b).
      * rewrite (vsum_scale Id (vsum Ie (fun y => rest y (fun q s => wgt (aE q) (nth q mid false) s)) b2)). fold b2. ring.
      * apply vsum_ext. intros x. transitivity ((wx exO d x * cprod (seq 0 N) (fun q => wgt (aD q) (nth q mid false) (x (fst (lD q))))) * vsum Ie (fun y => rest y (fun q s => wgt (aE q) (nth q mid false) s)) b2)%C; [ring|].
        rewrite <- vsum_scale. apply vsum_ext. intros y. unfold rest. rewrite (cprod_mul (seq 0 N)). ring.
Qed.

(* ---- the result is well-formed ------------------------------------------------------------------------------------------- *)
Lemma phases2 : phases_ok d2.
Proof.
  intros v Lv. rewrite (f_live _ _ (ad_f _ _ _ _ ad2)) in Lv. unfold vphase. rewrite (ad_v _ _ _ _ ad2). apply (cv_ph _ _ _ _ _ _ Cv v Lv).
Qed.
Lemma old_edge u v h : live d u = true -> ~ In u (d_out d) -> hv d3 u v = Some h ->
  (hv d u v = Some h /\ ~ In v (d_out d)) \/ exists q, q < N /\ u = fst (lD q) /\ v = m (fst (lE q)).
Proof.
  intros Lu Nu H. rewrite (rm_hv _ _ _ _ rm3) in H; auto; [|rewrite (f_live _ _ (ad_f _ _ _ _ ad2)); apply (cv_live _ _ _ _ _ _ Cv); now left].
  destruct (memb v (d_out d)) eqn:M; [discriminate|]. apply not_true_iff_false in M. rewrite memb_In in M.
  assert (Mo : forall i, own e i = true -> m i <> u) by (intros i O; now apply (m_old rho d e We d1 m Cv)).
  apply (ad_hv _ _ _ _ ad2) in H as [H|[H|H]].
  - left. split; auto. unfold hv, getEdge in *. now rewrite (proj2 (cv_old _ _ _ _ _ _ Cv u Lu)) in H.
  - right. apply (alladds_In d e We Cm m) in H as (i & to & k & O & J & [(Mt & Lt & E)|(q & Hq & -> & E)]); injection E as -> -> ->; [now destruct (Mo i O)|].
    exists q. rewrite (nbr_iV d e We Cm i k q O Hq J). auto.
  - apply (alladds_In d e We Cm m) in H as (i & to & k & O & J & [(Mt & Lt & E)|(q & Hq & -> & E)]); injection E as -> -> ->; [|now destruct (Mo i O)].
    destruct (Mo to); auto. now apply (own_nbr e We i to k).
Qed.
Lemma new_edge i v h : own e i = true -> hv d3 (m i) v = Some h ->
  exists to k, In (to, k) (d_edges e i) /\ ((own e to = true /\ v = m to) \/ exists q, q < N /\ to = iV q /\ v = fst (lD q)).
Proof.
  intros O H. rewrite (rm_hv _ _ _ _ rm3) in H; [|rewrite (f_live _ _ (ad_f _ _ _ _ ad2)); now apply (m_live1 rho d e We d1 m Cv)|now apply (m_out rho d e Wd We d1 m Cv)].
  destruct (memb v (d_out d)) eqn:M; [discriminate|].
  apply (ad_hv _ _ _ _ ad2) in H as [H|[H|H]].
  - rewrite (new_hv rho d e We d1 m Cv i v O) in H. discriminate.
  - apply (alladds_In d e We Cm m) in H as (j & to & k & O' & J & [(Mt & Lt & E)|(q & Hq & -> & E)]).
    + injection E as E -> ->. apply (m_inj rho d e We d1 m Cv) in E; auto. subst j. exists to, k. split; auto. left. split; auto. now apply (own_nbr e We i to k).
    + injection E as E -> ->. exfalso. apply (m_old rho d e We d1 m Cv i (m i) O); auto. rewrite E. now apply (lD_spec d e Wd Cm).
  - apply (alladds_In d e We Cm m) in H as (j & to & k & O' & J & [(Mt & Lt & E)|(q & Hq & -> & E)]).
    + injection E as -> E ->. pose proof (own_nbr e We j to k O' J Mt) as Ot. apply (m_inj rho d e We d1 m Cv) in E; auto. subst to.
      apply andb_true_iff in O' as O''. destruct (z_sym e (w_z _ We) j i k (proj1 O'') J) as (_ & _ & K). exists j, k. auto.
    + injection E as -> E ->. apply (m_inj rho d e We d1 m Cv) in E; auto. subst j. exists (iV q), k. split; auto. right. exists q. auto.
Qed.
Lemma lD_in q : q < N -> In (oV q, snd (lD q)) (d_edges d (fst (lD q))).
Proof. intros H. destruct (lD_spec d e Wd Cm q H) as (_ & _ & Q). now apply hv_In'. Qed.
Lemma oV_inj q q' : q < N -> q' < N -> oV q = oV q' -> q = q'.
Proof. intros H H' E. apply (proj1 (NoDup_nth (d_out d) 0) outs_nodup); auto; now rewrite (cm_mid _ _ Cm). Qed.
Lemma iV_inj q q' : q < N -> q' < N -> iV q = iV q' -> q = q'.
Proof. intros H H' E. apply (proj1 (NoDup_nth (d_in e) 0) ins_nodup); auto. Qed.
Lemma one_row (f : diag) u : zwf f -> live f u = true -> (forall v v' h h', hv f u v = Some h -> hv f u v' = Some h' -> v = v') -> degree f u <= 1.
Proof.
  intros Z Lu H. unfold degree. pose proof (z_nodup f Z u Lu) as ND. destruct (d_edges f u) as [|[a h] [|[b k] r]] eqn:E; cbn; try lia. exfalso.
  cbn in ND. apply NoDup_cons_iff in ND as [ND _]. apply ND. left. cbn. symmetry. apply (H a b h k); apply hv_In; try (now apply (z_nodup f Z)); rewrite E; cbn; auto.
Qed.
Lemma bdeg3 : bdeg d3.
Proof.
  intros u Lu B. apply one_row; auto; [apply rm3|]. intros v v' h h' H H'. apply live3 in Lu as [[Lu Nu]|(i & O & ->)].
  - assert (Bu : isBoundary d u = true) by (unfold isBoundary, vty in *; now rewrite (vert_old u Lu Nu) in B).
    assert (Two : forall a b k k', In (a, k) (d_edges d u) -> In (b, k') (d_edges d u) -> a = b) by (intros a b k k'; apply bdeg_two; auto; apply Wd).
    apply old_edge in H as [[H I]|(q & Hq & E1 & E2)]; auto; apply old_edge in H' as [[H' I']|(q' & Hq' & E1' & E2')]; auto.
    + apply (Two v v' h h'); now apply hv_In'.
    + exfalso. apply I. subst u. rewrite (Two v (oV q') h (snd (lD q'))); [now apply (oV_In d e Cm)|now apply hv_In'|now apply lD_in].
    + exfalso. apply I'. subst u. rewrite (Two v' (oV q) h' (snd (lD q))); [now apply (oV_In d e Cm)|now apply hv_In'|now apply lD_in].
    + assert (q = q'). { apply oV_inj; auto. apply (Two _ _ (snd (lD q)) (snd (lD q'))); [rewrite E1|rewrite E1']; now apply lD_in. } subst q'. congruence.
  - assert (Bi : isBoundary e i = true) by (unfold isBoundary, vty in *; now rewrite (vert_new i O) in B). apply andb_true_iff in O as O'. destruct O' as [Li _].
    apply new_edge in H as (to & k & J & C); auto. apply new_edge in H' as (to' & k' & J' & C'); auto.
    assert (to = to') by (apply (bdeg_two rho e i to to' k k'); auto; apply We). subst to'.
    assert (Inp : forall q, q < N -> own e (iV q) = true -> False).
    { intros q Hq Oq. apply andb_true_iff in Oq as [_ Oq]. apply negb_true_iff, not_true_iff_false in Oq. apply Oq, memb_In. now apply iV_In. }
    destruct C as [[Ot ->]|(q & Hq & -> & ->)], C' as [[Ot' ->]|(q' & Hq' & E & ->)]; auto.
    + subst to. now destruct (Inp q' Hq').
    + now destruct (Inp q Hq).
    + apply iV_inj in E; auto. now subst q'.
Qed.
Lemma io3 v : In v (d_in d) \/ In v (map m (d_out e)) -> live d3 v = true /\ isBoundary d3 v = true.
Proof.
  intros [I|I].
  - destruct (w_io _ Wd v) as [Lv B]; auto. assert (Nv : ~ In v (d_out d)) by (now apply (nodup_r _ _ (cm_nd _ _ Cm))). split; [apply live3; auto|].
    unfold isBoundary, vty in *. now rewrite (vert_old v Lv Nv).
  - apply in_map_iff in I as (i & <- & I). pose proof (oute_own i I) as O. destruct (w_io _ We i) as [_ B]; auto. split; [apply live3; right; now exists i|].
    unfold isBoundary, vty in *. now rewrite (vert_new i O).
Qed.
End Sem.

(* ---- concat ------------------------------------------------------------------------------------------------------------- *)
Lemma map_seq_nth {A} (f : nat -> A) l : map (fun i => f (nth i l 0)) (seq 0 (length l)) = map f l.
Proof. induction l as [|a l IH]; cbn [length seq map nth]; auto. f_equal. rewrite <- seq_shift, map_map. exact IH. Qed.
Theorem concat_spec rho d e : wf d -> wf e -> composable d e -> exists d' m, concat d e = Some d' /\ wf d' /\ d_in d' = d_in d /\ d_out d' = map m (d_out e) /\
  (forall o, In o (d_out e) -> vqubit d' (m o) = vqubit e o) /\
  forall b, den rho d' b = (pexp rho (p_neg (d_gphase e)) * pexp rho (p_neg (d_gphase e)) * compose rho d e b (map b (d_out d')))%C.
Proof.
  intros Wd We Cm. unfold concat. rewrite (cm_in _ _ Cm), Nat.eqb_refl. cbn [negb].
  pose proof (cv_spec rho d e Wd We (seq 0 (d_size e)) (seq_NoDup _ _)) as Cv. cbv zeta in Cv. assert (Ev : forall l s, fold_left (cv_step e) l s = fold_left (fun '(d', m) i => match d_verts e i with Some a => if memb i (d_in e) then (d', m) else let '(d1, v) := addVertex d' a in (d1, zupd m i v) | None => (d', m) end) l s)
    by (induction l as [|i l IH]; intros [d' m]; cbn [fold_left]; auto).
  rewrite Ev in Cv. fold (concat_verts e d) in Cv.
  destruct (concat_verts e d) as [d1 m]. cbn [fst snd] in Cv.
  rewrite (edges_adds rho d e Wd We Cm d1 m Cv (steady1 rho d e Wd Cm d1 m Cv)).
  assert (Eo : d_out (adds (alladds d e m) d1) = d_out d) by (rewrite (f_out _ _ (ad_f _ _ _ _ (ad2 rho d e Wd We Cm d1 m Cv))); apply Cv). rewrite Eo.
  pose proof (rm3 rho d e Wd We Cm d1 m Cv) as R. pose proof (ad2 rho d e Wd We Cm d1 m Cv) as A2.
  set (d3 := fold_left removeVertex (d_out d) (adds (alladds d e m) d1)) in *.
  assert (Eo3 : d_out d3 = d_out d) by (now rewrite (rm_out _ _ _ _ R)).
  assert (Ei3 : d_in d3 = d_in d) by (rewrite (rm_in _ _ _ _ R), (f_in _ _ (ad_f _ _ _ _ A2)); apply Cv).
  assert (Eg3 : d_gphase d3 = d_gphase d) by (rewrite (rm_gp _ _ _ _ R), (f_gp _ _ (ad_f _ _ _ _ A2)); apply Cv).
  rewrite Eo3, <- (cm_out _ _ Cm), Ei3, map_seq_nth.
  exists (addGlobalPhase (set_io d3 (d_in d) (map m (d_out e))) (p_neg (d_gphase e))), m. split; [reflexivity|]. split; [|split; [reflexivity|split; [reflexivity|split]]].
  - constructor.
    + destruct (rm_z _ _ _ _ R). constructor; assumption.
    + destruct (rm_b _ _ _ _ R (ad_b _ _ _ _ A2)). constructor; assumption.
    + exact (bdeg3 rho d e Wd We Cm d1 m Cv).
    + exact (io3 rho d e Wd We Cm d1 m Cv).
    + exact (rm_ph _ _ _ _ R (phases2 rho d e Wd We Cm d1 m Cv)).
  - intros o I. pose proof (vert_new rho d e Wd We Cm d1 m Cv o (oute_own d e We Cm o I)) as V. fold d3 in V. unfold vqubit. cbn [d_verts addGlobalPhase set_gphase set_io]. now rewrite V.
  - intros b. unfold den at 1. cbn [d_gphase d_out addGlobalPhase set_gphase set_io].
    change (interior (addGlobalPhase (set_io d3 (d_in d) (map m (d_out e))) (p_neg (d_gphase e)))) with (interior d3).
    change (weight rho (addGlobalPhase (set_io d3 (d_in d) (map m (d_out e))) (p_neg (d_gphase e)))) with (weight rho d3).
    unfold d3. rewrite (sum3 rho d e Wd We Cm d1 m Cv). fold d3. rewrite Eg3, pexp_add. unfold compose, den. rewrite map_map.
    rewrite (lsum_ext (bools (length (d_out d))) (fun mid => (pexp rho (d_gphase d) * vsum (interior d) (weight rho d) (setl b (d_out d) mid) *
      (pexp rho (d_gphase e) * vsum (interior e) (weight rho e) (setl (setl (fun _ => false) (d_in e) mid) (d_out e) (map (fun x => b (m x)) (d_out e)))))%C)
      (fun mid => (pexp rho (d_gphase d) * pexp rho (d_gphase e) * (vsum (interior d) (weight rho d) (setl b (d_out d) mid) *
       vsum (interior e) (weight rho e) (setl (setl (fun _ => false) (d_in e) mid) (d_out e) (map (fun x => b (m x)) (d_out e)))))%C)) by (intros; ring).
    rewrite lsum_scale. rewrite pexp_neg. set (S := lsum _ _). pose proof (pexp_conj_mul rho (d_gphase e)) as K.
    transitivity (pexp rho (d_gphase d) * Cconj (pexp rho (d_gphase e)) * (Cconj (pexp rho (d_gphase e)) * pexp rho (d_gphase e)) * S)%C; [rewrite K; ring|ring].
Qed.
