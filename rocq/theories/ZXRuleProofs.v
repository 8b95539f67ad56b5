(* The rewrite rules: identity removal, spider fusion, local complementation and Pauli pivoting. *)
From Coq Require Import Reals QArith Qreals ZArith Bool List Arith Lia Lra Permutation FunctionalExtensionality.
From Verif Require Import Cplx Qsem PiModel PiProps ZXModel ZXSpec ZXPhaseProofs ZXSemProofs ZXUpdProofs ZXUpd2Proofs ZXUpd3Proofs.
Import ListNotations.
Local Close Scope Q_scope.
Local Open Scope nat_scope.

(* ---- phases in range --------------------------------------------------------------------------------------------- *)
Lemma ph_ok_add p q : ph_ok p -> ph_ok q -> ph_ok (p_add p q).
Proof.
  intros P Q. unfold p_add. destruct (p_isZero p); auto. destruct (p_isZero q); auto. unfold ph_ok in *. cbn [fst].
  destruct (C56_field_ops_partial (fst p) (fst q) P Q) as ((R & _) & _). exact R.
Qed.
Lemma ph_ok_neg p : ph_ok p -> ph_ok (p_neg p).
Proof. intros P. unfold ph_ok in *. cbn [p_neg fst]. destruct (C56_field_ops_partial (fst p) (fst p) P P) as (_ & _ & (R & _) & _). exact R. Qed.
Lemma ph_ok_pi : ph_ok p_pi. Proof. split; reflexivity || now vm_compute. Qed.
Lemma ph_ok_zero : ph_ok p_zero. Proof. split; now vm_compute. Qed.
Lemma ph_ok_const0 : ph_ok (p_const 0). Proof. split; now vm_compute. Qed.
Lemma phok_addPhase d v p : phases_ok d -> ph_ok p -> phases_ok (addPhase d v p).
Proof.
  intros H P u L. rewrite (f_live _ _ (frame_addPhase d v p)) in L. destruct (live d v) eqn:Lv.
  - rewrite addPhase_vphase by auto. destruct (Nat.eqb_spec u v) as [->|]; auto using ph_ok_add.
  - assert (u <> v) by congruence. unfold vphase. rewrite addPhase_other by auto. apply (H u L).
Qed.
Lemma phok_verts d d' : (forall u, d_verts d' u = d_verts d u) -> phases_ok d -> phases_ok d'.
Proof. intros E H u L. unfold live, vphase in *. rewrite E in *. apply (H u L). Qed.
Lemma phok_PA d a b h : phases_ok d -> phases_ok (addEdgeParallelAware d a b h).
Proof.
  intros H. unfold addEdgeParallelAware. assert (A : forall d0, (forall u, d_verts d0 u = d_verts d u) -> phases_ok (addPhase d0 a p_pi)).
  { intros d0 E. apply phok_addPhase; auto using ph_ok_pi. eapply phok_verts; eauto. }
  destruct (a =? b); [destruct (_ && _); auto|]. destruct (getEdge d a b) as [[w h']|]; [|eapply phok_verts; eauto; reflexivity].
  destruct (_ || _); auto. destruct (vtype_eqb _ _), h', h; auto; try (eapply phok_verts; eauto; reflexivity).
Qed.
Lemma phok_removeVertex d v : zwf d -> live d v = true -> phases_ok d -> phases_ok (removeVertex d v).
Proof.
  intros Z L H u Lu. pose proof (remove_vertex (fun _ => 0%R) d v Z L) as R. rewrite (rv_live _ _ _ _ R) in Lu. apply andb_true_iff in Lu as [Lu N].
  apply negb_true_iff, Nat.eqb_neq in N. unfold vphase. rewrite (rv_verts _ _ _ _ R) by auto. apply (H u Lu).
Qed.
Lemma pauli_nonzero rho p : ph_ok p -> p_isPauli p = true -> p_isZero p = false -> pexp rho p = (- C1)%C.
Proof.
  intros O P N. rewrite pauli_val by auto. unfold p_isPauli, p_isConstant, pi_isInteger in P. destruct p as [c [|]]; cbn [fst snd andb] in *; [|discriminate]. apply Pos.eqb_eq in P.
  unfold p_isZero, pi_isZero in N. cbn [fst snd] in N. apply Z.eqb_neq in N. destruct O as [O1 O2]. cbn [fst] in *.
  pose proof (Qred_correct c) as E. rewrite <- E in O1, O2. destruct (Qred c) as [n dd] eqn:Q. cbn [Qnum Qden] in *. subst dd.
  unfold Qlt, Qle in O1, O2. cbn in O1, O2. assert (n <> 0%Z). { intros ->. apply N. unfold Qeq in E. cbn in E. lia. }
  assert (n = 1%Z) by lia. now subst n.
Qed.

Lemma NoDup_app' {A} (l m : list A) : NoDup l -> NoDup m -> (forall a, In a l -> In a m -> False) -> NoDup (l ++ m).
Proof.
  induction l as [|a l IH]; cbn; intros N M D; auto. inversion N; subst. constructor.
  - rewrite in_app_iff. intros [I|I]; [tauto|]. apply (D a); auto.
  - apply IH; auto. intros b B1 B2. apply (D b); auto.
Qed.

Section Rules.
Variable rho : nat -> R.
Notation wx := (wx rho).
Notation same_map := (same_map rho).

Lemma same_map_refl d : same_map d d.
Proof. split; auto. split; auto. exists C1. split; [apply C1_neq_C0|]. intros; ring. Qed.
Lemma same_map_trans d1 d2 d3 : same_map d1 d2 -> same_map d2 d3 -> same_map d1 d3.
Proof.
  intros (A & B & c & Hc & E) (A' & B' & c' & Hc' & E'). split; [congruence|]. split; [congruence|]. exists (c' * c)%C. split; [now apply Cmul_neq0|].
  intros b. rewrite E', E. ring.
Qed.
Lemma same_map_sym d d' : same_map d d' -> same_map d' d.
Proof.
  intros (A & B & c & Hc & E). split; auto. split; auto. exists (/ c)%C. split; [now apply Cinv_neq0|]. intros b. rewrite E. field. auto.
Qed.
Lemma vsum_app ws vs f b : vsum (ws ++ vs) f b = vsum ws (vsum vs f) b.
Proof. revert b. induction ws; cbn; intros b; auto. now rewrite !IHws. Qed.
(* from local sums to maps *)
Lemma conclude d d' vs vs' c : zwf d -> zwf d' -> d_in d' = d_in d -> d_out d' = d_out d -> c <> C0 -> NoDup vs -> NoDup vs' ->
  (forall v, In v vs -> inner d v = true) -> (forall v, In v vs' -> inner d' v = true) ->
  (forall v, ~ In v vs -> inner d v = true -> inner d' v = true /\ ~ In v vs') -> (forall v, ~ In v vs' -> inner d' v = true -> inner d v = true /\ ~ In v vs) ->
  (forall x, vsum vs (wx none d) x = (c * vsum vs' (wx none d') x)%C) -> same_map d d'.
Proof.
  intros Z Z' I O Hc N N' M M' A A' H. split; auto. split; auto.
  exists (pexp rho (d_gphase d') * / c * / pexp rho (d_gphase d))%C. split; [repeat apply Cmul_neq0; auto using pexp_neq0, Cinv_neq0|].
  intros b. unfold den. set (ws := filter (fun v => negb (memb v vs)) (interior d)).
  assert (E1 : vsum (interior d) (weight rho d) b = vsum ws (vsum vs (wx none d)) b).
  { rewrite <- vsum_app. rewrite (vsum_ext _ _ (wx none d)) by (intros; now apply weight_wx). apply vsum_same.
    - apply interior_nodup.
    - apply NoDup_app'; auto. + apply NoDup_filter, interior_nodup. + intros v V W. apply filter_In in V as [_ V]. apply negb_true_iff, memb_false in V. tauto.
    - intros v. rewrite in_app_iff. unfold ws. rewrite filter_In, negb_true_iff, memb_false, interior_In by auto. destruct (in_dec Nat.eq_dec v vs); [|tauto]. split; auto. }
  assert (E2 : vsum (interior d') (weight rho d') b = vsum ws (vsum vs' (wx none d')) b).
  { rewrite <- vsum_app. rewrite (vsum_ext _ _ (wx none d')) by (intros; now apply weight_wx). apply vsum_same.
    - apply interior_nodup.
    - apply NoDup_app'; auto. + apply NoDup_filter, interior_nodup. + intros v V W. apply filter_In in V as [V1 V]. apply negb_true_iff, memb_false in V. rewrite interior_In in V1 by auto. destruct (A v V V1). tauto.
    - intros v. rewrite in_app_iff. unfold ws. rewrite filter_In, negb_true_iff, memb_false, !interior_In by auto.
      split.
      + intros V. destruct (in_dec Nat.eq_dec v vs') as [|NI]; auto.
      + intros [[V1 V2]|V]; [now apply A|auto]. }
  rewrite E1, E2. rewrite (vsum_ext ws (vsum vs (wx none d)) (fun x => (c * vsum vs' (wx none d') x)%C)) by auto. rewrite vsum_scale. field. split; auto using pexp_neq0.
Qed.
(* ---- removing one vertex ------------------------------------------------------------------------------------------ *)
Record wframe (d d' : diag) : Prop := {
  g_live : forall u, live d' u = live d u; g_vty : forall u, vty d' u = vty d u; g_in : d_in d' = d_in d; g_out : d_out d' = d_out d
}.
Lemma frame_w d d' : frame d d' -> wframe d d'.
Proof. intros []. now constructor. Qed.
Lemma wframe_trans d1 d2 d3 : wframe d1 d2 -> wframe d2 d3 -> wframe d1 d3.
Proof. intros [] []. constructor; try congruence; intros; now rewrite ?g_live1, ?g_vty1. Qed.
Lemma g_bnd d d' u : wframe d d' -> isBoundary d' u = isBoundary d u.
Proof. intros F. unfold isBoundary. now rewrite (g_vty _ _ F). Qed.
Lemma g_inner d d' u : wframe d d' -> inner d' u = inner d u.
Proof. intros F. unfold inner. now rewrite (g_live _ _ F), (g_bnd _ _ _ F). Qed.
Lemma g_eh d d' u v h : wframe d d' -> eh d' u v h = eh d u v h.
Proof. intros F. unfold eh, isX. now rewrite !(g_vty _ _ F). Qed.
Lemma g_io d d' : wframe d d' -> io_ok d -> io_ok d'.
Proof. intros F I v. rewrite (g_in _ _ F), (g_out _ _ F), (g_live _ _ F), (g_bnd _ _ _ F). apply I. Qed.
Definition only (v : nat) : nat -> bool := plus none v.
Lemma rv_vty d v d' u : rv_ok rho d v d' -> u <> v -> vty d' u = vty d u.
Proof. intros R N. unfold vty. now rewrite (rv_verts _ _ _ _ R). Qed.
Lemma rv_inner d v d' u : rv_ok rho d v d' -> inner d' u = inner d u && negb (u =? v).
Proof.
  intros R. unfold inner. rewrite (rv_live _ _ _ _ R). destruct (Nat.eqb_spec u v) as [->|N]; cbn [negb]; [now rewrite !andb_false_r|].
  unfold isBoundary. rewrite (rv_vty _ _ _ _ R N). now rewrite !andb_true_r.
Qed.
Lemma remove_same d d1 v c : zwf d -> zwf d1 -> wframe d d1 -> inner d v = true -> c <> C0 ->
  (forall x, wx none d (setb x v false) + wx none d (setb x v true) = c * wx (only v) d1 x)%C -> same_map d (removeVertex d1 v).
Proof.
  intros Z Z1 F I Hc H. assert (L : live d1 v = true). { rewrite (g_live _ _ F). unfold inner in I. now apply andb_true_iff in I as [I _]. }
  pose proof (remove_vertex rho d1 v Z1 L) as R. apply (conclude d _ [v] [] c); auto.
  - apply (rv_zwf _ _ _ _ R).
  - rewrite (rv_in _ _ _ _ R). apply (g_in _ _ F).
  - rewrite (rv_out _ _ _ _ R). apply (g_out _ _ F).
  - constructor; [intros []|constructor].
  - constructor.
  - intros u [<-|[]]; auto.
  - intros u N U. split; [|intros []]. rewrite (rv_inner _ _ _ _ R), (g_inner _ _ _ F), U. cbn. apply negb_true_iff, Nat.eqb_neq. intros ->. apply N. now left.
  - intros u _ U. rewrite (rv_inner _ _ _ _ R), (g_inner _ _ _ F) in U. apply andb_true_iff in U as [U V]. split; auto. intros [<-|[]]. now rewrite Nat.eqb_refl in V.
  - intros x. cbn [vsum]. rewrite H. f_equal. rewrite (rv_wx _ _ _ _ R). reflexivity.
Qed.
Lemma remove_wf d v : zwf d -> book d -> phases_ok d -> io_ok d -> live d v = true -> isBoundary d v = false ->
  (forall u, live d u = true -> isBoundary d u = true -> length (filter (fun e => negb (fst e =? v)) (d_edges d u)) <= 1) -> wf (removeVertex d v).
Proof.
  intros Z B P I L NB D. pose proof (remove_vertex rho d v Z L) as R. constructor.
  - apply (rv_zwf _ _ _ _ R).
  - now apply (rv_book _ _ _ _ R).
  - intros u Lu Bu. rewrite (rv_live _ _ _ _ R) in Lu. apply andb_true_iff in Lu as [Lu N]. apply negb_true_iff, Nat.eqb_neq in N.
    unfold isBoundary in Bu. rewrite (rv_vty _ _ _ _ R N) in Bu. unfold degree. rewrite (rv_edges _ _ _ _ R) by auto. now apply D.
  - intros u U. rewrite (rv_in _ _ _ _ R), (rv_out _ _ _ _ R) in U. destruct (I u U) as [Lu Bu]. assert (N : u <> v) by congruence.
    rewrite (rv_live _ _ _ _ R), Lu. unfold isBoundary. rewrite (rv_vty _ _ _ _ R N). split; auto. cbn. now apply negb_true_iff, Nat.eqb_neq.
  - now apply phok_removeVertex.
Qed.
Lemma filter_length_le {A} (p : A -> bool) l : length (filter p l) <= length l.
Proof. induction l; cbn; auto. destruct (p a); cbn; lia. Qed.
Lemma wx_only d v x s : wx (only v) d (setb x v s) = wx (only v) d x.
Proof. apply wx_ext. intros u _ E. unfold only, plus, none in E. cbn in E. apply Nat.eqb_neq in E. apply setb_other. auto. Qed.
Lemma setb_get x v s u : setb x v s u = if u =? v then s else x u.
Proof. destruct (Nat.eqb_spec u v) as [->|N]; [apply setb_same|now apply setb_other]. Qed.
Lemma bdeg_two d u a b h k : zwf d -> bdeg d -> live d u = true -> isBoundary d u = true -> In (a, h) (d_edges d u) -> In (b, k) (d_edges d u) -> a = b.
Proof.
  intros Z D L B IA IB. pose proof (D u L B) as H. unfold degree in H. destruct (d_edges d u) as [|e [|e' l]]; cbn in *; [tauto| |lia].
  destruct IA as [->|[]], IB as [E|[]]. congruence.
Qed.

(* ---- identity removal ------------------------------------------------------------------------------------------------ *)
Lemma compose_wgt h0 h1 x0 x1 : (wgt h0 false x0 * wgt h1 false x1 + wgt h0 true x0 * wgt h1 true x1)%C = wgt (xorb h0 h1) x0 x1.
Proof.
  assert (S : (RtoC (/ sqrt 2) * RtoC (/ sqrt 2) + RtoC (/ sqrt 2) * RtoC (/ sqrt 2))%C = C1).
  { rewrite <- RtoC_mul, <- RtoC_add, <- RtoC_1. f_equal. assert (Q : (/ sqrt 2 * / sqrt 2 = / 2)%R); [|rewrite Q; lra].
    rewrite <- Rinv_mult. f_equal. apply sqrt_sqrt. lra. }
  destruct h0, h1; cbn [xorb negb]; rewrite ?wgt_true, ?wgt_false; destruct x0, x1; cbn [andb eqb]; try ring; (etransitivity; [|exact S]); ring.
Qed.
Lemma p_isZero_exp p : p_isZero p = true -> pexp rho p = C1.
Proof. apply pexp_zero. Qed.
Lemma two_row {A} (l : list A) a : length l = 2 -> l = [nth 0 l a; nth 1 l a].
Proof. destruct l as [|b [|c [|e l]]]; cbn; intros H; try lia. reflexivity. Qed.
Lemma removeId_ok d v : wf d -> live d v = true -> checkIdSimp d v = true -> wf (removeId d v) /\ same_map d (removeId d v).
Proof.
  intros W L K. unfold checkIdSimp in K. apply andb_true_iff in K as [K NB]. apply andb_true_iff in K as [K P0]. apply Nat.eqb_eq in K. apply negb_true_iff in NB.
  pose proof (w_z d W) as Zd. unfold degree in K. pose proof (two_row _ (0, false) K) as E. unfold removeId.
  destruct (nth 0 (d_edges d v) (0, false)) as [v0 t0] eqn:E0. destruct (nth 1 (d_edges d v) (0, false)) as [v1 t1] eqn:E1. cbn [fst snd].
  assert (I0 : In (v0, t0) (d_edges d v)) by (rewrite E; cbn; auto). assert (I1 : In (v1, t1) (d_edges d v)) by (rewrite E; cbn; auto).
  assert (N01 : v0 <> v1). { pose proof (z_nodup d Zd v L) as N. rewrite E in N. cbn in N. inversion N; subst. cbn in *. intros ->. tauto. }
  destruct (z_sym d Zd v v0 t0 L I0) as (L0 & N0 & J0). destruct (z_sym d Zd v v1 t1 L I1) as (L1 & N1 & J1).
  assert (B0 : isBoundary d v0 = true -> hv d v0 v1 = None).
  { intros B. destruct (hv d v0 v1) as [h|] eqn:H; auto. apply hv_In' in H. pose proof (bdeg_two d v0 v v1 t0 h Zd (w_d d W) L0 B J0 H). congruence. }
  assert (B1 : isBoundary d v1 = true -> hv d v0 v1 = None).
  { intros B. rewrite hv_sym by auto. destruct (hv d v1 v0) as [h|] eqn:H; auto. apply hv_In' in H. pose proof (bdeg_two d v1 v v0 t1 h Zd (w_d d W) L1 B J1 H). congruence. }
  pose proof (parallel_aware rho d v0 v1 (xorb t0 t1) Zd L0 L1) as PA. specialize (PA ltac:(congruence)).
  assert (X : hv d v0 v1 <> None -> isBoundary d v0 = false /\ isBoundary d v1 = false).
  { intros H. split; [destruct (isBoundary d v0); auto; now destruct H; apply B0|destruct (isBoundary d v1); auto; now destruct H; apply B1]. }
  specialize (PA X). set (d1 := addEdgeParallelAware d v0 v1 (xorb t0 t1)) in *. pose proof (pa_frame _ _ _ _ _ _ PA) as F.
  pose proof (frame_w _ _ F) as FW. split.
  - apply remove_wf.
    + apply (pa_zwf _ _ _ _ _ _ PA).
    + apply (pa_book _ _ _ _ _ _ PA), (w_b d W).
    + apply phok_PA, (w_ph d W).
    + apply (g_io d); auto. apply (w_io d W).
    + now rewrite (f_live _ _ F).
    + now rewrite (f_bnd _ _ _ F).
    + intros u Lu Bu. rewrite (f_live _ _ F) in Lu. rewrite (f_bnd _ _ _ F) in Bu. pose proof (w_d d W u Lu Bu) as Du. unfold degree in Du.
      assert (G : forall w t t', live d u = true -> In (v, t) (d_edges d u) -> w <> v -> length (filter (fun e => negb (fst e =? v)) (d_edges d u ++ [(w, t')])) <= 1).
      { intros w t t' _ J Nw. destruct (d_edges d u) as [|e [|e' l]]; cbn in J, Du; [tauto| |lia]. destruct J as [->|[]]. cbn. rewrite Nat.eqb_refl. cbn.
        destruct (w =? v); cbn; lia. }
      destruct (Nat.eq_dec u v0) as [->|U0].
      { rewrite (pa_none _ _ _ _ _ _ PA N01 (B0 Bu)). rewrite addEdge_edges by auto. rewrite Nat.eqb_refl. eapply G; eauto. }
      destruct (Nat.eq_dec u v1) as [->|U1].
      { rewrite (pa_none _ _ _ _ _ _ PA N01 (B1 Bu)). rewrite addEdge_edges by auto. apply Nat.eqb_neq in U0. rewrite U0, Nat.eqb_refl. eapply G; eauto. }
      rewrite (pa_edges _ _ _ _ _ _ PA) by auto. etransitivity; [apply filter_length_le|auto].
  - destruct (pa_wx _ _ _ _ _ _ PA) as (c & Hc & HW). apply (remove_same d d1 v (/ c)%C); auto using Cinv_neq0.
    + apply (pa_zwf _ _ _ _ _ _ PA).
    + unfold inner. now rewrite L, NB.
    + intros x. rewrite HW by (unfold only, plus, none; cbn; now apply Nat.eqb_neq; auto).
      assert (S : forall s, wx none d (setb x v s) = (wx (only v) d x * (wgt (eh d v v0 t0) s (x v0) * wgt (eh d v v1 t1) s (x v1)))%C).
      { intros s. rewrite (wx_split rho none d _ v) by auto. fold (only v). rewrite wx_only, NB, E. cbn [cprod fst snd none]. unfold phw.
        rewrite p_isZero_exp by auto. rewrite !setb_get, Nat.eqb_refl. rewrite !(proj2 (Nat.eqb_neq _ _)) by auto. destruct s; ring. }
      rewrite !S. transitivity (wx (only v) d x * wgt (xorb (eh d v v0 t0) (eh d v v1 t1)) (x v0) (x v1))%C.
      * rewrite <- compose_wgt. ring.
      * replace (xorb (eh d v v0 t0) (eh d v v1 t1)) with (eh d v0 v1 (xorb t0 t1)).
        { field. auto. }
        unfold eh. now destruct t0, t1, (isX d v), (isX d v0), (isX d v1).
Qed.

(* ---- spider fusion ------------------------------------------------------------------------------------------------------ *)
Definition fuse_step (v0 : nat) := fun (d' : diag) (e : edge) => if negb (v0 =? fst e) then addEdgeParallelAware d' v0 (fst e) (snd e) else d'.
Lemma fuse_loop v0 v1 l : forall d, v0 <> v1 -> zwf d -> book d -> phases_ok d -> live d v0 = true -> isBoundary d v0 = false ->
  NoDup (map fst l) -> (forall e, In e l -> fst e <> v1 /\ live d (fst e) = true /\ (isBoundary d (fst e) = true -> hv d v0 (fst e) = None)) ->
  let d2 := fold_left (fuse_step v0) l d in
  zwf d2 /\ book d2 /\ phases_ok d2 /\ frame d d2 /\ d_edges d2 v1 = d_edges d v1 /\
  (forall u, isBoundary d u = true -> degree d2 u <= degree d u + (if memb u (map fst l) then 1 else 0)) /\
  exists c, c <> C0 /\ forall ex x, ex v0 = false -> (forall e, In e l -> ex (fst e) = false) ->
    wx ex d2 x = (c * (wx ex d x * cprod l (fun e => if v0 =? fst e then C1 else wgt (eh d v0 (fst e) (snd e)) (x v0) (x (fst e)))))%C.
Proof.
  induction l as [|[to h] l IH]; intros d N Zd B P L NB ND H; cbn zeta; cbn [fold_left].
  - repeat (split; auto using frame_refl). + intros u _. cbn. lia. + exists C1. split; [apply C1_neq_C0|]. intros. cbn [cprod]. ring.
  - cbn [map fst] in ND. inversion ND as [|? ? NI ND']; subst. change (fuse_step v0 d (to, h)) with (if negb (v0 =? to) then addEdgeParallelAware d v0 to h else d).
    destruct (Nat.eqb_spec v0 to) as [E|NE]; cbn [negb].
    + destruct (IH d N Zd B P L NB ND') as (Z2 & B2 & P2 & F2 & E2 & D2 & c & Hc & W2); [intros e I; apply H; now right|].
      repeat (split; auto).
      * intros u Bu. specialize (D2 u Bu). cbn [memb map existsb fst]. fold (memb u (map fst l)). destruct (u =? to), (memb u (map fst l)); cbn [orb]; lia.
      * exists c. split; auto. intros ex x E1 E3. rewrite W2 by (auto; intros e I; apply E3; now right). cbn [cprod fst snd]. rewrite (proj2 (Nat.eqb_eq v0 to) E). ring.
    + destruct (H (to, h) (or_introl eq_refl)) as (NV1 & Lt & Bt). cbn [fst] in *.
      assert (PA : pa_ok rho d v0 to h (addEdgeParallelAware d v0 to h)).
      { apply parallel_aware; auto; try congruence. intros Q. split; auto. destruct (isBoundary d to) eqn:Bb; auto. now destruct Q; apply Bt. }
      pose proof (pa_frame _ _ _ _ _ _ PA) as F. set (d1 := addEdgeParallelAware d v0 to h) in *.
      destruct (IH d1) as (Z2 & B2 & P2 & F2 & E2 & D2 & c & Hc & W2); auto.
      * apply (pa_zwf _ _ _ _ _ _ PA).
      * apply (pa_book _ _ _ _ _ _ PA B).
      * now apply phok_PA.
      * now rewrite (f_live _ _ F).
      * now rewrite (f_bnd _ _ _ F).
      * intros e I. destruct (H e (or_intror I)) as (Q1 & Q2 & Q3). rewrite (f_live _ _ F), (f_bnd _ _ _ F). split; [|split]; auto. intros Q. rewrite (pa_hv _ _ _ _ _ _ PA); auto.
        assert (fst e <> to). { intros <-. apply NI. now apply in_map. }
        unfold on_pair. rewrite (proj2 (Nat.eqb_neq (fst e) to)) by auto. rewrite (proj2 (Nat.eqb_neq v0 to)) by auto. now rewrite andb_false_r.
      * split; [exact Z2|]. split; [exact B2|]. split; [exact P2|]. split; [now apply (frame_trans d d1)|]. split.
        { rewrite E2. apply (pa_edges _ _ _ _ _ _ PA); auto. }
        split.
        { intros u Bu. rewrite <- (f_bnd _ _ u F) in Bu. specialize (D2 u Bu). rewrite (f_bnd _ _ u F) in Bu. cbn [memb map existsb fst]. fold (memb u (map fst l)).
          assert (Uv : u <> v0) by congruence. destruct (Nat.eqb_spec u to) as [->|Ut]; cbn [orb].
          - apply memb_false in NI. rewrite NI in D2. specialize (Bt Bu). rewrite (pa_none _ _ _ _ _ _ PA NE Bt) in D2 at 2. unfold degree in D2 at 2.
            rewrite addEdge_edges in D2 by auto. rewrite (proj2 (Nat.eqb_neq to v0)), Nat.eqb_refl in D2 by auto. rewrite app_length in D2. cbn [length] in D2. unfold degree in *. lia.
          - rewrite (pa_len _ _ _ _ _ _ PA) in D2 by auto. exact D2. }
        { destruct (pa_wx _ _ _ _ _ _ PA) as (c1 & Hc1 & W1). exists (c * c1)%C. split; [now apply Cmul_neq0|]. intros ex x E1 E3.
          rewrite W2 by (auto; intros e I; apply E3; now right). rewrite W1 by (auto; apply (E3 (to, h)); now left). cbn [cprod fst snd].
          rewrite (proj2 (Nat.eqb_neq v0 to)) by auto. rewrite (cprod_ext l _ (fun e => if v0 =? fst e then C1 else wgt (eh d v0 (fst e) (snd e)) (x v0) (x (fst e)))); [ring|].
          intros e _. now rewrite (f_eh _ _ _ _ _ F). }
Qed.
Lemma cprod_zero {A} (l : list A) f a : In a l -> f a = C0 -> cprod l f = C0.
Proof. induction l as [|b l IH]; cbn; [tauto|]. intros [->|I] E; [rewrite E; ring|]. rewrite IH by auto. ring. Qed.
Lemma fuseSpiders_ok d v0 v1 : wf d -> live d v0 = true -> live d v1 = true -> checkSpiderFusion d v0 v1 = true -> wf (fuseSpiders d v0 v1) /\ same_map d (fuseSpiders d v0 v1).
Proof.
  intros W L0 L1 K. unfold checkSpiderFusion in K. apply andb_true_iff in K as [K NB0]. apply andb_true_iff in K as [K KE]. apply andb_true_iff in K as [N KT].
  apply negb_true_iff, Nat.eqb_neq in N. apply negb_true_iff in NB0. fold (isBoundary d v0) in NB0.
  assert (T : vty d v0 = vty d v1) by (now destruct (vty d v0), (vty d v1)). clear KT. pose proof (w_z d W) as Zd.
  assert (E01 : hv d v0 v1 = Some false). { unfold hv. destruct (getEdge d v0 v1) as [[w [|]]|]; cbn in *; auto; discriminate. }
  destruct (zwf_hv d v0 v1 false Zd L0 E01) as (_ & _ & E10). apply hv_In' in E10 as I10.
  assert (NB1 : isBoundary d v1 = false) by (unfold isBoundary in *; now rewrite <- T).
  set (d1 := addPhase d v0 (vphase d v1)). pose proof (frame_addPhase d v0 (vphase d v1)) as F1. fold d1 in F1.
  assert (Hrow : forall e, In e (d_edges d v1) -> fst e <> v1 /\ live d (fst e) = true /\ In (v1, snd e) (d_edges d (fst e)) /\ (isBoundary d (fst e) = true -> hv d v0 (fst e) = None)).
  { intros [to h] I. destruct (z_sym d Zd v1 to h L1 I) as (Lt & Nt & J). cbn [fst snd]. repeat (split; auto). intros Bt.
    destruct (hv d v0 to) as [k|] eqn:Q; auto. exfalso. destruct (zwf_hv d v0 to k Zd L0 Q) as (_ & _ & Q'). apply hv_In' in Q'.
    pose proof (bdeg_two d to v1 v0 h k Zd (w_d d W) Lt Bt J Q'). congruence. }
  destruct (fuse_loop v0 v1 (d_edges d v1) d1 N) as (Z2 & B2 & P2 & F2 & E2 & D2 & c & Hc & W2).
  { now apply addPhase_zwf. } { apply addPhase_book, (w_b d W). } { apply phok_addPhase; apply (w_ph d W); auto. } { now rewrite (f_live _ _ F1). } { now rewrite (f_bnd _ _ _ F1). }
  { now apply (z_nodup d Zd). }
  { intros e I. destruct (Hrow e I) as (Q1 & Q2 & _ & Q3). rewrite (f_live _ _ F1), (f_bnd _ _ _ F1). auto. }
  assert (U : fuseSpiders d v0 v1 = removeVertex (fold_left (fuse_step v0) (d_edges d v1) d1) v1) by reflexivity. rewrite U.
  set (d2 := fold_left (fuse_step v0) (d_edges d v1) d1) in *. pose proof (frame_trans _ _ _ F1 F2) as F. split.
  - apply remove_wf; auto.
    + apply (g_io d); auto using frame_w. apply (w_io d W).
    + now rewrite (f_live _ _ F).
    + now rewrite (f_bnd _ _ _ F).
    + intros u Lu Bu. rewrite (f_bnd _ _ _ F) in Bu. rewrite (f_live _ _ F) in Lu. specialize (D2 u). rewrite (f_bnd _ _ _ F1) in D2. specialize (D2 Bu).
      assert (Dg : degree d1 u = degree d u) by reflexivity. rewrite Dg in D2. pose proof (w_d d W u Lu Bu) as Du.
      destruct (memb u (map fst (d_edges d v1))) eqn:M.
      * apply memb_In, in_map_iff in M as ([u' h] & <- & I). cbn [fst] in *.
        assert (J : In (v1, h) (d_edges d2 u')).
        { destruct (z_sym d2 Z2 v1 u' h) as (_ & _ & J); auto. - now rewrite (f_live _ _ F). - now rewrite E2. }
        assert (ND2 : NoDup (map fst (d_edges d2 u'))) by (apply (z_nodup d2 Z2); now rewrite (f_live _ _ F)).
        pose proof (length_filter_one _ v1 h ND2 J). unfold degree in *. lia.
      * etransitivity; [apply filter_length_le|]. unfold degree in *. lia.
  - apply (remove_same d d2 v1 (/ c)%C); auto using Cinv_neq0, frame_w.
    + unfold inner. now rewrite L1, NB1.
    + intros x. rewrite W2.
      2:{ unfold only, plus, none. cbn. now apply Nat.eqb_neq. }
      2:{ intros e I. destruct (Hrow e I) as (Q & _). unfold only, plus, none. cbn. now apply Nat.eqb_neq. }
      unfold d1. rewrite addPhase_wx; auto. 2:{ unfold only, plus, none. cbn. now apply Nat.eqb_neq. } fold d1.
      assert (S : forall s, wx none d (setb x v1 s) = (wx (only v1) d x * ((if s then pexp rho (vphase d v1) else C1) * cprod (d_edges d v1) (fun e => wgt (eh d v0 (fst e) (snd e)) s (x (fst e)))))%C).
      { intros s. rewrite (wx_split rho none d _ v1) by auto. fold (only v1). rewrite wx_only, NB1. cbn [none]. f_equal. unfold phw.
        rewrite !setb_get, Nat.eqb_refl. f_equal. apply cprod_ext. intros e I. destruct (Hrow e I) as (Q & _). rewrite setb_get, (proj2 (Nat.eqb_neq _ _) Q).
        unfold eh, isX. now rewrite T. }
      rewrite !S.
      assert (V : forall s, cprod (d_edges d v1) (fun e => wgt (eh d v0 (fst e) (snd e)) s (x (fst e))) =
        if eqb s (x v0) then cprod (d_edges d v1) (fun e => if v0 =? fst e then C1 else wgt (eh d1 v0 (fst e) (snd e)) (x v0) (x (fst e))) else C0).
      { intros s. assert (E00 : eh d v0 v0 false = false) by (unfold eh; now destruct (isX d v0)). destruct (eqb s (x v0)) eqn:Q.
        - apply eqb_prop in Q. subst s. apply cprod_ext. intros [to h] I. cbn [fst snd]. destruct (Nat.eqb_spec v0 to) as [<-|]; [|now rewrite (f_eh _ _ _ _ _ F1)].
          apply hv_In in I; [|now apply (z_nodup d Zd)]. rewrite E10 in I. injection I as <-. rewrite E00, wgt_false. now destruct (x v0).
        - apply (cprod_zero _ _ (v0, false)); auto. cbn [fst snd]. now rewrite E00, wgt_false, Q. }
      rewrite !V. set (R := cprod _ _). destruct (x v0); cbn [eqb]; field; auto.
Qed.
End Rules.
