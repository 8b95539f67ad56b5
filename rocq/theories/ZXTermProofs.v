(* fullReduce, and termination. *)
From Coq Require Import Reals QArith Qreals ZArith Bool List Arith Lia Lra Permutation FunctionalExtensionality.
From Verif Require Import Cplx Qsem PiModel ZXModel ZXSpec ZXUpdSpec ZXSimpSpec ZXPhaseProofs ZXSemProofs ZXUpdProofs ZXUpd2Proofs ZXUpd3Proofs ZXRuleProofs ZXRule2Proofs ZXRule3Proofs ZXGadgetProofs ZXGraphProofs ZXBookProofs ZXSimpProofs ZXDiscProofs.
Import ListNotations.
Local Close Scope Q_scope.
Local Open Scope nat_scope.

Lemma one_leaf_b d n : NoDup (map fst (d_edges d n)) -> length (filter (leafb d) (map fst (d_edges d n))) <=? 1 = true -> one_leaf d n.
Proof.
  intros N H a b Ia Ib La Lb. apply Nat.leb_le in H. assert (A : In a (filter (leafb d) (map fst (d_edges d n)))) by (apply filter_In; split; auto). assert (B : In b (filter (leafb d) (map fst (d_edges d n)))) by (apply filter_In; split; auto).
  destruct (filter (leafb d) (map fst (d_edges d n))) as [|x [|y l]]; cbn in *; try lia; intuition congruence.
Qed.
Lemma gadget_guard_b d v : zwf d -> gadget_guardb d v = true -> gadget_guard d v.
Proof.
  intros Zd H. unfold gadget_guardb, gadget_guard in *. destruct (_ =? 2).
  - rewrite forallb_forall in H. intros n I N. specialize (H n I). apply orb_true_iff in H as [H|H]; [apply Nat.eqb_eq in H; congruence|now apply negb_true_iff in H].
  - rewrite forallb_forall in H. intros n L D C N. assert (I : In n (getVertices d)) by (apply filter_In; split; auto; apply in_seq; pose proof (live_lt d n Zd L); lia).
    specialize (H n I). rewrite D, Nat.eqb_refl, C in H. cbn [andb negb] in H. rewrite (proj2 (Nat.eqb_neq _ _) N) in H. cbn in H. apply one_leaf_b; auto. now apply (z_nodup d Zd).
Qed.
Section Full.
Variable rho : nat -> R.
Notation good := (good rho).
Lemma passGadget_g_good l : forall d k d' k', wf d -> graphlike d -> fold_left (fun o v => match o with
    | None => None
    | Some (d', k) =>
        if negb (live d' v) then Some (d', k)
        else match checkAndFuseGadget d' v with
             | Some d1 => if gadget_guardb d' v then Some (d1, S k) else None
             | None => Some (d', k)
             end
    end) l (Some (d, k)) = Some (d', k') -> good d d' /\ fold_left (fun '(d', k) v => if negb (live d' v) then (d', k)
                               else match checkAndFuseGadget d' v with Some d1 => (d1, S k) | None => (d', k) end) l (d, k) = (d', k').
Proof.
  induction l as [|v l IH]; intros d k d' k' W G E; cbn [fold_left] in *; [injection E as <- <-; split; auto using good_refl|]. destruct (live d v) eqn:L; cbn [negb] in *; [|apply IH; auto].
  destruct (checkAndFuseGadget d v) as [d1|] eqn:C; [|apply IH; auto]. destruct (gadget_guardb d v) eqn:Gb.
  - destruct (checkAndFuseGadget_ok rho d v d1 W G L (gadget_guard_b d v (w_z d W) Gb) C) as [W1 S1]. pose proof (k_gadget d v d1 C) as K1. destruct (IH d1 (S k) d' k' W1 (k_graphlike _ _ K1 G) E) as [G2 Q].
    split; auto. eapply good_trans; [|exact G2]. now constructor.
  - exfalso. clear - E. induction l as [|w l IHl]; cbn in E; [discriminate|auto].
Qed.
Lemma gadgetSimp_g_good fuel : forall d n d' m, wf d -> graphlike d -> gadgetSimp_g fuel d n = Some (d', m) -> good d d' /\ exhaust passGadget fuel d n = Some (d', m).
Proof.
  induction fuel as [|f IH]; intros d n d' m W G E; cbn [gadgetSimp_g exhaust] in *; [discriminate|]. destruct (passGadget_g d) as [[d1 k]|] eqn:P; [|discriminate].
  destruct (passGadget_g_good _ _ _ _ _ W G P) as [G1 Q]. assert (Q' : passGadget d = (d1, k)) by exact Q. rewrite Q'. destruct (k =? 0).
  - injection E as <- <-. auto.
  - destruct (IH d1 (n + k) d' m (go_wf _ _ _ G1) (k_graphlike _ _ (go_kinds _ _ _ G1) G) E) as [G2 Q2]. split; auto. eapply good_trans; eauto.
Qed.
Lemma reduce_loop_g_good fuel : forall d n d' m, wf d -> graphlike d -> reduce_loop_g fuel d n = Some (d', m) -> good d d' /\ reduce_loop fuel d n = Some (d', m).
Proof.
  induction fuel as [|f IH]; intros d n d' m W G E; [discriminate|]. cbn [reduce_loop_g reduce_loop] in *.
  apply obind_inv in E as ([d1 k1] & E1 & E). pose proof (cliffordSimp_good rho _ _ _ _ W E1) as G1. rewrite E1. cbn [obind].
  apply obind_inv in E as ([d2 k2] & E2 & E). destruct (gadgetSimp_g_good _ _ _ _ _ (go_wf _ _ _ G1) (k_graphlike _ _ (go_kinds _ _ _ G1) G) E2) as [G2 Q2]. unfold gadgetSimp. rewrite Q2. cbn [obind].
  apply obind_inv in E as ([d3 k3] & E3 & E). pose proof (interiorCliffordSimp_good rho _ _ _ _ (go_wf _ _ _ G2) E3) as G3. rewrite E3. cbn [obind].
  apply obind_inv in E as ([d4 k4] & E4 & E). pose proof (pivotgadgetSimp_good rho _ _ _ _ (go_wf _ _ _ G3) E4) as G4. rewrite E4. cbn [obind].
  pose proof (good_trans _ _ _ _ G1 (good_trans _ _ _ _ G2 (good_trans _ _ _ _ G3 G4))) as Gd. destruct (_ =? 0); [injection E as <- <-; auto|].
  destruct (IH d4 _ d' m (go_wf _ _ _ Gd) (k_graphlike _ _ (go_kinds _ _ _ Gd) G) E) as [G5 Q5]. split; auto. eapply good_trans; eauto.
Qed.
Lemma nonzero_same d d' : same_map rho d d' -> (exists b, den rho d b <> C0) -> exists b, den rho d' b <> C0.
Proof. intros (_ & _ & c & Hc & H) (b & N). exists b. rewrite H. now apply Cmul_neq0. Qed.
Lemma fullReduce_g_ok fuel d d' n : wf d -> io_complete d -> (exists b, den rho d b <> C0) -> fullReduce_g fuel d = Some (d', n) -> fullReduce fuel d = Some (d', n) /\ wf d' /\ same_map rho d d'.
Proof.
  intros W IC Nz E. unfold fullReduce_g, fullReduce in *. destruct (toGraphlike_ok rho d W) as (W0 & G0 & S0).
  destruct (toGraphlike_gl rho d (w_z d W)) as [GL _].
  apply obind_inv in E as ([d1 k1] & E1 & E). pose proof (interiorCliffordSimp_good rho _ _ _ _ W0 E1) as G1. rewrite E1. cbn [obind].
  apply obind_inv in E as ([d2 k2] & E2 & E). destruct (reduce_loop_g_good _ _ _ _ _ (go_wf _ _ _ G1) (k_graphlike _ _ (go_kinds _ _ _ G1) G0) E2) as [G2 Q2]. rewrite Q2. cbn [obind].
  apply obind_inv in E as (d3 & E3 & E). rewrite E3. cbn [obind]. injection E as <- <-. split; auto.
  assert (S2 : same_map rho d d2) by (eapply same_map_trans; [exact S0|]; eapply same_map_trans; [apply (go_same _ _ _ G1)|apply (go_same _ _ _ G2)]).
  assert (IA : io_all d2).
  { pose proof (k_trans _ _ _ (go_kinds _ _ _ G1) (go_kinds _ _ _ G2)) as K. assert (IA0 : io_all (toGraphlike d)). { intros v L B. rewrite (gl_live _ _ _ GL) in L. rewrite (gl_bnd _ _ _ GL) in B. rewrite (gl_in _ _ _ GL), (gl_out _ _ _ GL). now apply IC. }
    apply (k_io _ _ K); auto.
    - destruct (go_same _ _ _ G1) as (A & _), (go_same _ _ _ G2) as (B & _). congruence.
    - destruct (go_same _ _ _ G1) as (_ & A & _), (go_same _ _ _ G2) as (_ & B & _). congruence. }
  destruct (removeDisconnected_ok rho fuel d2 d3 (go_wf _ _ _ G2) IA (nonzero_same _ _ S2 Nz) E3) as [W3 S3]. split; auto. eapply same_map_trans; eauto.
Qed.
End Full.

(* ---- termination ------------------------------------------------------------------------------------------------- *)
Lemma PA_nv d a b h : d_nv (addEdgeParallelAware d a b h) = d_nv d.
Proof. unfold addEdgeParallelAware. destruct (a =? b); [destruct (_ && _); auto|]. destruct (getEdge d a b) as [[w k]|]; auto. destruct (_ || _); auto. destruct (vtype_eqb _ _), k, h; auto. Qed.
Lemma fold_nv {A} (f : diag -> A -> diag) l : (forall d a, d_nv (f d a) = d_nv d) -> forall d, d_nv (fold_left f l d) = d_nv d.
Proof. intros H. induction l as [|a l IH]; intros d; cbn; auto. now rewrite IH. Qed.
Lemma rv_nv d v : d_nv (removeVertex d v) = (d_nv d - 1)%Z.
Proof. unfold removeVertex. fold (strip v). destruct (strip_frame v (d_edges d v) (mkD (d_size d) (zupd (d_verts d) v None) (d_edges d) (v :: d_deleted d) (d_in d) (d_out d) (d_nv d - 1) (d_ne d) (d_gphase d))) as (F & _). now rewrite (f_nv _ _ F). Qed.
Lemma removeId_nv d v : d_nv (removeId d v) = (d_nv d - 1)%Z.
Proof. unfold removeId. now rewrite rv_nv, PA_nv. Qed.
Lemma fuse_nv d a b : d_nv (fuseSpiders d a b) = (d_nv d - 1)%Z.
Proof. unfold fuseSpiders. rewrite rv_nv, fold_nv; auto. intros d0 e. destruct (negb _); auto using PA_nv. Qed.
Lemma lc_nv p ns : forall d, d_nv (lc_pairs p ns d) = d_nv d.
Proof. induction ns as [|n ns IH]; intros d; cbn [lc_pairs]; auto. rewrite IH, fold_nv; auto using PA_nv. Qed.
Lemma localComp_nv d v : d_nv (localComp d v) = (d_nv d - 1)%Z.
Proof. unfold localComp. rewrite rv_nv. cbn [d_nv addGlobalPhase set_gphase]. now rewrite lc_nv. Qed.
Lemma pivotPauli_nv d a b : d_nv (pivotPauli d a b) = (d_nv d - 2)%Z.
Proof.
  unfold pivotPauli. rewrite !rv_nv, !fold_nv; auto.
  - destruct (_ && _); cbn; lia.
  - intros d0 n. destruct (n =? b); auto. rewrite fold_nv; auto. intros d1 m. destruct (negb _); auto using PA_nv.
Qed.
Lemma wf_nv d : wf d -> (0 <= d_nv d)%Z.
Proof. intros W. rewrite (b_nv d (w_b d W)). lia. Qed.
Lemma passV_nv check rule : (forall d v, (d_nv (rule d v) <= d_nv d - 1)%Z) -> forall l d k, let r := fold_left (passV_step check rule) l (d, k) in (d_nv (fst r) + Z.of_nat (snd r) <= d_nv d + Z.of_nat k)%Z.
Proof.
  intros H. induction l as [|v l IH]; intros d k; cbn [fold_left]; [cbn; lia|]. cbn zeta.
  assert (Q : passV_step check rule (d, k) v = if check d v then (rule d v, S k) else (d, k)) by reflexivity. rewrite !Q. destruct (check d v); [|apply IH]. specialize (IH (rule d v) (S k)). specialize (H d v). cbn zeta in *. lia.
Qed.
Lemma passE_nv check rule : (forall d a b, (d_nv (rule d a b) <= d_nv d - 1)%Z) -> forall l d k,
  let r := fold_left (fun '(d', k) (e : nat * nat) => if negb (live d' (fst e)) || negb (live d' (snd e)) || negb (check d' (fst e) (snd e)) then (d', k) else (rule d' (fst e) (snd e), S k)) l (d, k) in
  (d_nv (fst r) + Z.of_nat (snd r) <= d_nv d + Z.of_nat k)%Z.
Proof.
  intros H. induction l as [|[a b] l IH]; intros d k; cbn [fold_left]; [cbn; lia|]. cbn [fst snd]. destruct (_ || _); [apply IH|]. specialize (IH (rule d a b) (S k)). specialize (H d a b). cbn zeta in *. lia.
Qed.
Lemma exhaust_nv pass : (forall d, (d_nv (fst (pass d)) + Z.of_nat (snd (pass d)) <= d_nv d)%Z) -> (forall d, wf d -> wf (fst (pass d))) ->
  forall fuel d n, wf d -> (d_nv d < Z.of_nat fuel)%Z -> exists d' m, exhaust pass fuel d n = Some (d', n + m) /\ (d_nv d' + Z.of_nat m <= d_nv d)%Z.
Proof.
  intros H Hw. induction fuel as [|f IH]; intros d n W L; [pose proof (wf_nv d W); lia|]. cbn [exhaust]. pose proof (H d) as Hd. pose proof (Hw d W) as W1. destruct (pass d) as [d1 k]. cbn [fst snd] in *. destruct (Nat.eqb_spec k 0) as [->|N].
  - exists d1, 0. rewrite Nat.add_0_r. split; auto.
  - destruct (IH d1 (n + k) W1) as (d' & m & E & Q); [lia|]. exists d', (k + m). split; [rewrite E; do 2 f_equal; lia|lia].
Qed.
Definition shrinks (simp : nat -> diag -> option (diag * nat)) : Prop :=
  forall fuel d, wf d -> (d_nv d < Z.of_nat fuel)%Z -> exists d' m, simp fuel d = Some (d', m) /\ wf d' /\ (d_nv d' + Z.of_nat m <= d_nv d)%Z.
Lemma simpV_shrinks check rule : (forall d v, (d_nv (rule d v) <= d_nv d - 1)%Z) -> (forall fuel d d' n, wf d -> simplifyVertices check rule fuel d = Some (d', n) -> wf d') -> (forall d, wf d -> wf (fst (passV check rule d))) -> shrinks (simplifyVertices check rule).
Proof.
  intros H G Hp fuel d W L. destruct (exhaust_nv (passV check rule)) with (fuel := fuel) (d := d) (n := 0) as (d' & m & E & Q); auto.
  - intros d0. pose proof (passV_nv check rule H (getVertices d0) d0 0) as P. cbn zeta in P. unfold passV. fold (passV_step check rule). lia.
  - exists d', m. split; auto. split; auto. eapply G; eauto.
Qed.
Lemma simpE_shrinks check rule : (forall d a b, (d_nv (rule d a b) <= d_nv d - 1)%Z) -> (forall fuel d d' n, wf d -> simplifyEdges check rule fuel d = Some (d', n) -> wf d') -> (forall d, wf d -> wf (fst (passE check rule d))) -> shrinks (simplifyEdges check rule).
Proof.
  intros H G Hp fuel d W L. destruct (exhaust_nv (passE check rule)) with (fuel := fuel) (d := d) (n := 0) as (d' & m & E & Q); auto.
  - intros d0. pose proof (passE_nv check rule H (getEdges d0) d0 0) as P. cbn zeta in P. unfold passE. lia.
  - exists d', m. split; auto. split; auto. eapply G; eauto.
Qed.
Lemma idSimp_shrinks : shrinks idSimp.
Proof.
  apply simpV_shrinks.
  - intros. rewrite removeId_nv. lia.
  - intros. eapply go_wf, (idSimp_good rho0); eauto.
  - intros d W. eapply go_wf. apply (passV_good rho0 checkIdSimp removeId); auto using getV_nodup, getV_live.
    + intros d2 v W2 L K. destruct (removeId_ok rho0 d2 v W2 L K). constructor; auto using k_removeId.
    + intros. now apply live_removeId.
Qed.
Lemma localCompSimp_shrinks : shrinks localCompSimp.
Proof.
  apply simpV_shrinks.
  - intros. rewrite localComp_nv. lia.
  - intros. eapply go_wf, (localCompSimp_good rho0); eauto.
  - intros d W. eapply go_wf. apply (passV_good rho0 checkLocalComp localComp); auto using getV_nodup, getV_live.
    + intros d2 v W2 L K. destruct (localComp_ok rho0 d2 v W2 K). constructor; auto using k_localComp.
    + intros. now apply live_localComp.
Qed.
Lemma spiderSimp_shrinks : shrinks spiderSimp.
Proof.
  apply simpE_shrinks.
  - intros. rewrite fuse_nv. lia.
  - intros. eapply go_wf, (spiderSimp_good rho0); eauto.
  - intros d W. eapply go_wf. apply (passE_good rho0); auto. intros d0 a b W0 La Lb K. destruct (fuseSpiders_ok rho0 d0 a b W0 La Lb K). constructor; auto using k_fuse.
Qed.
Lemma pivotPauliSimp_shrinks : shrinks pivotPauliSimp.
Proof.
  apply simpE_shrinks.
  - intros. rewrite pivotPauli_nv. lia.
  - intros. eapply go_wf, (pivotPauliSimp_good rho0); eauto.
  - intros d W. eapply go_wf. apply (passE_good rho0); auto. intros d0 a b W0 La Lb K. destruct (pivotPauli_ok rho0 d0 a b W0 K). constructor; auto using k_pivotPauli.
Qed.
Lemma interior_loop_total fuel : forall d n, wf d -> (d_nv d < Z.of_nat fuel)%Z -> exists d' m, interior_loop fuel d n = Some (d', n + m) /\ wf d' /\ (d_nv d' + Z.of_nat m <= d_nv d)%Z.
Proof.
  induction fuel as [|f IH]; intros d n W L; [pose proof (wf_nv d W); lia|]. cbn [interior_loop].
  destruct (idSimp_shrinks (S f) d W L) as (d1 & k1 & -> & W1 & Q1). cbn [obind].
  destruct (spiderSimp_shrinks (S f) d1 W1) as (d2 & k2 & -> & W2 & Q2); [lia|]. cbn [obind].
  destruct (pivotPauliSimp_shrinks (S f) d2 W2) as (d3 & k3 & -> & W3 & Q3); [lia|]. cbn [obind].
  destruct (localCompSimp_shrinks (S f) d3 W3) as (d4 & k4 & -> & W4 & Q4); [lia|]. cbn [obind].
  destruct (Nat.eqb_spec (k1 + k2 + k3 + k4) 0) as [E|E].
  - exists d4, 0. rewrite Nat.add_0_r. repeat (split; auto). lia.
  - destruct (IH d4 (S n) W4) as (d' & m & E' & W' & Q'); [lia|]. exists d', (S m). split; [rewrite E'; do 2 f_equal; lia|]. split; auto. lia.
Qed.
Lemma interiorCliffordSimp_total : shrinks interiorCliffordSimp.
Proof.
  intros fuel d W L. unfold interiorCliffordSimp. destruct (spiderSimp_shrinks fuel d W L) as (d1 & k1 & -> & W1 & Q1). cbn [obind].
  destruct (interior_loop_total fuel d1 0 W1) as (d' & m & E & W' & Q); [lia|]. exists d', m. split; auto. split; auto. lia.
Qed.
