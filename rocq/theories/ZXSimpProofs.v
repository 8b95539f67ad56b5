(* The simplification loops: preservation of the map, of well-formedness, and of the kinds of the vertices. *)
From Coq Require Import Reals QArith Qreals ZArith Bool List Arith Lia Lra Permutation FunctionalExtensionality.
From Verif Require Import Cplx Qsem PiModel ZXModel ZXSpec ZXUpdSpec ZXPhaseProofs ZXSemProofs ZXUpdProofs ZXUpd2Proofs ZXUpd3Proofs ZXRuleProofs ZXRule2Proofs ZXRule3Proofs ZXGadgetProofs ZXGraphProofs ZXBookProofs.
Import ListNotations.
Local Close Scope Q_scope.
Local Open Scope nat_scope.

(* every vertex afterwards existed before with the same kind, or is a Z spider *)
Definition kinds (d d' : diag) : Prop := forall u a', d_verts d' u = Some a' -> v_type a' = VZ \/ exists a, d_verts d u = Some a /\ v_type a = v_type a'.
Lemma k_refl d : kinds d d. Proof. intros u a E. right. eauto. Qed.
Lemma k_trans d1 d2 d3 : kinds d1 d2 -> kinds d2 d3 -> kinds d1 d3.
Proof. intros A B u a E. destruct (B u a E) as [|(a2 & E2 & T)]; auto. destruct (A u a2 E2) as [T2|(a1 & E1 & T1)]; [left; congruence|right; exists a1; split; congruence]. Qed.
Lemma k_eq d d' : d_verts d' = d_verts d -> kinds d d'.
Proof. intros E u a V. right. rewrite E in V. eauto. Qed.
Lemma k_mod d v f : (forall a, v_type (f a) = v_type a) -> kinds d (mod_vertex d v f).
Proof.
  intros H u a E. unfold mod_vertex in E. cbn in E. unfold zupd in E. destruct (Nat.eqb_spec u v) as [->|N]; [|right; eauto]. destruct (d_verts d v) as [b|]; [|discriminate]. cbn in E. injection E as <-. right. eauto.
Qed.
Lemma k_addPhase d v p : kinds d (addPhase d v p). Proof. now apply k_mod. Qed.
Lemma k_setPhase d v p : kinds d (setPhase d v p). Proof. now apply k_mod. Qed.
Lemma k_addEdge d a b h : kinds d (addEdge d a b h). Proof. now apply k_eq. Qed.
Lemma k_removeEdge d a b : kinds d (removeEdge d a b). Proof. now apply k_eq. Qed.
Lemma k_PA d a b h : kinds d (addEdgeParallelAware d a b h).
Proof.
  unfold addEdgeParallelAware. destruct (a =? b); [destruct (_ && _); auto using k_refl, k_addPhase|]. destruct (getEdge d a b) as [[w k]|]; [|apply k_addEdge]. destruct (_ || _); [apply k_refl|].
  destruct (vtype_eqb _ _), k, h; auto using k_refl, k_addPhase; try (now apply k_eq); (eapply k_trans; [|apply k_addPhase]; now apply k_eq).
Qed.
Lemma strip_verts v l d : d_verts (strip v l d) = d_verts d.
Proof. destruct (strip_frame v l d) as (_ & V & _). exact V. Qed.
Lemma k_removeVertex d v : kinds d (removeVertex d v).
Proof.
  intros u a E. unfold removeVertex in E. fold (strip v) in E. rewrite strip_verts in E. cbn in E. unfold zupd in E. destruct (u =? v); [discriminate|]. right. eauto.
Qed.
Lemma k_addVertex d a : v_type a = VZ -> kinds d (fst (addVertex d a)).
Proof.
  intros T u a' E. unfold addVertex in E. destruct (d_deleted d) as [|w rest]; cbn in E; unfold zupd in E; (destruct (_ =? _); [injection E as <-; auto|right; eauto]).
Qed.
Lemma k_gphase d p : kinds d (addGlobalPhase d p). Proof. now apply k_eq. Qed.
Lemma k_fold {A} (f : diag -> A -> diag) l : (forall d a, kinds d (f d a)) -> forall d, kinds d (fold_left f l d).
Proof. intros H. induction l as [|a l IH]; intros d; cbn; [apply k_refl|]. eapply k_trans; [apply H|apply IH]. Qed.
Lemma k_removeId d v : kinds d (removeId d v).
Proof. unfold removeId. eapply k_trans; [apply k_PA|apply k_removeVertex]. Qed.
Lemma k_fuse d v0 v1 : kinds d (fuseSpiders d v0 v1).
Proof.
  unfold fuseSpiders. eapply k_trans; [|apply k_removeVertex]. eapply k_trans; [apply k_addPhase|]. apply k_fold. intros d' e. destruct (negb _); [apply k_PA|apply k_refl].
Qed.
Lemma k_lc p ns : forall d, kinds d (lc_pairs p ns d).
Proof.
  induction ns as [|n ns IH]; intros d; cbn [lc_pairs]; [apply k_refl|]. eapply k_trans; [|apply IH]. eapply k_trans; [apply k_addPhase|]. apply k_fold. intros. apply k_PA.
Qed.
Lemma k_localComp d v : kinds d (localComp d v).
Proof. unfold localComp. eapply k_trans; [|apply k_removeVertex]. eapply k_trans; [apply k_lc|apply k_gphase]. Qed.
Lemma k_pivotPauli d v0 v1 : kinds d (pivotPauli d v0 v1).
Proof.
  unfold pivotPauli. eapply k_trans; [|apply k_removeVertex]. eapply k_trans; [|apply k_removeVertex]. eapply k_trans; [|apply k_fold; intros; apply k_addPhase].
  eapply k_trans; [|apply k_fold]; [destruct (_ && _); [apply k_gphase|apply k_refl]|]. intros d' n. cbn beta. destruct (n =? v1); [apply k_refl|]. eapply k_trans; [apply k_addPhase|]. apply k_fold.
  intros d2 m. destruct (negb _); [apply k_PA|apply k_refl].
Qed.
Lemma k_extract d v : kinds d (extractGadget d v).
Proof.
  unfold extractGadget. destruct (d_verts d v) as [a|]; [|apply k_refl].
  pose proof (k_addVertex d (mkV (v_qubit a) (v_phase a) VZ) eq_refl) as K1. destruct (addVertex d (mkV (v_qubit a) (v_phase a) VZ)) as [d1 ph]. cbn [fst] in K1.
  pose proof (k_addVertex d1 (mkV (v_qubit a) p_zero VZ) eq_refl) as K2. destruct (addVertex d1 (mkV (v_qubit a) p_zero VZ)) as [d2 iv]. cbn [fst] in K2.
  eapply k_trans; [exact K1|]. eapply k_trans; [exact K2|]. eapply k_trans; [apply (k_setPhase d2 v (p_const 0))|]. eapply k_trans; apply k_addEdge.
Qed.
Lemma k_ensureInterior d v : kinds d (ensureInterior d v).
Proof.
  unfold ensureInterior. destruct (d_verts d v) as [a|]; [|apply k_refl]. apply k_fold. intros d' [to h]. destruct (negb _); [apply k_refl|].
  pose proof (k_addVertex d' (mkV (v_qubit a) (p_const 0) VZ) eq_refl) as K1. destruct (addVertex d' (mkV (v_qubit a) (p_const 0) VZ)) as [d1 w]. cbn [fst] in K1.
  eapply k_trans; [exact K1|]. eapply k_trans; [|apply k_removeEdge]. eapply k_trans; apply k_addEdge.
Qed.
Lemma k_ensurePauli d v : kinds d (ensurePauliVertex d v).
Proof. unfold ensurePauliVertex, extractPauliGadget. eapply k_trans; [|apply k_ensureInterior]. destruct (isPauliV d v); [apply k_refl|apply k_extract]. Qed.
Lemma k_pivot d v0 v1 : kinds d (pivot d v0 v1).
Proof. unfold pivot. eapply k_trans; [|apply k_pivotPauli]. eapply k_trans; apply k_ensurePauli. Qed.
Lemma k_pivotGadget d v0 v1 : kinds d (pivotGadget d v0 v1).
Proof. unfold pivotGadget. eapply k_trans; [|apply k_pivotPauli]. destruct (isPauliV d v0); apply k_extract. Qed.
Lemma k_gadget d v d' : checkAndFuseGadget d v = Some d' -> kinds d d'.
Proof.
  unfold checkAndFuseGadget. destruct (_ || _); [discriminate|]. destruct (nth 0 (d_edges d v) (0, false)) as [id0 h0]. destruct (_ || _); [discriminate|]. destruct (degree d id0 =? 2).
  - destruct (if _ =? v then _ else _) as [v0 h]. destruct (negb h); [discriminate|]. intros [= <-]. eapply k_trans; [|apply k_removeVertex]. eapply k_trans; [|apply k_removeVertex]. apply k_addPhase.
  - destruct (last_neighbour _ _ _) as [[n0|]|]; try discriminate. destruct (find_gadget _ _ _ _) as [[id1 [ps|]]|]; try discriminate. intros [= <-].
    eapply k_trans; [|apply k_removeVertex]. eapply k_trans; [|apply k_removeVertex]. eapply k_trans; [|apply k_addPhase]. destruct (negb _); [|apply k_refl]. eapply k_trans; apply k_setPhase.
Qed.
Lemma k_graphlike d d' : kinds d d' -> graphlike d -> graphlike d'.
Proof.
  intros K G u L. unfold isX, vty. unfold live in L. destruct (d_verts d' u) as [a|] eqn:E; [|discriminate]. destruct (K u a E) as [-> | (b & Eb & T)]; [reflexivity|].
  specialize (G u). unfold live, isX, vty in G. rewrite Eb in G. rewrite <- T. now apply G.
Qed.
(* the boundary vertices are exactly the inputs and outputs *)
Definition io_all (d : diag) : Prop := forall v, live d v = true -> isBoundary d v = true -> In v (d_in d) \/ In v (d_out d).
Lemma k_io d d' : kinds d d' -> d_in d' = d_in d -> d_out d' = d_out d -> io_all d -> io_all d'.
Proof.
  intros K Ei Eo G u L B. unfold isBoundary, vty in B. unfold live in L. destruct (d_verts d' u) as [a|] eqn:E; [|discriminate]. destruct (K u a E) as [T|(b & Eb & T)]; [rewrite T in B; discriminate|].
  rewrite Ei, Eo. apply G; unfold live, isBoundary, vty; rewrite Eb; auto. now rewrite T.
Qed.

Section Simp.
Variable rho : nat -> R.
Notation same_map := (same_map rho).
(* one step that keeps everything *)
Record good (d d' : diag) : Prop := { go_wf : wf d'; go_same : same_map d d'; go_kinds : kinds d d' }.
Lemma good_refl d : wf d -> good d d. Proof. intros W. constructor; auto using same_map_refl, k_refl. Qed.
Lemma good_trans d1 d2 d3 : good d1 d2 -> good d2 d3 -> good d1 d3.
Proof. intros [] []. constructor; auto; [eapply same_map_trans; eauto|eapply k_trans; eauto]. Qed.

Definition passV_step (check : diag -> nat -> bool) (rule : diag -> nat -> diag) : diag * nat -> nat -> diag * nat := fun '(d', k) v => if check d' v then (rule d' v, S k) else (d', k).
Lemma passV_good check rule : (forall d v, wf d -> live d v = true -> check d v = true -> good d (rule d v)) ->
  (forall d v u, wf d -> live d v = true -> check d v = true -> live d u = true -> u <> v -> live (rule d v) u = true) ->
  forall l d k, wf d -> NoDup l -> (forall v, In v l -> live d v = true) -> good d (fst (fold_left (passV_step check rule) l (d, k))).
Proof.
  intros H Hl. induction l as [|v l IH]; intros d k W N L; cbn [fold_left]; [cbn; now apply good_refl|]. inversion N; subst. unfold passV_step at 2. destruct (check d v) eqn:C.
  - assert (Lv : live d v = true) by (apply L; now left). pose proof (H d v W Lv C) as G. eapply good_trans; [exact G|]. apply IH; auto; [apply (go_wf _ _ G)|]. intros u I. apply Hl; auto; [apply L; now right|intros ->; tauto].
  - apply IH; auto. intros u I. apply L. now right.
Qed.
Lemma passE_good check rule : (forall d v0 v1, wf d -> live d v0 = true -> live d v1 = true -> check d v0 v1 = true -> good d (rule d v0 v1)) ->
  forall l d k, wf d -> good d (fst (fold_left (fun '(d', k) (e : nat * nat) => if negb (live d' (fst e)) || negb (live d' (snd e)) || negb (check d' (fst e) (snd e)) then (d', k)
                               else (rule d' (fst e) (snd e), S k)) l (d, k))).
Proof.
  intros H. induction l as [|[a b] l IH]; intros d k W; cbn [fold_left]; [cbn; now apply good_refl|]. cbn [fst snd]. destruct (negb (live d a) || negb (live d b) || negb (check d a b)) eqn:C; [apply IH; auto|].
  apply orb_false_iff in C as [C C3]. apply orb_false_iff in C as [C1 C2]. apply negb_false_iff in C1, C2, C3. pose proof (H d a b W C1 C2 C3) as G. eapply good_trans; [exact G|]. apply IH. apply (go_wf _ _ G).
Qed.
Lemma exhaust_good pass : (forall d, wf d -> good d (fst (pass d))) -> forall fuel d n d' m, wf d -> exhaust pass fuel d n = Some (d', m) -> good d d'.
Proof.
  intros H. induction fuel as [|f IH]; cbn [exhaust]; intros d n d' m W E; [discriminate|]. pose proof (H d W) as G. destruct (pass d) as [d1 k]. cbn [fst] in G. destruct (k =? 0).
  - injection E as <- _. exact G.
  - eapply good_trans; [exact G|]. eapply IH; [apply (go_wf _ _ G)|exact E].
Qed.
Lemma getV_live d v : In v (getVertices d) -> live d v = true.
Proof. intros I. now apply filter_In in I. Qed.
Lemma getV_nodup d : NoDup (getVertices d).
Proof. apply NoDup_filter, seq_NoDup. Qed.
Lemma live_removeId d v u : wf d -> live d v = true -> checkIdSimp d v = true -> live d u = true -> u <> v -> live (removeId d v) u = true.
Proof.
  intros W L K Lu N. unfold checkIdSimp in K. apply andb_true_iff in K as [K NB]. apply andb_true_iff in K as [K P0]. apply Nat.eqb_eq in K. pose proof (w_z d W) as Zd. unfold degree in K. pose proof (two_row _ (0, false) K) as E.
  unfold removeId. set (a := fst (nth 0 (d_edges d v) (0, false))) in *. set (b := fst (nth 1 (d_edges d v) (0, false))) in *.
  assert (F : forall h, live (addEdgeParallelAware d a b h) u = live d u).
  { intros h. unfold addEdgeParallelAware, addEdge. destruct (a =? b); [destruct (_ && _); auto; apply (f_live _ _ (frame_addPhase d a p_pi))|]. destruct (getEdge d a b) as [[w k]|]; auto. destruct (_ || _); auto.
    destruct (vtype_eqb _ _), k, h; auto; match goal with |- context [addPhase ?x ?y ?z] => apply (f_live _ _ (frame_addPhase x y z)) end. }
  unfold removeVertex. fold (strip v). unfold live at 1. rewrite strip_verts. cbn [d_verts]. rewrite zupd_neq by auto. change (live (addEdgeParallelAware d a b (xorb (snd (nth 0 (d_edges d v) (0, false))) (snd (nth 1 (d_edges d v) (0, false))))) u = true). now rewrite F.
Qed.
Lemma idSimp_good fuel d d' n : wf d -> idSimp fuel d = Some (d', n) -> good d d'.
Proof.
  intros W E. eapply exhaust_good; [|exact W|exact E]. intros d1 W1. apply (passV_good checkIdSimp removeId); auto using getV_nodup, getV_live.
  - intros d2 v W2 L K. destruct (removeId_ok rho d2 v W2 L K). constructor; auto using k_removeId.
  - intros. now apply live_removeId.
Qed.
Lemma live_localComp d v u : live d u = true -> u <> v -> live (localComp d v) u = true.
Proof.
  intros L N. unfold localComp. set (p := p_neg _). unfold removeVertex. fold (strip v). unfold live. rewrite strip_verts. cbn [d_verts addGlobalPhase set_gphase]. rewrite zupd_neq by auto.
  change (live (lc_pairs p (map fst (d_edges d v)) d) u = true). rewrite <- L. rewrite lc_run. generalize (lc_ops p (map fst (d_edges d v))). intros ops. generalize d. induction ops as [|o ops IH]; intros d0; cbn [run fold_left]; auto.
  change (fold_left run1 ops (run1 d0 o)) with (run ops (run1 d0 o)). rewrite IH. destruct o as [w q|a b]; cbn [run1]; [apply (f_live _ _ (frame_addPhase d0 w q))|].
  unfold addEdgeParallelAware, addEdge. destruct (a =? b); [destruct (_ && _); auto; apply (f_live _ _ (frame_addPhase d0 a p_pi))|]. destruct (getEdge d0 a b) as [[x k]|]; auto. destruct (_ || _); auto.
  destruct (vtype_eqb _ _), k; auto; match goal with |- context [addPhase ?x ?y ?z] => apply (f_live _ _ (frame_addPhase x y z)) end.
Qed.
Lemma localCompSimp_good fuel d d' n : wf d -> localCompSimp fuel d = Some (d', n) -> good d d'.
Proof.
  intros W E. eapply exhaust_good; [|exact W|exact E]. intros d1 W1. apply (passV_good checkLocalComp localComp); auto using getV_nodup, getV_live.
  - intros d2 v W2 L K. destruct (localComp_ok rho d2 v W2 K). constructor; auto using k_localComp.
  - intros. now apply live_localComp.
Qed.
Lemma edges_good check rule : (forall d v0 v1, wf d -> live d v0 = true -> live d v1 = true -> check d v0 v1 = true -> good d (rule d v0 v1)) ->
  forall fuel d d' n, wf d -> simplifyEdges check rule fuel d = Some (d', n) -> good d d'.
Proof. intros H fuel d d' n W E. eapply exhaust_good; [|exact W|exact E]. intros d1 W1. now apply passE_good. Qed.
Lemma spiderSimp_good fuel d d' n : wf d -> spiderSimp fuel d = Some (d', n) -> good d d'.
Proof. apply edges_good. intros d0 a b W0 La Lb K. destruct (fuseSpiders_ok rho d0 a b W0 La Lb K). constructor; auto using k_fuse. Qed.
Lemma pivotPauliSimp_good fuel d d' n : wf d -> pivotPauliSimp fuel d = Some (d', n) -> good d d'.
Proof. apply edges_good. intros d0 a b W0 La Lb K. destruct (pivotPauli_ok rho d0 a b W0 K). constructor; auto using k_pivotPauli. Qed.
Lemma pivotSimp_good fuel d d' n : wf d -> pivotSimp fuel d = Some (d', n) -> good d d'.
Proof. apply edges_good. intros d0 a b W0 La Lb K. destruct (pivot_ok rho d0 a b W0 La K). constructor; auto using k_pivot. Qed.
Lemma pivotgadgetSimp_good fuel d d' n : wf d -> pivotgadgetSimp fuel d = Some (d', n) -> good d d'.
Proof. apply edges_good. intros d0 a b W0 La Lb K. destruct (pivotGadget_ok rho d0 a b W0 La K). constructor; auto using k_pivotGadget. Qed.
Lemma obind_inv {A B} (o : option A) (f : A -> option B) b : obind o f = Some b -> exists a, o = Some a /\ f a = Some b.
Proof. destruct o; cbn; [eauto|discriminate]. Qed.
Lemma interior_loop_good fuel : forall d n d' m, wf d -> interior_loop fuel d n = Some (d', m) -> good d d'.
Proof.
  induction fuel as [|f IH]; intros d n d' m W E; [discriminate|]. cbn [interior_loop] in E.
  apply obind_inv in E as ([d1 k1] & E1 & E). pose proof (idSimp_good _ _ _ _ W E1) as G1.
  apply obind_inv in E as ([d2 k2] & E2 & E). pose proof (spiderSimp_good _ _ _ _ (go_wf _ _ G1) E2) as G2.
  apply obind_inv in E as ([d3 k3] & E3 & E). pose proof (pivotPauliSimp_good _ _ _ _ (go_wf _ _ G2) E3) as G3.
  apply obind_inv in E as ([d4 k4] & E4 & E). pose proof (localCompSimp_good _ _ _ _ (go_wf _ _ G3) E4) as G4.
  pose proof (good_trans _ _ _ G1 (good_trans _ _ _ G2 (good_trans _ _ _ G3 G4))) as G. destruct (_ =? 0); [injection E as <- _; exact G|].
  eapply good_trans; [exact G|]. eapply IH; [apply (go_wf _ _ G)|exact E].
Qed.
Lemma interiorCliffordSimp_good fuel d d' n : wf d -> interiorCliffordSimp fuel d = Some (d', n) -> good d d'.
Proof.
  intros W E. unfold interiorCliffordSimp in E. apply obind_inv in E as ([d1 k1] & E1 & E). pose proof (spiderSimp_good _ _ _ _ W E1) as G1. eapply good_trans; [exact G1|]. eapply interior_loop_good; [apply (go_wf _ _ G1)|exact E].
Qed.
Lemma cliffordSimp_good fuel d d' n : wf d -> cliffordSimp fuel d = Some (d', n) -> good d d'.
Proof.
  unfold cliffordSimp. generalize 0 as k. revert d. induction fuel as [|f IH]; intros d k W E; [discriminate|]. cbn [clifford_loop] in E.
  apply obind_inv in E as ([d1 k1] & E1 & E). pose proof (interiorCliffordSimp_good _ _ _ _ W E1) as G1.
  apply obind_inv in E as ([d2 k2] & E2 & E). pose proof (pivotSimp_good _ _ _ _ (go_wf _ _ G1) E2) as G2.
  pose proof (good_trans _ _ _ G1 G2) as G. destruct (_ =? 0); [injection E as <- _; exact G|]. eapply good_trans; [exact G|]. eapply IH; [apply (go_wf _ _ G)|exact E].
Qed.
End Simp.
