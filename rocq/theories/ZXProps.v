(* ZX diagrams: bookkeeping (C57) and soundness of the rewrite rules (C58). *)
From Coq Require Import Reals QArith Qreals ZArith Bool List Arith Lia Lra Permutation.
From Verif Require Import Cplx Qsem PiModel ZXModel ZXSpec ZXUpdSpec ZXPhaseProofs ZXSemProofs ZXUpdProofs ZXUpd2Proofs ZXUpd3Proofs ZXRuleProofs ZXRule2Proofs ZXRule3Proofs ZXGadgetProofs ZXGraphProofs ZXBookProofs.
Import ListNotations.
Local Close Scope Q_scope.
Local Open Scope nat_scope.

(* ---- C57 ------------------------------------------------------------------------------------------------------- *)
(* After every history of updates whose callers respect the stated preconditions: every edge is recorded at both ends
   with the same kind, joins two different existing vertices and is the only one between them (zwf); the stack of free
   numbers holds exactly the deleted vertices, and the counters count vertices and edges (book). *)
Theorem C57_bookkeeping_partial : forall us d, u_run d_empty us = Some d -> zwf d /\ book d.
Proof. intros us d E. eapply run_upd; [apply empty_ok|exact E]. Qed.
Print Assumptions C57_bookkeeping_partial.
(* In every such diagram a new vertex gets a number that is in range and was free, and nothing else changes. *)
Theorem C57_reuse : forall us d a, u_run d_empty us = Some d -> let '(d', w) := addVertex d a in
  live d w = false /\ w < d_size d' /\ d_verts d' w = Some a /\ d_edges d' w = [] /\
  forall u, u <> w -> d_verts d' u = d_verts d u /\ d_edges d' u = d_edges d u.
Proof.
  intros us d a E. destruct (C57_bookkeeping_partial us d E) as [Z B]. destruct (add_vertex rho0 d a Z B) as [Z' B' F L V D Ed R _ _ _ _].
  destruct (addVertex d a) as [d' w]. cbn [fst snd] in *. repeat (split; auto). apply live_lt; auto. unfold live. now rewrite D.
Qed.
Print Assumptions C57_reuse.
Definition zv (q : Q) : vdata := mkV 0 (q, []) VZ.
Definition bv : vdata := mkV 0 p_zero VBoundary.
Example C57_example : exists d, u_run d_empty [UVertex bv; UVertex (zv 0); UVertex bv; UEdge 0 1 false; UEdge 1 2 true; URemove 1; UQubit; UParallel 0 1 true; UCut 1 0; UVertex (zv (1 # 2))] = Some d /\
  d_nv d = 5%Z /\ d_ne d = 0%Z /\ d_size d = 5 /\ d_in d = [1] /\ d_out d = [3].
Proof. eexists. split; [vm_compute; reflexivity|repeat split]. Qed.
(* Without the preconditions the counters drift: removing an edge that does not exist, removing one of two parallel
   edges (both disappear, one is counted), deleting a vertex with a loop, deleting a vertex twice (after which two new
   vertices get the same number). *)
Theorem C57_remove_missing_edge_refuted : exists us d, u_free d_empty us = Some d /\ ~ book d.
Proof.
  exists [UVertex (zv 0); UVertex (zv 0); UCut 0 1]. eexists. split; [vm_compute; reflexivity|]. intros B. pose proof (b_ne _ B) as Q. vm_compute in Q. discriminate.
Qed.
Theorem C57_parallel_edges_refuted : exists us d, u_free d_empty us = Some d /\ d_ne d = 1%Z /\ forall v, d_edges d v = [].
Proof.
  exists [UVertex (zv 0); UVertex (zv 0); UEdge 0 1 false; UEdge 0 1 false; UCut 0 1]. eexists. split; [reflexivity|]. split; [reflexivity|]. intros [|[|v]]; reflexivity.
Qed.
Theorem C57_loop_refuted : exists us d, u_free d_empty us = Some d /\ ~ book d.
Proof.
  exists [UVertex (zv 0); UEdge 0 0 false; URemove 0]. eexists. split; [vm_compute; reflexivity|]. intros B. pose proof (b_ne _ B) as Q. vm_compute in Q. discriminate.
Qed.
Theorem C57_double_removal_refuted : exists us d, u_free d_empty us = Some d /\
  snd (addVertex d (zv 0)) = snd (addVertex (fst (addVertex d (zv 0))) (zv 1)).
Proof. exists [UVertex (zv 0); URemove 0; URemove 0]. eexists. split; [vm_compute; reflexivity|reflexivity]. Qed.
Print Assumptions C57_double_removal_refuted.

(* ---- C58 ------------------------------------------------------------------------------------------------------- *)
Definition mk (us : list upd) (i o : list nat) : diag := match u_run d_empty us with Some d => set_io d i o | None => d_empty end.
Lemma mk_wf us i o : wfb (mk us i o) = true -> wf (mk us i o).
Proof.
  unfold mk. destruct (u_run d_empty us) as [d|] eqn:E; intros H.
  - destruct (io_zwf d i o (C57_bookkeeping_partial us d E)). now apply wfb_ok.
  - destruct empty_ok. now apply wfb_ok.
Qed.

(* removal of identity spiders *)
Theorem C58_identity : forall rho d v, wf d -> live d v = true -> checkIdSimp d v = true -> wf (removeId d v) /\ same_map rho d (removeId d v).
Proof. intros. now apply removeId_ok. Qed.
Print Assumptions C58_identity.
Definition ex_id : diag := mk [UVertex bv; UVertex (zv 0); UVertex bv; UEdge 0 1 true; UEdge 1 2 false] [0] [2].
Example C58_identity_ex : wf ex_id /\ live ex_id 1 = true /\ checkIdSimp ex_id 1 = true /\ d_edges (removeId ex_id 1) 0 = [(2, true)].
Proof. split; [apply mk_wf; vm_compute; reflexivity|repeat split]. Qed.

(* fusion of spiders of the same colour along a simple edge; X spiders included *)
Theorem C58_fusion : forall rho d v0 v1, wf d -> live d v0 = true -> live d v1 = true -> checkSpiderFusion d v0 v1 = true ->
  wf (fuseSpiders d v0 v1) /\ same_map rho d (fuseSpiders d v0 v1).
Proof. intros. now apply fuseSpiders_ok. Qed.
Print Assumptions C58_fusion.
(* two spiders joined by a simple edge with a common neighbour joined by Hadamard edges to both *)
Definition ex_fuse : diag := mk [UVertex bv; UVertex (zv (1 # 2)); UVertex (zv (1 # 4)); UVertex (zv 1); UVertex bv; UEdge 0 1 true; UEdge 1 2 false; UEdge 1 3 true; UEdge 2 3 true; UEdge 3 4 false] [0] [4].
Example C58_fusion_ex : wf ex_fuse /\ checkSpiderFusion ex_fuse 1 2 = true /\ vphase (fuseSpiders ex_fuse 1 2) 1 = (3 # 4, [])%Q /\ d_edges (fuseSpiders ex_fuse 1 2) 1 = [(0, true)].
Proof. split; [apply mk_wf; vm_compute; reflexivity|repeat split]. Qed.

(* local complementation *)
Theorem C58_local_complementation : forall rho d v, wf d -> checkLocalComp d v = true -> wf (localComp d v) /\ same_map rho d (localComp d v).
Proof. intros. now apply localComp_ok. Qed.
Print Assumptions C58_local_complementation.
Definition ex_lc : diag := mk [UVertex (zv (1 # 2)); UVertex (zv 0); UVertex (zv (1 # 4)); UVertex (zv 1); UVertex bv; UEdge 0 1 true; UEdge 0 2 true; UEdge 0 3 true; UEdge 1 2 true; UEdge 3 4 false] [] [4].
Example C58_local_complementation_ex : wf ex_lc /\ checkLocalComp ex_lc 0 = true /\ d_edges (localComp ex_lc 0) 1 = [(3, true)] /\ vphase (localComp ex_lc 0) 2 = (- 1 # 4, [])%Q.
Proof. split; [apply mk_wf; vm_compute; reflexivity|repeat split]. Qed.

(* Pauli pivoting *)
Theorem C58_pivot_pauli : forall rho d v0 v1, wf d -> checkPivotPauli d v0 v1 = true -> wf (pivotPauli d v0 v1) /\ same_map rho d (pivotPauli d v0 v1).
Proof. intros. now apply pivotPauli_ok. Qed.
Print Assumptions C58_pivot_pauli.
Definition ex_pivot : diag := mk [UVertex (zv 1); UVertex (zv 1); UVertex (zv (1 # 4)); UVertex (zv 0); UVertex bv; UVertex bv; UVertex (zv 0); UEdge 0 1 true; UEdge 0 2 true; UEdge 1 3 true; UEdge 0 6 true; UEdge 1 6 true; UEdge 2 4 false; UEdge 3 5 false] [4] [5].
Example C58_pivot_pauli_ex : wf ex_pivot /\ checkPivotPauli ex_pivot 0 1 = true /\ d_edges (pivotPauli ex_pivot 0 1) 2 = [(4, false); (3, true); (6, true)] /\
  vphase (pivotPauli ex_pivot 0 1) 6 = (1, [])%Q /\ d_gphase (pivotPauli ex_pivot 0 1) = p_pi.
Proof. split; [apply mk_wf; vm_compute; reflexivity|repeat split]. Qed.

(* boundary pivoting *)
Theorem C58_pivot : forall rho d v0 v1, wf d -> live d v0 = true -> checkPivot d v0 v1 = true -> wf (pivot d v0 v1) /\ same_map rho d (pivot d v0 v1).
Proof. intros. now apply pivot_ok. Qed.
Print Assumptions C58_pivot.
Definition ex_bpivot : diag := mk [UVertex (zv 1); UVertex (zv (1 # 4)); UVertex (zv (1 # 2)); UVertex bv; UVertex bv; UEdge 0 1 true; UEdge 0 2 true; UEdge 1 3 false; UEdge 2 4 false] [3] [4].
Example C58_pivot_ex : wf ex_bpivot /\ checkPivot ex_bpivot 0 1 = true /\ live (pivot ex_bpivot 0 1) 0 = false /\ d_nv (pivot ex_bpivot 0 1) = 6%Z.
Proof. split; [apply mk_wf; vm_compute; reflexivity|repeat split]. Qed.

(* gadget pivoting *)
Theorem C58_pivot_gadget : forall rho d v0 v1, wf d -> live d v0 = true -> checkPivotGadget d v0 v1 = true ->
  wf (pivotGadget d v0 v1) /\ same_map rho d (pivotGadget d v0 v1).
Proof. intros. now apply pivotGadget_ok. Qed.
Print Assumptions C58_pivot_gadget.
Definition ex_gpivot : diag := mk [UVertex (zv 1); UVertex (zv (1 # 4)); UVertex (zv (1 # 8)); UVertex (zv 0); UVertex bv; UVertex bv; UEdge 0 1 true; UEdge 0 2 true; UEdge 1 3 true; UEdge 2 4 false; UEdge 3 5 false] [4] [5].
Example C58_pivot_gadget_ex : wf ex_gpivot /\ checkPivotGadget ex_gpivot 0 1 = true /\ d_nv (pivotGadget ex_gpivot 0 1) = 6%Z.
Proof. split; [apply mk_wf; vm_compute; reflexivity|repeat split]. Qed.

(* Gadget fusion, for diagrams without X spiders (as produced by toGraphlike) and outside the two cases refuted below:
   a gadget on a single vertex must not sit on a boundary vertex, and the other gadget must have one phase spider.
   Missing for the full statement: nothing true is missing; the unguarded statement is false. *)
Theorem C58_gadget_fusion_partial : forall rho d v d', wf d -> graphlike d -> live d v = true -> gadget_guard d v -> checkAndFuseGadget d v = Some d' ->
  wf d' /\ same_map rho d d'.
Proof. intros. eapply checkAndFuseGadget_ok; eauto. Qed.
Print Assumptions C58_gadget_fusion_partial.
(* two gadgets on the vertices 0 and 1: (2,3) and (4,5) *)
Definition ex_gadget : diag := mk [UVertex (zv 0); UVertex (zv (1 # 2)); UVertex (zv 1); UVertex (zv (1 # 4)); UVertex (zv 0); UVertex (zv (1 # 8)); UVertex bv; UVertex bv;
  UEdge 0 6 false; UEdge 1 7 false; UEdge 2 0 true; UEdge 2 1 true; UEdge 2 3 true; UEdge 4 0 true; UEdge 4 1 true; UEdge 4 5 true] [6] [7].
Definition graphlikeb (d : diag) : bool := forallb (fun v => negb (live d v && isX d v)) (seq 0 (d_size d)).
Lemma graphlikeb_ok d : zwf d -> graphlikeb d = true -> graphlike d.
Proof. intros Z H u L. unfold graphlikeb in H. rewrite forallb_forall in H. specialize (H u). rewrite L in H. cbn in H. apply negb_true_iff, H. apply in_seq. pose proof (live_lt d u Z L). lia. Qed.
Example C58_gadget_ex : wf ex_gadget /\ graphlike ex_gadget /\ gadget_guard ex_gadget 3 /\
  exists d', checkAndFuseGadget ex_gadget 3 = Some d' /\ vphase d' 3 = (- 1 # 8, [])%Q /\ d_nv d' = 6%Z.
Proof.
  assert (W : wf ex_gadget) by (apply mk_wf; vm_compute; reflexivity). split; auto. split; [apply graphlikeb_ok; [apply (w_z _ W)|vm_compute; reflexivity]|]. split.
  - unfold gadget_guard. assert (E : fst (nth 0 (d_edges ex_gadget 3) (0, false)) = 2) by reflexivity. cbn zeta. rewrite E. assert (Q : degree ex_gadget 2 =? 2 = false) by reflexivity. rewrite Q.
    intros n L D Cn Nn. assert (n < 8) by (apply (live_lt ex_gadget n (w_z _ W) L)).
    assert (n = 0 \/ n = 1 \/ n = 2 \/ n = 3 \/ n = 4 \/ n = 5 \/ n = 6 \/ n = 7) as Hn by lia.
    destruct Hn as [->|[->|[->|[->|[->|[->|[->| ->]]]]]]]; try (vm_compute in Cn; discriminate); try (vm_compute in D; discriminate); try congruence.
    intros a b Ia Ib La Lb. vm_compute in Ia, Ib. destruct Ia as [<-|[<-|[<-|[]]]], Ib as [<-|[<-|[<-|[]]]]; auto; vm_compute in La, Lb; discriminate.
  - eexists. split; [vm_compute; reflexivity|]. split; reflexivity.
Qed.

(* The full statement is false. First: the gadget 1-2 sits on the output 0. Its phase is added to the boundary vertex
   and the edge of the output is deleted. *)
Definition bad_boundary : diag := mk [UVertex bv; UVertex (zv 0); UVertex (zv 1); UEdge 1 2 true; UEdge 0 1 true] [] [0].
Lemma den_eval rho d b il gv : interior d = il -> getVertices d = gv ->
  den rho d b = (pexp rho (d_gphase d) * vsum il (fun x => (cprod il (fun v => if x v then pexp rho (vphase d v) else C1) *
   cprod gv (fun v => cprod (d_edges d v) (fun e => if v <? fst e then wgt (eh d v (fst e) (snd e)) (x v) (x (fst e)) else C1)))%C) b)%C.
Proof. intros <- <-. reflexivity. Qed.
Lemma pexp_pi rho : pexp rho (1, [])%Q = (- C1)%C.
Proof. apply pauli_nonzero; [split; cbn; [reflexivity|discriminate]|reflexivity|reflexivity]. Qed.
Lemma pexp_nil rho : pexp rho (0, [])%Q = C1.
Proof. now apply pexp_zero. Qed.
Ltac ev d := erewrite (den_eval _ d) by (vm_compute; reflexivity);
  cbv [vsum cprod setb Nat.eqb Nat.ltb Nat.leb fst snd Qsem.setb]; 
  repeat match goal with |- context [d_edges ?D ?v] => let t := eval vm_compute in (d_edges D v) in change (d_edges D v) with t end;
  repeat match goal with |- context [vphase ?D ?v] => let t := eval vm_compute in (vphase D v) in change (vphase D v) with t end;
  repeat match goal with |- context [d_gphase ?D] => let t := eval vm_compute in (d_gphase D) in change (d_gphase D) with t end;
  cbv [cprod Nat.eqb Nat.ltb Nat.leb fst snd];
  repeat match goal with |- context [eh ?D ?v ?u ?h] => let t := eval vm_compute in (eh D v u h) in change (eh D v u h) with t end;
  rewrite ?pexp_pi, ?pexp_nil, ?wgt_sg; cbv [wgt eqb sg andb].
Lemma kap2 : (kap * kap = RtoC (/ 2))%C.
Proof. unfold kap. rewrite <- RtoC_mul. f_equal. rewrite <- Rinv_mult. f_equal. apply sqrt_sqrt. lra. Qed.
Definition fused (d : diag) (v : nat) : diag := match checkAndFuseGadget d v with Some d' => d' | None => d_empty end.
Definition fires (d : diag) (v : nat) : bool := match checkAndFuseGadget d v with Some _ => true | None => false end.
Lemma fused_ok d v : fires d v = true -> checkAndFuseGadget d v = Some (fused d v).
Proof. unfold fires, fused. now destruct (checkAndFuseGadget d v). Qed.
Theorem C58_gadget_on_boundary_refuted : exists d v d', wf d /\ graphlike d /\ live d v = true /\ checkAndFuseGadget d v = Some d' /\ forall rho, ~ same_map rho d d'.
Proof.
  exists bad_boundary, 2, (fused bad_boundary 2). assert (W : wf bad_boundary) by (apply mk_wf; vm_compute; reflexivity).
  split; [exact W|]. split; [apply graphlikeb_ok; [apply (w_z _ W)|vm_compute; reflexivity]|]. split; [reflexivity|]. split; [apply fused_ok; vm_compute; reflexivity|].
  intros rho (_ & _ & c & Nc & H). pose proof (H (fun _ => false)) as H0. pose proof (H (fun _ => true)) as H1.
  assert (D0 : den rho bad_boundary (fun _ => false) = (kap * kap * (C1 + C1))%C) by (ev bad_boundary; ring).
  assert (D1 : den rho bad_boundary (fun _ => true) = (- (kap * kap * (C1 + C1)))%C) by (ev bad_boundary; ring).
  assert (Q : forall b, den rho (fused bad_boundary 2) b = C1) by (intros b; ev (fused bad_boundary 2); ring).
  rewrite !Q in *. rewrite D0 in H0. rewrite D1 in H1.
  assert (X : (c * (kap * kap * (C1 + C1)) + c * - (kap * kap * (C1 + C1)) = C0)%C) by ring. rewrite <- H0, <- H1 in X. injection X. intros. lra.
Qed.
Print Assumptions C58_gadget_on_boundary_refuted.

(* Second: the other "gadget" 3 has two phase spiders 4 and 5 and so a different set of neighbours. One of the two is
   merged, the other is left over as an isolated spider. *)
Definition bad_leaves : diag := mk [UVertex bv; UVertex (zv 0); UVertex (zv 1); UVertex (zv 0); UVertex (zv (1 # 2)); UVertex (zv (1 # 2)); UVertex (zv 0);
  UEdge 1 2 true; UEdge 1 0 true; UEdge 1 6 true; UEdge 3 4 true; UEdge 3 5 true; UEdge 3 6 true] [] [0].
Lemma pexp_half rho : pexp rho (1 # 2, [])%Q = Ci.
Proof.
  unfold pexp, pval. cbn [fst snd fold_right]. replace (PI * Q2R (1 # 2) + 0)%R with (PI / 2)%R by (unfold Q2R; cbn; field). unfold Cexp. now rewrite cos_PI2, sin_PI2.
Qed.
Lemma pexp_mhalf rho : pexp rho (-1 # 2, [])%Q = (- Ci)%C.
Proof.
  unfold pexp, pval. cbn [fst snd fold_right]. replace (PI * Q2R (-1 # 2) + 0)%R with (- (PI / 2))%R by (unfold Q2R; cbn; field). unfold Cexp. rewrite cos_neg, sin_neg, cos_PI2, sin_PI2. unfold Ci. apply Ceq; cbn; ring.
Qed.
Theorem C58_gadget_two_leaves_refuted : exists d v d', wf d /\ graphlike d /\ live d v = true /\ checkAndFuseGadget d v = Some d' /\ forall rho, ~ same_map rho d d'.
Proof.
  exists bad_leaves, 2, (fused bad_leaves 2). assert (W : wf bad_leaves) by (apply mk_wf; vm_compute; reflexivity).
  split; [exact W|]. split; [apply graphlikeb_ok; [apply (w_z _ W)|vm_compute; reflexivity]|]. split; [reflexivity|]. split; [apply fused_ok; vm_compute; reflexivity|].
  intros rho (_ & _ & c & Nc & H). pose proof (H (fun _ => false)) as H0. pose proof (H (fun _ => true)) as H1.
  assert (I2 : (Ci * Ci = - C1)%C) by (unfold Ci, C1; apply Ceq; cbn; ring).
  set (k := (kap * kap * kap)%C).
  assert (D0 : den rho bad_leaves (fun _ => false) = (k * k * ((C1 + C1) * (C1 + C1) * ((C1 - Ci) * (C1 - Ci))))%C) by (ev bad_leaves; rewrite !pexp_half; unfold k; ring).
  assert (D1 : den rho bad_leaves (fun _ => true) = (- (k * k * ((C1 + C1) * (C1 + C1) * ((C1 - Ci) * (C1 - Ci)))))%C) by (ev bad_leaves; rewrite !pexp_half; unfold k; ring).
  assert (Q0 : den rho (fused bad_leaves 2) (fun _ => false) = (k * ((C1 + C1) * (C1 + Ci) * (C1 - Ci)))%C) by (ev (fused bad_leaves 2); rewrite ?pexp_half, ?pexp_mhalf; unfold k; ring).
  assert (Q1 : den rho (fused bad_leaves 2) (fun _ => true) = (k * ((C1 + C1) * (C1 + Ci) * (C1 - Ci)))%C) by (ev (fused bad_leaves 2); rewrite ?pexp_half, ?pexp_mhalf; unfold k; ring).
  rewrite D0, Q0 in H0. rewrite D1, Q1 in H1. set (z := (k * ((C1 + C1) * (C1 + Ci) * (C1 - Ci)))%C) in *.
  assert (Z : z <> C0).
  { assert (N : kap <> C0) by apply kap_neq0. unfold z, k. repeat apply Cmul_neq0; auto; intros E; injection E; intros; cbn in *; lra. }
  apply Z. assert (X : z = (- z)%C) by (etransitivity; [exact H1|rewrite H0; ring]). destruct z as [zr zi]. injection X as X1 X2. apply Ceq; cbn; lra.
Qed.
Print Assumptions C58_gadget_two_leaves_refuted.

(* Third: the kind of the phase spider is not looked at, so an X spider counts as one (diagrams that did not go
   through toGraphlike). *)
Definition bad_xleaf : diag := mk [UVertex bv; UVertex (zv 0); UVertex (zv 0); UVertex (mkV 0 (1, [])%Q VX); UEdge 0 1 false; UEdge 1 2 true; UEdge 2 3 true] [] [0].
Theorem C58_gadget_x_spider_refuted : exists d v d', wf d /\ gadget_guard d v /\ live d v = true /\ checkAndFuseGadget d v = Some d' /\ forall rho, ~ same_map rho d d'.
Proof.
  exists bad_xleaf, 3, (fused bad_xleaf 3). assert (W : wf bad_xleaf) by (apply mk_wf; vm_compute; reflexivity).
  split; [exact W|]. split; [intros n I N; vm_compute in I; destruct I as [<-|[<-|[]]]; [reflexivity|congruence]|]. split; [reflexivity|]. split; [apply fused_ok; vm_compute; reflexivity|].
  intros rho (_ & _ & c & Nc & H). pose proof (H (fun _ => false)) as H0.
  assert (D0 : den rho bad_xleaf (fun _ => false) = C0) by (ev bad_xleaf; ring).
  assert (Q0 : den rho (fused bad_xleaf 3) (fun _ => false) = C1) by (ev (fused bad_xleaf 3); ring).
  rewrite D0, Q0 in H0. apply C1_neq_C0. rewrite H0. ring.
Qed.
Print Assumptions C58_gadget_x_spider_refuted.
