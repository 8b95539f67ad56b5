(* The simplification loops of src/zx/Simplify.cpp (C59). *)
From Coq Require Import Reals QArith Qreals ZArith Bool List Arith Lia Lra Permutation.
From Verif Require Import Cplx Qsem PiModel ZXModel ZXSpec ZXUpdSpec ZXPhaseProofs ZXSemProofs ZXUpdProofs ZXUpd2Proofs ZXUpd3Proofs ZXRuleProofs ZXRule2Proofs ZXRule3Proofs ZXGadgetProofs ZXGraphProofs ZXBookProofs ZXProps ZXSimpSpec ZXSimpProofs ZXDiscProofs ZXTermProofs.
Import ListNotations.
Local Close Scope Q_scope.
Local Open Scope nat_scope.

(* interiorCliffordSimp ends after fewer rewrites than there are vertices and keeps the map; the loops of the model are
   bounded by fuel, and every fuel above the number of vertices suffices. *)
Theorem C59_interior_clifford : forall rho d fuel, wf d -> (d_nv d < Z.of_nat fuel)%Z ->
  exists d' n, interiorCliffordSimp fuel d = Some (d', n) /\ wf d' /\ same_map rho d d' /\ (d_nv d' <= d_nv d)%Z.
Proof.
  intros rho d fuel W L. destruct (interiorCliffordSimp_total fuel d W L) as (d' & n & E & W' & Q). exists d', n.
  split; [exact E|]. split; [exact W'|]. split; [apply (go_same _ _ _ (interiorCliffordSimp_good rho _ _ _ _ W E))|lia].
Qed.
Print Assumptions C59_interior_clifford.

(* the circuit H; S; H; CX-like diagram: 0 and 5 are boundary vertices *)
Definition ex_simp : diag := mk [UVertex bv; UVertex (zv (1 # 2)); UVertex (zv 1); UVertex (zv 0); UVertex (zv (1 # 4)); UVertex bv; UVertex (zv (1 # 2));
  UEdge 0 1 false; UEdge 1 2 true; UEdge 2 3 false; UEdge 3 4 true; UEdge 4 5 false; UEdge 6 2 true; UEdge 6 4 true] [0] [5].
Example C59_interior_ex : wf ex_simp /\ d_nv ex_simp = 7%Z /\ exists d', interiorCliffordSimp 8 ex_simp = Some (d', 1) /\ d_nv d' = 4%Z.
Proof. split; [apply mk_wf; vm_compute; reflexivity|]. split; [reflexivity|]. eexists. split; [vm_compute; reflexivity|reflexivity]. Qed.

(* cliffordSimp keeps the map whenever it ends.
   Missing for the full statement: that it ends for every diagram. *)
Theorem C59_clifford_partial : forall rho d fuel d' n, wf d -> cliffordSimp fuel d = Some (d', n) -> wf d' /\ same_map rho d d'.
Proof. intros rho d fuel d' n W E. destruct (cliffordSimp_good rho fuel d d' n W E). auto. Qed.
Print Assumptions C59_clifford_partial.
Example C59_clifford_ex : wf ex_bpivot /\ exists d', cliffordSimp 20 ex_bpivot = Some (d', 1) /\ d_nv d' = 6%Z.
Proof. split; [apply mk_wf; vm_compute; reflexivity|]. eexists. split; [vm_compute; reflexivity|reflexivity]. Qed.

(* fullReduce keeps the map of every diagram whose map is not zero and all of whose boundary vertices are inputs or
   outputs, provided that no gadget fusion on the way is one of the cases refuted in C58 (fullReduce_g is the code
   with this test).
   Missing for the full statement: termination; without the test the statement is false, see below. *)
Theorem C59_full_reduce_partial : forall rho d fuel d' n, wf d -> io_complete d -> (exists b, den rho d b <> C0) ->
  fullReduce_g fuel d = Some (d', n) -> fullReduce fuel d = Some (d', n) /\ wf d' /\ same_map rho d d'.
Proof. intros. now apply fullReduce_g_ok. Qed.
Print Assumptions C59_full_reduce_partial.
Definition ex_full : diag := mk [UVertex bv; UVertex (zv (1 # 4)); UVertex (mkV 0 (1, [])%Q VX); UVertex (zv (1 # 4)); UVertex bv; UEdge 0 1 false; UEdge 1 2 false; UEdge 2 3 false; UEdge 3 4 false] [0] [4].
Ltac quart rho := repeat match goal with |- context [pexp rho (?q, ?l)] => progress change (pexp rho (q, l)) with (pexp rho ((1 # 4)%Q, [])) end.
Lemma ex_full_den rho : den rho ex_full (fun v => v =? 0) <> C0.
Proof.
  assert (D : den rho ex_full (fun v => v =? 0) = (pexp rho (1 # 4, [])%Q * (kap * kap * (C1 + C1)))%C) by (ev ex_full; quart rho; ring).
  rewrite D. apply Cmul_neq0; [apply Cexp_neq0|]. rewrite kap2. intros E. injection E. cbn. lra.
Qed.
Example C59_full_reduce_ex : wf ex_full /\ io_complete ex_full /\ exists d' n, fullReduce_g 20 ex_full = Some (d', n) /\ d_nv d' = 3%Z.
Proof.
  assert (W : wf ex_full) by (apply mk_wf; vm_compute; reflexivity). split; [exact W|]. split.
  - intros v L B. pose proof (live_lt _ _ (w_z _ W) L) as Q. change (d_size ex_full) with 5 in Q.
    assert (v = 0 \/ v = 1 \/ v = 2 \/ v = 3 \/ v = 4) as Hv by lia. destruct Hv as [->|[->|[->|[->| ->]]]]; try discriminate; [left|right]; now left.
  - eexists. eexists. split; [vm_compute; reflexivity|reflexivity].
Qed.

(* The full statement is false: the gadget 1-2 on the output 0 is moved onto the boundary vertex and lost. *)
Definition bad_full : diag := mk [UVertex bv; UVertex (zv 1); UVertex (zv (1 # 4)); UEdge 0 1 true; UEdge 1 2 true] [] [0].
Definition reduced (d : diag) : diag := match fullReduce 20 d with Some (d', _) => d' | None => d_empty end.
Theorem C59_full_reduce_refuted : exists d fuel d' n, wf d /\ (forall rho, exists b, den rho d b <> C0) /\ fullReduce fuel d = Some (d', n) /\ forall rho, ~ same_map rho d d'.
Proof.
  exists bad_full, 20, (reduced bad_full), 1. assert (W : wf bad_full) by (apply mk_wf; vm_compute; reflexivity).
  set (k := (kap * kap * (C1 + C1))%C). assert (Kn : k <> C0). { unfold k. rewrite kap2. intros E. injection E. cbn. lra. }
  assert (D0 : forall rho, den rho bad_full (fun _ => false) = (pexp rho (1 # 4, [])%Q * k)%C) by (intros rho; unfold k; ev bad_full; quart rho; ring).
  assert (D1 : forall rho, den rho bad_full (fun _ => true) = k) by (intros rho; unfold k; ev bad_full; quart rho; ring).
  split; [exact W|]. split; [intros rho; exists (fun _ => true); now rewrite D1|]. split; [vm_compute; reflexivity|].
  intros rho (_ & _ & c & Nc & H). pose proof (H (fun _ => false)) as H0. pose proof (H (fun _ => true)) as H1.
  assert (Q : forall b, den rho (reduced bad_full) b = C1) by (intros b; ev (reduced bad_full); ring).
  rewrite !Q in *. rewrite D0 in H0. rewrite D1 in H1.
  assert (X : pexp rho (1 # 4, [])%Q = C1). { transitivity (pexp rho (1 # 4, [])%Q * (c * k))%C; [rewrite <- H1; ring|rewrite H0; ring]. }
  unfold pexp, pval in X. cbn [fst snd fold_right] in X. replace (PI * Q2R (1 # 4) + 0)%R with (PI / 4)%R in X by (unfold Q2R; cbn; field).
  unfold Cexp, C1, RtoC in X. injection X as _ X. assert (0 < sin (PI / 4))%R by (apply sin_gt_0; pose proof PI_RGT_0; lra). lra.
Qed.
Print Assumptions C59_full_reduce_refuted.

(* removeDisconnectedSpiders deletes a spider that makes the map zero: an isolated pi beside a wire *)
Definition bad_zero : diag := mk [UVertex bv; UVertex bv; UVertex (zv 1); UEdge 0 1 false] [0] [1].
Theorem C59_zero_map_refuted : exists d fuel d' n, wf d /\ fullReduce fuel d = Some (d', n) /\ forall rho, ~ same_map rho d d'.
Proof.
  exists bad_zero, 20, (reduced bad_zero), 0. assert (W : wf bad_zero) by (apply mk_wf; vm_compute; reflexivity).
  split; [exact W|]. split; [vm_compute; reflexivity|]. intros rho (_ & _ & c & Nc & H). pose proof (H (fun _ => false)) as H0.
  assert (D0 : den rho bad_zero (fun _ => false) = C0) by (ev bad_zero; ring).
  assert (Q0 : den rho (reduced bad_zero) (fun _ => false) = C1) by (ev (reduced bad_zero); ring).
  rewrite D0, Q0 in H0. apply C1_neq_C0. rewrite H0. ring.
Qed.
Print Assumptions C59_zero_map_refuted.
