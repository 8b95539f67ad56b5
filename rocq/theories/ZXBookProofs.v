(* Bookkeeping of diagrams under arbitrary histories of updates. *)
From Coq Require Import Reals QArith Qreals ZArith Bool List Arith Lia Lra Permutation FunctionalExtensionality.
From Verif Require Import Cplx Qsem PiModel ZXModel ZXSpec ZXUpdSpec ZXPhaseProofs ZXSemProofs ZXUpdProofs ZXUpd2Proofs ZXUpd3Proofs ZXRuleProofs ZXRule2Proofs ZXRule3Proofs ZXGadgetProofs ZXGraphProofs.
Import ListNotations.
Local Close Scope Q_scope.
Local Open Scope nat_scope.

Definition rho0 : nat -> R := fun _ => 0%R.
Lemma empty_ok : zwf d_empty /\ book d_empty.
Proof.
  split; constructor; cbn; try discriminate; auto.
  - constructor.
  - intros v. split; [tauto|lia].
Qed.
(* changes of vertex data that keep the set of vertices and all rows *)
Lemma verts_ok d d' : d_size d' = d_size d -> (forall u, live d' u = live d u) -> (forall u, d_edges d' u = d_edges d u) -> d_deleted d' = d_deleted d -> d_nv d' = d_nv d -> d_ne d' = d_ne d ->
  zwf d /\ book d -> zwf d' /\ book d'.
Proof.
  intros Sz L E De Nv Ne [Z B]. split.
  - constructor.
    + intros v H. rewrite Sz in H. pose proof (z_out d Z v H) as Q. pose proof (L v) as Lv. unfold live in Lv. rewrite Q in Lv. now destruct (d_verts d' v).
    + intros v. rewrite L, E. apply (z_nodup d Z).
    + intros u v h. rewrite L, E, L, E. apply (z_sym d Z).
  - assert (Gv : getVertices d' = getVertices d). { unfold getVertices. rewrite Sz. apply filter_ext, L. }
    constructor.
    + rewrite De. apply (b_nodup d B).
    + intros v. rewrite De, Sz, (b_del d B v). pose proof (L v) as Lv. unfold live in Lv. destruct (d_verts d' v), (d_verts d v); split; intros [? ?]; split; auto; congruence.
    + rewrite Nv, Gv. apply (b_nv d B).
    + rewrite Ne, Gv, (b_ne d B). clear - E. induction (getVertices d) as [|u l IH]; cbn; auto. unfold degree in *. now rewrite E, IH.
Qed.
Lemma mod_ok d v f : zwf d /\ book d -> zwf (mod_vertex d v f) /\ book (mod_vertex d v f).
Proof.
  apply verts_ok; auto. intros u. unfold live, mod_vertex. cbn [d_verts set_verts]. destruct (Nat.eq_dec u v) as [->|N]; [rewrite zupd_eq; now destruct (d_verts d v)|now rewrite zupd_neq].
Qed.
Lemma dead_removed d l : forall od, (forall d', od = Some d' -> zwf d' /\ book d') ->
  forall d'', fold_left (fun od v => match od with None => None | Some d' => if negb (live d' v) then Some d' else match connectedToBoundary l d' v with None => None | Some true => Some d' | Some false => Some (removeVertex d' v) end end) d od = Some d'' -> zwf d'' /\ book d''.
Proof.
  induction d as [|v d IH]; cbn [fold_left]; intros od H d'' E; [now apply H|]. eapply IH; [|exact E]. intros d' Q. destruct od as [d1|]; [|discriminate].
  destruct (H d1 eq_refl) as [Z B]. destruct (live d1 v) eqn:L; cbn [negb] in Q; [|injection Q as <-; auto]. destruct (connectedToBoundary l d1 v) as [[|]|]; try discriminate; injection Q as <-; auto.
  pose proof (remove_vertex rho0 d1 v Z L) as R. split; [apply (rv_zwf _ _ _ _ R)|now apply (rv_book _ _ _ _ R)].
Qed.
Lemma connected_hv d u v : connected d u v = true -> live d u = true /\ live d v = true /\ exists h, hv d u v = Some h.
Proof. unfold connected, hv. intros H. apply andb_true_iff in H as [H E]. apply andb_true_iff in H as [A B]. destruct (getEdge d u v) as [[w h]|]; [|discriminate]. cbn. eauto. Qed.
Lemma unconnected_hv d u v : live d u = true -> live d v = true -> connected d u v = false -> hv d u v = None.
Proof. unfold connected, hv. intros -> -> H. destruct (getEdge d u v); cbn in *; [discriminate|reflexivity]. Qed.
Lemma upd_ok d u d' : zwf d /\ book d -> u_pre d u = true -> u_apply d u = Some d' -> zwf d' /\ book d'.
Proof.
  intros H P E. pose proof H as [Z B]. destruct u; cbn [u_pre u_apply] in P, E; try (injection E as <-).
  - destruct (add_vertex rho0 d a Z B). auto.
  - apply andb_true_iff in P as [P X]. apply andb_true_iff in P as [P L2]. apply andb_true_iff in P as [N L1]. apply negb_true_iff, Nat.eqb_neq in N. apply negb_true_iff in X. apply unconnected_hv in X; auto.
    split; [now apply addEdge_zwf|now apply addEdge_book].
  - apply andb_true_iff in P as [L1 L2]. destruct (Nat.eq_dec u v) as [->|N].
    + destruct (isBoundary d v) eqn:Bd; [unfold addEdgeParallelAware; rewrite Nat.eqb_refl, Bd; cbn; auto|]. assert (Q : pa_ok rho0 d v v h (addEdgeParallelAware d v v h)) by (apply parallel_aware; auto). split; [apply (pa_zwf _ _ _ _ _ _ Q)|now apply (pa_book _ _ _ _ _ _ Q)].
    + assert (C : addEdgeParallelAware d u v h = d \/ (hv d u v <> None -> isBoundary d u = false /\ isBoundary d v = false)).
      { unfold addEdgeParallelAware, hv. rewrite (proj2 (Nat.eqb_neq u v)) by auto. destruct (getEdge d u v) as [[w k]|]; [|right; cbn; congruence]. destruct (isBoundary d u); cbn [orb]; auto. destruct (isBoundary d v); auto. }
      destruct C as [-> | C]; auto. assert (Q : pa_ok rho0 d u v h (addEdgeParallelAware d u v h)) by (apply parallel_aware; auto; congruence). split; [apply (pa_zwf _ _ _ _ _ _ Q)|now apply (pa_book _ _ _ _ _ _ Q)].
  - apply connected_hv in P as (L1 & L2 & h & X). destruct (hv_live d u v h Z L1 X) as [_ N]. rewrite removeEdge_cut by auto. split; [now apply cut_zwf|now apply (cut_book d u v h)].
  - pose proof (remove_vertex rho0 d v Z P) as R. split; [apply (rv_zwf _ _ _ _ R)|now apply (rv_book _ _ _ _ R)].
  - now apply mod_ok. - now apply mod_ok. - now apply mod_ok.
  - revert H. now apply verts_ok.
  - revert H. apply verts_ok; auto. intros u. unfold invert, live. cbn. now destruct (d_verts d u).
  - destruct (toGraphlike_gl rho0 d Z) as [G _]. split; [apply (gl_zwf _ _ _ G)|now apply (gl_book _ _ _ G)].
  - unfold addQubit. pose proof (add_vertex rho0 d (mkV (Z.of_nat (length (d_in d)) + 1) p_zero VBoundary) Z B) as A.
    destruct (addVertex d (mkV (Z.of_nat (length (d_in d)) + 1) p_zero VBoundary)) as [d1 i]. cbn [fst snd] in A. destruct A as [Z1 B1 _ _ _ _ _ _ _ _ _ _].
    pose proof (add_vertex rho0 d1 (mkV (Z.of_nat (length (d_in d)) + 1) p_zero VBoundary) Z1 B1) as A.
    destruct (addVertex d1 (mkV (Z.of_nat (length (d_in d)) + 1) p_zero VBoundary)) as [d2 o]. cbn [fst snd] in A. destruct A as [Z2 B2 _ _ _ _ _ _ _ _ _ _].
    apply (verts_ok d2); auto.
  - unfold makeAncilla. apply mod_ok, mod_ok. apply (verts_ok d); auto.
  - unfold removeDisconnectedSpiders in E. eapply dead_removed; [|exact E]. intros d1 [= <-]. auto.
Qed.
Lemma run_upd us : forall d d', zwf d /\ book d -> u_run d us = Some d' -> zwf d' /\ book d'.
Proof.
  induction us as [|u us IH]; cbn; intros d d' H E; [injection E as <-; auto|]. destruct (u_pre d u) eqn:P; [|discriminate]. destruct (u_apply d u) as [d1|] eqn:A; [|discriminate].
  eapply IH; [|exact E]. eapply upd_ok; eauto.
Qed.
Lemma ph_okb_ok p : ph_okb p = true -> ph_ok p.
Proof.
  unfold ph_okb, ph_ok. rewrite andb_true_iff, negb_true_iff. intros [A B]. split; [|now apply Qle_bool_iff]. apply Qnot_le_lt. intros H. apply Qle_bool_iff in H. congruence.
Qed.
Lemma wfb_ok d : zwf d -> book d -> wfb d = true -> wf d.
Proof.
  intros Z B H. unfold wfb in H. apply andb_true_iff in H as [H1 H2]. rewrite forallb_forall in H1, H2.
  assert (A : forall v, live d v = true -> (isBoundary d v = true -> degree d v <= 1) /\ ph_ok (vphase d v)).
  { intros v L. assert (I : In v (seq 0 (d_size d))) by (apply in_seq; pose proof (live_lt d v Z L); lia). specialize (H1 v I). rewrite L in H1. cbn [negb orb] in H1. apply andb_true_iff in H1 as [Q1 Q2]. split; [|now apply ph_okb_ok].
    intros Bd. rewrite Bd in Q1. now apply Nat.leb_le in Q1. }
  constructor; auto.
  - intros v L. apply (A v L).
  - intros v I. apply in_app_iff in I. specialize (H2 v I). apply andb_true_iff in H2. auto.
  - intros v L. apply (A v L).
Qed.
Lemma io_zwf d i o : zwf d /\ book d -> zwf (set_io d i o) /\ book (set_io d i o).
Proof. now apply verts_ok. Qed.
