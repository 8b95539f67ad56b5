(** C117: rounding of phases to multiples of pi/2. Phases are in units of pi. *)
From Coq Require Import QArith Qabs ZArith Bool List Arith Lia Lqa.
From Verif Require Import PiModel ZXModel CliffModel CliffProofs.
Import ListNotations.
Open Scope Q_scope.

(** The tests on phases: multiples of pi, of pi/2, and odd multiples of pi/2 *)
Theorem C117_tests : forall p,
  (p_isPauli p = true <-> snd p = [] /\ exists k, fst p == inject_Z k)
  /\ (p_isClifford p = true <-> snd p = [] /\ exists k, fst p == inject_Z k * (1 # 2))
  /\ (p_isProperClifford p = true <-> snd p = [] /\ exists k, fst p == inject_Z (2 * k + 1) * (1 # 2)).
Proof.
  intros [q s]. unfold p_isPauli, p_isClifford, p_isProperClifford, p_isConstant, pi_isInteger. cbn [fst snd].
  destruct s as [|t s]; [|split; [|split]; (split; intros H; [discriminate H | destruct H as [H _]; discriminate H])].
  cbn [andb]. rewrite orb_true_iff, !Pos.eqb_eq, den_half, den_one.
  assert (I : forall k, inject_Z k == inject_Z (2 * k) * (1 # 2)) by (intros k; unfold Qeq, inject_Z, Qmult; cbn [Qnum Qden]; lia).
  split; [|split].
  - split; [intros H; split; [reflexivity | exact H] | intros [_ H]; exact H].
  - split.
    + intros [[k E]|[k E]]; (split; [reflexivity|]); eexists; [rewrite E; apply I | exact E].
    + intros [_ [k E]]. destruct (Z.Even_or_Odd k) as [[m ->]|[m ->]]; [left; exists m; rewrite E, (I m); reflexivity | right; exists m; exact E].
  - split; [intros H; split; [reflexivity | exact H] | intros [_ H]; exact H].
Qed.
Print Assumptions C117_tests.

(** Only the constants of phases without symbols change, by less than the tolerance, and then to multiples of pi/2 *)
Theorem C117_error : forall d tolerance v, let d' := approximateCliffords d tolerance in
  (d_size d' = d_size d /\ d_edges d' = d_edges d /\ d_deleted d' = d_deleted d /\ d_in d' = d_in d /\ d_out d' = d_out d
   /\ d_nv d' = d_nv d /\ d_ne d' = d_ne d /\ d_gphase d' = d_gphase d)
  /\ match d_verts d v, d_verts d' v with
     | Some a, Some b => v_qubit b = v_qubit a /\ v_type b = v_type a
         /\ (v_phase b = v_phase a
             \/ p_isConstant (v_phase a) = true /\ p_isClifford (v_phase b) = true /\ Qabs (fst (v_phase b) - fst (v_phase a)) < tolerance)
     | None, None => True
     | _, _ => False
     end.
Proof.
  intros d t v d'. split; [repeat split|]. unfold d', approximateCliffords. cbn [d_verts set_verts].
  destruct (d_verts d v) as [a|]; cbn [option_map]; [|exact I]. cbn [v_qubit v_type v_phase]. split; [reflexivity|]. split; [reflexivity|].
  destruct (v_phase a) as [q [|s0 s]] eqn:E; [|left; reflexivity].
  destruct (round_cases (q, []) t eq_refl) as [c [(I & H & F & S0)|(H & _)]]; [|left; exact H].
  right. split; [reflexivity|]. split.
  - apply C117_tests. split; [exact S0|]. cbn [In] in I.
    destruct I as [<-|[<-|[<-|[<-|[]]]]]; [exists 0%Z | exists 1%Z | exists (-1)%Z | exists 2%Z]; rewrite F; reflexivity.
  - rewrite F, Qabs_Qminus. exact H.
Qed.
Print Assumptions C117_error.

Lemma rounded : forall q tolerance k, -(1) < q <= 1 -> (-1 <= k <= 2)%Z -> Qabs (q - inject_Z k * (1 # 2)) < tolerance ->
  p_isClifford (roundToClifford (q, []) tolerance) = true
  /\ (tolerance <= 1 # 4 -> fst (roundToClifford (q, []) tolerance) == inject_Z k * (1 # 2)).
Proof.
  intros q t k R K H.
  assert (V : exists c0, In c0 [0; 1 # 2; - (1 # 2); 1] /\ inject_Z k * (1 # 2) == c0).
  { assert (C : (k = -1 \/ k = 0 \/ k = 1 \/ k = 2)%Z) by lia. destruct C as [-> | [-> | [-> | ->]]];
      [exists (- (1 # 2)) | exists 0 | exists (1 # 2) | exists 1]; (split; [simpl; tauto | reflexivity]). }
  destruct V as (c0 & I0 & E0). rewrite E0 in H.
  destruct (round_cases (q, []) t eq_refl) as [c [(I & L & F & S0)|(_ & N)]]; [|exfalso; exact (N c0 I0 H)].
  split.
  - apply C117_tests. split; [exact S0|]. cbn [In] in I.
    destruct I as [<-|[<-|[<-|[<-|[]]]]]; [exists 0%Z | exists 1%Z | exists (-1)%Z | exists 2%Z]; rewrite F; reflexivity.
  - intros T. rewrite F, E0. cbn [fst] in L. apply Qabs_Qlt_condition in L. apply Qabs_Qlt_condition in H. cbn [In] in I, I0.
    destruct I as [<-|[<-|[<-|[<-|[]]]]]; destruct I0 as [<-|[<-|[<-|[<-|[]]]]]; try reflexivity; exfalso; lra.
Qed.
(** Every constant phase in the range of PiRational within the tolerance of a multiple of pi/2, other than minus pi, becomes a multiple
    of pi/2, namely that one if the tolerance is at most a quarter of pi *)
Theorem C117_rounded_partial : forall d tolerance v a q k, d_verts d v = Some a -> v_phase a = (q, []) ->
  -(1) < q <= 1 -> (-1 <= k <= 2)%Z -> Qabs (q - inject_Z k * (1 # 2)) < tolerance ->
  exists b, d_verts (approximateCliffords d tolerance) v = Some b /\ p_isClifford (v_phase b) = true
    /\ (tolerance <= 1 # 4 -> fst (v_phase b) == inject_Z k * (1 # 2)).
Proof.
  intros d t v a q k A P R K H. unfold approximateCliffords. cbn [d_verts set_verts]. rewrite A. cbn [option_map].
  eexists. split; [reflexivity|]. cbn [v_phase]. rewrite P. apply rounded; assumption.
Qed.
Print Assumptions C117_rounded_partial.

(** A phase just above minus pi is as close to pi as one just below it, but is not rounded *)
Theorem C117_minus_pi_refuted : exists q tolerance, -(1) < q <= 1 /\ Qabs (q + 2 - 1) < tolerance /\ tolerance <= 1 # 1000
  /\ roundToClifford (q, []) tolerance = (q, []) /\ p_isClifford (q, []) = false
  /\ fst (roundToClifford (- q, []) tolerance) == 1.
Proof. exists (-(9999 # 10000)), (1 # 1000). repeat split; vm_compute; try reflexivity; discriminate. Qed.
Print Assumptions C117_minus_pi_refuted.

(** With a larger tolerance the first multiple in the list is taken and not the nearest one *)
Theorem C117_nearest_refuted : exists q tolerance, Qabs (q - (1 # 2)) < Qabs (q - 0) /\ Qabs (q - 0) < tolerance
  /\ fst (roundToClifford (q, []) tolerance) == 0.
Proof. exists (2 # 5), (1 # 2). repeat split; vm_compute; reflexivity. Qed.
Print Assumptions C117_nearest_refuted.

(** Tests *)
Example C117_ex : roundToClifford (501 # 1000, []) (1 # 100) = (1 # 2, []) /\ roundToClifford (-(499 # 1000), []) (1 # 100) = (-(1 # 2), [])
  /\ roundToClifford (1 # 4, []) (1 # 100) = (1 # 4, []) /\ roundToClifford (501 # 1000, [(3%nat, 1)]) (1 # 100) = (501 # 1000, [(3%nat, 1)]).
Proof. repeat split; vm_compute; reflexivity. Qed.
