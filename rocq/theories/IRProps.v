(** Properties C24, C28, C29, C31: inverting and copying circuits, classical
    control, registers and permutations. *)
From Coq Require Import Reals Lra List Arith Bool NArith Lia FunctionalExtensionality.
From Verif Require Import Cplx Qsem GateModel GateSpec GateProofs OpProofs IRModel IRSpec IRProofs.
Import ListNotations.

(** ** C24: inverting a circuit *)
(** Without a global phase the inverted circuit undoes the circuit exactly, on
    every state and every content of the classical bits. *)
Theorem C24_invert_partial : forall c c' b, ops_ok (qc_ops c) -> qc_phase c = 0%R -> invert_qc c = Some c' ->
  flat_map (run_qc c') (run_qc c b) = [b] /\ flat_map (run_qc c) (run_qc c' b) = [b].
Proof.
  intros c c' [psi s] O P H. destruct (invert_qc_run c c' (psi, s) O H) as [A B]. rewrite A, B, P.
  replace (2 * 0)%R with 0%R by ring. rewrite Cexp_0.
  assert (E : sscal C1 psi = psi) by (apply functional_extensionality; intros x; unfold sscal; ring).
  simpl. rewrite E. auto.
Qed.
Print Assumptions C24_invert_partial.

(** With a global phase the composition is off by twice that phase. *)
Theorem C24_invert_with_phase : forall c c' b, ops_ok (qc_ops c) -> invert_qc c = Some c' ->
  flat_map (run_qc c') (run_qc c b) = [(sscal (Cexp (2 * qc_phase c)) (fst b), snd b)] /\
  flat_map (run_qc c) (run_qc c' b) = [(sscal (Cexp (2 * qc_phase c)) (fst b), snd b)].
Proof. exact invert_qc_run. Qed.
Print Assumptions C24_invert_with_phase.

Theorem C24_global_phase_refuted : exists c c' b, ops_ok (qc_ops c) /\ invert_qc c = Some c' /\
  flat_map (run_qc c') (run_qc c b) <> [b].
Proof.
  exists {| qc_n := 1; qc_ops := []; qc_init := [(0, 0)]; qc_out := [(0, 0)]; qc_phase := (PI / 2)%R |}.
  eexists. exists ((fun _ => C1), fun _ => false). split; [constructor|]. split; [reflexivity|].
  unfold run_qc. simpl. intros E. inversion E as [E1].
  assert (K := f_equal (fun f => f (fun _ => false)) E1). unfold sscal in K. simpl in K.
  assert (K' : (Cexp (PI / 2) * Cexp (PI / 2))%C = C1) by (rewrite <- K; ring).
  rewrite <- Cexp_add in K'. replace (PI / 2 + PI / 2)%R with PI in K' by lra. rewrite Cexp_PI in K'.
  inversion K'. lra.
Qed.
Print Assumptions C24_global_phase_refuted.

(** Inversion succeeds exactly on circuits without measurements and resets. *)
Theorem C24_succeeds : forall c, ops_ok (qc_ops c) ->
  ((exists c', invert_qc c = Some c') <-> Forall no_meas (qc_ops c)).
Proof.
  intros c O. split.
  - intros [c' H]. unfold invert_qc in H. destruct (invert_ops (qc_ops c)) eqn:E; [|discriminate]. clear H O.
    revert l E. induction (qc_ops c); intros r E; constructor; simpl in E;
    destruct (invert_op a) eqn:EA; try discriminate; destruct (invert_ops l) eqn:E2; try discriminate; eauto using invert_no_meas.
  - intros N. destruct (inverts_ops _ O N) as [r E]. unfold invert_qc. rewrite E. eauto.
Qed.
Print Assumptions C24_succeeds.

Theorem C24_layouts_partial : forall c c', length (qc_init c) = length (qc_out c) -> invert_qc c = Some c' ->
  qc_init c' = qc_out c /\ qc_out c' = qc_init c.
Proof.
  intros c c' E H. unfold invert_qc in H. destruct (invert_ops (qc_ops c)); [|discriminate]. inversion H. simpl.
  rewrite E, Nat.eqb_refl. auto.
Qed.
Print Assumptions C24_layouts_partial.

(** A garbage qubit (no entry in the output permutation) is enough to leave
    both layouts as they were. *)
Theorem C24_layouts_refuted : exists c c', ops_ok (qc_ops c) /\ invert_qc c = Some c' /\ qc_init c' <> qc_out c.
Proof.
  exists {| qc_n := 2; qc_ops := []; qc_init := [(0, 1); (1, 0)]; qc_out := [(0, 0)]; qc_phase := 0%R |}.
  eexists. split; [constructor|]. split; [reflexivity|]. simpl. discriminate.
Qed.
Print Assumptions C24_layouts_refuted.

Example C24_ex :
  let u2 := OStd {| o_type := gU2; o_par := [1%R; 2%R]; o_ctl := [(1, true)]; o_tgt := [0] |} in
  let h := OStd {| o_type := gH; o_par := []; o_ctl := []; o_tgt := [1] |} in
  let s := OStd {| o_type := gS; o_par := []; o_ctl := [(0, false)]; o_tgt := [2] |} in
  let sdg := OStd {| o_type := gSdg; o_par := []; o_ctl := [(0, false)]; o_tgt := [2] |} in
  ops_ok [h; OComp false [s; OClass (CReg 0 2 3 kLt) s]; u2] /\
  exists x, invert_ops [h; OComp false [s; OClass (CReg 0 2 3 kLt) s]; u2] =
  Some [h; OComp false [OClass (CReg 0 2 3 kLt) sdg; sdg]; x].
Proof.
  cbv zeta. split.
  - repeat constructor; simpl; try (eexists; reflexivity); try (intros [A|[]]; discriminate); try tauto;
    try (intros c [<-|[]] [A|[]]; discriminate); intros c [].
  - eexists. reflexivity.
Qed.

(** ** C28: copies *)
(** Faithful if all comparisons are equalities ... *)
Theorem C28_copies_partial : forall o, only_eq o -> clone_op o = o.
Proof. exact clone_ok. Qed.
Print Assumptions C28_copies_partial.

Theorem C28_circuit_copies_partial : forall c b, Forall only_eq (qc_ops c) -> run_qc (copy_qc c) b = run_qc c b.
Proof.
  intros c b H. unfold run_qc, copy_qc. simpl. do 2 f_equal. induction H; simpl; auto. rewrite clone_ok by auto. now f_equal.
Qed.
Print Assumptions C28_circuit_copies_partial.

(** ... but any other comparison turns into an equality. *)
Theorem C28_comparison_lost_refuted : exists o b, op_ok o /\ run_op (clone_op o) b <> run_op o b.
Proof.
  exists (OClass (CReg 0 2 2 kLt) (OStd {| o_type := gGPhase; o_par := [PI]; o_ctl := []; o_tgt := [] |})),
    ((fun _ => C1), fun _ => false).
  split.
  - simpl. split; [split; simpl; [constructor|intros c []]|eexists; reflexivity].
  - simpl. intros E. inversion E as [E1]. assert (K := f_equal (fun f => f (fun _ => false)) E1).
    unfold semf in K. simpl in K. unfold capply, apply in K. simpl in K. unfold Cexp in K. rewrite cos_PI, sin_PI in K.
    inversion K. lra.
Qed.
Print Assumptions C28_comparison_lost_refuted.

Example C28_ex : only_eq (OComp true [OClass (CReg 0 3 5 kEq) (OComp false [OReset [1]]); OMeas [0; 1] [1; 0]]).
Proof. simpl. tauto. Qed.

(** ** C29: comparisons *)
Theorem C29_inverted_comparison : forall k a v, cmp_holds (inv_kind k) a v <-> ~ cmp_holds k a v.
Proof. exact inv_kind_ok. Qed.
Print Assumptions C29_inverted_comparison.

(** Registers of up to 64 bits: executed if and only if the comparison holds
    for the little-endian value of the register. *)
Theorem C29_executes_iff_partial : forall s l v k m, l <= 64 ->
  exists d, classic_control (CReg s l v k) m = Some d /\ (d = true <-> cmp_holds k (regval m s l) v).
Proof.
  intros. eexists. split; [apply classic_control_ok; simpl; auto|]. simpl. apply cmp_dec_holds.
Qed.
Print Assumptions C29_executes_iff_partial.

(** Wider registers shift a 64-bit one too far. *)
Theorem C29_wide_register_refuted : exists c m, classic_control c m = None.
Proof. exists (CReg 0 65 0 kEq), (fun _ => true). reflexivity. Qed.
Print Assumptions C29_wide_register_refuted.

(** The constructor for single bits accepts exactly the equality and
    inequality comparisons with 0 and 1, and keeps their meaning. *)
Theorem C29_single_bit : forall o bit v k,
  (forall o', mk_bit_op o bit v k = Some o' -> exists c, o' = OClass c o /\ forall m, exists d,
     classic_control c m = Some d /\ (d = true <-> cmp_holds k (if m bit then 1 else 0)%N v)) /\
  ((k = kEq \/ k = kNeq) -> (v <= 1)%N -> mk_bit_op o bit v k <> None).
Proof.
  intros o bit v k. split.
  - unfold mk_bit_op. destruct (N.ltb_spec 1 v); [discriminate|]. intros o' E.
    assert (V : v = 0%N \/ v = 1%N) by lia.
    destruct k; try discriminate; inversion E; subst; eexists; split; try reflexivity; intros m; eexists; split; try reflexivity; simpl.
    + apply N.eqb_eq.
    + rewrite N.eqb_eq. destruct V as [-> | ->], (m bit); simpl; split; intros; try lia; try discriminate; try reflexivity; try (exfalso; congruence).
  - unfold mk_bit_op. intros K V. destruct (N.ltb_spec 1 v); [lia|]. destruct K as [-> | ->]; discriminate.
Qed.
Print Assumptions C29_single_bit.

(** What the simulator applies when the condition holds is the controlled
    operation, provided no further condition is nested inside. *)
Theorem C29_applied_operation_partial : forall c o m psi, cond_narrow c -> no_class o ->
  exists d l, classic_control c m = Some d /\ dd_ops o = Some l /\
  run_op (OClass c o) (psi, m) = if d then run (map OStd l) (psi, m) else [(psi, m)].
Proof.
  intros c o m psi N O. destruct (dd_ops_ok o O) as (l & E & R). exists (cond_holds c m), l.
  split; [now apply classic_control_ok|]. split; auto. simpl. destruct (cond_holds c m); auto.
Qed.
Print Assumptions C29_applied_operation_partial.

(** A nested condition is ignored. *)
Theorem C29_nested_condition_refuted : exists c o m psi l, op_ok o /\ classic_control c m = Some true /\ dd_ops o = Some l /\
  run_op (OClass c o) (psi, m) <> run (map OStd l) (psi, m).
Proof.
  exists (CBit 0 1 kEq), (OClass (CBit 1 1 kEq) (OStd {| o_type := gGPhase; o_par := [PI]; o_ctl := []; o_tgt := [] |})),
    (fun b => Nat.eqb b 0), (fun _ => C1). eexists.
  split; [simpl; split; [split; simpl; [constructor|intros c []]|eexists; reflexivity]|].
  split; [reflexivity|]. split; [reflexivity|]. simpl. intros E. inversion E as [E1].
  assert (K := f_equal (fun f => f (fun _ => false)) E1).
  unfold semf in K. simpl in K. unfold capply, apply in K. simpl in K. unfold Cexp in K. rewrite cos_PI, sin_PI in K.
  inversion K. lra.
Qed.
Print Assumptions C29_nested_condition_refuted.

Example C29_ex : classic_control (CReg 1 3 5 kGeq) (fun b => Nat.eqb b 1 || Nat.eqb b 3) = Some true /\
  classic_control (CReg 1 3 5 kLt) (fun b => Nat.eqb b 2 || Nat.eqb b 3) = Some false.
Proof. split; reflexivity. Qed.

(** ** C31: registers and permutations *)
Theorem C31_register_indices : forall r l g, reg_global r l = Some g <-> reg_local r g = Some l.
Proof. intros. split; [apply reg_round|apply reg_round']. Qed.
Print Assumptions C31_register_indices.

Theorem C31_register_range : forall r i,
  (reg_contains r i = true <-> r_start r <= i < r_start r + r_size r) /\
  ((exists l, reg_local r i = Some l) <-> r_start r <= i < r_start r + r_size r) /\
  ((exists g, reg_global r i = Some g) <-> i < r_size r).
Proof.
  intros r i. assert (A : reg_contains r i = true <-> r_start r <= i < r_start r + r_size r).
  { unfold reg_contains. rewrite andb_true_iff, Nat.leb_le, Nat.ltb_lt. tauto. }
  split; auto. split.
  - rewrite <- A. unfold reg_local. destruct (reg_contains r i); split; intros K; eauto; try discriminate; destruct K; discriminate.
  - unfold reg_global. destruct (Nat.leb_spec (r_size r) i); split; intros K; eauto; try lia. destruct K; discriminate.
Qed.
Print Assumptions C31_register_range.

Theorem C31_permutation_round_trip : forall p, perm_ok p ->
  (forall ts us, papply_targets p ts = Some us -> papply_targets (pinv p) us = Some ts) /\
  (forall cs ds, csorted cs -> papply_controls p cs = Some ds -> papply_controls (pinv p) ds = Some cs).
Proof. intros p K. split; intros; [now apply papply_targets_inv|now apply papply_controls_inv]. Qed.
Print Assumptions C31_permutation_round_trip.

(** Controls and targets are mapped alike. *)
Theorem C31_permutation_consistent : forall p q pol, p <> [] ->
  papply_targets p [q] = match papply p q with Some r => Some [r] | None => None end /\
  papply_controls p [(q, pol)] = match papply p q with Some r => Some [(r, pol)] | None => None end.
Proof.
  intros p q pol NE. split; [unfold papply_targets; simpl; now destruct (papply p q)|].
  destruct p; [tauto|]. unfold papply_controls, papply_ctl, map_opt, fst. now destruct (papply (p :: p0) q).
Qed.
Print Assumptions C31_permutation_consistent.

Theorem C31_max : forall p, (forall k v, In (k, v) p -> k <= max_key p /\ v <= max_value p) /\
  (p <> [] -> In (max_key p) (map fst p) /\ In (max_value p) (map snd p)).
Proof.
  induction p as [|[a b] p [A B]]; [split; [intros k v []|tauto]|]. split.
  - intros k v [E|I]; simpl; [inversion E; subst; lia|]. destruct (A _ _ I). unfold max_key, max_value in *. simpl. lia.
  - intros _. simpl. destruct p as [|x p].
    + simpl. split; left; lia.
    + destruct B as [B1 B2]; [discriminate|].
      destruct (Nat.max_spec a (max_key (x :: p))) as [[_ E]|[_ E]], (Nat.max_spec b (max_value (x :: p))) as [[_ F]|[_ F]];
      unfold max_key, max_value in *; simpl in *; rewrite E, F; auto.
Qed.
Print Assumptions C31_max.

Example C31_ex : let p := [(0, 2); (1, 0); (2, 1)] in perm_ok p /\
  papply_targets p [2; 0] = Some [1; 2] /\ papply_controls p [(0, true); (1, false)] = Some [(0, false); (2, true)] /\
  reg_local {| r_start := 4; r_size := 3 |} 6 = Some 2 /\ reg_local {| r_start := 4; r_size := 3 |} 7 = None.
Proof.
  cbv zeta. split; [split; simpl; repeat (constructor; [simpl; intuition discriminate|]); constructor|].
  repeat split; reflexivity.
Qed.
