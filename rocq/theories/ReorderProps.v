(** Properties C91 and C92: reordering of operations, and the test whether a
    compound operation is the inverse of another one. *)
From Coq Require Import Reals Lra List Arith Bool Lia NArith FunctionalExtensionality Permutation.
From Verif Require Import Cplx Qsem GateModel GateSpec GateProofs OpProofs GraphModel IRModel IRSpec IRProofs GateProps
  OptModel OptSem OptProofs OptProps OptMeasModel OutcomeSpec OptDiagSem OptFinalProofs OptMeasProps
  ReorderModel ReorderSpec ReorderProofs ReorderSemProofs ReorderInvProofs.
Import ListNotations.
Local Open Scope list_scope.

Lemma locals_agree l : Forall local l -> Forall agree l.
Proof. apply Forall_impl. intros o. apply local_agree. Qed.

(** ** C91: reorderOperations *)
(** It terminates without exception or undefined behaviour. The result has the
    same operations and arises by exchanging neighbours without common qubits;
    operations without qubits are lost. *)
Theorem C91_reorder_partial : forall p l, within (S (max_key p)) l -> Forall local (touching l) ->
  exists l', reorder_ops p l = RDone l' /\ swaps (touching l) l'.
Proof. intros p l W L. apply reorder_done; auto using locals_agree. Qed.
Print Assumptions C91_reorder_partial.

(** In particular the operations on each qubit stay in their order. *)
Theorem C91_order_partial : forall p l l', within (S (max_key p)) l -> Forall local (touching l) -> reorder_ops p l = RDone l' ->
  Permutation (touching l) l' /\ forall q, on_qubit q l' = on_qubit q l.
Proof.
  intros p l l' W L E. destruct (C91_reorder_partial p l W L) as (m & E' & S). rewrite E in E'. inversion E'; subst m.
  split; [now apply swaps_perm|]. intros q. rewrite <- (swaps_on q _ _ S). unfold on_qubit, touching. apply filter_twice.
  intros o H. destruct (used o); auto.
Qed.
Print Assumptions C91_order_partial.

(** The number of rounds does not matter once there are as many as operations. *)
Theorem C91_rounds_partial : forall n fuel l l', within n l -> Forall local (touching l) -> length l < fuel ->
  reorder n fuel l = RDone l' -> reorder n (S (length l)) l = RDone l'.
Proof.
  intros n fuel l l' W L F E. rewrite reorder_pure in * by auto using locals_agree.
  assert (M : forall f R out x, ploop n f R out = RDone x -> forall g, f <= g -> ploop n g R out = RDone x).
  { induction f as [|f IH]; intros R out x H g G; cbn [ploop] in H; [discriminate|]. destruct g as [|g]; [lia|]. cbn [ploop].
    destruct (pvisits (rev (seq 0 n)) R out false) as [[R' out'] [|]]; auto. apply IH; auto. lia. }
  destruct (ploop_done n (S (length l)) (touching l) []) as (x & X & _); [now apply touching_all|pose proof (touching_len l); lia|].
  rewrite (M _ _ _ _ X fuel) in E by lia. congruence.
Qed.
Print Assumptions C91_rounds_partial.

(** The result is a canonical form: it is the same for two circuits if and only
    if they differ by exchanges of neighbours without common qubits. *)
Theorem C91_canonical_partial : forall p l m, within (S (max_key p)) l -> within (S (max_key p)) m ->
  Forall local l -> Forall local m -> Forall (fun o => used o <> []) l -> Forall (fun o => used o <> []) m ->
  length l = length m -> (reorder_ops p l = reorder_ops p m <-> swaps l m).
Proof.
  intros p l m Wl Wm Ll Lm Tl Tm LE. split.
  - intros E. destruct (C91_reorder_partial p l Wl) as (l' & E1 & S1); [now rewrite touching_id|].
    destruct (C91_reorder_partial p m Wm) as (m' & E2 & S2); [now rewrite touching_id|].
    rewrite touching_id in S1, S2 by auto. rewrite E1, E2 in E. inversion E; subst. eapply sw_trans; [exact S1|]. now apply swaps_sym.
  - intros S. unfold reorder_ops. rewrite <- LE. apply reorder_canonical; auto. rewrite touching_id by auto. now apply locals_agree.
Qed.
Print Assumptions C91_canonical_partial.

(** The meaning stays the same if no two operations on different qubits share a
    classical bit that one of them writes ... *)
Theorem C91_meaning_partial : forall p l l', within (S (max_key p)) l -> Forall local l -> Forall (fun o => used o <> []) l -> race_free l ->
  reorder_ops p l = RDone l' -> same_dist l l'.
Proof.
  intros p l l' W L T R E. destruct (C91_reorder_partial p l W) as (m & E' & S); [now rewrite touching_id|].
  rewrite E in E'. inversion E'; subst m. rewrite touching_id in S by auto. now apply swaps_dist.
Qed.
Print Assumptions C91_meaning_partial.

(** ... in particular without measurements and resets, even with conditions. *)
Theorem C91_unitary_partial : forall p l l', within (S (max_key p)) l -> Forall local l -> Forall (fun o => used o <> []) l ->
  Forall no_meas l -> reorder_ops p l = RDone l' -> same_run l l'.
Proof. intros p l l' W L T N E. apply dist_run; auto. eapply C91_meaning_partial; eauto. now apply no_meas_race. Qed.
Print Assumptions C91_unitary_partial.

(** An operation beyond the qubits of the initial layout raises an exception. *)
Theorem C91_out_of_range : forall p l o q, In o l -> In q (used o) -> max_key p < q -> reorder_ops p l = RThrow.
Proof.
  intros p l o q I U L. unfold reorder_ops, reorder. erewrite qbuild_throw; [reflexivity|exact I|exact U|]. unfold dag_size. lia.
Qed.
Print Assumptions C91_out_of_range.

(** A global phase gate is lost. *)
Definition gph (x : R) : cop := OStd {| o_type := gGPhase; o_par := [x]; o_ctl := []; o_tgt := [] |}.
Lemma gph_ok x : op_ok (gph x).
Proof. split; [split; [constructor|intros c []]|]. eexists. reflexivity. Qed.
Theorem C91_phase_refuted : exists p l l', ops_ok l /\ within (S (max_key p)) l /\ Forall local l /\ Forall no_meas l /\
  reorder_ops p l = RDone l' /\ ~ same_dist l l'.
Proof.
  exists [(0, 0)], [xop 0; gph PI], [xop 0]. split; [|split; [|split; [|split; [|split; [reflexivity|]]]]].
  - constructor; [oks|]. constructor; auto using gph_ok.
  - intros o q [<-|[<-|[]]]; simpl; try tauto. intros [<-|[]]. lia.
  - repeat constructor.
  - repeat constructor.
  - intros D. specialize (D (fun _ => C1, fun _ => false)).
    change [xop 0; gph PI] with ([xop 0] ++ [gph PI]) in D. rewrite run_app, run_one, run_xop in D. cbn [flat_map] in D. rewrite app_nil_r in D.
    apply Permutation_length_1_inv in D. inversion D as [D']. apply (f_equal (fun f => fst (f (fun _ => false)))) in D'.
    cbv -[cos sin PI Rplus Rmult Ropp Rminus IZR] in D'. rewrite cos_PI in D'. lra.
Qed.
Print Assumptions C91_phase_refuted.

(** A block of operations under a condition is lost. *)
Theorem C91_conditional_block_refuted : exists p l l', ops_ok l /\ within (S (max_key p)) l /\ Forall no_meas l /\
  reorder_ops p l = RDone l' /\ ~ same_dist l l'.
Proof.
  exists [(0, 0)], [OClass (CBit 0 1 kEq) (OComp false [xop 0])], []. split; [|split; [|split; [|split; [reflexivity|]]]].
  - constructor; auto. change (op_ok (OComp false [xop 0])). apply op_ok_comp. oks.
  - intros o q [<-|[]] [].
  - constructor; auto. change (no_meas (OComp false [xop 0])). apply no_meas_comp. repeat constructor.
  - intros D. specialize (D (ket 1 [], bits_at [0])).
    assert (E : run [OClass (CBit 0 1 kEq) (OComp false [xop 0])] (ket 1 [], bits_at [0]) = [(flip 0 (ket 1 []), bits_at [0])]).
    { rewrite run_one. change (run_op (OComp false [xop 0]) (ket 1 [], bits_at [0]) = [(flip 0 (ket 1 []), bits_at [0])]).
      rewrite run_comp, run_one, run_xop. reflexivity. }
    rewrite E in D. apply Permutation_length_1_inv in D. inversion D as [D']. apply (f_equal (fun f => f (fun _ => false))) in D'.
    cbv -[IZR] in D'. exact (C1_neq_C0 D').
Qed.
Print Assumptions C91_conditional_block_refuted.

(** A condition is read before the measurement that determines it. *)
Theorem C91_classical_control_refuted : exists p l l', ops_ok l /\ within (S (max_key p)) l /\ Forall local l /\
  Forall (fun o => used o <> []) l /\ reorder_ops p l = RDone l' /\ ~ same_dist l l'.
Proof.
  exists [(0, 0); (1, 1)], [meas1 0 0; OClass (CBit 0 1 kEq) (xop 1)], [OClass (CBit 0 1 kEq) (xop 1); meas1 0 0].
  split; [|split; [|split; [|split; [|split; [reflexivity|]]]]].
  - oks.
  - intros o q [<-|[<-|[]]] [<-|[]]; simpl; lia.
  - repeat constructor.
  - repeat constructor; discriminate.
  - intros D. specialize (D (ket 2 [0], bits_at [])). set (b0 := (ket 2 [0], bits_at [])) in D.
    assert (S0 : stuck 1 b0). { intros b B. unfold b0, ket. simpl. rewrite B. simpl. rewrite andb_false_r. reflexivity. }
    assert (Q : run [OClass (CBit 0 1 kEq) (xop 1); meas1 0 0] b0 = run [meas1 0 0] b0).
    { change (run ([OClass (CBit 0 1 kEq) (xop 1)] ++ [meas1 0 0]) b0 = run [meas1 0 0] b0). rewrite run_app.
      replace (run [OClass (CBit 0 1 kEq) (xop 1)] b0) with [b0] by reflexivity. apply fm1. }
    rewrite Q in D.
    assert (I : In (flip 1 (project 0 true (fst b0)), setb (snd b0) 0 true) (run [meas1 0 0; OClass (CBit 0 1 kEq) (xop 1)] b0)).
    { eapply run_in; [right; left; reflexivity|]. rewrite run_one.
      match goal with |- In _ (run_op _ ?y) => change (In (flip 1 (project 0 true (fst b0)), setb (snd b0) 0 true) (run_op (xop 1) y)) end.
      rewrite run_xop. left. reflexivity. }
    apply (Permutation_in _ D) in I. assert (M : Forall is_meas [meas1 0 0]) by (repeat constructor).
    pose proof (stuck_run 1 _ M b0 S0) as F. rewrite Forall_forall in F.
    specialize (F _ I (fun _ => true) eq_refl). cbv -[IZR] in F. exact (C1_neq_C0 F).
Qed.
Print Assumptions C91_classical_control_refuted.

(** A conditional block inside a compound operation makes the loop read past the
    end of a queue. *)
Theorem C91_nested_refuted : exists p l, ops_ok l /\ within (S (max_key p)) l /\ Forall (fun o => used o <> []) l /\
  reorder_ops p l = RUndef.
Proof.
  exists [(0, 0); (1, 1)], [OComp false [xop 0; OClass (CBit 0 1 kEq) (OComp false [xop 1])]].
  split; [|split; [|split; [|reflexivity]]].
  - constructor; auto. apply op_ok_comp. constructor; [oks|]. constructor; auto.
    change (op_ok (OComp false [xop 1])). apply op_ok_comp. oks.
  - intros o q [<-|[]] [<-|[]]. simpl. lia.
  - repeat constructor. discriminate.
Qed.
Print Assumptions C91_nested_refuted.

(** Three qubits: the operations on higher qubits come first. *)
Example C91_ex : reorder_ops [(0, 0); (1, 1); (2, 2)] [mk_h 0; mk_cx 0 1; xop 2; mk_cx 1 2; meas1 0 0; mk_h 2] =
  RDone [xop 2; mk_h 0; mk_cx 0 1; meas1 0 0; mk_cx 1 2; mk_h 2].
Proof. reflexivity. Qed.

(** ** C92: isInverseOf for compound operations *)
(** If it says yes, then the operations undo each other. *)
Theorem C92_sound_partial : forall l m, Forall plain l -> Forall plain m -> Forall only_eq l -> Forall only_eq m ->
  comp_is_inverse l m = RDone true ->
  forall b, run (l ++ m) b = [b] /\ run (m ++ l) b = [b].
Proof.
  intros l m Pl Pm Ol Om E [psi s]. destruct (comp_inverse_sound l m Pl Pm Ol Om E s) as (f & g & F & G & I1 & I2).
  rewrite !run_app, F, G. cbn [flat_map]. rewrite !app_nil_r, F, G, I1, I2. auto.
Qed.
Print Assumptions C92_sound_partial.

(** It says yes whenever the first is the reversed list of inverses of the
    second, up to exchanges of neighbours without common qubits. *)
Theorem C92_complete_partial : forall l m r, Forall plain l -> Forall plain m -> Forall only_eq l -> Forall only_eq m ->
  invert_ops m = Some r -> swaps l (rev r) -> comp_is_inverse l m = RDone true.
Proof. exact comp_inverse_complete. Qed.
Print Assumptions C92_complete_partial.

(** And it answers at all for operations that can be inverted. *)
Theorem C92_answers_partial : forall l m, Forall plain l -> Forall plain m -> Forall only_eq l -> Forall only_eq m ->
  Forall no_meas m -> exists v, comp_is_inverse l m = RDone v.
Proof. exact comp_inverse_total. Qed.
Print Assumptions C92_answers_partial.

(** Phases are ignored. *)
Theorem C92_phase_refuted : exists l m, ops_ok l /\ ops_ok m /\ Forall local l /\ Forall local m /\ Forall equatable l /\ Forall equatable m /\
  Forall only_eq l /\ Forall only_eq m /\ comp_is_inverse l m = RDone true /\ exists b, run (l ++ m) b <> [b].
Proof.
  exists [gph PI; xop 0], [xop 0; gph 0].
  assert (OK : forall x y, ops_ok [gph x; xop y] /\ ops_ok [xop y; gph x]).
  { intros x y. split; (constructor; [|constructor; auto]); auto using gph_ok; oks. }
  split; [apply OK|]. split; [apply OK|]. split; [repeat constructor|]. split; [repeat constructor|].
  split; [repeat constructor|]. split; [repeat constructor|]. split; [repeat constructor|]. split; [repeat constructor|].
  split; [reflexivity|].
  exists (fun _ => C1, fun _ => false). intros D.
  change ([gph PI; xop 0] ++ [xop 0; gph 0]) with ([gph PI] ++ [xop 0] ++ [xop 0] ++ [gph 0]) in D. rewrite !run_app in D.
  set (b0 := (fun _ : bits => C1, fun _ : nat => false) : branch) in D.
  change (run [gph PI] b0) with [(semf {| o_type := gGPhase; o_par := [PI]; o_ctl := []; o_tgt := [] |} (fst b0), snd b0)] in D.
  cbn [flat_map] in D. rewrite app_nil_r, run_app, run_one, run_xop in D. cbn [flat_map fst snd] in D.
  rewrite app_nil_r, run_app, run_one, run_xop in D. cbn [flat_map fst snd] in D. rewrite app_nil_r in D.
  inversion D as [D']. apply (f_equal (fun f => fst (f (fun _ => false)))) in D'.
  cbv -[cos sin PI Rplus Rmult Ropp Rminus IZR] in D'. rewrite cos_PI, sin_PI, cos_0, sin_0 in D'. lra.
Qed.
Print Assumptions C92_phase_refuted.

(** With a phase gate on one side the other list is read beyond its end; with
    phase gates only, the maximum of an empty set is taken. *)
Theorem C92_undefined_refuted : exists l m l' m', ops_ok l /\ ops_ok m /\ ops_ok l' /\ ops_ok m' /\
  comp_is_inverse l m = RUndef /\ comp_is_inverse l' m' = RUndef /\ Forall plain l.
Proof.
  exists [xop 0; xop 0], [gph 0; xop 0], [gph 0], [gph 0].
  split; [oks|]. split; [constructor; [apply gph_ok|oks]|]. split; [repeat constructor; apply gph_ok|].
  split; [repeat constructor; apply gph_ok|]. split; [|split; [reflexivity|]].
  - unfold comp_is_inverse. reflexivity.
  - assert (P : plain (xop 0)) by (split; [apply xop_ok|exact I|discriminate|split; [constructor|auto]]). apply Forall_cons; auto.
Qed.
Print Assumptions C92_undefined_refuted.

(** The comparison of a condition is lost in the copies. *)
Theorem C92_condition_refuted : exists l m, Forall plain l /\ Forall plain m /\ comp_is_inverse l m = RDone true /\
  exists b, run (l ++ m) b <> [b].
Proof.
  assert (P : forall k, Forall plain [OClass (CReg 0 2 1 k) (xop 0)]).
  { intros k. constructor; auto. split; [|exact I|discriminate|].
    - assert (O : ops_ok [xop 0]) by oks. inversion O; auto.
    - split; [constructor|]. auto. }
  exists [OClass (CReg 0 2 1 kGt) (xop 0)], [OClass (CReg 0 2 1 kEq) (xop 0)].
  split; [apply P|]. split; [apply P|]. split; [reflexivity|].
  exists (ket 1 [], bits_at [1]). intros D. cbn [app] in D.
  assert (E : run [OClass (CReg 0 2 1 kGt) (xop 0); OClass (CReg 0 2 1 kEq) (xop 0)] (ket 1 [], bits_at [1]) = [(flip 0 (ket 1 []), bits_at [1])]).
  { change (run ([OClass (CReg 0 2 1 kGt) (xop 0)] ++ [OClass (CReg 0 2 1 kEq) (xop 0)]) (ket 1 [], bits_at [1]) = [(flip 0 (ket 1 []), bits_at [1])]).
    rewrite run_app, run_one. change (run_op (OClass (CReg 0 2 1 kGt) (xop 0)) (ket 1 [], bits_at [1])) with (run_op (xop 0) (ket 1 [], bits_at [1])).
    rewrite run_xop. reflexivity. }
  rewrite E in D. inversion D as [D']. apply (f_equal (fun f => f (fun _ => false))) in D'. cbv -[IZR] in D'. 
  symmetry in D'. exact (C1_neq_C0 D') || exact (C1_neq_C0 (eq_sym D')).
Qed.
Print Assumptions C92_condition_refuted.

Definition gop (q : nat) (t : optype) : cop := OStd {| o_type := t; o_par := []; o_ctl := []; o_tgt := [q] |}.
Example C92_ex : comp_is_inverse [gop 0 gS; mk_cx 1 2; mk_h 0] [mk_h 0; mk_cx 1 2; gop 0 gSdg] = RDone true /\
  comp_is_inverse [gop 0 gS; mk_cx 1 2; mk_h 0] [mk_h 0; mk_cx 1 2; gop 0 gS] = RDone false.
Proof. split; reflexivity. Qed.
