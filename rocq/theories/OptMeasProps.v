(** C38-C42: optimisation passes that deal with measurements and resets, and the
    collection of blocks. *)
From Coq Require Import Reals Lra List Arith Bool Lia NArith FunctionalExtensionality Permutation.
From Verif Require Import Cplx Qsem GateModel GateSpec GateProofs OpProofs GraphModel IRModel IRSpec IRProofs
  OptModel OptSem OptProofs OptProps OptMeasModel OutcomeSpec OptDiagSem OptDiagProofs OptFinalProofs OptResetProofs
  OptDeferProofs OptBlockModel OptBlockProofs OptBlockWidthProofs.
Import ListNotations.
Local Open Scope list_scope.

Definition zop1 (q : nat) : cop := OStd {| o_type := gZ; o_par := []; o_ctl := []; o_tgt := [q] |}.
Definition czop (a b : nat) : cop := OStd {| o_type := gZ; o_par := []; o_ctl := [(a, true)]; o_tgt := [b] |}.
Definition meas1 (q c : nat) : cop := OMeas [q] [c].
(** The basis state with exactly the qubits in [l] set. *)
Definition ket (n : nat) (l : list nat) : state :=
  fun b => if forallb (fun q : nat => Bool.eqb (b q) (memn q l)) (seq 0 n) then C1 else C0.
Definition bits_at (l : list nat) : store := fun c => memn c l.

Lemma run_comp_cons cu l r b : run (OComp cu l :: r) b = run (l ++ r) b.
Proof. cbn [run]. now rewrite run_comp, run_app. Qed.
Lemma run_in o l b y z : In y (run_op o b) -> In z (run l y) -> In z (run (o :: l) b).
Proof. intros H1 H2. cbn [run]. apply in_flat_map. eauto. Qed.
Lemma run_cx_via c t b : c <> t -> run_op (mk_cx c t) b = [((fun x : bits => if x c then fst b (setb x t (negb (x t))) else fst b x), snd b)].
Proof.
  intros N. unfold mk_cx. rewrite run_std. unfold pushf. do 2 f_equal. apply functional_extensionality. intros x.
  rewrite (semf_x _ t) by reflexivity. simpl. now rewrite andb_true_r; destruct (x c).
Qed.
Lemma cx_ok c t : c <> t -> op_ok (mk_cx c t).
Proof.
  intros N. split; [split; [repeat constructor; simpl; tauto|]|].
  - intros c' [<-|[]]. simpl. intuition congruence.
  - cbn. eexists. reflexivity.
Qed.
Lemma h_ok q : op_ok (mk_h q).
Proof. split; [split; [repeat constructor; simpl; tauto|intros c []]|]. cbn. eexists. reflexivity. Qed.
Lemma z_ok q : op_ok (zop1 q).
Proof. split; [split; [repeat constructor; simpl; tauto|intros c []]|]. cbn. eexists. reflexivity. Qed.
Lemma cz_ok c t : c <> t -> op_ok (czop c t).
Proof.
  intros N. split; [split; [repeat constructor; simpl; tauto|]|].
  - intros c' [<-|[]]. simpl. intuition congruence.
  - cbn. eexists. reflexivity.
Qed.
Ltac oks := repeat (first [apply Forall_cons | apply Forall_nil]);
  try solve [apply xop_ok | apply h_ok | apply z_ok | apply cx_ok; discriminate | apply cz_ok; discriminate | exact eq_refl | exact Logic.I].

(** Evaluation of probabilities. *)
Ltac calc := cbv -[Rplus Rmult Ropp IZR Rminus]; ring.
Lemma neq_01 (x y : R) : x = 0%R -> y = 1%R -> x <> y. Proof. intros -> ->. lra. Qed.
Lemma neq_10 (x y : R) : x = 1%R -> y = 0%R -> x <> y. Proof. intros -> ->. lra. Qed.

(** ** C38: removeDiagonalGatesBeforeMeasure. For every number of classical bits
    [k] and outcome [m], the probability stays the same. *)
Theorem C38_diagonal_partial : forall nq fuel l l', ops_ok l -> Forall flat_op l ->
  remove_diagonal_gates nq fuel l = Done l' ->
  forall b n k m, prob n k m (run l b) = prob n k m (run l' b).
Proof. intros nq fuel l l' OK F E b n k m. apply prob_phase. eapply remove_diagonal_sound; eauto. Qed.
Print Assumptions C38_diagonal_partial.

(** Missing: an iterator past the end is dereferenced for a controlled diagonal
    gate one of whose qubits has a non-diagonal gate behind it. *)
Theorem C38_memory_refuted : exists nq l, ops_ok l /\ Forall flat_op l /\
  forall fuel, 10 < fuel -> remove_diagonal_gates nq fuel l = Bad.
Proof.
  exists 2, [czop 0 1; mk_h 1; meas1 0 0; meas1 1 1]. split; [|split].
  - oks.
  - repeat (apply Forall_cons || apply Forall_nil); try exact Logic.I; split; simpl; auto; repeat constructor; simpl; intuition discriminate.
  - intros fuel F. do 11 (destruct fuel as [|fuel]; [lia|]). reflexivity.
Qed.
Print Assumptions C38_memory_refuted.

(** Missing: a diagonal gate in a compound operation is removed if any qubit of
    the compound operation is ready, not the qubit of the gate. *)
Theorem C38_compound_refuted : exists nq l l' b n k m, ops_ok l /\ remove_diagonal_gates nq 50 l = Done l' /\
  prob n k m (run l b) <> prob n k m (run l' b).
Proof.
  set (l := [OComp false [xop 0; mk_h 1; zop1 1]; mk_h 1; meas1 0 0; meas1 1 1]).
  exists 2, l. eexists. exists (ket 2 [], bits_at []), 2, 2, (bits_at [0; 1]).
  split; [|split; [reflexivity|]].
  - unfold l. oks. apply op_ok_comp. oks.
  - assert (A : forall ms b, run (OComp false [xop 0; mk_h 1; zop1 1] :: mk_h 1 :: ms) b = run (xop 0 :: xop 1 :: ms) b).
    { intros ms [psi s]. rewrite run_comp_cons. unfold xop, mk_h, zop1. cbn [app]. rewrite !run_std_cons. unfold pushf. cbn [fst snd].
      do 2 f_equal. apply (hzh {| o_type := gX; o_par := []; o_ctl := []; o_tgt := [1] |} 1); auto. intros c []. }
    assert (B : forall ms b, run (OComp false [xop 0; mk_h 1] :: mk_h 1 :: ms) b = run (xop 0 :: ms) b).
    { intros ms [psi s]. rewrite run_comp_cons. unfold xop, mk_h, zop1. cbn [app]. rewrite !run_std_cons. unfold pushf. cbn [fst snd].
      do 2 f_equal. apply hh. }
    intros P. unfold l in P. rewrite A in P. 
    match type of P with _ = prob _ _ _ (run ?l' _) => change l' with (OComp false [xop 0; mk_h 1] :: mk_h 1 :: [meas1 0 0; meas1 1 1]) in P end.
    rewrite B in P. cbn [run] in P. rewrite run_xop in P. cbn [flat_map fst snd] in P. rewrite run_xop in P. cbn [flat_map fst snd] in P.
    cbv -[Rplus Rmult Ropp IZR Rminus] in P. lra.
Qed.
Print Assumptions C38_compound_refuted.

(** Missing: a diagonal two-qubit gate without controls is removed although only
    one of its qubits is ready. *)
Theorem C38_two_qubit_refuted : exists nq l l' t, ops_ok l /\ remove_diagonal_gates nq 50 l = Done l' /\
  In (OComp false [xop 0; t]) l /\ ctype t = gRZZ /\ ~ In t (flat_map (unfolded false) l') /\
  exists pre post, l = pre ++ OComp false [xop 0; t] :: mk_h 1 :: post.
Proof.
  set (t := OStd {| o_type := gRZZ; o_par := [PI]; o_ctl := []; o_tgt := [0; 1] |}).
  exists 2, [OReset [0]; OReset [1]; OComp false [xop 0; t]; mk_h 1; meas1 0 0; meas1 1 1].
  eexists. exists t. split; [|split; [reflexivity|]].
  - oks. apply op_ok_comp. oks. split; [split; [repeat constructor; simpl; intuition discriminate|intros c []]|]. cbn. eexists. reflexivity.
  - split; [simpl; tauto|]. split; [reflexivity|]. split.
    + simpl. intuition discriminate.
    + exists [OReset [0]; OReset [1]]. eexists. reflexivity.
Qed.

Example C38_ex :
  remove_diagonal_gates 2 50 [mk_h 0; czop 0 1; zop1 1; meas1 0 0; meas1 1 1] = Done [mk_h 0; meas1 0 0; meas1 1 1] /\
  remove_diagonal_gates 2 50 [mk_h 0; zop1 0; mk_h 0; zop1 0; meas1 0 0] = Done [mk_h 0; zop1 0; mk_h 0; meas1 0 0] /\
  remove_diagonal_gates 2 50 [czop 0 1; meas1 0 0] = Done [czop 0 1; meas1 0 0].
Proof. repeat split; reflexivity. Qed.

(** ** C39: removeFinalMeasurements. What remains, followed by the removed
    measurements, behaves like the original circuit. *)
Theorem C39_final_partial : forall nq fuel l l', ops_ok l -> Forall fin_op l -> Forall local l -> bits_final l ->
  0 < nq -> remove_final_measurements nq fuel l = Done l' ->
  exists ms, Forall is_meas ms /\ incl ms l /\ same_dist l (l' ++ ms).
Proof.
  intros nq fuel l l' OK F L B N E. destruct (remove_final_sound nq fuel l OK F L B N) as [H|(l1 & ms & H & A & I & D)]; [congruence|].
  rewrite E in H. inversion H; subst. eauto.
Qed.
Print Assumptions C39_final_partial.
(** On the same circuits it dereferences no end iterator and does not throw. *)
Theorem C39_safe_partial : forall nq fuel l, ops_ok l -> Forall fin_op l -> Forall local l -> bits_final l ->
  0 < nq -> remove_final_measurements nq fuel l <> Bad /\ remove_final_measurements nq fuel l <> Throws.
Proof.
  intros nq fuel l OK F L B N. destruct (remove_final_sound nq fuel l OK F L B N) as [H|(l1 & ms & H & _)]; rewrite H; split; discriminate.
Qed.
Print Assumptions C39_safe_partial.

(** Measurements cannot make up for a lost gate: qubit [q] stays 0. *)
Definition stuck (q : nat) (x : branch) : Prop := forall b, b q = true -> fst x b = C0.
Lemma stuck_meas q : forall l x, stuck q x -> Forall (stuck q) (measure_all l x).
Proof.
  induction l as [|[p c] l IH]; intros x S; simpl; [constructor; auto|]. rewrite app_nil_r.
  apply Forall_app. split; apply IH; intros b B; simpl; unfold project; destruct (Bool.eqb (b p) _); auto.
Qed.
Lemma stuck_run q ms : Forall is_meas ms -> forall x, stuck q x -> Forall (stuck q) (run ms x).
Proof.
  induction 1 as [|o ms M _ IH]; intros x S; simpl; [constructor; auto|].
  destruct o; try destruct M. cbn [run_op]. pose proof (stuck_meas q (combine qs cs) x S) as F.
  apply Forall_forall. intros y I. apply in_flat_map in I. destruct I as (z & Iz & Iy).
  rewrite Forall_forall in F. specialize (IH z (F z Iz)). rewrite Forall_forall in IH. auto.
Qed.

(** Missing: a later operation reads the bit of the removed measurement. *)
Theorem C39_classical_control_refuted : exists l l', ops_ok l /\ Forall fin_op l /\ Forall local l /\
  remove_final_measurements 2 50 l = Done l' /\ forall ms, Forall is_meas ms -> ~ same_dist l (l' ++ ms).
Proof.
  exists [meas1 0 0; OClass (CBit 0 1 kEq) (xop 1)]. eexists. split; [|split; [|split; [|split; [reflexivity|]]]].
  - oks.
  - repeat constructor; simpl; tauto.
  - repeat constructor.
  - intros ms M D. specialize (D (ket 2 [0], bits_at [])). set (b0 := (ket 2 [0], bits_at [])) in D.
    assert (S0 : stuck 1 b0). { intros b B. unfold b0, ket. simpl. rewrite B. simpl. rewrite andb_false_r. reflexivity. }
    assert (Q : run [OClass (CBit 0 1 kEq) (xop 1)] b0 = [b0]) by reflexivity.
    match type of D with Permutation _ (run (?l' ++ _) _) => change l' with [OClass (CBit 0 1 kEq) (xop 1)] in D end.
    rewrite run_app, Q in D.
    rewrite fm1 in D.
    assert (I : In (flip 1 (project 0 true (fst b0)), setb (snd b0) 0 true) (run [meas1 0 0; OClass (CBit 0 1 kEq) (xop 1)] b0)).
    { eapply run_in; [right; left; reflexivity|]. rewrite run_one.
      match goal with |- In _ (run_op _ ?y) => change (In (flip 1 (project 0 true (fst b0)), setb (snd b0) 0 true) (run_op (xop 1) y)) end.
      rewrite run_xop. left. reflexivity. }
    apply (Permutation_in _ D) in I. pose proof (stuck_run 1 ms M b0 S0) as F. rewrite Forall_forall in F.
    specialize (F _ I (fun _ => true) eq_refl). cbv -[IZR] in F. exact (C1_neq_C0 F).
Qed.
Print Assumptions C39_classical_control_refuted.

(** Missing: a compound operation that ends in measurements goes as a whole. *)
Theorem C39_compound_refuted : exists l l', ops_ok l /\ Forall local l /\ bits_final l /\
  remove_final_measurements 1 50 l = Done l' /\ forall ms, Forall is_meas ms -> ~ same_dist l (l' ++ ms).
Proof.
  exists [OComp false [xop 0; meas1 0 0]]. eexists. split; [|split; [|split; [|split; [reflexivity|]]]].
  - oks. apply op_ok_comp. oks.
  - repeat constructor.
  - intros [|[|i]] qs cs c j o N; discriminate.
  - intros ms M D. specialize (D (ket 1 [], bits_at [])). set (b0 := (ket 1 [], bits_at [])) in D.
    assert (S0 : stuck 0 b0). { intros b B. unfold b0, ket. simpl. rewrite B. reflexivity. }
    cbn [app] in D.
    assert (I : In (project 0 true (flip 0 (fst b0)), setb (snd b0) 0 true) (run [OComp false [xop 0; meas1 0 0]] b0)).
    { rewrite run_one, run_comp. eapply run_in; [rewrite run_xop; left; reflexivity|]. right. left. reflexivity. }
    apply (Permutation_in _ D) in I. pose proof (stuck_run 0 ms M b0 S0) as F. rewrite Forall_forall in F.
    specialize (F _ I (fun _ => true) eq_refl). cbv -[IZR] in F. exact (C1_neq_C0 F).
Qed.
Print Assumptions C39_compound_refuted.

(** Missing: the pass does not terminate on nested compound operations. *)
Theorem C39_termination_refuted : exists l, ops_ok l /\ forall fuel, remove_final_measurements 1 fuel l = Fuel.
Proof.
  set (l := [OComp false [OComp false [meas1 0 0]]]). exists l. split; [unfold l; oks; apply op_ok_comp; oks; apply op_ok_comp; oks|].
  intros fuel. unfold remove_final_measurements. cbn [Nat.eqb]. set (s := (l, _)).
  assert (B : forall r, final_body r 0 0 s = Done s) by reflexivity.
  assert (L : forall f, final_loop 1 f 0 None s = Fuel).
  { induction f as [|f IH]; [reflexivity|]. cbn [final_loop]. replace (sit s 0) with [0] by reflexivity. rewrite B. exact IH. }
  destruct fuel as [|fuel]; [reflexivity|]. cbn [final_rec]. replace (sit s 0) with [0] by reflexivity. rewrite L. reflexivity.
Qed.
Print Assumptions C39_termination_refuted.

Example C39_ex :
  remove_final_measurements 2 50 [mk_h 0; meas1 0 0; mk_h 1; OStd {| o_type := gBarrier; o_par := []; o_ctl := []; o_tgt := [0; 1] |}; meas1 1 1]
    = Done [mk_h 0; mk_h 1] /\
  remove_final_measurements 2 50 [mk_h 0; meas1 0 0; mk_h 0; meas1 0 0] = Done [mk_h 0; meas1 0 0; mk_h 0] /\
  remove_final_measurements 2 50 [OMeas [0; 1] [0; 1]; mk_h 1] = Done [OMeas [0; 1] [0; 1]; mk_h 1].
Proof. repeat split; reflexivity. Qed.

(** ** C40: deferMeasurements. [order] is the iteration order of the
    unordered_map; the branches stay the same up to their order. *)
Theorem C40_defer_partial : forall order fuel l, (forall m, Permutation m (order m)) -> length l < fuel ->
  Forall local l -> (forall qs cs, In (OMeas qs cs) l -> length qs = length cs) -> deferrable l ->
  defer_measurements order fuel l = Throws \/
  exists l', defer_measurements order fuel l = Done l' /\ same_dist l l'.
Proof. exact defer_measurements_sound. Qed.
Print Assumptions C40_defer_partial.

(** Missing: the controlled gate is placed behind the last operation on the
    measured qubit, which may be in front of operations on its target. *)
Theorem C40_order_refuted : exists l l', ops_ok l /\ Forall local l /\
  defer_measurements (fun m => m) 30 l = Done l' /\
  exists b n k m, prob n k m (run l b) <> prob n k m (run l' b).
Proof.
  exists [meas1 0 0; zop1 0; mk_cx 1 2; OClass (CBit 0 1 kEq) (xop 1); meas1 2 1].
  exists [zop1 0; mk_cx 0 1; mk_cx 1 2; meas1 2 1; meas1 0 0].
  split; [|split; [|split; [reflexivity|]]].
  - oks.
  - repeat constructor.
  - exists (ket 3 [0], bits_at []), 3, 2, (bits_at [0; 1]). apply neq_01; [calc|calc].
Qed.
Print Assumptions C40_order_refuted.

(** Missing: the operation behind an erased measurement is skipped, so of two
    adjacent measurements only one is deferred. *)
Theorem C40_skip_refuted : exists l l', ops_ok l /\ deferrable l /\
  defer_measurements (fun m => m) 30 l = Done l' /\
  exists pre mid post c o, l' = pre ++ OMeas [1] [c] :: mid ++ OClass (CBit c 1 kEq) o :: post.
Proof.
  exists [meas1 0 0; meas1 1 1; OClass (CBit 0 1 kEq) (xop 2); OClass (CBit 1 1 kEq) (xop 3)]. eexists.
  split; [|split; [|split; [reflexivity|]]].
  - oks.
  - assert (D : forall c, c < 2 -> forall q t, q < 2 -> t < 2 -> Forall (ok_after q c) [OClass (CBit 0 1 kEq) (xop 2); OClass (CBit 1 1 kEq) (xop 3)]).
    { intros c C q t Q T. constructor; [|constructor; [|constructor]].
      - destruct (Nat.eq_dec c 0) as [->|N]; [right; do 3 eexists; split; [reflexivity|]; split; [left; reflexivity|]; simpl; intuition lia|].
        left. simpl. intuition lia.
      - destruct (Nat.eq_dec c 1) as [->|N]; [right; do 3 eexists; split; [reflexivity|]; split; [left; reflexivity|]; simpl; intuition lia|].
        left. simpl. intuition lia. }
    intros a q c r E. destruct a as [|x a]; inversion E; subst; clear E.
    + constructor; [left; simpl; intuition lia|]. apply (D 0) with (t := 0); lia.
    + destruct a as [|y a]; inversion H1; subst; clear H1.
      * apply (D 1) with (t := 0); lia.
      * destruct a as [|z a]; inversion H2; subst; clear H2.
        destruct a as [|w a]; inversion H1; subst; clear H1. destruct a; discriminate.
  - exists [], [mk_cx 0 2], [meas1 0 0], 1, (xop 3). reflexivity.
Qed.

(** Missing: a gate other than a diagonal one on the measured qubit is not
    rejected. *)
Theorem C40_gate_refuted : exists l l', ops_ok l /\ Forall local l /\
  defer_measurements (fun m => m) 30 l = Done l' /\
  exists b n k m, prob n k m (run l b) <> prob n k m (run l' b).
Proof.
  exists [meas1 0 0; xop 0], [xop 0; meas1 0 0]. split; [oks|]. split; [repeat constructor|]. split; [reflexivity|].
  exists (ket 1 [], bits_at []), 1, 1, (bits_at [0]). apply neq_01; calc.
Qed.
Print Assumptions C40_gate_refuted.
(** Missing: comparisons other than [==] are taken for [==]. *)
Theorem C40_comparison_refuted : exists l l', ops_ok l /\ Forall local l /\
  defer_measurements (fun m => m) 30 l = Done l' /\
  exists b n k m, prob n k m (run l b) <> prob n k m (run l' b).
Proof.
  exists [meas1 0 0; OClass (CBit 0 1 kNeq) (xop 1); meas1 1 1], [mk_cx 0 1; meas1 1 1; meas1 0 0].
  split; [oks|]. split; [repeat constructor|]. split; [reflexivity|].
  exists (ket 2 [0], bits_at []), 2, 2, (bits_at [0; 1]). apply neq_01; calc.
Qed.
Print Assumptions C40_comparison_refuted.
(** Missing: a classically controlled operation in a compound operation. *)
Theorem C40_compound_refuted : exists l l', ops_ok l /\ Forall local l /\
  defer_measurements (fun m => m) 30 l = Done l' /\
  exists b n k m, prob n k m (run l b) <> prob n k m (run l' b).
Proof.
  exists [meas1 0 0; OComp false [OClass (CBit 0 1 kEq) (xop 1)]; meas1 1 1].
  exists [OComp false [OClass (CBit 0 1 kEq) (xop 1)]; meas1 1 1; meas1 0 0].
  split; [oks; apply op_ok_comp; oks|]. split; [repeat constructor|]. split; [reflexivity|].
  exists (ket 2 [0], bits_at []), 2, 2, (bits_at [0; 1]). apply neq_10; calc.
Qed.
Print Assumptions C40_compound_refuted.

Example C40_ex :
  defer_measurements (@rev _) 30 [meas1 0 0; mk_h 1; OClass (CBit 0 1 kEq) (xop 2); OClass (CReg 0 1 0 kEq) (mk_h 3); meas1 1 1]
  = Done [mk_h 1; mk_cx 0 2; OStd {| o_type := gH; o_par := []; o_ctl := [(0, false)]; o_tgt := [3] |}; meas1 1 1; meas1 0 0].
Proof. reflexivity. Qed.

(** ** C41: eliminateResets. The new circuit has [N] qubits, the additional ones
    start in state 0. *)
Theorem C41_resets_partial : forall n l, Forall (elim_op n) l -> exists N l',
  eliminate_resets n 0 l = Done (N, l') /\ n <= N /\
  forall psi s k m, on_qubits n psi -> prob n k m (run l (psi, s)) = prob N k m (run l' (with_zeros n N psi, s)).
Proof. exact eliminate_resets_sound. Qed.
Print Assumptions C41_resets_partial.

(** Missing: a compound operation in a compound operation keeps its qubits. *)
Theorem C41_nested_refuted : exists n l N l', ops_ok l /\ eliminate_resets n 0 l = Done (N, l') /\
  prob n 1 (bits_at [0]) (run l (ket n [], bits_at [])) <> prob N 1 (bits_at [0]) (run l' (ket N [], bits_at [])).
Proof.
  exists 1, [OReset [0]; OComp false [OComp false [xop 0]]; meas1 0 0]. eexists. eexists.
  split; [oks; apply op_ok_comp; oks; apply op_ok_comp; oks|]. split; [reflexivity|]. apply neq_10; calc.
Qed.
Print Assumptions C41_nested_refuted.
(** Missing: so does one under classical control. *)
Theorem C41_classical_control_refuted : exists n l N l', ops_ok l /\ eliminate_resets n 0 l = Done (N, l') /\
  prob n 1 (bits_at [0]) (run l (ket n [], bits_at [])) <> prob N 1 (bits_at [0]) (run l' (ket N [], bits_at [])).
Proof.
  exists 1, [OReset [0]; OClass (CBit 0 0 kEq) (OComp false [xop 0]); meas1 0 0]. eexists. eexists.
  split; [oks; apply (proj2 (op_ok_comp false [xop 0])); oks|]. split; [reflexivity|]. apply neq_10; calc.
Qed.
Print Assumptions C41_classical_control_refuted.
(** Missing: a reset in a compound operation stays if it is the first one. *)
Theorem C41_first_refuted : exists n l N l' cu m, ops_ok l /\ eliminate_resets n 0 l = Done (N, l') /\
  In (OComp cu m) l' /\ In (OReset [0]) m.
Proof.
  exists 1, [OComp false [xop 0; OReset [0]]; meas1 0 0]. do 4 eexists.
  split; [oks; apply op_ok_comp; oks|]. split; [reflexivity|]. split; [left; reflexivity|right; left; reflexivity].
Qed.
(** Missing: a circuit with ancillary qubits is rejected. *)
Theorem C41_ancilla_refuted : forall n a l q, 0 < a -> eliminate_resets n a (OReset [q] :: l) = Throws.
Proof. intros n [|a] l q A; [lia|]. reflexivity. Qed.

Example C41_ex :
  eliminate_resets 2 0 [xop 0; OReset [0]; OClass (CBit 0 1 kEq) (xop 0); OComp false [mk_cx 0 1; OReset [0; 1]; xop 1]; meas1 0 0]
  = Done (5, [xop 0; OClass (CBit 0 1 kEq) (xop 2); OComp false [mk_cx 2 1; xop 4]; meas1 3 0]).
Proof. reflexivity. Qed.

(** ** C42: collectBlocks, for a circuit of [nq] qubits and blocks of [max]
    qubits, unitary up to the measurements at its end. *)
Theorem C42_blocks_partial : forall nq max us ms, nq <= max -> Forall (small nq) us ->
  Forall (fun o => exists qs cs, o = OMeas qs cs) ms -> same_run (us ++ ms) (collect_blocks max (us ++ ms)).
Proof. exact collect_blocks_sound. Qed.
Print Assumptions C42_blocks_partial.

(** The width of the blocks: whatever the pass writes out lies within the qubits
    of one operation of the circuit or acts on at most [max] qubits. [used] is what
    getUsedQubits reports; it misses qubits only of a block under a condition. *)
Theorem C42_width : forall max l, 0 < max -> Forall (fun o => incl (touched o) (used o)) l -> forall o, In o (collect_blocks max l) ->
  (exists o0, In o0 l /\ incl (touched o) (touched o0)) \/ exists qs, length qs <= max /\ incl (touched o) qs.
Proof. exact collect_narrow. Qed.
Print Assumptions C42_width.
Definition cccx : cop := OStd {| o_type := gX; o_par := []; o_ctl := [(0, true); (1, true); (2, true)]; o_tgt := [4] |}.
Example C42_width_ex :
  collect_blocks 3 [mk_h 0; mk_cx 0 1; mk_cx 1 2; mk_cx 2 3; xop 0; mk_cx 3 4; cccx; mk_h 4; meas1 3 0]
  = [OComp false [mk_h 0; mk_cx 0 1; mk_cx 1 2]; OComp false [mk_cx 2 3; mk_cx 3 4]; xop 0; cccx; mk_h 4; meas1 3 0].
Proof. reflexivity. Qed.

(** Missing: smaller blocks. An operation is moved forward into an open block,
    past operations on its qubits that have already been written out. *)
Theorem C42_order_refuted : exists l, ops_ok l /\ Forall (fun o => length (used o) <= 2) l /\ ~ same_run l (collect_blocks 2 l).
Proof.
  exists [xop 3; xop 3; mk_cx 0 2; mk_cx 0 1; zop1 2; mk_cx 3 2].
  split; [oks|]. split; [repeat constructor|]. intros S. specialize (S (ket 4 [0], bits_at [])).
  assert (E : collect_blocks 2 [xop 3; xop 3; mk_cx 0 2; mk_cx 0 1; zop1 2; mk_cx 3 2] =
    [OComp false [xop 3; xop 3; zop1 2; mk_cx 3 2]; mk_cx 0 2; mk_cx 0 1]) by reflexivity.
  rewrite E in S. rewrite run_comp_cons in S. cbn [app] in S. unfold xop, mk_cx, zop1 in S. rewrite !run_std_cons in S. cbn [run] in S. unfold pushf in S.
  injection S as S.
  pose proof (f_equal (fun f : state => fst (f (fun q => q <? 3))) S) as T. clear - T.
  cbv -[Rplus Rmult Ropp IZR Rminus] in T. ring_simplify in T. lra.
Qed.
Print Assumptions C42_order_refuted.

Example C42_ex :
  collect_blocks 4 [xop 3; mk_h 3; mk_cx 0 2; mk_h 1; mk_cx 0 1; mk_h 2; mk_cx 3 2; meas1 0 0; meas1 1 1]
  = [OComp false [mk_cx 0 2; mk_h 1; mk_cx 0 1; mk_h 2; xop 3; mk_h 3; mk_cx 3 2]; meas1 0 0; meas1 1 1].
Proof. reflexivity. Qed.
