(** C93-C99: depth and counts, dynamic circuits, last operations, circuits from
    compound operations, appended operations. *)
From Coq Require Import String List Arith Bool NArith Permutation Lia.
From Verif Require Import Cplx Qsem GateModel GateSpec IRModel IRSpec IRProofs OptModel OptProofs OptSem OptFinalProofs ReorderSpec ReorderSemProofs
  QasmIfModel CircModel QueryModel CircSpec CircProofs CircKeepProofs CircStripProofs CircBuildProofs CircIOProofs QuerySpec QueryProofs QueryCircProofs QueryActProofs.
Import ListNotations.
Local Open Scope string_scope.
Local Open Scope list_scope.

Definition gx (q : nat) : stdop := {| o_type := gX; o_par := []; o_ctl := []; o_tgt := [q] |}.
Definition cx (p q : nat) : stdop := {| o_type := gX; o_par := []; o_ctl := [(p, true)]; o_tgt := [q] |}.
Definition of_acts (l : list act) : circ := match acts l empty_circ with ROk s => s | _ => empty_circ end.

(** ** C93: getDepth *)
(** The depth is the length of the longest chain of steps that each share a qubit
    with the next, and the least number of layers in which the steps can be done. *)
Theorem C93_depth_partial : forall n l, Forall timed l -> 0 < n -> (forall o q, In o l -> uses o q -> q < n) ->
  exists d, get_depth n l = Some d /\
    (exists c, chain (flat_map steps l) c /\ length c = d) /\ (forall c, chain (flat_map steps l) c -> length c <= d) /\
    (exists t, schedule (flat_map steps l) t d) /\ (forall t d', schedule (flat_map steps l) t d' -> d <= d').
Proof. intros n l T P R. apply depth_ok; auto. intros o q I J. apply (R o q I). now apply qubits_uses. Qed.
Print Assumptions C93_depth_partial.
(** In a circuit built by the public functions every qubit is in range. *)
Theorem C93_built_partial : forall l s, acts l empty_circ = ROk s -> 0 < total s -> Forall timed (c_ops s) ->
  exists d, get_depth (total s) (c_ops s) = Some d /\ (exists t, schedule (flat_map steps (c_ops s)) t d) /\ (forall t d', schedule (flat_map steps (c_ops s)) t d' -> d <= d').
Proof.
  intros l s E P T. destruct (homely_acts l _ _ homely_empty E) as (W & [G _] & F).
  destruct (C93_depth_partial (total s) (c_ops s) T P) as (d & D & _ & _ & D3 & D4); [|exists d; auto].
  intros o q I U. rewrite Forall_forall in F. destruct (F o I) as [Q _]. apply G. auto.
Qed.
Print Assumptions C93_built_partial.
(** Exchanging operations without a common qubit does not change it. *)
Theorem C93_exchange_partial : forall n l m, swaps l m -> Forall timed l -> Forall local l -> get_depth n l = get_depth n m.
Proof.
  intros n l m S T L.
  assert (P : Permutation l m) by (clear T L; induction S; [apply Permutation_refl | apply Permutation_app_head, perm_swap | eapply perm_trans; eauto]).
  assert (X : forall d, add_depths l d = add_depths m d).
  { clear P. revert T L. induction S as [l|A a b B D|l m k S1 IH1 S2 IH2]; intros T L d; auto.
    - assert (G : forall x, In x (A ++ a :: b :: B) -> forall d, add_depth x d = sync_all (steps x) d) by (intros x I; apply add_depth_steps; rewrite Forall_forall in T; auto).
      assert (H : forall x, Forall timed x -> forall d, add_depths x d = sync_all (flat_map steps x) d)
        by (intros x Tx; apply add_depths_steps; auto; apply Forall_forall; intros o _; apply add_depth_steps).
      assert (T' : Forall timed (A ++ b :: a :: B)) by (eapply Permutation_Forall; [|exact T]; apply Permutation_app_head, perm_swap).
      rewrite !H by auto. rewrite !flat_map_app. cbn [flat_map]. rewrite !sync_all_app. destruct (sync_all (flat_map steps A) d) as [d1|]; auto.
      rewrite !app_assoc, !(sync_all_app (_ ++ _)). rewrite (sync_all_comm (steps a) (steps b)); auto.
      rewrite Forall_forall in L. intros u v I J q Q R. apply (D q).
      + apply local_uses; [apply L; apply in_app_iff; simpl; auto|]. apply qubits_uses. eapply steps_qubits; eauto.
      + apply local_uses; [apply L; apply in_app_iff; simpl; auto|]. apply qubits_uses. eapply steps_qubits; eauto.
    - rewrite IH1 by auto. assert (P : Permutation l m) by (clear - S1; induction S1; [apply Permutation_refl | apply Permutation_app_head, perm_swap | eapply perm_trans; eauto]).
      apply IH2; eapply Permutation_Forall; eauto. }
  unfold get_depth. destruct l as [|o l], m as [|o' m]; auto.
  - apply Permutation_nil in P. discriminate.
  - apply Permutation_sym, Permutation_nil in P. discriminate.
  - now rewrite X.
Qed.
Print Assumptions C93_exchange_partial.
(* two gates at once, a barrier, a chain over three qubits, two measurements *)
Example C93_ex : get_depth 3 [OStd (gx 0); OStd (cx 1 2); barrier_op [0; 1; 2]; OStd (cx 0 1); OComp false [OStd (gx 2); OStd (cx 1 2)]; OMeas [0; 2] [0; 1]] = Some 4 /\
  flat_map steps [OStd (gx 0); OStd (cx 1 2); barrier_op [0; 1; 2]; OStd (cx 0 1); OComp false [OStd (gx 2); OStd (cx 1 2)]; OMeas [0; 2] [0; 1]] = [[0]; [2; 1]; [1; 0]; [2]; [2; 1]; [0]; [2]].
Proof. split; reflexivity. Qed.
(* a conditional block counts as nothing *)
Theorem C93_block_refuted : exists l, ops_ok l /\ get_depth 1 l = Some 0 /\ flat_map steps l <> [].
Proof.
  exists [OClass (CBit 0 1 kEq) (OComp false [OStd (gx 0); OStd (gx 0)])]. split; [|split; [reflexivity|discriminate]].
  constructor; [|constructor]. change (op_ok (OComp false [OStd (gx 0); OStd (gx 0)])). cbn [op_ok]. 
  assert (X : wf_op (gx 0) /\ exists f, sem (gx 0) = Some f) by (split; [split; [constructor; [intros []|constructor]|intros c []]|eexists; reflexivity]). auto.
Qed.
Print Assumptions C93_block_refuted.
(* a conditional barrier counts as an operation *)
Theorem C93_barrier_refuted : exists l, get_depth 1 l = Some 1 /\ flat_map steps l = [].
Proof. exists [OClass (CBit 0 1 kEq) (barrier_op [0])]. split; reflexivity. Qed.
Print Assumptions C93_barrier_refuted.
(* after stripping the vector has an entry for each qubit, but is accessed with physical indices *)
Theorem C93_stripped_refuted : exists a s s', acts a empty_circ = ROk s /\ stripIdleQubits false s = ROk s' /\ total s' = 1 /\ get_depth (total s) (c_ops s) = Some 1 /\ get_depth (total s') (c_ops s') = None.
Proof. exists [ACall (CQubits 2 "q"); ACall (CGarbage 0); AGate (gx 1)]. do 2 eexists. do 4 (split; [vm_compute; reflexivity|]). vm_compute. reflexivity. Qed.
Print Assumptions C93_stripped_refuted.
(* a circuit without qubits, but with a barrier: the end of an empty vector is dereferenced *)
Theorem C93_empty_refuted : exists a s, acts a empty_circ = ROk s /\ get_depth (total s) (c_ops s) = None.
Proof. exists [ABarrierAll]. eexists. split; [vm_compute; reflexivity|]. reflexivity. Qed.
Print Assumptions C93_empty_refuted.

(** ** C94: isDynamic *)
Lemma max_key_le m q : In q (map fst m) -> q <= max_key m.
Proof. induction m as [|[a b] m IH]; [intros []|]. intros [<-|I]; [unfold max_key; simpl; lia|]. specialize (IH I). revert IH. unfold max_key. simpl. lia. Qed.
(** The answer is no exactly if the circuit, unfolded, has gates and measurements
    only and no gate acts on a qubit after its measurement. *)
Theorem C94_exact : forall s, (forall o q, In o (c_ops s) -> uses o q -> In q (map fst (c_lay s))) ->
  exists b, is_dynamic s = Some b /\ (b = false <-> static (flat_map leaves (c_ops s))).
Proof. intros s H. apply is_dynamic_ok. intros o q I J. apply max_key_le. apply (H o q I). now apply qubits_uses. Qed.
Print Assumptions C94_exact.
(** Then all measurements can be moved behind all gates. *)
Theorem C94_deferred : forall s, (forall o q, In o (c_ops s) -> uses o q -> In q (map fst (c_lay s))) -> is_dynamic s = Some false ->
  let L := flat_map leaves (c_ops s) in same_dist (c_ops s) (gates L ++ measurements L).
Proof.
  intros s H E L. destruct (C94_exact s H) as (b & B & S). rewrite E in B. inversion B; subst b.
  apply (sd_trans _ L); [apply sd_sym, sd_same, leaves_run|]. apply deferred. now apply S.
Qed.
Print Assumptions C94_deferred.
Theorem C94_built : forall l s, acts l empty_circ = ROk s -> exists b, is_dynamic s = Some b /\ (b = false <-> static (flat_map leaves (c_ops s))).
Proof.
  intros l s E. apply C94_exact. destruct (homely_acts l _ _ homely_empty E) as (_ & _ & F). intros o q I U. rewrite Forall_forall in F. destruct (F o I) as [Q _]. auto.
Qed.
Print Assumptions C94_built.
Example C94_ex :
  let s := of_acts [ACall (CQubits 2 "q"); ACall (CBits 2 "c"); AGate (gx 0); AMeasure [0] [0]; AGate (gx 1); AMeasure [1] [1]] in
  is_dynamic s = Some false /\ gates (c_ops s) ++ measurements (c_ops s) = [OStd (gx 0); OStd (gx 1); OMeas [0] [0]; OMeas [1] [1]] /\
  is_dynamic (emit (OStd (cx 1 0)) s) = Some true /\ is_dynamic (emit (OReset [0]) s) = Some true /\
  is_dynamic (emit (OComp false [OMeas [1] [0]; OComp true [OStd (gx 1)]]) s) = Some true.
Proof. repeat split. Qed.
(* a barrier behind a measurement makes the circuit dynamic, although it does nothing *)
Theorem C94_barrier_refuted : exists a s, acts a empty_circ = ROk s /\ is_dynamic s = Some true /\ same_run (c_ops s) [OMeas [0] [0]].
Proof. exists [ACall (CQubits 1 "q"); ACall (CBits 1 "c"); AMeasure [0] [0]; ABarrierAll]. eexists. split; [vm_compute; reflexivity|]. split; [reflexivity|]. intros b. reflexivity. Qed.
Print Assumptions C94_barrier_refuted.

(** ** C95: isLastOperationOnQubit *)
Theorem C95_exact : forall n o rest, is_last n o rest = true <-> forall p q, In p rest -> q < n -> uses o q -> ~ uses p q.
Proof. exact is_last_ok. Qed.
Print Assumptions C95_exact.
(** Such an operation can be moved to the end, if it has no classical bits in
    common with the others. *)
Theorem C95_move : forall n o rest, is_last n o rest = true -> (forall q, uses o q -> q < n) -> Forall local (o :: rest) -> (forall p, In p rest -> no_race o p) ->
  same_dist (o :: rest) (rest ++ [o]).
Proof.
  intros n o rest H R L N. inversion L; subst. apply move_last; auto. intros p I. split; auto. intros q U V.
  apply used_uses in U, V. rewrite is_last_ok in H. exact (H p q I (R q U) U V).
Qed.
Print Assumptions C95_move.
Example C95_ex : is_last 3 (OStd (cx 0 1)) [OStd (gx 2); OMeas [2] [0]] = true /\ is_last 3 (OStd (cx 0 1)) [OStd (gx 2); OComp false [OMeas [0] [0]]] = false.
Proof. split; reflexivity. Qed.
(* after stripping the highest qubits are not looked at *)
Theorem C95_stripped_refuted : exists a s s', acts a empty_circ = ROk s /\ stripIdleQubits false s = ROk s' /\ c_ops s' = [OStd (gx 1); OMeas [1] [0]] /\
  is_last (total s') (OStd (gx 1)) [OMeas [1] [0]] = true.
Proof. exists [ACall (CQubits 2 "q"); ACall (CBits 1 "c"); ACall (CGarbage 0); AGate (gx 1); AMeasure [1] [0]]. do 2 eexists. do 3 (split; [vm_compute; reflexivity|]). reflexivity. Qed.
Print Assumptions C95_stripped_refuted.

(** ** C96: fromCompoundOperation *)
Theorem C96_circuit_partial : forall cu l, exists s, fromCompoundOperation l = ROk s /\ well_kept s /\ gapless s /\
  (Forall only_eq l -> c_ops s = l /\ forall b, run (c_ops s) b = run_op (OComp cu l) b) /\
  (Forall tame l -> forall o, In o (c_ops s) -> at_home s o).
Proof.
  intros cu l. destruct (from_compound_ok l) as (s & E & W & G & O & F). exists s. split; auto. split; auto. split; auto. split.
  - intros Q. assert (X : c_ops s = l).
    { rewrite O. clear - Q. induction Q as [|o l H _ IH]; simpl; auto. now rewrite IH, clone_ok. }
    split; auto. intros b. rewrite X, run_comp. reflexivity.
  - intros T o I. specialize (F T). rewrite Forall_forall in F. auto.
Qed.
Print Assumptions C96_circuit_partial.
Example C96_ex : exists s, fromCompoundOperation [OStd (gx 0); OStd (cx 0 3); OMeas [3; 1] [1; 0]] = ROk s /\ total s = 4 /\ c_nc s = 2 /\
  Forall tame [OStd (gx 0); OStd (cx 0 3); OMeas [3; 1] [1; 0]].
Proof. eexists. split; [vm_compute; reflexivity|]. split; [reflexivity|]. split; [reflexivity|]. repeat constructor. Qed.
(* a measurement in an inner block: its bit is not in the circuit *)
Theorem C96_inner_refuted : exists l s, fromCompoundOperation l = ROk s /\ c_nc s = 1 /\ exists o c, In o (c_ops s) /\ In c (cwrites o) /\ c_nc s <= c.
Proof. exists [OComp false [OMeas [0] [3]]]. eexists. split; [vm_compute; reflexivity|]. split; [reflexivity|]. do 2 eexists. split; [left; reflexivity|]. split; [left; reflexivity|]. simpl. lia. Qed.
Print Assumptions C96_inner_refuted.
(* a condition reads a bit that is not in the circuit *)
Theorem C96_condition_refuted : exists l s, fromCompoundOperation l = ROk s /\ exists o c, In o (c_ops s) /\ In c (creads o) /\ c_nc s <= c.
Proof. exists [OClass (CBit 2 1 kEq) (OStd (gx 0))]. eexists. split; [vm_compute; reflexivity|]. do 2 eexists. split; [left; reflexivity|]. split; [left; reflexivity|]. simpl. lia. Qed.
Print Assumptions C96_condition_refuted.
(* a conditional block uses a qubit that is not in the circuit *)
Theorem C96_block_refuted : exists l s, fromCompoundOperation l = ROk s /\ exists o q, In o (c_ops s) /\ uses o q /\ ~ In q (map fst (c_lay s)).
Proof.
  exists [OClass (CBit 0 1 kEq) (OComp false [OStd (gx 2)])]. eexists. split; [vm_compute; reflexivity|]. do 2 eexists. split; [left; reflexivity|]. split.
  - cbn. apply uses_class. eapply uses_comp; [left; reflexivity|]. apply uses_target. left. reflexivity.
  - intros [X|[]]. discriminate X.
Qed.
Print Assumptions C96_block_refuted.

(** ** C97: appended measurements *)
(** The outputs are measured, each into its bit, and afterwards the bit shows the
    value of the qubit. *)
Theorem C97_outputs : forall name s s', well_kept s -> appendMeasurements name s = ROk s' ->
  c_ops s' = c_ops s ++ barrier_op (seq 0 (total s)) :: map (fun p => OMeas [fst p] [snd p]) (c_out s) /\ same_qubits s s' /\ well_kept s' /\ c_nc s <= c_nc s' /\
  (forall q c, In (q, c) (c_out s) -> In q (map fst (c_lay s)) /\ c < c_nc s' /\ shown (c_ops s') q c).
Proof.
  intros name s s' W E. destruct (append_inv name s s' E) as (O & Q & N & M). split; auto. split; auto. split; [eapply same_kept; eauto|]. split; auto.
  intros q c I. destruct (M q c I). split; auto. split; auto. rewrite O. change (c_ops s ++ barrier_op (seq 0 (total s)) :: map meas_of (c_out s)) with (c_ops s ++ [barrier_op (seq 0 (total s))] ++ map meas_of (c_out s)).
  rewrite app_assoc. apply shown_app; auto. apply W.
Qed.
Print Assumptions C97_outputs.
Theorem C97_runs_partial : forall name s, well_kept s -> c_bregs s = [] -> c_out s <> [] -> (forall q c, In (q, c) (c_out s) -> c < c_nc s + length (c_out s)) ->
  exists s', appendMeasurements name s = ROk s'.
Proof. exact append_runs. Qed.
Print Assumptions C97_runs_partial.
(** The outputs are found again in the measurements. *)
Theorem C97_back : forall name s s', well_kept s -> gapless s -> existsb is_meas (c_ops s) = false -> appendMeasurements name s = ROk s' ->
  exists s2, initializeIOMapping s' = ROk s2 /\ c_ops s2 = c_ops s' /\ (forall q c, In (q, c) (c_out s2) <-> In (q, c) (c_out s)).
Proof. exact append_back. Qed.
Print Assumptions C97_back.
(** measureAll measures every qubit into a new register. *)
Theorem C97_all : forall s, well_kept s -> gapless s -> 0 < total s -> reg_has "meas" (c_bregs s) = false ->
  exists s', measureAll true s = ROk s' /\ same_qubits s s' /\ c_nc s' = c_nc s + total s /\ forall q, q < total s -> shown (c_ops s') q (c_nc s + q).
Proof.
  intros s W G T R. destruct (measure_all_ok s W G T R) as (s' & E & Q & N & O). exists s'. split; auto. split; auto. split; auto. intros q H. rewrite O.
  set (P := map (fun i => (i, c_nc s + i)) (rev (seq 0 (total s)))).
  change (c_ops s ++ barrier_op (seq 0 (total s)) :: map meas_of P) with (c_ops s ++ [barrier_op (seq 0 (total s))] ++ map meas_of P). rewrite app_assoc.
  apply shown_app; unfold P.
  - rewrite map_map. cbn [snd]. apply FinFun.Injective_map_NoDup; [intros x y; lia|]. apply NoDup_rev, seq_NoDup.
  - apply in_map_iff. exists q. split; auto. rewrite <- in_rev. apply in_seq. lia.
Qed.
Print Assumptions C97_all.
Example C97_ex :
  let s := {| c_nq := 2; c_na := 0; c_nc := 0; c_qregs := [("q", (0, 2))]; c_aregs := []; c_bregs := []; c_lay := [(0, 0); (1, 1)]; c_out := [(0, 1); (1, 0)];
              c_anc := [false; false]; c_gar := [false; false]; c_ops := [OStd (gx 0)] |} in
  exists s', appendMeasurements "c" s = ROk s' /\ c_ops s' = [OStd (gx 0); barrier_op [0; 1]; OMeas [0] [1]; OMeas [1] [0]] /\ c_bregs s' = [("c", (0, 2))].
Proof. eexists. split; [vm_compute; reflexivity|]. split; reflexivity. Qed.
(* qubit 0 is garbage: one output, hence one new bit, but the output is number 1 *)
Theorem C97_garbage_refuted : exists a s, acts a empty_circ = ROk s /\ well_kept s /\ c_out s = [(1, 1)] /\ appendMeasurements "c" s = RError.
Proof.
  exists [ACall (CQubits 2 "q"); ACall (CGarbage 0)]. eexists. split; [vm_compute; reflexivity|].
  split; [apply (homely_acts [ACall (CQubits 2 "q"); ACall (CGarbage 0)] empty_circ); [apply homely_empty|reflexivity]|]. split; reflexivity.
Qed.
Print Assumptions C97_garbage_refuted.
(* after stripping measureAll asks for qubits that are gone *)
Theorem C97_stripped_refuted : exists a s s', acts a empty_circ = ROk s /\ stripIdleQubits false s = ROk s' /\ well_kept s' /\ total s' = 1 /\ measureAll true s' = RError.
Proof.
  exists [ACall (CQubits 2 "q"); ACall (CGarbage 0); AGate (gx 1)]. do 2 eexists. split; [vm_compute; reflexivity|]. split; [vm_compute; reflexivity|]. split; [|split; reflexivity].
  assert (W : well_kept (of_acts [ACall (CQubits 2 "q"); ACall (CGarbage 0); AGate (gx 1)])) by (apply (homely_acts [ACall (CQubits 2 "q"); ACall (CGarbage 0); AGate (gx 1)] empty_circ); [apply homely_empty|reflexivity]).
  destruct (strip_ok (of_acts [ACall (CQubits 2 "q"); ACall (CGarbage 0); AGate (gx 1)])) as (s1 & E & [K _] & _).
  - split; auto. split; intros a b I J _; vm_compute in I, J; intuition congruence.
  - vm_compute in E. inversion E; subst s1. exact K.
Qed.
Print Assumptions C97_stripped_refuted.

(** ** C98: appended operations refer to the circuit only *)
Theorem C98_built : forall l s, acts l empty_circ = ROk s -> forall o, In o (c_ops s) -> at_home s o.
Proof. intros l s E o I. destruct (homely_acts l _ _ homely_empty E) as (_ & _ & F). rewrite Forall_forall in F. auto. Qed.
Print Assumptions C98_built.
(** Stripping idle qubits keeps this. *)
Theorem C98_strip : forall s s', tidy s -> Forall (at_home s) (c_ops s) -> stripIdleQubits false s = ROk s' -> Forall (at_home s') (c_ops s').
Proof. exact strip_home. Qed.
Print Assumptions C98_strip.
(** A call that is refused was out of range. *)
Theorem C98_refused : forall o s, well_kept s -> add_gate o s = RError <-> exists q, uses (OStd o) q /\ ~ In q (map fst (c_lay s)).
Proof.
  intros o s W. unfold add_gate, check. destruct (forallb (qubit_ok s) (o_tgt o ++ map fst (o_ctl o))) eqn:E.
  - split; [discriminate|]. intros (q & U & N). exfalso. apply N. apply (std_home s o E). exact U.
  - split; auto. intros _. assert (X : existsb (fun q => negb (qubit_ok s q)) (o_tgt o ++ map fst (o_ctl o)) = true).
    { clear - E. induction (o_tgt o ++ map fst (o_ctl o)) as [|q l IH]; [discriminate|]. simpl in *. destruct (qubit_ok s q); auto. }
    apply existsb_exists in X as (q & I & J). exists q. split; [apply qubits_uses; exact I|]. intros K. apply (qubit_ok_in s q W) in K. rewrite K in J. discriminate.
Qed.
Print Assumptions C98_refused.
(** So was a measurement, or it had not as many bits as qubits. *)
Theorem C98_measure : forall qs cs s, well_kept s ->
  (exists s', add_measure qs cs s = ROk s' /\ c_ops s' = c_ops s ++ [OMeas qs cs]) <->
  (forall q, In q qs -> In q (map fst (c_lay s))) /\ (forall b, In b cs -> b < c_nc s) /\ length qs = length cs.
Proof.
  intros qs cs s W. unfold add_measure, check.
  assert (A : forallb (qubit_ok s) qs = true <-> (forall q, In q qs -> In q (map fst (c_lay s)))).
  { split; [intros H q I; now apply (qubits_in s _ H)|]. intros H. apply forallb_forall. intros q I. apply (qubit_ok_in s q W); auto. }
  assert (B : forallb (fun b => Nat.ltb b (c_nc s)) cs = true <-> (forall b, In b cs -> b < c_nc s)).
  { rewrite forallb_forall. split; intros H b I; apply Nat.ltb_lt; auto. }
  rewrite <- A, <- B, <- Nat.eqb_eq.
  destruct (forallb (qubit_ok s) qs); [|split; [intros (x & X & _)|intros [X _]]; discriminate].
  destruct (forallb (fun b => Nat.ltb b (c_nc s)) cs); [|split; [intros (x & X & _)|intros (_ & X & _)]; discriminate].
  destruct (Nat.eqb (length qs) (length cs)); [|split; [intros (x & X & _)|intros (_ & _ & X)]; discriminate].
  split; auto. intros _. eexists. split; reflexivity.
Qed.
Print Assumptions C98_measure.
Example C98_ex : acts [ACall (CQubits 2 "q"); ACall (CBits 1 "c"); AGate (cx 0 1); AMeasure [1] [0]; AClassicBit (gx 0) 0 1 kEq; ABarrierAll] empty_circ <> RError /\
  acts [ACall (CQubits 2 "q"); AGate (cx 0 2)] empty_circ = RError /\ acts [ACall (CQubits 2 "q"); ACall (CBits 1 "c"); AClassic (gx 0) 0 2 0 kEq] empty_circ = RError.
Proof. split; [vm_compute; discriminate|]. split; reflexivity. Qed.
(* after stripping, barrier() covers qubits that are gone and misses one that is there *)
Theorem C98_barrier_refuted : exists a s s', acts a empty_circ = ROk s /\ stripIdleQubits false s = ROk s' /\ map fst (c_lay s') = [1] /\ c_ops (add_barrier_all s') = [OStd (gx 1); barrier_op [0]].
Proof. exists [ACall (CQubits 2 "q"); ACall (CGarbage 0); AGate (gx 1)]. do 2 eexists. do 2 (split; [vm_compute; reflexivity|]). split; reflexivity. Qed.
Print Assumptions C98_barrier_refuted.
(* a control that is the target, and a qubit measured twice, are accepted *)
Theorem C98_twice_refuted : exists a s o, acts a empty_circ = ROk s /\ In (OStd o) (c_ops s) /\ ~ wf_op o.
Proof.
  exists [ACall (CQubits 1 "q"); AGate (cx 0 0)]. do 2 eexists. split; [vm_compute; reflexivity|]. split; [left; reflexivity|]. intros [_ H]. apply (H (0, true)); simpl; auto.
Qed.
Print Assumptions C98_twice_refuted.

(** ** C99: counts *)
Theorem C99_individual_partial : forall l, Forall shallow l -> individual_ops l = length (flat_map leaves l).
Proof. exact individual_ok. Qed.
Print Assumptions C99_individual_partial.
Theorem C99_single_partial : forall l, Forall shallow l -> single_qubit_ops l = length (filter lone (flat_map leaves l)).
Proof. exact single_ok. Qed.
Print Assumptions C99_single_partial.
Example C99_ex : let l := [OStd (gx 0); OComp true [OStd (gx 1); OStd (cx 0 1); OMeas [0] [0]]; OReset [1]; OClass (CBit 0 1 kEq) (OStd (gx 0))] in
  individual_ops l = 6 /\ single_qubit_ops l = 2.
Proof. split; reflexivity. Qed.
(* a block within a block counts as one operation, and its gates are not seen *)
Theorem C99_nested_refuted : exists l, individual_ops l = 1 /\ single_qubit_ops l = 0 /\ length (filter lone (flat_map leaves l)) = 2.
Proof. exists [OComp false [OComp false [OStd (gx 0); OStd (gx 0)]]]. repeat split. Qed.
Print Assumptions C99_nested_refuted.
