(** C81-C83: registers, layouts, ancillary and garbage qubits of a circuit. *)
From Coq Require Import String List Arith Bool Permutation Lia.
From Verif Require Import GateModel IRModel OptModel QasmIfModel CircModel CircSpec CircProofs CircKeepProofs CircStripProofs CircBuildProofs CircIOProofs CircAddProofs.
Import ListNotations.
Local Open Scope list_scope.
Local Open Scope string_scope.

(** ** C81 *)
(** Whatever sequence of calls builds a circuit: if none of them fails, the layout
    is a bijection, every qubit is in one register, outputs are distinct qubits,
    ancillary qubits are counted and garbage is no output. *)
Theorem C81_built : forall cs s, calls cs empty_circ = ROk s -> well_kept s /\ gapless s.
Proof. intros cs s H. destruct empty_kept as [W C]. destruct (calls_ok cs _ _ W C H) as [W' C']. split; [exact W' | apply C']. Qed.
Print Assumptions C81_built.
(** Also after qubits have been removed: *)
Theorem C81_marked : forall s l, well_kept s -> l < total s ->
  (exists s', setLogicalQubitAncillary l s = ROk s' /\ well_kept s' /\ total s' = total s /\ (forall i, flag (c_anc s') i = Nat.eqb i l || flag (c_anc s) i)) /\
  (exists s', setLogicalQubitGarbage l s = ROk s' /\ well_kept s' /\ total s' = total s /\ (forall i, flag (c_gar s') i = Nat.eqb i l || flag (c_gar s) i) /\
     forall p x, In (p, x) (c_out s') <-> In (p, x) (c_out s) /\ x <> l).
Proof.
  intros s l W H. split.
  - destruct (keep_ancillary l s W H) as (s' & A & B & C & _ & D & _). exists s'; auto.
  - destruct (keep_garbage l s W H) as (s' & A & B & C & _ & D & E & _). exists s'; auto.
Qed.
Print Assumptions C81_marked.
(** Single qubits, under any physical index that is not in use, also if registers
    have been split: their parts are joined again where they meet. *)
Theorem C81_ancilla_partial : forall s p o s', tidy s -> names_free (c_aregs s) "anc" p -> output_free s o ->
  addAncillaryQubit p o s = ROk s' -> tidy s'.
Proof. intros; eapply keep_ancilla; eauto. Qed.
Print Assumptions C81_ancilla_partial.
Theorem C81_qubit_partial : forall s p o s', tidy s -> names_free (c_qregs s) "q" p -> output_free s o ->
  addQubit (total s) p o s = ROk s' -> tidy s'.
Proof. intros; eapply keep_qubit; eauto. Qed.
Print Assumptions C81_qubit_partial.

Definition ux (q : nat) : cop := OStd {| o_type := gX; o_par := []; o_ctl := []; o_tgt := [q] |}.
(* two registers, an ancillary one, marks, operations *)
Example C81_built_ex : exists s,
  calls [CQubits 2 "q"; CQubits 1 "r"; CBits 2 "c"; CAncillary 1; CAncillae 2 "a"; CGarbage 3; CEmit (ux 0)] empty_circ = ROk s /\
  c_nq s = 2 /\ c_na s = 3 /\ c_lay s = [(0, 0); (1, 1); (2, 2); (3, 3); (4, 4)] /\ c_out s = [(0, 0); (1, 1); (2, 2); (4, 4)] /\
  c_anc s = [false; true; false; true; true] /\ c_gar s = [false; false; false; true; false] /\
  c_qregs s = [("q", (0, 2)); ("r", (2, 1))] /\ c_aregs s = [("a", (3, 2))].
Proof. eexists. split; [vm_compute; reflexivity |]. repeat split. Qed.
Example C81_single_ex : exists s s',
  calls [CQubits 2 "q"] empty_circ = ROk s /\ addQubit (total s) 7 None s = ROk s' /\ c_qregs s' = [("q", (0, 2)); ("q_7", (7, 1))] /\ c_lay s' = [(0, 0); (1, 1); (7, 2)] /\
  names_free (c_qregs s) "q" 7 /\ output_free s None.
Proof.
  do 2 eexists. split; [vm_compute; reflexivity |]. split; [vm_compute; reflexivity |]. do 2 (split; [vm_compute; reflexivity |]). split; [| intros x H; discriminate H].
  split; [intros a b [<- | []] [<- | []] _; reflexivity |]. intros n [<- | []] H. apply part_length in H. vm_compute in H. lia.
Qed.
(* qubit 1 of three is stripped, which splits the register, and comes back *)
Example C81_joined_ex : exists s s1 s',
  calls [CQubits 3 "q"; CGarbage 1; CEmit (ux 0); CEmit (ux 2)] empty_circ = ROk s /\ stripIdleQubits false s = ROk s1 /\ c_qregs s1 = [("q_l", (0, 1)); ("q_h", (2, 1))] /\
  names_free (c_qregs s1) "q" 1 /\ addQubit (total s1) 1 None s1 = ROk s' /\ c_qregs s' = [("q", (0, 3))] /\ c_lay s' = [(0, 0); (1, 2); (2, 1)].
Proof.
  do 3 eexists. split; [vm_compute; reflexivity |]. split; [vm_compute; reflexivity |]. split; [reflexivity |].
  split; [| split; [vm_compute; reflexivity |]; split; reflexivity].
  assert (L : forall a, part_of a "q_l" -> a = "q_l" \/ String.length a <= 1) by (intros a H; apply (part_low a "q") in H as [H | H]; [left; exact H | right; apply (part_length a "q" H)]).
  assert (R : forall a, part_of a "q_h" -> a = "q_h" \/ String.length a <= 1) by (intros a H; apply (part_high a "q") in H as [H | H]; [left; exact H | right; apply (part_length a "q" H)]).
  split.
  - intros a b [<- | [<- | []]] [<- | [<- | []]] H; try reflexivity; exfalso; [apply R in H | apply L in H]; destruct H as [H | H]; try discriminate H; cbn in H; lia.
  - intros n [<- | [<- | []]] H; [apply L in H | apply R in H]; destruct H as [H | H]; try discriminate H; vm_compute in H; lia.
Qed.

(** A qubit inserted before others (addQubit moves the flags of the qubits behind
    it, but not their logical indices): the layout is a bijection only if it is the
    last. *)
Theorem C81_inserted : forall l p o s s', well_kept s -> addQubit l p o s = ROk s' -> (NoDup (map snd (c_lay s')) <-> l = total s).
Proof. intros; eapply add_qubit_last; eauto. Qed.
Print Assumptions C81_inserted.
Theorem C81_inserted_refuted : exists cs s s', calls cs empty_circ = ROk s /\ addQubit 0 2 (Some 2) s = ROk s' /\ ~ well_kept s'.
Proof.
  exists [CQubits 2 "q"]. do 2 eexists. split; [vm_compute; reflexivity |]. split; [vm_compute; reflexivity |]. intros W. pose proof (log_nodup _ W) as N. vm_compute in N.
  inversion N as [|x y H _]. apply H. simpl; auto.
Qed.
Print Assumptions C81_inserted_refuted.
(* a register added after qubits have been stripped starts at an index in use *)
Theorem C81_register_after_strip_refuted : exists cs s s1 s', calls cs empty_circ = ROk s /\ stripIdleQubits false s = ROk s1 /\ addQubitRegister 1 "r" s1 = ROk s' /\
  total s' = 3 /\ length (c_lay s') = 2 /\ ~ well_kept s'.
Proof.
  exists [CQubits 3 "q"; CGarbage 1; CEmit (ux 0); CEmit (ux 2)]. do 3 eexists. do 3 (split; [vm_compute; reflexivity |]). do 2 (split; [vm_compute; reflexivity |]).
  intros W. pose proof (Permutation_length (wk_log _ W)) as L. vm_compute in L. discriminate L.
Qed.
Print Assumptions C81_register_after_strip_refuted.
(* removeQubit on its own moves the flags but not the logical indices *)
Theorem C81_removed_refuted : exists cs s s', calls cs empty_circ = ROk s /\ removeQubit 0 s = ROk s' /\ c_lay s' = [(1, 1)] /\ total s' = 1 /\ c_anc s' = [true; false] /\ ~ well_kept s'.
Proof.
  exists [CQubits 1 "q"; CAncillae 1 "a"]. do 2 eexists. split; [vm_compute; reflexivity |]. split; [vm_compute; reflexivity |]. do 3 (split; [vm_compute; reflexivity |]).
  intros W. assert (H : 1 < 1); [| lia]. exact (log_range _ 1 1 W ltac:(simpl; auto)).
Qed.
Print Assumptions C81_removed_refuted.
(* reset keeps the flags: they come back with the next qubits *)
Theorem C81_reset_refuted : exists cs s s', calls cs empty_circ = ROk s /\ addQubitRegister 1 "q" (reset s) = ROk s' /\ c_na s' = 0 /\ c_anc s' = [true] /\ ~ well_kept s'.
Proof.
  exists [CAncillae 1 "a"]. do 2 eexists. split; [vm_compute; reflexivity |]. split; [vm_compute; reflexivity |]. do 2 (split; [vm_compute; reflexivity |]).
  intros W. pose proof (wk_anc _ W) as L. vm_compute in L. discriminate L.
Qed.
Print Assumptions C81_reset_refuted.
(* unifying the registers makes all qubits ordinary ones, but leaves the flags: removing one makes the number of ancillaries wrap around *)
Theorem C81_unified_refuted : exists cs s, calls cs empty_circ = ROk s /\ ~ well_kept (unifyQuantumRegisters "u" s) /\ removeQubit 1 (unifyQuantumRegisters "u" s) = RUndef.
Proof.
  exists [CQubits 1 "q"; CAncillae 1 "a"]. eexists. split; [vm_compute; reflexivity |]. split; [| reflexivity].
  intros W. pose proof (wk_anc _ W) as L. vm_compute in L. discriminate L.
Qed.
Print Assumptions C81_unified_refuted.
(* a register of the name of the joined parts exists: the parts are lost *)
Theorem C81_joined_refuted : exists cs s s', calls cs empty_circ = ROk s /\ addQubit (total s) 3 None s = ROk s' /\ c_qregs s' = [("q", (2, 2))] /\ ~ well_kept s'.
Proof.
  exists [CQubits 1 "q_l"; CQubits 1 "q_h"; CQubits 1 "q"]. do 2 eexists. split; [vm_compute; reflexivity |]. split; [vm_compute; reflexivity |]. split; [vm_compute; reflexivity |].
  intros W. pose proof (Permutation_length (wk_regs _ W)) as L. vm_compute in L. discriminate L.
Qed.
Print Assumptions C81_joined_refuted.

(** ** C82 *)
(** Exactly the idle qubits that are no outputs are removed; the logical qubits
    that are left move up without changing their order, and everything known about
    them moves along. *)
Theorem C82_strip_partial : forall s, tidy s -> exists s', stripIdleQubits false s = ROk s' /\ tidy s' /\ without (strippable s) s s'.
Proof. exact strip_ok. Qed.
Print Assumptions C82_strip_partial.

Definition of_calls (cs : list call) : circ := match calls cs empty_circ with ROk s => s | _ => empty_circ end.
(* qubits 1 and 3 of four go: the register is split, the ancillary flag moves from 4 to 2 *)
Example C82_strip_ex : let s := of_calls [CQubits 4 "q"; CAncillae 1 "a"; CGarbage 1; CGarbage 3; CEmit (ux 0); CEmit (ux 2)] in
  tidy s /\ exists s', stripIdleQubits false s = ROk s' /\ c_nq s' = 2 /\ c_na s' = 1 /\ c_lay s' = [(0, 0); (2, 1); (4, 2)] /\ c_out s' = [(0, 0); (2, 1); (4, 2)] /\
    c_anc s' = [false; false; true; false; false] /\ c_qregs s' = [("q_l", (0, 1)); ("q_h", (2, 1))] /\ c_aregs s' = [("a", (4, 1))].
Proof.
  split.
  - destruct (C81_built [CQubits 4 "q"; CAncillae 1 "a"; CGarbage 1; CGarbage 3; CEmit (ux 0); CEmit (ux 2)] _ eq_refl) as [W _].
    split; [exact W |]. split; intros a b Ha Hb _; simpl in *; intuition congruence.
  - eexists. split; [vm_compute; reflexivity |]. repeat split.
Qed.
(* the name of a part is taken: the qubit is in no register any more *)
Theorem C82_names_refuted : exists cs s s', calls cs empty_circ = ROk s /\ stripIdleQubits false s = ROk s' /\ c_lay s' = [(0, 0); (2, 1); (3, 2)] /\
  c_qregs s' = [("q_l", (3, 1)); ("q_h", (2, 1))].
Proof.
  exists [CQubits 3 "q"; CQubits 1 "q_l"; CGarbage 1; CEmit (ux 0); CEmit (ux 2)]. do 2 eexists. split; [vm_compute; reflexivity |]. split; [vm_compute; reflexivity |]. split; reflexivity.
Qed.
Print Assumptions C82_names_refuted.
(* forced: an output is left whose logical qubit is gone *)
Theorem C82_force_refuted : exists s s', tidy s /\ stripIdleQubits true s = ROk s' /\ total s' = 1 /\ c_out s' = [(0, 1)] /\ ~ well_kept s'.
Proof.
  exists {| c_nq := 2; c_na := 0; c_nc := 0; c_qregs := [("q", (0, 2))]; c_aregs := []; c_bregs := []; c_lay := [(0, 0); (1, 1)]; c_out := [(0, 1); (1, 0)];
            c_anc := [false; false]; c_gar := [false; false]; c_ops := [ux 0] |}. eexists. split; [| split; [vm_compute; reflexivity |]; split; [vm_compute; reflexivity |]; split; [vm_compute; reflexivity |]].
  - split; [| split; intros a b Ha Hb _; simpl in *; intuition congruence].
    destruct (C81_built [CQubits 2 "q"; CEmit (ux 0)] _ eq_refl) as [W _]. destruct W; constructor; try assumption; cbn in *.
    + constructor; [intros [X | []]; discriminate X | repeat constructor; intros []].
    + intros p l [H | [H | []]]; inversion H; lia.
    + intros p l [H | [H | []]]; inversion H; reflexivity.
  - intros W. pose proof (wk_out_range _ W 0 1 ltac:(simpl; auto)) as L. vm_compute in L. lia.
Qed.
Print Assumptions C82_force_refuted.

(** ** C83 *)
(** Each qubit measured once, into different bits: the measurements are the
    outputs, and every other logical qubit is garbage. Without measurements the
    outputs stay. An output whose logical qubit is an idle ancillary is dropped. *)
Theorem C83_mapping_partial : forall s, well_kept s -> Forall paired (c_ops s) ->
  let M := measured (c_ops s) in
  NoDup (map fst M) -> NoDup (map snd M) -> (c_out s = [] \/ incl (map fst M) (map fst (c_out s))) ->
  exists s', initializeIOMapping s = ROk s' /\ same_rest s s' /\
    NoDup (map fst (c_out s')) /\
    (forall q b, In (q, b) (c_out s') <-> In (q, b) (if existsb is_meas (c_ops s) then M else c_out s) /\ ~ dead s b) /\
    (forall l, flag (c_gar s') l = true <-> l < total s /\ ~ In l (map snd (c_out s'))) /\
    ((forall q b, In (q, b) M -> In q (map fst (c_lay s)) /\ b < total s) -> well_kept s').
Proof.
  intros s W P M N1 N2 HK. destruct (io_mapping s W P N1 N2 HK) as (s' & A & B & C & D & E & F & G).
  exists s'. do 2 (split; [assumption |]). split; [exact E |]. do 2 (split; [assumption |]). intros H.
  eapply io_kept; eauto. intros q b Hq. apply F in Hq as [Hq _]. destruct (existsb is_meas (c_ops s)); [apply H; exact Hq |].
  split; [apply (wk_out s W); apply in_map_iff; exists (q, b); auto | eapply (wk_out_range s W); eauto].
Qed.
Print Assumptions C83_mapping_partial.
(* qubits 0 and 2 measured crosswise, qubit 1 not at all *)
Example C83_mapping_ex : let s := of_calls [CQubits 3 "q"; CBits 3 "c"; CEmit (ux 1); CEmit (OMeas [0; 2] [2; 0])] in
  exists s', initializeIOMapping s = ROk s' /\ c_out s' = [(0, 2); (2, 0)] /\ c_gar s' = [false; true; false].
Proof. eexists. split; [vm_compute; reflexivity |]. split; reflexivity. Qed.
(* a qubit measured for the second time: the bits of the qubits after it are taken from the wrong place *)
Theorem C83_again_refuted : exists cs s s', calls cs empty_circ = ROk s /\ initializeIOMapping s = ROk s' /\
  measured (c_ops s) = [(0, 2); (0, 0); (1, 1)] /\ c_out s' = [(0, 2); (1, 0)].
Proof. exists [CQubits 3 "q"; CBits 3 "c"; CEmit (OMeas [0] [2]); CEmit (OMeas [0; 1] [0; 1])]. do 2 eexists. split; [vm_compute; reflexivity |]. split; [vm_compute; reflexivity |]. split; reflexivity. Qed.
Print Assumptions C83_again_refuted.
(* measurements in compound operations are not seen *)
Theorem C83_compound_refuted : exists cs s s', calls cs empty_circ = ROk s /\ c_ops s = [OComp false [OMeas [0] [1]]] /\ initializeIOMapping s = ROk s' /\ c_out s' = [(0, 0); (1, 1)].
Proof. exists [CQubits 2 "q"; CBits 2 "c"; CEmit (OComp false [OMeas [0] [1]])]. do 2 eexists. split; [vm_compute; reflexivity |]. split; [vm_compute; reflexivity |]. split; reflexivity. Qed.
Print Assumptions C83_compound_refuted.
(* a measured garbage qubit: std::out_of_range *)
Theorem C83_garbage_refuted : exists cs s, calls cs empty_circ = ROk s /\ well_kept s /\ measured (c_ops s) = [(0, 0)] /\ initializeIOMapping s = RError.
Proof.
  exists [CQubits 2 "q"; CGarbage 0; CEmit (OMeas [0] [0])]. eexists. split; [vm_compute; reflexivity |].
  split; [| split; reflexivity]. apply (C81_built [CQubits 2 "q"; CGarbage 0; CEmit (OMeas [0] [0])]). reflexivity.
Qed.
Print Assumptions C83_garbage_refuted.
(* two qubits measured into the same bit: the first ends up with a bit it was not measured into *)
Theorem C83_same_bit_refuted : exists cs s s', calls cs empty_circ = ROk s /\ initializeIOMapping s = ROk s' /\ measured (c_ops s) = [(0, 0); (1, 0)] /\ c_out s' = [(0, 1); (1, 0)].
Proof. exists [CQubits 2 "q"; CBits 1 "c"; CEmit (OMeas [0] [0]); CEmit (OMeas [1] [0])]. do 2 eexists. split; [vm_compute; reflexivity |]. split; [vm_compute; reflexivity |]. split; reflexivity. Qed.
Print Assumptions C83_same_bit_refuted.
(* a measured qubit is dropped because an idle ancillary has the number of its bit *)
Theorem C83_dead_refuted : exists cs s s', calls cs empty_circ = ROk s /\ initializeIOMapping s = ROk s' /\ measured (c_ops s) = [(0, 1)] /\ c_out s' = [] /\ c_gar s' = [true; true].
Proof. exists [CQubits 1 "q"; CAncillae 1 "a"; CBits 2 "c"; CEmit (OMeas [0] [1])]. do 2 eexists. split; [vm_compute; reflexivity |]. split; [vm_compute; reflexivity |]. split; [vm_compute; reflexivity |]. split; reflexivity. Qed.
Print Assumptions C83_dead_refuted.
