(** C32-C37, C43: circuit optimisation passes that keep the operator. *)
From Coq Require Import Reals Lra List Arith Bool Lia NArith FunctionalExtensionality Permutation.
From Verif Require Import Cplx Qsem GateModel GateSpec GateProofs OpProofs GraphModel IRModel IRSpec IRProofs
  OptModel OptSem OptDagProofs OptDagProofs2 OptFuseProofs OptProofs OptElideProofs OptBackProofs.
Import ListNotations.
Local Open Scope list_scope.

Definition xop (q : nat) : cop := OStd {| o_type := gX; o_par := []; o_ctl := []; o_tgt := [q] |}.
Definition sop (q : nat) : cop := OStd {| o_type := gS; o_par := []; o_ctl := []; o_tgt := [q] |}.
Definition sdgop (q : nat) : cop := OStd {| o_type := gSdg; o_par := []; o_ctl := []; o_tgt := [q] |}.
Lemma xop_ok q : op_ok (xop q).
Proof. split; [split; [repeat constructor; simpl; tauto|intros c []]|]. cbn. eexists. reflexivity. Qed.
Lemma run_xop q b : run_op (xop q) b = [(flip q (fst b), snd b)].
Proof.
  unfold xop. rewrite run_std. unfold pushf. do 2 f_equal. apply functional_extensionality. intros x. now rewrite (semf_x _ q).
Qed.
Lemma fm1 {A B} (f : A -> list B) x : flat_map f [x] = f x.
Proof. apply app_nil_r. Qed.
Lemma C1_neq_C0 : C1 <> C0.
Proof. intros H. inversion H. lra. Qed.

(** ** C32: flattenOperations *)
Theorem C32_flatten : forall l fuel, nodes_of l < fuel ->
  exists l', flatten_loop fuel false [] l = Some l' /\ l' = flat_map (unfolded false) l /\
    Forall (fun o => ~ compound o) l' /\ same_run l' l.
Proof.
  intros l fuel F. exists (flat_map (unfolded false) l). split; [now apply flatten_ok|]. split; [reflexivity|]. split.
  - apply Forall_forall. intros x I. apply in_flat_map in I. destruct I as (y & _ & X).
    pose proof (unfolded_flat y) as G. rewrite Forall_forall in G. auto.
  - apply run_flat. apply Forall_forall. intros o _. apply unfolded_run.
Qed.
Print Assumptions C32_flatten.

(** customGatesOnly: compound operations that are not custom gates stay, with
    everything inside them. *)
Theorem C32_flatten_custom : forall l fuel, nodes_of l < fuel ->
  exists l', flatten_loop fuel true [] l = Some l' /\ l' = flat_map (unfolded true) l /\
    (forall m, ~ In (OComp true m) l') /\ same_run l' l.
Proof.
  intros l fuel F. exists (flat_map (unfolded true) l). split; [now apply flatten_ok|]. split; [reflexivity|]. split.
  - intros m I. apply in_flat_map in I. destruct I as (y & _ & X).
    assert (G : forall o, ~ In (OComp true m) (unfolded true o)).
    { clear. induction o as [s|? ?|?|? ? ?|cu l H] using cop_rect'; try (simpl; intros [E|[]]; discriminate).
      cbn [unfolded negb orb]. destruct cu; [|intros [E|[]]; discriminate].
      intros I. apply in_flat_map in I. destruct I as (y & I & X). rewrite Forall_forall in H. apply (H y I X). }
    apply (G _ X).
  - apply run_flat. apply Forall_forall. intros o _. apply unfolded_run.
Qed.
Print Assumptions C32_flatten_custom.

(** A compound operation under classical control is not unfolded. *)
Theorem C32_classical_control_refuted : exists l l', flatten_loop 100 false [] l = Some l' /\
  exists c cu m, In (OClass c (OComp cu m)) l'.
Proof.
  exists [OClass (CBit 0 1 kEq) (OComp false [xop 0; xop 1])]. eexists. split; [reflexivity|].
  do 3 eexists. left. reflexivity.
Qed.

Example C32_ex : flatten_loop 20 false [] [xop 0; OComp true [xop 1; OComp false [xop 2; OMeas [0] [0]]; OComp false []]; xop 3]
  = Some [xop 0; xop 1; xop 2; OMeas [0] [0]; xop 3] /\
  flatten_loop 20 true [] [OComp true [xop 1; OComp false [xop 2; OComp true [xop 0]]]; xop 3]
  = Some [xop 1; OComp false [xop 2; OComp true [xop 0]]; xop 3].
Proof. split; reflexivity. Qed.

(** ** C33: swapReconstruction and cancelCNOTs. The circuit may contain any
    operations, measurements and classical control included; only a compound
    operation directly under classical control is excluded ([local]), see the
    refutation below. *)
Theorem C33_swap_reconstruction_partial : forall l, ops_ok l -> Forall local l -> same_run (swap_reconstruction l) l.
Proof. exact swap_reconstruction_sound. Qed.
Print Assumptions C33_swap_reconstruction_partial.
Theorem C33_cancel_cnots_partial : forall l, ops_ok l -> Forall local l -> same_run (cancel_cnots l) l.
Proof. exact cancel_cnots_sound. Qed.
Print Assumptions C33_cancel_cnots_partial.

(** Missing: classically controlled compound operations. They report no used
    qubits, so gates are cancelled across them. *)
Definition hidden (q : nat) : cop := OClass (CBit 0 1 kEq) (OComp false [xop q]).
Theorem C33_hidden_compound_refuted : exists l, ops_ok l /\
  ~ same_run (cancel_cnots l) l /\ ~ same_run (swap_reconstruction l) l.
Proof.
  exists [mk_cx 0 1; hidden 0; mk_cx 0 1].
  assert (OK : op_ok (mk_cx 0 1)) by (apply std_cx_ok; auto).
  split.
  { constructor; [exact OK|]. constructor; [apply (proj2 (op_ok_comp false [xop 0])); constructor; [apply xop_ok|constructor]|]. constructor; [exact OK|constructor]. }
  assert (K : ~ same_run [hidden 0] [mk_cx 0 1; hidden 0; mk_cx 0 1]).
  { intros S. specialize (S ((fun b => if b 0 || b 1 then C0 else C1), fun _ => true)).
    assert (R : forall p, run [hidden 0] (p, fun _ => true) = [(flip 0 p, fun _ => true)]).
    { intros p. rewrite run_one. unfold hidden. cbn [run_op]. replace (cond_holds _ _) with true by reflexivity.
      cbn [flat_map]. rewrite run_xop. reflexivity. }
    rewrite R in S. change [mk_cx 0 1; hidden 0; mk_cx 0 1] with ([mk_cx 0 1] ++ [hidden 0] ++ [mk_cx 0 1]) in S.
    rewrite !run_app, run_one in S. rewrite (run_cx (mk_cx 0 1) 0 1 _ eq_refl OK) in S. cbn [flat_map] in S. rewrite app_nil_r in S.
    unfold via in S at 1. cbn [fst snd] in S. rewrite run_app, R in S. cbn [flat_map app] in S. rewrite app_nil_r in S.
    rewrite run_one, (run_cx (mk_cx 0 1) 0 1 _ eq_refl OK) in S. unfold via in S. cbn [fst snd] in S.
    injection S as S. pose proof (f_equal (fun f : state => f (fun q => Nat.eqb q 0)) S) as T. cbv -[IZR] in T. exact (C1_neq_C0 T). }
  split; exact K.
Qed.
Print Assumptions C33_hidden_compound_refuted.

Example C33_ex :
  swap_reconstruction [mk_cx 0 1; mk_h 2; mk_cx 1 0; mk_cx 0 1] = [mk_swap 0 1; mk_h 2] /\
  swap_reconstruction [mk_cx 0 1; mk_h 2; mk_cx 0 1] = [mk_h 2] /\
  swap_reconstruction [mk_cx 0 1; mk_h 1; mk_cx 0 1] = [mk_cx 0 1; mk_h 1; mk_cx 0 1] /\
  cancel_cnots [mk_cx 0 1; mk_h 2; mk_cx 1 0; mk_cx 0 1] = [mk_swap 0 1; mk_h 2] /\
  cancel_cnots [mk_swap 0 1; mk_h 2; mk_cx 0 1] = [mk_cx 0 1; mk_h 2; mk_cx 1 0] /\
  cancel_cnots [mk_swap 0 1; OMeas [2] [0]; mk_swap 1 0] = [OMeas [2] [0]].
Proof. repeat split; reflexivity. Qed.

(** ** C34: decomposeSWAP *)
Theorem C34_decompose_partial : forall dir l, ops_ok l -> Forall plain_swaps l ->
  exists l', decompose_swap dir l = Some l' /\ same_run l' l /\ Forall no_swap l'.
Proof. exact decompose_swap_sound. Qed.
Print Assumptions C34_decompose_partial.

(** Missing: a controlled SWAP loses its controls. *)
Theorem C34_controlled_refuted : forall dir, exists l l', ops_ok l /\ decompose_swap dir l = Some l' /\ ~ same_run l' l.
Proof.
  intros dir. set (s := {| o_type := gSWAP; o_par := []; o_ctl := [(2, true)]; o_tgt := [0; 1] |}).
  exists [OStd s], (swap_parts dir 0 1). split; [|split].
  - constructor; [|constructor]. split.
    + split; [simpl; constructor; [simpl; intuition discriminate|repeat constructor; simpl; tauto]|].
      intros c [<-|[]]. simpl. intuition discriminate.
    + cbn. eexists. reflexivity.
  - destruct dir; reflexivity.
  - intros S.
    assert (T : same_run (swap_parts dir 0 1) [mk_swap 0 1]).
    { apply swap_parts_sound; [reflexivity|]. apply std_sw_ok. auto. }
    specialize (S ((fun b : bits => if b 0 then C1 else C0), (fun _ : nat => false))). rewrite T, !run_one in S.
    rewrite (run_sw (mk_swap 0 1) 0 1 _ eq_refl) in S by (apply std_sw_ok; auto).
    unfold via in S. cbn [run_op fst snd] in S. injection S as S.
    pose proof (f_equal (fun f : state => f (fun q => Nat.eqb q 0)) S) as U. unfold semf, s in U. cbn in U. unfold capply in U. cbn in U.
    apply C1_neq_C0. symmetry. exact U.
Qed.
Print Assumptions C34_controlled_refuted.

(** Missing: SWAPs in compound operations in compound operations stay. *)
Theorem C34_nested_refuted : exists l, decompose_swap false l = Some l /\ ops_ok l /\
  exists cu cu' , In (OComp cu [OComp cu' [mk_swap 0 1]]) l.
Proof.
  exists [OComp false [OComp false [mk_swap 0 1]]]. split; [reflexivity|]. split; [|do 2 eexists; left; reflexivity].
  constructor; [|constructor]. apply op_ok_comp. constructor; [|constructor]. apply op_ok_comp.
  constructor; [|constructor]. apply std_sw_ok. auto.
Qed.

Example C34_ex : decompose_swap false [mk_h 0; OComp false [mk_swap 2 1]] = Some [mk_h 0; OComp false [mk_cx 2 1; mk_cx 1 2; mk_cx 2 1]] /\
  decompose_swap true [mk_swap 0 1] = Some [mk_cx 0 1; mk_h 1; mk_h 0; mk_cx 0 1; mk_h 1; mk_h 0; mk_cx 0 1].
Proof. split; reflexivity. Qed.

(** ** C35: replaceMCXWithMCZ *)
Theorem C35_mcx_mcz : forall l, ops_ok l -> same_run (replace_mcx l) l /\ Forall no_mcx (replace_mcx l).
Proof. intros l OK. split; [now apply replace_mcx_sound|now apply replace_mcx_gone]. Qed.
Print Assumptions C35_mcx_mcz.

Example C35_ex : replace_mcx [xop 0; OComp false [OStd {| o_type := gX; o_par := []; o_ctl := [(1, false); (2, true)]; o_tgt := [0] |}]]
  = [xop 0; OComp false [mk_h 0; mk_z [(1, false); (2, true)] 0; mk_h 0]].
Proof. reflexivity. Qed.

(** ** C36: elidePermutations. Whatever total injection [pi] extends the initial
    layout, the new circuit run on the moved state ends in the old circuit's
    states moved by some [pi'], and the new output permutation is the old one
    moved by [pi']. *)
Theorem C36_elide_partial : forall c pi, qc_ops c <> [] -> ops_ok (qc_ops c) -> Forall local (qc_ops c) ->
  perm_ok (qc_init c) -> qc_init c <> [] -> NoDup (map fst (qc_out c)) ->
  incl (flat_map used (qc_ops c)) (map fst (qc_init c)) -> incl (map fst (qc_out c)) (map fst (qc_init c)) ->
  agrees pi (qc_init c) -> inj pi ->
  exists c' pi', elide_permutations c = Some c' /\ inj pi' /\
    (forall psi m, run (qc_ops c') (move pi psi, m) = map (fun b => (move pi' (fst b), snd b)) (run (qc_ops c) (psi, m))) /\
    (forall q, plookup (qc_out c') (pi' q) = plookup (qc_out c) q) /\
    (forall q r, plookup (qc_init c) q = Some r -> plookup (qc_init c') r = Some r) /\
    Forall plain_swap_free (qc_ops c') /\ qc_phase c' = qc_phase c.
Proof.
  intros c pi NE OK L PO NP NO U UO A I. unfold elide_permutations.
  destruct (etotal_ops (qc_ops c)) with (p := qc_init c) as (l' & p' & E & K & S); [|exact U|].
  { unfold ops_ok in OK. rewrite Forall_forall in *. intros o J. apply elide_total; auto. }
  destruct (qc_ops c) as [|o0 l0] eqn:EO; [congruence|]. rewrite <- EO in *. rewrite E.
  destruct (esound_ops (qc_ops c)) with (p := qc_init c) (pi := pi) (l' := l') (p' := p') as (pi' & A' & I' & M); auto.
  { unfold ops_ok in OK. rewrite Forall_forall in *. intros o J. apply elide_sound; auto. }
  pose proof (elide_ops_nonnil _ _ _ _ E NP) as NP'.
  destruct (map_opt_some (fun x : nat * nat => match plookup p' (fst x) with Some r => Some (r, snd x) | None => None end) (qc_out c)) as [out EM].
  { intros [q x] J. cbn [fst snd]. destruct (proj1 (plookup_some p' q)) as [r ->]; eauto. apply K. apply UO. apply in_map_iff. exists (q, x). auto. }
  rewrite EM. pose proof (out_moved _ _ _ _ A' I' NP' NO EM) as EOUT.
  eexists. exists pi'. split; [reflexivity|]. cbn [qc_ops qc_out qc_init qc_phase]. split; [auto|]. split; [intros psi m; apply (M (psi, m))|].
  assert (ND : NoDup (map fst out)).
  { subst out. rewrite map_map. cbn [fst]. rewrite <- (map_map fst pi'). now apply NoDup_map_inj. }
  split; [|split; [|auto]].
  - intros q. rewrite (fold_pset_lookup fst snd) by auto. subst out. rewrite plookup_find. simpl plookup.
    clear - I'. induction (qc_out c) as [|[a x] l IH]; simpl; auto.
    destruct (Nat.eqb_spec (pi' q) (pi' a)) as [Z|Z], (Nat.eqb_spec q a) as [Y|Y]; auto; [|congruence]. apply I' in Z. contradiction.
  - intros q r H. rewrite (fold_pset_lookup snd snd) by apply PO. apply plookup_In in H.
    destruct (find (fun y => r =? snd y) (qc_init c)) as [y|] eqn:F.
    + apply find_some in F. destruct F as [_ F]. apply Nat.eqb_eq in F. now subst.
    + exfalso. pose proof (find_none _ _ F _ H) as X. simpl in X. rewrite Nat.eqb_refl in X. discriminate.
Qed.
Print Assumptions C36_elide_partial.

(** Such a [pi] always exists. *)
Theorem C36_extension : forall p, p <> [] -> perm_ok p -> exists pi, agrees pi p /\ inj pi.
Proof. exact agrees_exists. Qed.
Print Assumptions C36_extension.

(** Missing: classically controlled compound operations are not relabelled. *)
Theorem C36_hidden_compound_refuted : exists c c', ops_ok (qc_ops c) /\ perm_ok (qc_init c) /\
  agrees (fun q => q) [] /\ elide_permutations c = Some c' /\ (forall q, plookup (qc_init c) q = if q <? 2 then Some q else None) /\
  forall pi', ~ (forall psi m, run (qc_ops c') (move (fun q => q) psi, m) = map (fun b => (move pi' (fst b), snd b)) (run (qc_ops c) (psi, m))).
Proof.
  set (c := {| qc_n := 2; qc_ops := [mk_swap 0 1; hidden 0]; qc_init := [(0, 0); (1, 1)]; qc_out := [(0, 0); (1, 1)]; qc_phase := 0%R |}).
  exists c. eexists. split; [|split; [|split; [|split; [reflexivity|split]]]].
  - constructor; [apply std_sw_ok; auto|]. constructor; [apply (proj2 (op_ok_comp false [xop 0])); constructor; [apply xop_ok|constructor]|constructor].
  - split; simpl; repeat constructor; simpl; intuition discriminate.
  - intros q r H. now inversion H.
  - intros [|[|q]]; reflexivity.
  - intros pi' H. specialize (H (fun b => if b 0 then C0 else C1) (fun _ => true)).
    assert (R : forall p, run [hidden 0] (p, fun _ => true) = [(flip 0 p, fun _ => true)]).
    { intros p. rewrite run_one. unfold hidden. cbn [run_op]. replace (cond_holds _ _) with true by reflexivity.
      cbn [flat_map]. rewrite run_xop. reflexivity. }
    cbn [qc_ops c] in H. rewrite R in H. change [mk_swap 0 1; hidden 0] with ([mk_swap 0 1] ++ [hidden 0]) in H.
    rewrite run_app, run_one, (run_sw (mk_swap 0 1) 0 1 _ eq_refl) in H by (apply std_sw_ok; auto).
    cbn [flat_map] in H. rewrite app_nil_r in H. unfold via in H. cbn [fst snd] in H. rewrite R in H. cbn [map fst snd] in H.
    injection H as H. pose proof (f_equal (fun f : state => f (fun _ => true)) H) as T. cbn in T. exact (C1_neq_C0 T).
Qed.
Print Assumptions C36_hidden_compound_refuted.

Example C36_ex :
  option_map (fun c => (qc_ops c, qc_init c, qc_out c))
    (elide_permutations {| qc_n := 3; qc_ops := [mk_h 0; mk_swap 0 1; OComp false [mk_cx 0 2; mk_swap 1 2]; mk_h 2; OMeas [1] [0]];
       qc_init := [(0, 0); (1, 2); (2, 1)]; qc_out := [(0, 0); (1, 1); (2, 2)]; qc_phase := 0%R |})
  = Some ([mk_h 0; mk_cx 2 1; mk_h 0; OMeas [1] [0]], [(0, 0); (2, 2); (1, 1)], [(2, 0); (1, 1); (0, 2)]).
Proof. reflexivity. Qed.

(** ** C37: singleQubitGateFusion. [nq] is the size of the DAG. *)
Theorem C37_fusion_partial : forall nq l, ops_ok l -> Forall local l -> Forall not_disguised l -> Forall (below nq) l ->
  Forall has_target l -> exists l', single_qubit_fusion nq l = Some l' /\ same_run l' l.
Proof.
  intros nq l OK L N B T. destruct (fusion_total nq l OK L N B T) as [l' E]. exists l'. split; auto.
  eapply fusion_sound; eauto.
Qed.
Print Assumptions C37_fusion_partial.

(** Missing: a measurement, reset or classically controlled gate on one qubit
    is taken for a single-qubit gate, and what it does is lost. *)
Theorem C37_measurement_refuted : exists l l', ops_ok l /\ Forall local l /\ single_qubit_fusion 1 l = Some l' /\
  forall b, length (run l b) = 2 /\ length (run l' b) = 1.
Proof.
  exists [OMeas [0] [0]; xop 0]. eexists. split; [|split; [|split; [reflexivity|]]].
  - constructor; [reflexivity|]. constructor; [apply xop_ok|constructor].
  - repeat constructor.
  - intros b. split; reflexivity.
Qed.
Print Assumptions C37_measurement_refuted.
Theorem C37_classical_control_refuted : exists l l', ops_ok l /\ Forall local l /\ single_qubit_fusion 1 l = Some l' /\ ~ same_run l' l.
Proof.
  exists [OClass (CBit 0 1 kEq) (xop 0); xop 0]. eexists. split; [|split; [|split; [reflexivity|]]].
  - constructor; [apply xop_ok|]. constructor; [apply xop_ok|constructor].
  - repeat constructor.
  - intros S. specialize (S ((fun b : bits => if b 0 then C1 else C0), (fun _ : nat => true))).
    set (b0 := ((fun b : bits => if b 0 then C1 else C0), (fun _ : nat => true))) in S.
    assert (R : run [OClass (CBit 0 1 kEq) (xop 0); xop 0] b0 = [(flip 0 (flip 0 (fst b0)), snd b0)]).
    { change [OClass (CBit 0 1 kEq) (xop 0); xop 0] with ([OClass (CBit 0 1 kEq) (xop 0)] ++ [xop 0]).
      rewrite run_app, run_one. cbn [run_op]. 
      change (flat_map (run [xop 0]) (run_op (xop 0) b0) = [(flip 0 (flip 0 (fst b0)), snd b0)]). rewrite run_xop, fm1, run_one, run_xop. reflexivity. }
    rewrite R in S. clear R.
    set (dis := OStd {| o_type := gClassicControlled; o_par := []; o_ctl := []; o_tgt := [0] |}) in S.
    change (run [OComp false ([dis] ++ [xop 0])] b0 = [(flip 0 (flip 0 (fst b0)), snd b0)]) in S.
    rewrite run_one, run_comp, run_app in S. assert (Q : forall y, run [dis] y = [y]) by (intros [y1 y2]; reflexivity).
    rewrite Q, fm1, run_one, run_xop in S. injection S as S.
    pose proof (f_equal (fun f : state => f (fun _ => true)) S) as T. cbn in T. symmetry in T. exact (C1_neq_C0 T).
Qed.
Print Assumptions C37_classical_control_refuted.
(** Missing: an uncontrolled global phase makes the pass throw. *)
Theorem C37_gphase_refuted : exists l, ops_ok l /\ forall nq, single_qubit_fusion nq l = None.
Proof.
  exists [OStd {| o_type := gGPhase; o_par := [1%R]; o_ctl := []; o_tgt := [] |}]. split; [|reflexivity].
  constructor; [|constructor]. split; [split; [constructor|intros c []]|]. cbn. eexists. reflexivity.
Qed.
Print Assumptions C37_gphase_refuted.

Example C37_ex :
  single_qubit_fusion 2 [mk_h 0; xop 0; mk_cx 0 1; sop 0; sdgop 0; xop 1; mk_h 1; mk_h 1]
    = Some [OComp false [mk_h 0; xop 0]; mk_cx 0 1; xop 1] /\
  single_qubit_fusion 1 [xop 0; mk_h 0; mk_h 0; xop 0; sop 0] = Some [sop 0].
Proof. split; reflexivity. Qed.

(** ** C43: backpropagateOutputPermutation. [pick] is any choice of *begin(). *)
Theorem C43_complete : forall pick n c, (forall l, l <> [] -> In (pick l) l) ->
  qc_n c = n -> NoDup (map fst (qc_out c)) -> NoDup (map snd (qc_out c)) ->
  (forall q x, In (q, x) (qc_out c) -> q < n /\ x < n) ->
  (forall a b, In (a, b) (flat_map swaps_of (qc_ops c)) -> a <> b /\ a < n /\ b < n) ->
  exists c', backpropagate pick c = Some c' /\
    qc_ops c' = qc_ops c /\ qc_out c' = qc_out c /\ qc_n c' = qc_n c /\
    Permutation (map fst (qc_init c')) (seq 0 n) /\ Permutation (map snd (qc_init c')) (seq 0 n) /\
    forall q x, In (q, x) (qc_out c) -> plookup (qc_init c') (trace (qc_ops c) q) = Some x.
Proof.
  intros pick n c P EN K V L F. apply backpropagate_ok; auto. apply Forall_forall. intros [a b] I. apply F. auto.
Qed.
Print Assumptions C43_complete.

(** [trace] is where the content of the final qubit [q] comes from, if the
    circuit consists of SWAPs. *)
Theorem C43_trace : forall l psi m, ops_ok l -> Forall (fun o => exists a b, o = mk_swap a b) l ->
  run l (psi, m) = [(fun b => psi (fun q => b (fold_left (fun q ab => swap_at ab q) (flat_map swaps_of l) q)), m)] /\
  forall q, fold_left (fun q ab => swap_at ab q) (flat_map swaps_of l) (trace l q) = q.
Proof.
  intros l psi m OK F. split.
  - revert psi. induction F as [|o l (a & b & ->) Fl IH]; intros psi; [reflexivity|]. inversion OK; subst.
    change (mk_swap a b :: l) with ([mk_swap a b] ++ l). rewrite run_app, run_one, (run_sw (mk_swap a b) a b _ eq_refl H1).
    cbn [flat_map]. rewrite app_nil_r. unfold via. cbn [fst snd]. rewrite IH by auto. do 2 f_equal.
    apply functional_extensionality. intros x. f_equal. apply functional_extensionality. intros q. rewrite flat_map_app. cbn.
    pose proof (swap_ne (mk_swap a b) a b eq_refl H1) as N.
    unfold swb, setb, swap_at. cbn. destruct (Nat.eqb_spec q b) as [->|N1].
    + destruct (Nat.eqb_spec b a); [congruence|reflexivity].
    + destruct (Nat.eqb_spec q a) as [->|N2]; reflexivity.
  - intros q. unfold trace. assert (S : Forall (fun ab => fst ab <> snd ab) (flat_map swaps_of l)).
    { induction F as [|o l (a & b & ->) Fl IH]; simpl; [constructor|]. inversion OK; subst. constructor; auto.
      exact (swap_ne (mk_swap a b) a b eq_refl H1). }
    induction S as [|[a b] s N Sl IH]; simpl; auto.
    assert (Z : swap_at (a, b) (swap_at (a, b) (fold_right swap_at q s)) = fold_right swap_at q s).
    { generalize (fold_right swap_at q s). intros r. unfold swap_at. cbn in *. destruct (Nat.eqb_spec r a) as [->|N1].
      - rewrite Nat.eqb_refl. destruct (Nat.eqb_spec b a); congruence.
      - destruct (Nat.eqb_spec r b) as [->|N2]; [now rewrite Nat.eqb_refl|].
        destruct (Nat.eqb_spec r a); [congruence|]. destruct (Nat.eqb_spec r b); congruence. }
    now rewrite Z.
Qed.
Print Assumptions C43_trace.

Example C43_ex :
  option_map qc_init (backpropagate (fun l => hd 0 l)
    {| qc_n := 4; qc_ops := [mk_swap 0 1; mk_h 2; OComp false [mk_swap 1 2; mk_swap 0 3]]; qc_init := []; qc_out := [(2, 0); (3, 3)]; qc_phase := 0%R |})
  = Some [(2, 2); (3, 1); (0, 0); (1, 3)].
Proof. reflexivity. Qed.
