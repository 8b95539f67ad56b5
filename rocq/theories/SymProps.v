(** Properties C89 and C90: symbolic operations and their instantiation. *)
From Coq Require Import Reals Lra List Arith Bool Lia FunctionalExtensionality.
From Verif Require Import Cplx Qsem GateModel GateSpec GateProofs OpProofs CanonProofs ExprModel ExprProofs GateProps SymModel SymSpec SymProofs.
Import ListNotations.
Local Open Scope R_scope.
Local Open Scope list_scope.

(** ** C89: symbolic operations *)
(** Constructing an operation and putting in values gives the gate with these
    values, up to 42 tolerances in every entry of its matrix, unless the
    operation is a U gate that the constructor takes for P or U2. *)
Theorem C89_instantiate_partial : forall a t ps cs ts vs k M s o,
  Forall2 (value a) ps vs -> gate_matrix t vs = Some (k, M) -> all_numbers ps = false -> ~ shrunk param_tol t ps ->
  make_sym param_tol t ps cs ts = Some s -> get_instantiated param_tol a s = Some o ->
  gate_near (42 * param_tol) {| o_type := t; o_par := vs; o_ctl := cs; o_tgt := ts |} o.
Proof. intros. destruct param_tol_ok. eapply instantiated_near; eauto. Qed.
Print Assumptions C89_instantiate_partial.

(** Gates other than P, U2 and U get exactly the values. *)
Theorem C89_exact : forall a t ps cs ts vs s, Forall2 (value a) ps vs ->
  t <> gP -> t <> gU2 -> t <> gU -> make_sym param_tol t ps cs ts = Some s ->
  get_instantiated param_tol a s = Some {| o_type := t; o_par := vs; o_ctl := cs; o_tgt := ts |}.
Proof.
  intros a t ps cs ts vs s F N1 N2 N3 MS.
  assert (E : s = {| s_type := t; s_par := map store_num ps; s_sym := map store_sym ps; s_ctl := cs; s_tgt := ts |}).
  { unfold make_sym in MS. destruct t; try congruence; cbn in MS; inversion MS; reflexivity. }
  subst s. unfold get_instantiated. cbn [s_type s_par s_sym s_ctl s_tgt]. rewrite (inst_values a ps vs F).
  destruct t; try congruence; destruct vs; reflexivity.
Qed.
Print Assumptions C89_exact.

(** Both succeed for values of magnitude up to 5 * 10^12. *)
Theorem C89_finite_partial : forall a t ps cs ts vs,
  (t = gP -> length ps = 1%nat) -> (t = gU2 -> length ps = 2%nat) -> (t = gU -> length ps = 3%nat) ->
  Forall2 (value a) ps vs -> (forall v, In v vs -> Rabs v <= 5 * 10 ^ 12) -> all_numbers ps = false -> ~ shrunk param_tol t ps ->
  exists s o, make_sym param_tol t ps cs ts = Some s /\ get_instantiated param_tol a s = Some o.
Proof.
  intros a t ps cs ts vs C1 C2 C3 F H AN NS. destruct param_tol_ok. eapply instantiated_finite; eauto.
  - split; auto.
  - intros v Hv. replace (1 / (2 * param_tol)) with (5 * 10 ^ 12); auto. unfold param_tol. field.
Qed.
Print Assumptions C89_finite_partial.

(** Instantiating in place leaves no symbol and agrees with the copy. *)
Theorem C89_in_place : forall a t ps cs ts s, all_numbers ps = false -> ~ shrunk param_tol t ps ->
  (exists vs, Forall2 (value a) ps vs) -> make_sym param_tol t ps cs ts = Some s ->
  option_map std_of (instantiate param_tol a s) = get_instantiated param_tol a s /\
  (forall s', instantiate param_tol a s = Some s' -> has_sym s' = false).
Proof.
  intros a t ps cs ts s AN NS (vs & F) MS. destruct param_tol_ok as [P0 P1]. split; [|apply instantiate_free].
  destruct (make_sym_near param_tol P0 P1 a t ps cs ts s vs F AN NS MS) as (_ & _ & _ & E4 & E5 & _).
  apply instantiate_get. rewrite E4, map_length. auto.
Qed.
Print Assumptions C89_in_place.

(** Inverting before putting in values is inverting the gate. *)
Theorem C89_invert : forall a s o f, evaluated a s = Some o -> wf_op o -> sem o = Some f ->
  exists s' o' g, invert_sym s = Some s' /\ evaluated a s' = Some o' /\ sem o' = Some g /\ inverse_maps f g.
Proof.
  intros a s o f E W S. destruct (invert_correct o f W S) as (o' & g & I & _ & S' & INV).
  destruct (invert_evaluated a s o E (ex_intro _ o' I)) as (s' & I' & E'). rewrite I in E'. exists s', o', g. auto.
Qed.
Print Assumptions C89_invert.

(** An operation equals itself; operations without symbols are compared like
    standard operations (C26) unless the other one has symbols. *)
Theorem C89_equal_self : forall etol s, 0 < etol -> has_sym s = true ->
  equals_sym etol (fun q => q) (fun q => q) s s = Some true.
Proof. intros etol s P H. unfold equals_sym. rewrite H. cbn [negb andb]. now apply equal_syms_refl. Qed.
Print Assumptions C89_equal_self.

Theorem C89_equal_numbers : forall etol p1 p2 s o, has_sym s = false -> has_sym o = false ->
  equals_sym etol p1 p2 s o = Some (equals_std p1 p2 (std_of s) (std_of o)).
Proof.
  intros etol p1 p2 s o H1 H2. unfold equals_sym. rewrite H1, H2. cbn [negb andb].
  now destruct (equals_std p1 p2 (std_of s) (std_of o)).
Qed.
Print Assumptions C89_equal_numbers.

Definition var0 : expr := {| e_terms := [(0%nat, 1)]; e_const := 0 |}.
Definition at_pi (x : nat) : option R := if Nat.eqb x 0 then Some PI else None.
Lemma var0_pi : evaluate at_pi var0 = Some PI.
Proof. unfold evaluate, var0, at_pi, eval_term. cbn. f_equal. ring. Qed.

Lemma close_self x : close param_tol x x = true.
Proof. unfold close. rewrite Rxx. destruct param_tol_ok. destruct (Rlt_dec 0 param_tol); [auto|lra]. Qed.
Lemma far x y : 1 <= Rabs (x - y) -> close param_tol x y = false.
Proof. intros H. unfold close. destruct param_tol_ok. destruct (Rlt_dec (Rabs (x - y)) param_tol); [lra|auto]. Qed.
Lemma far_ge x y : 1 <= x - y -> close param_tol x y = false.
Proof. intros H. apply far. rewrite Rabs_pos_eq; lra. Qed.
Lemma far_le x y : 1 <= y - x -> close param_tol x y = false.
Proof. intros H. apply far. rewrite Rabs_minus_sym, Rabs_pos_eq; lra. Qed.
Lemma check_par_0 : check_par param_tol 0 = Some 0.
Proof.
  assert (CI : check_integer param_tol 0 = 0).
  { unfold check_integer. replace (nearby 0) with 0%Z; [now rewrite close_self|]. symmetry. apply (nearby_int 0). }
  unfold check_par. rewrite CI. unfold check_fraction_pi. destruct (Req_EM_T 0 0); [auto|congruence].
Qed.

Lemma far_matrix eps k M M' r c : eps < 1 -> length r = k -> length c = k ->
  1 <= Cmod (M r c - M' r c)%C -> ~ mat_near k eps M M'.
Proof. intros E Hr Hc D N. specialize (N r c Hr Hc). lra. Qed.

Lemma eps_lt : 42 * param_tol < 1.
Proof. destruct param_tol_ok. unfold param_tol. apply (Rmult_lt_reg_r (10 ^ 13)); [lra|]. field_simplify; lra. Qed.

(** U(0, 0, x) becomes a P gate that keeps three parameters. With x = pi it
    is instantiated to the identity instead of Z. *)
Theorem C89_shrunk_P_refuted : exists s o,
  make_sym param_tol gU [SNum 0; SNum 0; SSym var0] [] [0%nat] = Some s /\
  s_type s = gP /\ length (s_par s) = 3%nat /\
  ugate_assert (s_type s) (s_par s) = false /\
  get_instantiated param_tol at_pi s = Some o /\ o_type o = gI /\
  ~ gate_near (42 * param_tol) {| o_type := gU; o_par := [0; 0; PI]; o_ctl := []; o_tgt := [0%nat] |} o.
Proof.
  do 2 eexists. split.
  { unfold make_sym. cbn [map store_num store_sym check_sym]. unfold sym_u3_lambda. rewrite close_self. cbn [andb]. reflexivity. }
  cbn [s_type s_par length]. split; [reflexivity|]. split; [reflexivity|]. split; [reflexivity|]. split.
  { unfold get_instantiated. cbn [s_type s_par s_sym s_ctl s_tgt inst_params]. rewrite var0_pi.
    cbn [check_ugate_nd]. unfold parse_u1. rewrite close_self. cbn. reflexivity. }
  split; [reflexivity|]. intros (_ & _ & k & M & M' & E1 & E2 & N). cbn in E1, E2. inversion E1; subst. inversion E2; subst.
  revert N. apply (far_matrix _ _ _ _ [true] [true]); [exact eps_lt|reflexivity|reflexivity|].
  replace ((uMat PI 0 0) [true] [true] - _)%C with (RtoC (-2)).
  - rewrite Cmod_RtoC, Rabs_left; lra.
  - cbv [uMat m2 mat_of bidx fold_left List.nth Nat.mul Nat.add]. apply Ceq; cbn; replace (PI + 0) with PI by ring;
      replace (0 / 2) with 0 by lra; rewrite ?cos_PI, ?sin_PI, ?cos_0, ?sin_0; ring.
Qed.
Print Assumptions C89_shrunk_P_refuted.

Definition at_mpi2 (x : nat) : option R := if Nat.eqb x 0 then Some (- (PI / 2)) else None.
Lemma var0_mpi2 : evaluate at_mpi2 var0 = Some (- (PI / 2)).
Proof. unfold evaluate, var0, at_mpi2, eval_term. cbn. f_equal. ring. Qed.

(** U(pi/2, x, 0) becomes a U2 gate that keeps three parameters. With
    x = -pi/2 it is instantiated to U2(pi/2, -pi/2) instead of U2(-pi/2, 0). *)
Theorem C89_shrunk_U2_refuted : exists s o,
  make_sym param_tol gU [SNum (PI / 2); SSym var0; SNum 0] [] [0%nat] = Some s /\
  s_type s = gU2 /\ length (s_par s) = 3%nat /\
  ugate_assert (s_type s) (s_par s) = false /\
  get_instantiated param_tol at_mpi2 s = Some o /\ o_type o = gVdg /\
  ~ gate_near (42 * param_tol) {| o_type := gU; o_par := [PI / 2; - (PI / 2); 0]; o_ctl := []; o_tgt := [0%nat] |} o.
Proof.
  pose proof PI2_3_2 as P2. do 2 eexists. split.
  { unfold make_sym. cbn [map store_num store_sym check_sym]. unfold sym_u3_phi. rewrite close_self, check_par_0. reflexivity. }
  cbn [s_type s_par length]. split; [reflexivity|]. split; [reflexivity|]. split; [reflexivity|]. split.
  { unfold get_instantiated. cbn [s_type s_par s_sym s_ctl s_tgt inst_params]. rewrite var0_mpi2.
    cbn [check_ugate_nd]. unfold parse_u2. rewrite (far_ge (PI / 2) 0) by lra. cbn [andb].
    rewrite (far_le (- (PI / 2)) (PI / 2)) by lra. cbn [andb]. rewrite !close_self. cbn. reflexivity. }
  split; [reflexivity|]. intros (_ & _ & k & M & M' & E1 & E2 & N). cbn in E1, E2. inversion E1; subst. inversion E2; subst.
  revert N. apply (far_matrix _ _ _ _ [true] [false]); [exact eps_lt|reflexivity|reflexivity|].
  assert (SQ : sq2 * sq2 = 1 / 2).
  { unfold sq2. rewrite <- Rinv_mult. rewrite sqrt_sqrt by lra. lra. }
  assert (S0 : 0 < sq2) by (unfold sq2; apply Rinv_0_lt_compat, sqrt_lt_R0; lra).
  assert (S1 : 1 <= 2 * sq2).
  { apply Rsqr_incr_0_var; [unfold Rsqr|lra]. replace (2 * sq2 * (2 * sq2)) with (4 * (sq2 * sq2)) by ring. rewrite SQ. lra. }
  replace ((uMat 0 (- (PI / 2)) (PI / 2)) [true] [false] - _)%C with (Ci * RtoC (- (2 * sq2)))%C.
  - rewrite Cmod_mul, Cmod_RtoC, Rabs_Ropp, Rabs_pos_eq by lra. replace (Cmod Ci) with 1; [lra|].
    unfold Cmod, Cnorm2, Ci. cbn. replace (0 * 0 + 1 * 1) with 1 by ring. now rewrite sqrt_1.
  - cbv [uMat m2 mat_of bidx fold_left List.nth Nat.mul Nat.add]. rewrite sq2_val.
    apply Ceq; cbn; rewrite ?cos_neg, ?sin_neg, ?cos_PI2, ?sin_PI2; replace (PI / 2 / 2) with (PI / 4) by lra; rewrite ?sin_PI4, ?cos_PI4; ring.
Qed.
Print Assumptions C89_shrunk_U2_refuted.

(** A symbolic operation all of whose parameters are numbers loses its
    parameter when it is recognised as a named gate, but not the entry for a
    possible symbol: it can never be instantiated. *)
Theorem C89_numbers_refuted : exists s, make_sym param_tol gP [SNum PI] [] [0%nat] = Some s /\
  s_type s = gZ /\ s_par s = [] /\ length (s_sym s) = 1%nat /\
  forall a, get_instantiated param_tol a s = None /\ instantiate param_tol a s = None.
Proof.
  pose proof PI2_3_2 as P2. eexists. split.
  { unfold make_sym. cbn [map store_num store_sym check_sym]. unfold parse_u1. rewrite (far_ge PI 0) by lra.
    rewrite Rabs_pos_eq, close_self by lra. reflexivity. }
  repeat split; reflexivity.
Qed.
Print Assumptions C89_numbers_refuted.

(** Equality compares the first symbol only: Rx(x) on qubit 0 equals Rz(x) on
    qubit 1 under a control; XX-YY(x, 0) equals XX-YY(x, 1); and an operation
    without parameters equals every symbolic one. *)
Theorem C89_equality_refuted : forall etol, 0 < etol ->
  (exists s o a f g, equals_sym etol (fun q => q) (fun q => q) s o = Some true /\
     option_map sem (evaluated a s) = Some (Some f) /\ option_map sem (evaluated a o) = Some (Some g) /\ f <> g) /\
  (exists s o, equals_sym etol (fun q => q) (fun q => q) s o = Some true /\ s_type s <> s_type o /\ s_tgt s <> s_tgt o /\ s_ctl s <> s_ctl o) /\
  (exists s o, equals_sym etol (fun q => q) (fun q => q) s o = Some true /\ s_type s = s_type o /\ s_par s <> s_par o) /\
  (exists s, s_type s = gX /\ forall o, has_sym o = true -> equals_sym etol (fun q => q) (fun q => q) s o = Some true).
Proof.
  intros etol ET.
  pose (rx := {| s_type := gRX; s_par := [0]; s_sym := [Some var0]; s_ctl := []; s_tgt := [0%nat] |}).
  pose (rz := {| s_type := gRZ; s_par := [0]; s_sym := [Some var0]; s_ctl := []; s_tgt := [0%nat] |}).
  pose (crz := {| s_type := gRZ; s_par := [0]; s_sym := [Some var0]; s_ctl := [(2%nat, true)]; s_tgt := [1%nat] |}).
  pose (x0 := {| s_type := gXXminusYY; s_par := [0; 0]; s_sym := [Some var0; None]; s_ctl := []; s_tgt := [0%nat; 1%nat] |}).
  pose (x1 := {| s_type := gXXminusYY; s_par := [0; 1]; s_sym := [Some var0; None]; s_ctl := []; s_tgt := [0%nat; 1%nat] |}).
  split; [|split; [|split]].
  - exists rx, rz, at_pi. do 2 eexists. split; [|split; [|split]].
    + unfold equals_sym. cbn [has_sym s_sym rx rz existsb negb andb orb equal_syms]. f_equal. now apply expr_eqb_refl.
    + unfold evaluated. cbn [s_type s_par s_sym s_ctl s_tgt rx inst_params]. rewrite var0_pi. cbn. reflexivity.
    + unfold evaluated. cbn [s_type s_par s_sym s_ctl s_tgt rz inst_params]. rewrite var0_pi. cbn. reflexivity.
    + intros E. apply (f_equal (fun f : state -> state => f (fun b : bits => if b 0%nat then C0 else C1) (fun _ => false))) in E.
      unfold capply, apply in E. cbn [sat forallb length allb map app csum fold_right flat_map] in E.
      apply (f_equal snd) in E. cbv [rxMat rzMat m2 mat_of bidx fold_left List.nth Nat.mul Nat.add setl setb Nat.eqb fst snd Cadd Cmul C0 C1 csum fold_right map] in E.
      rewrite ?sin_PI2, ?cos_PI2 in E. lra.
  - exists rx, crz. split; [|repeat split; discriminate].
    unfold equals_sym. cbn [has_sym s_sym rx crz existsb negb andb orb equal_syms]. f_equal. now apply expr_eqb_refl.
  - exists x0, x1. split; [|split; [reflexivity|]].
    + unfold equals_sym. cbn [has_sym s_sym x0 x1 existsb negb andb orb equal_syms]. f_equal. now apply expr_eqb_refl.
    + cbn. intros E. inversion E. lra.
  - exists {| s_type := gX; s_par := []; s_sym := []; s_ctl := []; s_tgt := [0%nat] |}. split; [reflexivity|].
    intros o H. unfold equals_sym. rewrite H. cbn [negb andb has_sym s_sym existsb equal_syms]. now destruct (equals_std _ _ _ _).
Qed.
Print Assumptions C89_equality_refuted.

(** Controlled Rx(2x + 1) and its inverse, instantiated at x = pi. *)
Definition lin : expr := {| e_terms := [(0%nat, 2)]; e_const := 1 |}.
Lemma lin_pi : evaluate at_pi lin = Some (2 * PI + 1).
Proof. unfold evaluate, lin, at_pi, eval_term. cbn. f_equal. ring. Qed.
Example C89_ex : exists s, make_sym param_tol gRX [SSym lin] [(1%nat, true)] [0%nat] = Some s /\
  get_instantiated param_tol at_pi s = Some {| o_type := gRX; o_par := [2 * PI + 1]; o_ctl := [(1%nat, true)]; o_tgt := [0%nat] |} /\
  (exists s', invert_sym s = Some s' /\
    get_instantiated param_tol at_pi s' = Some {| o_type := gRX; o_par := [- (2 * PI + 1)]; o_ctl := [(1%nat, true)]; o_tgt := [0%nat] |}).
Proof.
  eexists. split; [reflexivity|]. split.
  - unfold get_instantiated. cbn [s_type s_par s_sym s_ctl s_tgt map store_num store_sym inst_params]. now rewrite lin_pi.
  - eexists. split; [reflexivity|].
    unfold get_instantiated. cbn [s_type s_par s_sym s_ctl s_tgt map store_num store_sym inst_params].
    rewrite (neg_expr_value _ _ _ lin_pi). reflexivity.
Qed.

(** ** C90: circuits with symbols *)
(** A circuit built with the gate methods and instantiated holds, for every
    request in order, the requested gate with its values. *)
Theorem C90_circuit_partial : forall rs a dom ops vars ops' vars',
  (forall r, In r rs -> exists vs k M, Forall2 (value a) (r_par r) vs /\ gate_matrix (r_type r) vs = Some (k, M)) ->
  (forall r, In r rs -> all_numbers (r_par r) = false -> ~ shrunk param_tol (r_type r) (r_par r)) ->
  emit_all param_tol rs ([], []) = Some (ops, vars) ->
  instantiate_circuit param_tol a dom ops vars = Some (ops', vars') ->
  Forall2 (request_done (42 * param_tol) a) rs ops' /\ is_variable_free ops' = true.
Proof.
  intros rs a dom ops vars ops' vars' V N E I. destruct param_tol_ok as [P0 P1]. unfold instantiate_circuit in I.
  destruct (instantiate_ops param_tol a ops) as [o|] eqn:IO; [|discriminate]. inversion I; subst; clear I.
  destruct (emit_all_done param_tol P0 P1 a rs [] [] ops vars ops') as (pre & post & -> & A & B); auto.
  { intros r Hr. split; auto. }
  cbn in A. inversion A; subst. split; [exact B|]. eapply done_free; eauto.
Qed.
Print Assumptions C90_circuit_partial.

(** The recorded variables are exactly those that occur; instantiation takes
    those of the assignment away. *)
Theorem C90_variables : forall rs ops vars, emit_all param_tol rs ([], []) = Some (ops, vars) ->
  (forall v, In v vars <-> exists o, In o ops /\ In v (op_vars o)) /\
  (forall a dom ops' vars', instantiate_circuit param_tol a dom ops vars = Some (ops', vars') ->
     forall v, In v vars' <-> In v vars /\ ~ In v dom).
Proof.
  intros rs ops vars E. split.
  - apply (emit_all_vars param_tol rs [] [] ops vars E). intros v. split; [intros []|intros (o & [] & _)].
  - intros a dom ops' vars' I v. unfold instantiate_circuit in I. destruct (instantiate_ops param_tol a ops); [|discriminate].
    inversion I; subst. rewrite filter_In. split; intros [A B]; split; auto.
    + intros H. apply negb_true_iff in B. assert (existsb (Nat.eqb v) dom = true) by (apply existsb_exists; exists v; rewrite Nat.eqb_refl; auto). congruence.
    + apply negb_true_iff. destruct (existsb (Nat.eqb v) dom) eqn:X; auto. apply existsb_exists in X. destruct X as (w & Hw & Q). apply Nat.eqb_eq in Q. subst. contradiction.
Qed.
Print Assumptions C90_variables.

(** A variable without a value is never passed over: an exception is thrown. *)
Theorem C90_unassigned : forall a dom ops vars s v, In (QSym s) ops -> In v (sym_vars s) -> a v = None ->
  instantiate_circuit param_tol a dom ops vars = None.
Proof. intros a dom ops vars s v H1 H2 H3. unfold instantiate_circuit. now rewrite (unassigned_throws param_tol a ops s v). Qed.
Print Assumptions C90_unassigned.

(** Any circuit: no symbol is left, other operations are not touched, as long
    as no symbolic operation sits inside another operation. *)
Theorem C90_flat_partial : forall a dom ops vars ops' vars', forallb flat ops = true ->
  instantiate_circuit param_tol a dom ops vars = Some (ops', vars') ->
  existsb any_symbol ops' = false /\
  Forall2 (fun o o' => match o with
                       | QSym s => exists s', instantiate param_tol a s = Some s' /\ o' = QStd (std_of s')
                       | _ => o' = o end) ops ops'.
Proof.
  intros a dom ops vars ops' vars' F I. unfold instantiate_circuit in I.
  destruct (instantiate_ops param_tol a ops) as [o|] eqn:IO; [|discriminate]. inversion I; subst; clear I.
  now apply (flat_instantiated param_tol a ops).
Qed.
Print Assumptions C90_flat_partial.

(** Rx(x) inside a compound operation or under a classical condition keeps its
    symbol, although x is taken off the recorded variables; in the second case
    the circuit even counts as free of variables. *)
Definition rxx0 : symop := {| s_type := gRX; s_par := [0]; s_sym := [Some var0]; s_ctl := []; s_tgt := [0%nat] |}.
Theorem C90_nested_refuted : exists a dom,
  (forall v, In v [0%nat] -> In v dom /\ a v <> None) /\
  (exists ops', instantiate_circuit param_tol a dom [QComp [QSym rxx0]] [0%nat] = Some (ops', []) /\
     existsb any_symbol ops' = true /\ is_variable_free ops' = false) /\
  (exists ops', instantiate_circuit param_tol a dom [QIf (QSym rxx0)] [0%nat] = Some (ops', []) /\
     existsb any_symbol ops' = true /\ is_variable_free ops' = true).
Proof.
  exists at_pi, [0%nat]. split; [|split].
  - intros v [<-|[]]. split; [simpl; auto|discriminate].
  - eexists. split; [reflexivity|]. split; reflexivity.
  - eexists. split; [reflexivity|]. split; reflexivity.
Qed.
Print Assumptions C90_nested_refuted.

(** H-like prefix, Rx(x) and a controlled XX+YY(2x + 1, 1/2). *)
Definition reqs : list request :=
  [{| r_type := gX; r_par := []; r_ctl := []; r_tgt := [0%nat] |};
   {| r_type := gRX; r_par := [SSym var0]; r_ctl := []; r_tgt := [1%nat] |};
   {| r_type := gXXplusYY; r_par := [SSym lin; SNum (1 / 2)]; r_ctl := [(2%nat, false)]; r_tgt := [0%nat; 1%nat] |}].
Example C90_ex : exists ops vars, emit_all param_tol reqs ([], []) = Some (ops, vars) /\ vars = [0%nat; 0%nat] /\
  instantiate_circuit param_tol at_pi [0%nat] ops vars =
    Some ([QStd {| o_type := gX; o_par := []; o_ctl := []; o_tgt := [0%nat] |};
           QStd {| o_type := gRX; o_par := [PI]; o_ctl := []; o_tgt := [1%nat] |};
           QStd {| o_type := gXXplusYY; o_par := [2 * PI + 1; 1 / 2]; o_ctl := [(2%nat, false)]; o_tgt := [0%nat; 1%nat] |}], []).
Proof.
  do 2 eexists. split.
  { cbv [emit_all emit reqs all_numbers forallb make_sym check_sym map store_num store_sym r_type r_par r_ctl r_tgt check_ugate andb app add_variables fold_left].
    reflexivity. }
  split; [reflexivity|].
  unfold instantiate_circuit.
  cbn [instantiate_ops instantiate_op app]. unfold instantiate.
  cbn [s_type s_par s_sym s_ctl s_tgt map store_num store_sym inst_params]. rewrite var0_pi, lin_pi. reflexivity.
Qed.
