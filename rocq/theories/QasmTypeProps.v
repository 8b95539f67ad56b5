(** C104 (names, scopes and crashes), C105 (kinds): the type checker of the OpenQASM importer. *)
From Coq Require Import ZArith QArith Bool List String.
From Verif Require Import QasmScanModel QasmEnvModel QasmConstModel QasmTypeModel QasmTypeSpec QasmTypeProofs QasmTypeMainProofs QasmTypeProgProofs QasmTypeRuleProofs.
Import ListNotations.
Local Close Scope Q_scope.
Local Open Scope string_scope.
Local Open Scope list_scope.

(** ** C104 *)
(** In an accepted statement every name is declared where it occurs, apart from names in the indices of expressions and in
    the operands of gate calls; behind it exactly the names of the statement's scope are known. *)
Theorem C104_scoped : forall consts x s u s' G,
  sane s -> accept consts x s = TOk u s' -> same_names G (dom s) -> exists G', scoped G x G' /\ same_names G' (dom s').
Proof. intros consts x s u s' G S E N. apply accept_ok in E as (v & E & B). eapply stmt_scoped; eauto. Qed.
Print Assumptions C104_scoped.
(** The same for expressions, whatever the rest of the statement is. *)
Theorem C104_expr : forall e s r s', sane s -> check_expr e s = TOk r s' -> bad s' = false -> incl (names_of e) (dom s).
Proof. exact expr_scoped. Qed.
Print Assumptions C104_expr.
(** Without [~] and [!], and without indices of undeclared names, checking an expression does not crash. *)
Theorem C104_no_crash_partial : forall e s, sane s -> calm (dom s) e -> check_expr e s <> TUndef.
Proof. exact expr_calm. Qed.
Print Assumptions C104_no_crash_partial.
(** Otherwise it may: a null pointer is followed. [c = x], [if (~x) {}], [if (!x) {}], [if (x[0]) {}] for an undeclared x,
    and [!(1 + true)], [c = 1 + true] for a type error that has already been reported. *)
Definition st0 : tst := snd start.
Definition cs0 : env cvalue := fst start.
Definition with_c : tst := mkT [TD KFloat 64; TD KInt 32] [("pi", 0); ("tau", 0); ("euler", 0); ("c", 1)] false.
Theorem C104_crash_refuted : exists s, sane s /\
  check_stmt cs0 (SAssign "c" [] (RExpr (EId "x" []))) s = TUndef /\
  check_stmt cs0 (SIf (EUn BitwiseNot (EId "x" [])) [] []) s = TUndef /\
  check_stmt cs0 (SIf (EUn LogicalNot (EId "x" [])) [] []) s = TUndef /\
  check_stmt cs0 (SIf (EId "x" [EInt false 0]) [] []) s = TUndef /\
  check_stmt cs0 (SIf (EUn LogicalNot (EBin Add (EInt false 1) (EBool true))) [] []) s = TUndef /\
  check_stmt cs0 (SAssign "c" [] (RExpr (EBin Add (EInt false 1) (EBool true)))) s = TUndef.
Proof.
  exists with_c. split; [|repeat split; vm_compute; reflexivity].
  intros id a F. cbn in *. repeat match type of F with context [if ?b then _ else _] => destruct b end; try discriminate F; injection F as <-; repeat constructor.
Qed.
Print Assumptions C104_crash_refuted.
(** The parameters of a gate do not hide variables of the same name: the type of [p] in the body of [gate g(p) q {...}] is that of
    the variable [bool p], so that [rx(sin(p)+p) q] is refused, and accepted without the variable. *)
Definition body_p : stmt := SGate ["p"] ["q"] [SCall [EBin Add (EFloat 1) (EId "p" [])]].
Theorem C104_shadow_refuted : exists s1 s2,
  process_all [body_p] cs0 st0 = POk cs0 s1 /\ process_all [SDecl false UBool "p" None] cs0 st0 = POk cs0 s2 /\
  process_all [SDecl false UBool "p" None; body_p] cs0 st0 = PThrow.
Proof. eexists. eexists. split; [|split]; vm_compute; reflexivity. Qed.
Print Assumptions C104_shadow_refuted.

(** ** C105 *)
(** No statement changes the kind of a name that is known, accepted or not. *)
Theorem C105_kinds : forall consts x s u s' id t,
  sane s -> check_stmt consts x s = TOk u s' -> type_of s id = Some t -> sane s' /\ exists t', type_of s' id = Some t' /\ same_kind t t'.
Proof. intros consts x s u s' id t S E T. pose proof (stmt_grow _ _ _ _ _ S E) as G. split; [apply G|]. eapply type_of_grow; eauto. Qed.
Print Assumptions C105_kinds.
(** The value of an expression has the kind of its type. *)
Theorem C105_sound : forall consts e s a s' v,
  sane s -> consistent consts s -> check_expr e s = TOk (Some a) s' -> ceval consts e = Ok v -> of_kind v (deref a s').
Proof. exact expr_sound. Qed.
Print Assumptions C105_sound.
(** An accepted expression does not fail to evaluate, but for bitwise operations and shifts of floating-point numbers and for
    powers of integers. *)
Theorem C105_fails : forall consts e s r s',
  all_wide consts -> sane s -> consistent consts s -> check_expr e s = TOk r s' -> bad s' = false -> ceval consts e = Error -> excuse consts e.
Proof. intros consts e s r s' W. now apply expr_fails. Qed.
Print Assumptions C105_fails.
(** Behind every accepted program the assumptions above hold. *)
Theorem C105_program : forall l consts s,
  process_all l (fst start) (snd start) = POk consts s -> NoDup (declared l) -> Forall top_only l -> sane s /\ consistent consts s /\ all_wide consts.
Proof. exact program_inv. Qed.
Print Assumptions C105_program.
(** Together: a constant expression behind an accepted program. *)
Theorem C105_behind : forall l consts s e r s',
  process_all l (fst start) (snd start) = POk consts s -> NoDup (declared l) -> Forall top_only l -> check_expr e s = TOk r s' -> bad s' = false ->
  match ceval consts e with Ok v => exists a, r = Some a /\ of_kind v (deref a s') | Error => excuse consts e | _ => True end.
Proof.
  intros l consts s e r s' P N T E B. destruct (program_inv _ _ _ P N T) as (S & C & W). destruct (ceval consts e) as [v| | | |] eqn:V; auto.
  - destruct r as [a|]; [exists a; split; auto; eapply expr_sound; eauto|]. destruct (check_expr_post _ _ _ _ S E) as (_ & _ & H). rewrite H in B by reflexivity. discriminate B.
  - eapply expr_fails; eauto.
Qed.
Print Assumptions C105_behind.
(** Exactly the expressions that follow the typing rules are accepted, with the kinds of the rules. *)
Theorem C105_rules : forall e s, sane s -> plain s e -> bad s = false ->
  forall k, types (kinds s) e k <-> exists a s', check_expr e s = TOk (Some a) s' /\ bad s' = false /\ ty_kind (deref a s') = Some k.
Proof. exact rules_iff. Qed.
Print Assumptions C105_rules.
(** Exactly the assignments of lower kinds and of no larger widths are accepted. *)
Theorem C105_assign : forall consts id e s kt, sane s -> plain s e -> bad s = false -> kinds s id = Some kt ->
  forall s', accept consts (SAssign id [] (RExpr e)) s = TOk tt s' <->
  exists k b tb tid, types (kinds s) e k /\ below k kt /\ check_expr e s = TOk (Some b) s' /\ tb = deref b s' /\ type_of s' id = Some tid /\ (width tb <= width tid)%Z.
Proof. exact assign_rules. Qed.
Print Assumptions C105_assign.
(** Conditions are of type bool. *)
Theorem C105_condition : forall consts c s, sane s -> plain s c -> bad s = false -> ((exists s', accept consts (SIf c [] []) s = TOk tt s') <-> types (kinds s) c kBool).
Proof. exact cond_rules. Qed.
Print Assumptions C105_condition.
(** A register of qubits is measured into a register of bits that is at least as large. *)
Theorem C105_measure : forall consts id q s m n, sane s -> bad s = false -> type_of s id = Some (TD KBit n) -> type_of s q = Some (TD KQubit m) ->
  ((exists s', accept consts (SAssign id [] (RMeasure (Named q []))) s = TOk tt s') <-> (m <= n)%Z).
Proof. exact measure_rules. Qed.
Print Assumptions C105_measure.
(** The index of the target is ignored: [c[0] = measure q;] is accepted behind [qubit[4] q; bit[4] c;]. *)
Theorem C105_measure_refuted : exists s,
  process_all [SDecl false (Sized KQubit (Some (EInt false 4))) "q" None; SDecl false (Sized KBit (Some (EInt false 4))) "c" None; SAssign "c" [EInt false 0] (RMeasure (Named "q" []))] cs0 st0 = POk cs0 s.
Proof. eexists. vm_compute; reflexivity. Qed.
Print Assumptions C105_measure_refuted.
(** The width of a variable is changed by comparing it: [a = b] is refused behind [int[8] a; int[32] b;], and accepted behind
    [if (a == b) {}]. *)
Definition wa : stmt := SDecl false (Sized KInt (Some (EInt false 8))) "a" None.
Definition wb : stmt := SDecl false (Sized KInt (Some (EInt false 32))) "b" None.
Definition ab : stmt := SAssign "a" [] (RExpr (EId "b" [])).
Theorem C105_width_refuted : exists s,
  process_all [wa; wb; ab] cs0 st0 = PThrow /\ process_all [wa; wb; SIf (EBin Equal (EId "a" []) (EId "b" [])) [] []; ab] cs0 st0 = POk cs0 s.
Proof. eexists. split; vm_compute; reflexivity. Qed.
Print Assumptions C105_width_refuted.
(** Constants that fit are refused: [const uint[8] x = 3;], [int[16] x = 3;], [float[32] f = 1.0;]. *)
Theorem C105_narrow_refuted :
  process_all [SDecl true (Sized KUint (Some (EInt false 8))) "x" (Some (RExpr (EInt false 3)))] cs0 st0 = PThrow /\
  process_all [SDecl false (Sized KInt (Some (EInt false 16))) "x" (Some (RExpr (EInt false 3)))] cs0 st0 = PThrow /\
  process_all [SDecl false (Sized KFloat (Some (EInt false 32))) "f" (Some (RExpr (EFloat 1)))] cs0 st0 = PThrow.
Proof. repeat split; vm_compute; reflexivity. Qed.
Print Assumptions C105_narrow_refuted.
(** Both exceptions of [C105_fails] occur. *)
Theorem C105_excuse_refuted : exists e1 e2 r1 s1 r2 s2,
  check_expr e1 st0 = TOk r1 s1 /\ bad s1 = false /\ ceval cs0 e1 = Error /\ check_expr e2 st0 = TOk r2 s2 /\ bad s2 = false /\ ceval cs0 e2 = Error.
Proof. exists (EBin LeftShift (EFloat 1) (EInt false 2)), (EBin Power (EInt false 2) (EInt false 64)). do 4 eexists. repeat split; vm_compute; reflexivity. Qed.
Print Assumptions C105_excuse_refuted.

(** ** Examples *)
(** [const uint n = 4; qubit[n] q; bit[n] c; gate g(t) a { rx(t/2) a; } g(pi) q[0]; c = measure q; if (c[0]) { reset q[0]; }] *)
Definition prog : list stmt :=
  [ SDecl true (Sized KUint None) "n" (Some (RExpr (EInt false 4))); SDecl false (Sized KQubit (Some (EId "n" []))) "q" None;
    SDecl false (Sized KBit (Some (EId "n" []))) "c" None; SGate ["t"] ["a"] [SCall [EBin Divide (EId "t" []) (EInt false 2)]];
    SCall [EId "pi" []]; SAssign "c" [] (RMeasure (Named "q" [])); SIf (EId "c" [EInt false 0]) [SReset (Named "q" [EInt false 0])] [] ].
Example C104_ex : exists consts s, process_all prog cs0 st0 = POk consts s /\ dom s = ["pi"; "tau"; "euler"; "n"; "q"; "c"] /\ env_find "n" consts = Some (VInt false 4 64).
Proof. do 2 eexists. split; [vm_compute; reflexivity|]. split; reflexivity. Qed.
Example C104_ex_undeclared : process_all [SReset (Named "q" [])] cs0 st0 = PThrow /\ process_all [SGate ["t"] ["a"] [SCall [EId "u" []]]] cs0 st0 = PThrow /\ process_all [SIf (EBin Equal (EId "u" []) (EInt false 1)) [] []] cs0 st0 = PThrow.
Proof. repeat split; vm_compute; reflexivity. Qed.
Example C105_ex : exists consts s, process_all prog cs0 st0 = POk consts s /\ NoDup (declared prog) /\ Forall top_only prog /\
  exists r s', check_expr (EBin Add (EId "n" []) (EFloat 1)) s = TOk r s' /\ bad s' = false /\ exists v, ceval consts (EBin Add (EId "n" []) (EFloat 1)) = Ok v /\ is_float v = true.
Proof.
  do 2 eexists. split; [vm_compute; reflexivity|]. split; [repeat constructor; cbn; intuition discriminate|]. split; [repeat constructor|].
  do 2 eexists. split; [vm_compute; reflexivity|]. split; [reflexivity|]. eexists. split; [vm_compute; reflexivity|reflexivity].
Qed.
Example C105_ex_refused : process_all (prog ++ [SAssign "n" [] (RExpr (EFloat 1))]) cs0 st0 = PThrow /\ process_all (prog ++ [SAssign "c" [] (RExpr (EInt false 1))]) cs0 st0 = PThrow /\
  process_all (prog ++ [SIf (EBin LogicalAnd (EInt false 1) (EInt false 1)) [] []]) cs0 st0 = PThrow.
Proof. repeat split; vm_compute; reflexivity. Qed.
Example C105_ex_rules : exists consts s s', process_all prog cs0 st0 = POk consts s /\ plain s (EBin LessThan (EId "n" []) (EId "pi" [])) /\
  types (kinds s) (EBin LessThan (EId "n" []) (EId "pi" [])) kBool /\ accept consts (SIf (EBin LessThan (EId "n" []) (EId "pi" [])) [] []) s = TOk tt s' /\
  ~ types (kinds s) (EBin LessThan (EId "n" []) (EBool true)) kBool.
Proof.
  do 3 eexists. split; [vm_compute; reflexivity|]. split; [repeat split; intros _; vm_compute; discriminate|]. split; [apply t_compare with kUint kFloat; [now constructor|now constructor|discriminate|discriminate|cbn; auto]|].
  split; [vm_compute; reflexivity|]. intros T. inversion T as [| | | | |o a b k l Ta Tb Na Nb Io|o a b k l Ta Tb Na Nb Io|o a b Ta Tb Io| | | |]; subst; [inversion Tb; congruence|inversion Tb; congruence|inversion Ta as [| | | |i k E| | | | | | |]; subst; vm_compute in E; discriminate E].
Qed.
Example C105_ex_measure : exists s s', process_all [SDecl false (Sized KQubit (Some (EInt false 3))) "q" None; SDecl false (Sized KBit (Some (EInt false 2))) "c" None] cs0 st0 = POk cs0 s /\
  type_of s "c" = Some (TD KBit 2) /\ type_of s "q" = Some (TD KQubit 3) /\ accept cs0 (SAssign "c" [] (RMeasure (Named "q" []))) s = TThrow /\
  accept cs0 (SAssign "c" [] (RMeasure (Named "q" [EInt false 2]))) s = TOk tt s'.
Proof. do 2 eexists. repeat split; vm_compute; reflexivity. Qed.
