(* If statements. *)
From Coq Require Import ZArith NArith QArith Bool List String Lia Reals.
From Verif Require Import Cplx Qsem GateModel GateSpec IRModel IRSpec IRProofs QasmConstModel QasmIfModel.
Import ListNotations.
Local Close Scope Q_scope.
Local Open Scope nat_scope.

(* The meaning of a condition: the value of a register is its little-endian number, an index selects a bit. *)
Definition operand_value (regs : cregs) (m : store) (e : expr) : option N :=
  match e with
  | EId id [] => match reg_find id regs with Some (s, n) => Some (regval m s n) | None => None end
  | EId id [EInt _ z] => match reg_find id regs with Some (s, n) => if (Z.leb 0 z && Z.ltb z (Z.of_nat n))%bool then Some (if m (s + Z.to_nat z) then 1%N else 0%N) else None | None => None end
  | EInt false z => Some (Z.to_N (z mod 2 ^ 64))
  | EInt true z => if Z.leb 0 z then Some (Z.to_N z) else None
  | _ => None
  end.
Definition compares (op : bop) (a b : N) : option bool :=
  match op with
  | Equal => Some (N.eqb a b) | NotEqual => Some (negb (N.eqb a b)) | LessThan => Some (N.ltb a b) | LessThanOrEqual => Some (N.leb a b)
  | GreaterThan => Some (N.ltb b a) | GreaterThanOrEqual => Some (N.leb b a) | _ => None
  end.
Definition means (regs : cregs) (m : store) (c : expr) : option bool :=
  match c with
  | EBin op a b => match operand_value regs m a, operand_value regs m b with Some x, Some y => compares op x y | _, _ => None end
  | EUn LogicalNot a => match operand_value regs m a with Some x => Some (N.eqb x 0) | None => None end
  | EUn _ _ => None
  | _ => match operand_value regs m c with Some x => Some (negb (N.eqb x 0)) | None => None end
  end.
(* The conditions that are translated as written: a register without index compared with a constant on its right (or on
   its left, for equality), a single bit or its negation. *)
Definition literal (e : expr) : Prop := match e with EInt _ z => (- 2 ^ 63 <= z < 2 ^ 63)%Z | _ => False end.
Definition one_bit (regs : cregs) (e : expr) : Prop :=
  match e with EId _ [EInt _ z] => (z < 2 ^ 63)%Z | EId id [] => match reg_find id regs with Some (_, n) => n = 1 | None => True end | _ => False end.
Definition translated (regs : cregs) (c : expr) : Prop :=
  match c with
  | EBin op (EId _ []) r => literal r
  | EBin Equal l (EId _ []) | EBin NotEqual l (EId _ []) => literal l
  | EUn LogicalNot e => one_bit regs e
  | e => one_bit regs e
  end.

Lemma regval_1 m s : regval m s 1 = (if m s then 1 else 0)%N.
Proof. cbn. now destruct (m s). Qed.
Lemma run_comp ops b : run_op (OComp false ops) b = run ops b. Proof. reflexivity. Qed.
Lemma std_run l : forall psi m, exists psi', run (map OStd l) (psi, m) = [(psi', m)].
Proof. induction l as [|s l IH]; intros psi m; cbn; eauto. rewrite app_nil_r. apply IH. Qed.
Lemma block_run ops psi m : Forall no_class ops -> exists psi', run ops (psi, m) = [(psi', m)].
Proof.
  intros N. destruct (dd_ops_ok (OComp false ops)) as (l & _ & R); [now apply no_class_comp|]. rewrite <- run_comp, <- R. apply std_run.
Qed.
Lemma run_cons o l b : run (o :: l) b = flat_map (run l) (run_op o b). Proof. reflexivity. Qed.
Lemma run_nil b : run [] b = [b]. Proof. reflexivity. Qed.
(* two complementary conditions one after the other *)
Lemma two_blocks (th el : list cop) c1 c2 psi m (d : bool) : Forall no_class th -> Forall no_class el ->
  cond_holds c1 m = d -> cond_holds c2 m = negb d ->
  run ((match th with [] => [] | _ => [OClass c1 (OComp false th)] end) ++ (match el with [] => [] | _ => [OClass c2 (OComp false el)] end)) (psi, m) = run (if d then th else el) (psi, m).
Proof.
  intros Nt Ne H1 H2.
  assert (E2 : forall phi, run (match el with [] => [] | _ => [OClass c2 (OComp false el)] end) (phi, m) = if d then [(phi, m)] else run el (phi, m)).
  { intros phi. destruct el as [|o el]; [now destruct d|]. rewrite run_cons. cbn [run_op snd]. rewrite H2. destruct d; cbn [negb].
    - reflexivity.
    - destruct (block_run (o :: el) phi m Ne) as (psi' & E). rewrite E. rewrite <- run_comp in E. cbn [run_op] in E. rewrite E. reflexivity. }
  destruct th as [|o th].
  - cbn [app]. rewrite E2. destruct d; reflexivity.
  - cbn [app]. rewrite run_cons. cbn [run_op snd]. rewrite H1. destruct d.
    + destruct (block_run (o :: th) psi m Nt) as (psi' & E). assert (E' := E). rewrite <- run_comp in E'. cbn [run_op] in E'. rewrite E'. cbn [flat_map app]. rewrite E2. now rewrite E.
    + cbn [flat_map app]. rewrite E2, app_nil_r. reflexivity.
Qed.
Lemma cmp_inv k a v : cmp_dec (inv_kind k) a v = negb (cmp_dec k a v).
Proof. destruct k; cbn; rewrite ?negb_involutive; auto; rewrite N.leb_antisym || rewrite N.ltb_antisym; rewrite ?negb_involutive; auto. Qed.
Lemma on_reg_run (th el : list cop) s n v k psi m : Forall no_class th -> Forall no_class el ->
  run ((match th with [] => [] | _ => [OClass (CReg s n v k) (OComp false th)] end) ++ (match el with [] => [] | _ => [OClass (CReg s n v (inv_kind k)) (OComp false el)] end)) (psi, m) =
  run (if cmp_dec k (regval m s n) v then th else el) (psi, m).
Proof. intros Nt Ne. apply two_blocks; auto. cbn. apply cmp_inv. Qed.
Lemma on_bit_visit th el b (val : bool) :
  (let mk v ops := match ops with [] => Some [] | _ => match mk_bit_op (OComp false ops) b v kEq with Some o => Some [o] | None => None end end in
   match mk (if val then 1 else 0)%N th, mk (if val then 0 else 1)%N el with Some a, Some b => ROk (a ++ b) | _, _ => RError end) =
  ROk ((match th with [] => [] | _ => [OClass (CBit b (if val then 1 else 0)%N kEq) (OComp false th)] end) ++ (match el with [] => [] | _ => [OClass (CBit b (if val then 0 else 1)%N kEq) (OComp false el)] end)).
Proof. destruct val, th, el; reflexivity. Qed.
Lemma on_bit_run (th el : list cop) b (val : bool) psi m : Forall no_class th -> Forall no_class el ->
  run ((match th with [] => [] | _ => [OClass (CBit b (if val then 1 else 0)%N kEq) (OComp false th)] end) ++ (match el with [] => [] | _ => [OClass (CBit b (if val then 0 else 1)%N kEq) (OComp false el)] end)) (psi, m) =
  run (if Bool.eqb (m b) val then th else el) (psi, m).
Proof. intros Nt Ne. apply two_blocks; auto; cbn; destruct (m b), val; reflexivity. Qed.
Lemma lit_value regs m e v : literal e -> operand_value regs m e = Some v -> evaluatePositiveConstant e = ROk v.
Proof.
  destruct e as [sg z| | | | |]; cbn; try contradiction. intros L. destruct sg.
  - destruct (Z.leb_spec 0 z) as [P|P]; [|discriminate]. intros E. injection E as <-. rewrite Z.mod_small by lia. reflexivity.
  - intros E. injection E as <-. reflexivity.
Qed.
Lemma bit_operand regs m id idx v : one_bit regs (EId id idx) -> operand_value regs m (EId id idx) = Some v ->
  exists b, translateBitOperand regs id idx = ROk [b] /\ v = (if m b then 1 else 0)%N.
Proof.
  unfold translateBitOperand. destruct idx as [|i idx]; cbn [one_bit operand_value].
  - destruct (reg_find id regs) as [[s n]|]; [|discriminate]. intros -> E. injection E as <-. exists s. split; [reflexivity|apply regval_1].
  - destruct idx; [|destruct i; contradiction]. destruct i as [sg z| | | | |]; try contradiction. intros L. destruct (reg_find id regs) as [[s n]|]; [|discriminate].
    destruct (Z.leb_spec 0 z) as [P|P]; [|discriminate]. destruct (Z.ltb_spec z (Z.of_nat n)) as [Q|Q]; [|discriminate]. intros E. injection E as <-.
    unfold evaluatePositiveConstant. rewrite Z.mod_small by lia. destruct (N.leb_spec (N.of_nat n) (Z.to_N z)) as [R|R]; [lia|]. exists (s + Z.to_nat z). split; auto. do 2 f_equal. lia.
Qed.
Lemma kind_compares op k : getComparisonKind op = Some k -> forall x y, compares op x y = Some (cmp_dec k x y).
Proof. destruct op; cbn; try discriminate; intros E; injection E as <-; reflexivity. Qed.
Lemma compares_kind op x y d : compares op x y = Some d -> exists k, getComparisonKind op = Some k /\ d = cmp_dec k x y.
Proof. destruct op; cbn; try discriminate; intros E; injection E as <-; eexists; split; reflexivity. Qed.

Theorem if_ok asserts regs c th el m psi d : translated regs c -> means regs m c = Some d -> Forall no_class th -> Forall no_class el ->
  exists ops, visitIfStatement asserts regs c th el = ROk ops /\ run ops (psi, m) = run (if d then th else el) (psi, m).
Proof.
  intros T M Nt Ne. unfold visitIfStatement.
  assert (Single : forall id idx (val : bool) v, one_bit regs (EId id idx) -> operand_value regs m (EId id idx) = Some v ->
    exists b, single asserts (translateBitOperand regs id idx) val = ROk (OnBit b val) /\ v = (if m b then 1 else 0)%N).
  { intros id idx val v O V. destruct (bit_operand regs m id idx v O V) as (b & -> & E). exists b. split; auto. }
  destruct c as [| | |id idx|op l r|op e]; cbn [translated] in T; try contradiction.
  - cbn [means] in M. destruct (operand_value regs m (EId id idx)) as [v|] eqn:V; [|discriminate]. injection M as <-.
    destruct (Single id idx true v T V) as (b & E & ->). cbn [translateCondition]. rewrite E. eexists. split; [apply (on_bit_visit th el b true)|].
    rewrite (on_bit_run th el b true) by auto. destruct (m b); reflexivity.
  - cbn [means] in M. destruct (operand_value regs m l) as [x|] eqn:X; [|discriminate]. destruct (operand_value regs m r) as [y|] eqn:Y; [|discriminate].
    destruct (compares_kind _ _ _ _ M) as (k & K & D).
    assert (Cases : (exists id, l = EId id [] /\ literal r) \/ (exists id, r = EId id [] /\ literal l /\ (k = kEq \/ k = kNeq))).
    { destruct l as [| | |lid [|]| |]; try (left; eexists; split; [reflexivity|now destruct op]); right;
        (destruct op; try contradiction; destruct r as [| | |rid [|]| |]; try contradiction; cbn in K; injection K as <-; eauto 6). }
    destruct Cases as [(id & -> & L)|(id & -> & L & Q)].
    + cbn [operand_value] in X. destruct (reg_find id regs) as [[s n]|] eqn:Rf; [|discriminate]. injection X as <-.
      assert (C : is_constant r = true) by (destruct r; cbn in L; try contradiction; reflexivity).
      cbn [translateCondition]. rewrite K, C. unfold on_reg. rewrite (lit_value regs m r y L Y), Rf. eexists. split; [reflexivity|]. rewrite on_reg_run by auto. now rewrite D.
    + cbn [operand_value] in Y. destruct (reg_find id regs) as [[s n]|] eqn:Rf; [|discriminate]. injection Y as <-.
      assert (H : translateCondition asserts regs (EBin op l (EId id [])) = ROk (OnReg s n k x)).
      { cbn [translateCondition]. rewrite K. pose proof (lit_value regs m l x L X) as Lv. destruct l; cbn in L; try contradiction. cbn [is_constant]. unfold on_reg. now rewrite Lv, Rf. }
      rewrite H. eexists. split; [reflexivity|]. rewrite on_reg_run by auto. rewrite D. destruct Q as [-> | ->]; cbn; rewrite (N.eqb_sym x); reflexivity.
  - assert (T' : op = LogicalNot /\ one_bit regs e).
    { destruct op; try (cbn in T; contradiction); auto. }
    destruct T' as [-> O]. cbn [means] in M. destruct e as [| | |id idx| |]; cbn in O; try contradiction.
    destruct (operand_value regs m (EId id idx)) as [v|] eqn:V; [|discriminate]. injection M as <-. destruct (Single id idx false v O V) as (b & E & ->).
    cbn [translateCondition]. rewrite E. eexists. split; [apply (on_bit_visit th el b false)|]. rewrite (on_bit_run th el b false) by auto. destruct (m b); reflexivity.
Qed.
