(* A written circuit is read back: statements, conditions, widths of the registers and parsing. *)
From Coq Require Import Reals ZArith NArith Bool List String Ascii Arith Lia Permutation FunctionalExtensionality.
From Verif Require Import Cplx Qsem GateModel GateSpec IRModel IRSpec IRProofs QasmEnvModel QasmConstModel QasmIfModel QasmGateModel
  ExportModel ExportSpec ExportRegProofs ExportStdProofs.
Import ListNotations.
Local Open Scope nat_scope.

(* ---- parsing ---- *)
Section Parse.
Variable v3 : bool.
Definition piece (s : xstmt) : list item :=
  match s with XIf c body => TIf c :: (if v3 then TOpen :: map TStmt body ++ [TClose] else map TStmt body) | _ => [TStmt s] end.
Definition plain (s : xstmt) : Prop := match s with XIf c body => v3 = false -> List.length body = 1 | _ => True end.
Lemma parse_block body : forall fuel r, List.length body < fuel -> parseBlock fuel (map TStmt body ++ TClose :: r) = Some (body, r).
Proof.
  induction body as [|s body IH]; intros fuel r L; (destruct fuel as [|n]; [cbn in L; lia|]); [reflexivity|]. cbn [map app parseBlock List.length] in *.
  destruct n as [|n]; [lia|]. cbn [parseStatement]. rewrite IH by lia. reflexivity.
Qed.
Lemma parse_piece s r : plain s -> forall fuel, List.length (piece s ++ r) <= fuel -> parseStatement fuel (piece s ++ r) = Some (s, r).
Proof.
  intros P fuel L. destruct s as [c|l|o|b q|c body]; try (destruct fuel; [cbn in L; lia|]; reflexivity).
  cbn [piece plain] in *. destruct fuel as [|n]; [cbn in L; lia|]. destruct v3.
  - cbn [app parseStatement List.length] in *. rewrite <- app_assoc in *. cbn [app] in *. rewrite parse_block; auto. rewrite !app_length, map_length in L. cbn in L. lia.
  - specialize (P eq_refl). destruct body as [|s [|s' body]]; try discriminate P. cbn [map app parseStatement List.length] in *. destruct n; [lia|]. reflexivity.
Qed.
Lemma piece_nil s : piece s <> []. Proof. destruct s; discriminate. Qed.
Lemma parse_program l : Forall plain l -> forall fuel, List.length l <= fuel -> parseProgram fuel (flat_map piece l) = Some l.
Proof.
  induction 1 as [|s l P _ IH]; intros fuel L; [destruct fuel; reflexivity|]. cbn [flat_map List.length] in *. destruct fuel as [|n]; [lia|].
  assert (E : forall m, parseProgram (S n) m = match m with [] => Some [] | _ => match parseStatement (2 * List.length m) m with Some (s, r) => match parseProgram n r with Some p => Some (s :: p) | None => None end | None => None end end) by (intros [|? ?]; reflexivity).
  rewrite E. destruct (piece s ++ flat_map piece l) eqn:X; [destruct (piece s) eqn:Y; [now destruct (piece_nil s)|discriminate]|]. rewrite <- X. rewrite parse_piece by (auto; lia). rewrite IH by lia. reflexivity.
Qed.
Lemma pieces_len l : List.length l <= List.length (flat_map piece l).
Proof. induction l as [|s l IH]; [apply Nat.le_refl|]. cbn [flat_map List.length]. rewrite app_length. destruct (piece s) eqn:E; [now destruct (piece_nil s)|]. cbn [List.length]. lia. Qed.
Lemma pieces_stmts l : flat_map piece (map XCall l) = map TStmt (map XCall l).
Proof. induction l as [|c l IH]; [reflexivity|]. cbn [map flat_map piece app]. now rewrite IH. Qed.
End Parse.

(* ---- widths ---- *)
Lemma width_set_find k k' w ws : width_find k (width_set k' w ws) = if String.eqb k k' then match width_find k ws with Some _ => Some w | None => None end else width_find k ws.
Proof.
  induction ws as [|[a x] ws IH]; cbn [width_set map width_find]; [now destruct (String.eqb k k')|]. fold (width_set k' w ws). cbn [fst].
  destruct (String.eqb_spec a k') as [E1|E1]; cbn [width_find]; destruct (String.eqb_spec a k) as [E2|E2]; subst; rewrite ?String.eqb_refl; auto.
  rewrite (proj2 (String.eqb_neq k k') E1). reflexivity.
Qed.

(* ---- statements ---- *)
Section Circuit.
Variables (v3 asserts : bool) (qregs bregs : cregs) (nq nb : nat) (asked : string -> Prop).
Hypothesis DQ : divides qregs nq.
Hypothesis DB : divides bregs nb.
Hypothesis NB : (Z.of_nat nb <= 2 ^ 64)%Z.
Let Q := sortedRegs qregs.
Let B := sortedRegs bregs.
Definition good (ws : widths) : Prop := forall r, In r bregs -> exists w, width_find (fst r) ws = Some w /\ (1 <= w)%Z /\ (asked (fst r) \/ (Z.of_nat (size r) <= w)%Z).
Notation step := (importStatement v3 asserts Q B).
Notation steps := (importStatements v3 asserts Q B).
(* the statements read as operations acting like o *)
Definition reads (l : list xstmt) (o : list cop) : Prop :=
  Forall (plain v3) l /\ forall st, good (i_ws st) -> exists st' ops, steps l st = ROk st' /\ good (i_ws st') /\ i_ops st' = i_ops st ++ ops /\ same_run ops o.
Lemma steps_app l m st : steps (l ++ m) st = bind (steps l st) (steps m).
Proof. revert st. induction l as [|s l IH]; intros st; [reflexivity|]. cbn [app importStatements]. destruct (step s st); cbn [bind]; auto. Qed.
Lemma reads_nil : reads [] [].
Proof. split; [constructor|]. intros st G. exists st, []. split; [reflexivity|]. split; auto. split; [now rewrite app_nil_r|]. intros b. reflexivity. Qed.
Lemma reads_app l m o p : reads l o -> reads m p -> reads (l ++ m) (o ++ p).
Proof.
  intros [P1 H1] [P2 H2]. split; [apply Forall_app; auto|]. intros st G. destruct (H1 st G) as (s1 & o1 & E1 & G1 & I1 & R1). destruct (H2 s1 G1) as (s2 & o2 & E2 & G2 & I2 & R2).
  exists s2, (o1 ++ o2). rewrite steps_app, E1. cbn [bind]. split; auto. split; auto. split; [rewrite I2, I1, app_assoc; auto|]. now apply same_app.
Qed.
Lemma reads_same l o p : same_run o p -> reads l o -> reads l p.
Proof.
  intros S1 [P H]. split; auto. intros st G. destruct (H st G) as (s1 & o1 & E1 & G1 & I1 & R1). exists s1, o1. split; auto. split; auto. split; auto. eapply same_trans; eauto.
Qed.
(* one statement that emits one operation *)
Lemma reads_one s o : plain v3 s -> (forall st, good (i_ws st) -> step s st = ROk {| i_ws := i_ws st; i_ops := i_ops st ++ [o] |}) -> reads [s] [o].
Proof.
  intros P H. split; [constructor; auto|]. intros st G. cbn [importStatements]. rewrite H by auto. cbn [bind]. do 2 eexists. split; [reflexivity|]. split; [exact G|]. split; [reflexivity|]. apply same_refl.
Qed.
Lemma reads_calls calls ops : mapr (importCall v3 Q) calls = ROk ops -> reads (map XCall calls) ops.
Proof.
  revert ops. induction calls as [|c l IH]; intros ops E; cbn [mapr map] in *; [injection E as <-; apply reads_nil|].
  destruct (importCall v3 Q c) as [o| |] eqn:EC; cbn [bind] in E; try discriminate. destruct (mapr (importCall v3 Q) l) as [r| |] eqn:ER; cbn [bind] in E; try discriminate. injection E as <-.
  apply (reads_app [XCall c] (map XCall l) [o] r); [|now apply IH]. apply reads_one; [exact I|]. intros st _. cbn [importStatement]. now rewrite EC.
Qed.

(* ---- barriers ---- *)
Lemma barrier_run ps cl ts : same_run [OStd {| o_type := gBarrier; o_par := ps; o_ctl := cl; o_tgt := ts |}] [].
Proof. intros [psi m]. reflexivity. Qed.
Lemma barrier_ok s : gate_ok nq s -> o_type s = gBarrier -> exists l, (if v3 then dumpOpenQASM3 qregs s else dumpOpenQASM2 qregs s) = ROk (flat_map (piece v3) l) /\ reads l [OStd s].
Proof.
  intros (_ & _ & BL & C) T. rewrite T in C. rewrite C in BL. cbn [map app] in BL.
  assert (D : exists ops qs, dumpGateType qregs s 0 [] = ROk [TStmt (XBarrier ops)] /\ mapr (translateQubits Q) ops = ROk qs).
  { unfold dumpGateType. rewrite T, C. cbn [mapr bind]. destruct (o_tgt s) as [|t ts] eqn:ET; [now exists [], []|].
    assert (W : exists w, whole qregs t (last (t :: ts) t) = ROk w /\ forall r, w = Some r -> In r qregs).
    { unfold whole. assert (L1 : t < nq) by (inversion BL; auto). assert (L2 : last (t :: ts) t < nq) by (unfold below in BL; rewrite Forall_forall in BL; apply BL, last_in; discriminate).
      destruct DQ as (_ & _ & CV & _). destruct (CV t L1) as (r & I1 & C1). destruct (CV _ L2) as (r' & I2 & C2). rewrite (reg_at_in _ _ _ _ DQ I1 C1), (reg_at_in _ _ _ _ DQ I2 C2). cbn [bind].
      eexists. split; [reflexivity|]. intros r0. destruct (_ && _); [|discriminate]. intros E. injection E as <-. auto. }
    destruct W as (w & -> & HW). cbn [bind]. destruct w as [r|].
    - exists [whole_operand r], [seq (start r) (size r)]. split; [reflexivity|]. cbn [mapr]. rewrite (whole_back qregs nq) by auto. reflexivity.
    - rewrite (elems_nm qregs nq) by auto. cbn [bind]. exists (map (nm qregs) (t :: ts)), (map (fun i => [i]) (t :: ts)). split; [reflexivity|]. revert BL. generalize (t :: ts). clear - DQ. intros l BL.
      induction l as [|i l IH]; [reflexivity|]. inversion BL; subst. cbn [map mapr]. unfold Q. rewrite (nm_qubits qregs nq) by auto. cbn [bind]. fold Q. rewrite IH by auto. reflexivity. }
  destruct D as (ops & qs & D & TR). exists [XBarrier ops]. split.
  - cbn [flat_map piece app]. destruct v3.
    + unfold dumpOpenQASM3. rewrite C. cbn [dumpControls]. exact D.
    + unfold dumpOpenQASM2. rewrite C. cbn [List.length negations filter mapr]. rewrite D. cbn [bind]. rewrite T. unfold negations. cbn [filter mapr bind app]. reflexivity.
  - eapply reads_same; [|apply (reads_one (XBarrier ops) (OStd {| o_type := gBarrier; o_par := []; o_ctl := []; o_tgt := List.concat qs |})); [exact I|]].
    + eapply same_trans; [apply barrier_run|]. apply same_sym. destruct s as [ty ps cl ts]. cbn in T. subst ty. apply barrier_run.
    + intros st _. cbn [importStatement]. rewrite TR. reflexivity.
Qed.
Lemma std_ok s : gate_ok nq s -> exists l, (if v3 then dumpOpenQASM3 qregs s else dumpOpenQASM2 qregs s) = ROk (flat_map (piece v3) l) /\ reads l [OStd s].
Proof.
  intros G. destruct (optype_eqb (o_type s) gBarrier) eqn:E.
  - apply barrier_ok; auto. destruct (o_type s); try discriminate E; reflexivity.
  - assert (NBR : o_type s <> gBarrier) by (intros X; rewrite X in E; discriminate E). destruct (std_any qregs nq DQ v3 s G NBR) as (calls & ops & D & M & R & _).
    exists (map XCall calls). split; [now rewrite pieces_stmts|]. eapply reads_same; [exact R|]. now apply reads_calls.
Qed.

(* ---- measurements and resets ---- *)
Lemma meas_split q b qs bs : same_run [OMeas (q :: qs) (b :: bs)] ([OMeas [q] [b]] ++ [OMeas qs bs]).
Proof.
  intros x. rewrite run_app, !run_one. cbn [run_op combine measure_all]. rewrite flat_map_flat. cbn [flat_map measure1 app]. rewrite !run_one. cbn [run_op]. now rewrite ?app_nil_r.
Qed.
Lemma reset_split q qs : same_run [OReset (q :: qs)] ([OReset [q]] ++ [OReset qs]).
Proof. intros x. rewrite run_app, !run_one. cbn [run_op reset_all flat_map reset1 app]. rewrite ?app_nil_r, !run_one. cbn [run_op]. now rewrite ?app_nil_r. Qed.
Lemma measure_one q b : q < nq -> b < nb -> reads [XMeasure (nm bregs b) (nm qregs q)] [OMeas [q] [b]].
Proof.
  intros Lq Lb. apply reads_one; [exact I|]. intros st G. cbn [importStatement]. unfold importMeasure.
  destruct (nm_name bregs nb b DB Lb) as (rb & Ib & Cb & Eb). destruct (nm_name qregs nq q DQ Lq) as (rq & Iq & Cq & Eq). destruct (G rb Ib) as (w & W & W1 & _).
  assert (N1 : op_name (nm bregs b) = fst rb) by now rewrite Eb. assert (N2 : op_name (nm qregs q) = fst rq) by now rewrite Eq.
  assert (N3 : op_index (nm qregs q) = Some (q - start rq)) by now rewrite Eq. pose proof (nm_bit bregs nb b DB NB Lb) as TB. rewrite N1 in TB |- *. rewrite N2, N3, W. unfold Q. rewrite (find_sorted qregs nq) by auto. rewrite (reg_find_in qregs nq) by auto.
  destruct (Z.ltb_spec w 1); [lia|]. rewrite (nm_qubits qregs nq) by auto. cbn [bind]. unfold B. rewrite TB. cbn [bind List.length Nat.eqb]. reflexivity.
Qed.
Lemma measures_ok qs : forall bits, List.length qs = List.length bits -> below nq qs -> below nb bits -> (v3 = true -> List.length qs <= 1) ->
  exists l, measures v3 qregs bregs qs bits = ROk (flat_map (piece v3) l) /\ reads l [OMeas qs bits].
Proof.
  induction qs as [|q qs IH]; intros [|b bits] L BQ BB V; try discriminate L.
  - exists []. split; [reflexivity|]. eapply reads_same; [|apply reads_nil]. intros x. reflexivity.
  - inversion BQ; subst. inversion BB; subst. injection L as L. cbn [measures]. rewrite (elem_nm bregs nb), (elem_nm qregs nq) by auto. cbn [bind].
    destruct (IH bits L) as (l & D & R); auto; [intros X; specialize (V X); cbn in V; lia|].
    assert (D' : measures v3 qregs bregs qs (if v3 then b :: bits else bits) = ROk (flat_map (piece v3) l)).
    { destruct v3; auto. specialize (V eq_refl). cbn in V. destruct qs as [|? ?]; [|cbn in V; lia]. exact D. }
    rewrite D'. cbn [bind]. exists (XMeasure (nm bregs b) (nm qregs q) :: l). split; [reflexivity|]. eapply reads_same; [apply same_sym, meas_split|].
    apply (reads_app [XMeasure (nm bregs b) (nm qregs q)] l); auto. now apply measure_one.
Qed.
Lemma meas_any qs bits : meas_ok v3 qregs bregs nq nb asked qs bits -> exists l, dumpMeasure v3 qregs bregs qs bits = ROk (flat_map (piece v3) l) /\ reads l [OMeas qs bits].
Proof.
  intros (L & NE & BQ & BB & [(r & rb & W1 & W2 & A)|(NW & V)]).
  - destruct (whole_yes qregs nq qs r DQ W1) as (q & qs' & -> & E1). destruct (whole_yes bregs nb bits rb DB W2) as (b & bits' & -> & E2).
    unfold dumpMeasure. rewrite E1. cbn [bind]. rewrite E2. cbn [bind]. exists [XMeasure (whole_operand rb) (whole_operand r)]. split; [reflexivity|].
    destruct W1 as [I1 S1]. destruct W2 as [I2 S2]. assert (LR : List.length (q :: qs') = size r) by (rewrite S1; apply seq_length). assert (LB : List.length (b :: bits') = size rb) by (rewrite S2; apply seq_length).
    rewrite S1, S2. apply reads_one; [exact I|]. intros st G. cbn [importStatement]. unfold importMeasure. destruct (G rb I2) as (w & W & W1 & W3). cbn [op_name op_index whole_operand]. rewrite W.
    unfold Q. rewrite (find_sorted qregs nq), (reg_find_in qregs nq) by auto. change (snd (start r, size r)) with (size r). destruct (Z.ltb_spec w (Z.of_nat (size r))).
    { exfalso. destruct W3 as [W3|W3]; [|lia]. destruct (Nat.lt_ge_cases 1 (List.length (q :: qs'))) as [K|K]; [now apply A|lia]. }
    rewrite (whole_back qregs nq) by auto. cbn [bind idx_text op_index whole_operand]. unfold B. rewrite (whole_bits bregs nb) by auto. cbn [bind]. rewrite !seq_length.
    replace (size r) with (size rb) by lia. rewrite Nat.eqb_refl. reflexivity.
  - destruct qs as [|q qs]; [congruence|]. destruct bits as [|b bits]; [discriminate L|]. unfold dumpMeasure.
    assert (E : bind (whole qregs q (last (q :: qs) q)) (fun wq => match wq with Some r => bind (whole bregs b (last (b :: bits) b)) (fun wb =>
                    match wb with Some rb => ROk [TStmt (XMeasure (whole_operand rb) (whole_operand r))] | None => measures v3 qregs bregs (q :: qs) (b :: bits) end)
      | None => measures v3 qregs bregs (q :: qs) (b :: bits) end) = measures v3 qregs bregs (q :: qs) (b :: bits)).
    { destruct NW as [NW|NW]; [rewrite (whole_no qregs nq) by auto; reflexivity|]. rewrite (whole_no bregs nb b bits DB BB NW). cbn [bind].
      assert (X : exists w, whole qregs q (last (q :: qs) q) = ROk w).
      { unfold whole. assert (L1 : q < nq) by (inversion BQ; auto). assert (L2 : last (q :: qs) q < nq) by (unfold below in BQ; rewrite Forall_forall in BQ; apply BQ, last_in; discriminate).
        destruct DQ as (_ & _ & CV & _). destruct (CV q L1) as (r & I1 & C1). destruct (CV _ L2) as (r' & I2 & C2). rewrite (reg_at_in _ _ _ _ DQ I1 C1), (reg_at_in _ _ _ _ DQ I2 C2). cbn [bind]. eauto. }
      destruct X as [w ->]. cbn [bind]. now destruct w. }
    rewrite E. apply measures_ok; auto. intros X. rewrite (V X). auto.
Qed.
Lemma reset_any qs : reset_ok qregs nq qs -> exists l, dumpReset qregs qs = ROk (flat_map (piece v3) l) /\ reads l [OReset qs].
Proof.
  intros (NE & BQ & [(r & W)|NW]).
  - destruct (whole_yes qregs nq qs r DQ W) as (q & qs' & -> & E). unfold dumpReset. rewrite E. cbn [bind]. exists [XReset (whole_operand r)]. split; [reflexivity|]. destruct W as [I1 ->].
    apply reads_one; [exact I|]. intros st _. cbn [importStatement]. unfold Q. rewrite (whole_back qregs nq) by auto. reflexivity.
  - destruct qs as [|q qs]; [congruence|]. unfold dumpReset. rewrite (whole_no qregs nq) by auto. cbn [bind]. exists (map (fun q => XReset (nm qregs q)) (q :: qs)). clear NE NW. split.
    + transitivity (@ROk (list item) (map (fun q => TStmt (XReset (nm qregs q))) (q :: qs))).
      * apply mapr_ok. intros x IX. unfold below in BQ. rewrite Forall_forall in BQ. rewrite (elem_nm qregs nq) by auto. reflexivity.
      * f_equal. generalize (q :: qs). intros l. induction l as [|x l IH]; [reflexivity|]. cbn [map flat_map piece app]. now rewrite IH.
    + revert BQ. generalize (q :: qs). intros l. induction l as [|x l IH]; intros BQ.
      * eapply reads_same; [|apply reads_nil]. intros y. reflexivity.
      * inversion BQ; subst. cbn [map]. eapply reads_same; [apply same_sym, reset_split|]. apply (reads_app [XReset (nm qregs x)]); auto. apply reads_one; [exact I|].
        intros st _. cbn [importStatement]. unfold Q. rewrite (nm_qubits qregs nq) by auto. reflexivity.
Qed.

(* ---- conditions ---- *)
Lemma reg_named_in s n name l : In (name, (s, n)) l -> exists name', reg_named s n l = ROk name' /\ In (name', (s, n)) l.
Proof.
  induction l as [|[k [s' n']] l IH]; cbn [In reg_named]; [tauto|]. intros H. destruct (Nat.eqb s s' && Nat.eqb n n') eqn:E.
  - apply andb_true_iff in E. destruct E as [E1 E2]. apply Nat.eqb_eq in E1, E2. subst. eauto.
  - destruct H as [H|H]; [injection H as -> -> ->; now rewrite !Nat.eqb_refl in E|]. destruct (IH H) as (m & E1 & E2). eauto.
Qed.
Lemma name_reg r r' : In r bregs -> In r' bregs -> fst r = fst r' -> r = r'.
Proof.
  destruct DB as (ND & _). clear - ND. induction bregs as [|x l IH]; cbn [In]; [tauto|]. cbn in ND. inversion ND; subst. intros [->|I] [->|I'] E; auto.
  - exfalso. apply H1. rewrite E. now apply in_map.
  - exfalso. apply H1. rewrite <- E. now apply in_map.
Qed.
Definition then_ops (c : cond) (ops : list cop) : list cop := match ops with [] => [] | _ => [OClass c (OComp false ops)] end.
Lemma cond_any c : cond_ok bregs nb asked c -> exists e, cond_text bregs c = ROk e /\ (forall ws, good ws -> exists ws', check_condition ws e = Some ws' /\ good ws') /\
  forall ops, visitIfStatement asserts B e ops [] = ROk (then_ops c ops).
Proof.
  destruct c as [s n v k|b v k]; cbn [cond_ok cond_text].
  - intros [[name I0] LV]. destruct (reg_named_in _ _ _ _ I0) as (nm' & E & I1). rewrite E. cbn [bind]. eexists. split; [reflexivity|]. split.
    + intros ws G. destruct (G _ I1) as (w & W & W1 & W2). cbn [fst] in W. exists (width_set nm' (Z.max w (if Z.ltb 4294967295 (Z.of_N v mod 2 ^ 64) then 64 else 32)) ws). split.
      * destruct k; cbn [cmp_text check_condition getComparisonKind check_operand const_ty convertible number ty_width set_designator andb]; rewrite W; cbn [andb]; rewrite ?andb_false_r; cbn [number ty_width andb set_designator]; rewrite ?W; reflexivity.
      * intros r I2. rewrite width_set_find. destruct (String.eqb_spec (fst r) nm') as [EQ|NE]; [|auto]. assert (R : r = (nm', (s, n))) by (apply name_reg; auto). rewrite EQ, W. eexists. split; [reflexivity|].
        split; [lia|]. subst r. cbn [fst] in *. destruct W2 as [W2|W2]; [now left|right; lia].
    + intros ops. unfold visitIfStatement. assert (T : translateCondition asserts B (EBin (cmp_text k) (EId nm' []) (EInt false (Z.of_N v))) = ROk (OnReg s n k v)).
      { cbn [translateCondition is_constant]. replace (getComparisonKind (cmp_text k)) with (Some k) by now destruct k. unfold on_reg. cbn [evaluatePositiveConstant].
        unfold B. rewrite (find_sorted bregs nb) by auto. pose proof (reg_find_in bregs nb _ DB I1) as F. cbn [fst] in F. rewrite F. cbn [start size fst snd].
        rewrite Z.mod_small by (split; [lia|]; change (2 ^ 64)%Z with (Z.of_N (2 ^ 64)); lia). now rewrite N2Z.id. }
      rewrite T. unfold then_ops. rewrite app_nil_r. now destruct ops.
  - intros (Lb & LV & -> & r & I1 & C1 & AR). rewrite (elem_in bregs nb r b) by auto. cbn [bind op_name op_index name_of]. pose proof (nm_bit bregs nb b DB NB Lb) as TB.
    assert (NM : nm bregs b = name_of r b) by (unfold nm; now rewrite (elem_in bregs nb r b)). rewrite NM in TB. cbn [name_of op_name idx_text op_index] in TB. fold B in TB.
    eexists. split; [reflexivity|]. split.
    + intros ws G. destruct (G _ I1) as (w & W & W1 & W2). exists (width_set (fst r) 1 ws). split.
      * assert (X : width_find (fst r) (width_set (fst r) 1 ws) = Some 1%Z) by (rewrite width_set_find, String.eqb_refl, W; reflexivity).
        destruct (N.eqb v 0); cbn [check_condition check_operand]; rewrite W; cbn [convertible]; rewrite X; reflexivity.
      * intros r' I2. rewrite width_set_find. destruct (String.eqb_spec (fst r') (fst r)) as [EQ|NE]; [|auto]. rewrite (name_reg r' r I2 I1 EQ), W. eexists. split; [reflexivity|]. split; [lia|]. now left.
    + intros ops. unfold visitIfStatement. assert (V : v = 0%N \/ v = 1%N) by lia. destruct V as [-> | ->]; cbn [N.eqb translateCondition]; rewrite TB; cbn [single]; destruct ops; reflexivity.
Qed.

(* ---- blocks ---- *)
Lemma dump_comp cu l : dump v3 qregs bregs (OComp cu l) = dump_list v3 qregs bregs l.
Proof. cbn [dump]. induction l as [|o l IH]; [reflexivity|]. cbn [dump_list]. now rewrite <- IH. Qed.
Definition block (o : cop) : Prop := exists calls ops, dump v3 qregs bregs o = ROk (map TStmt (map XCall calls)) /\ mapr (importCall v3 Q) calls = ROk ops /\ same_run ops [o] /\ (v3 = false -> List.length calls = 1).
Lemma mapr_app {A C} (f : A -> res C) l m a b : mapr f l = ROk a -> mapr f m = ROk b -> mapr f (l ++ m) = ROk (a ++ b).
Proof.
  revert a. induction l as [|x l IH]; intros a E1 E2; cbn [mapr app] in *; [injection E1 as <-; exact E2|]. destruct (f x); cbn [bind] in *; try discriminate.
  destruct (mapr f l) as [y| |]; cbn [bind] in *; try discriminate. injection E1 as <-. rewrite (IH y) by auto. reflexivity.
Qed.
Lemma comp_run cu l : same_run [OComp cu l] l. Proof. intros b. rewrite run_one. apply run_comp. Qed.
Lemma block3 o : v3 = true -> gates_only nq o -> block o.
Proof.
  intros V. induction o as [s|qs cs|qs|c o IH|cu l IH] using cop_rect'; intros G; try contradiction G.
  - destruct G as [G1 G2]. destruct (std_any qregs nq DQ v3 s G1 G2) as (calls & ops & D & M & R & _). exists calls, ops. split; [exact D|]. split; auto. split; auto. rewrite V. discriminate.
  - assert (X : exists calls ops, dump_list v3 qregs bregs l = ROk (map TStmt (map XCall calls)) /\ mapr (importCall v3 Q) calls = ROk ops /\ same_run ops l).
    { cbn [gates_only] in G. clear cu. induction IH as [|o l H _ IHl]; [exists [], []; repeat split; auto; apply same_refl|]. destruct G as [G1 G2].
      destruct (H G1) as (c1 & o1 & D1 & M1 & R1 & _). destruct (IHl G2) as (c2 & o2 & D2 & M2 & R2). exists (c1 ++ c2), (o1 ++ o2). cbn [dump_list]. rewrite D1. cbn [bind]. rewrite D2. cbn [bind].
      split; [now rewrite !map_app|]. split; [now apply mapr_app|]. apply (same_app o1 [o] o2 l); auto. }
    destruct X as (calls & ops & D & M & R). exists calls, ops. split; [now rewrite dump_comp|]. split; auto. split; [|rewrite V; discriminate]. eapply same_trans; [exact R|]. apply same_sym, comp_run.
Qed.
Lemma block2 o : v3 = false -> one_gate nq o -> block o.
Proof.
  intros V. induction o as [s|qs cs|qs|c o IH|cu l IH] using cop_rect'; intros G; try contradiction G.
  - destruct G as (G1 & G2 & G3). destruct (std_any qregs nq DQ v3 s G1 G2) as (calls & ops & D & M & R & K). exists calls, ops. split; [exact D|]. auto.
  - destruct l as [|o [|o' l]]; try contradiction G. inversion IH; subst. destruct (H1 G) as (calls & ops & D & M & R & K). exists calls, ops. split; [rewrite dump_comp; cbn [dump_list]; rewrite D; cbn [bind]; now rewrite app_nil_r|].
    split; auto. split; auto. eapply same_trans; [exact R|]. apply same_sym, comp_run.
Qed.
Lemma class_any c o : cond_ok bregs nb asked c -> block o -> exists l, dump v3 qregs bregs (OClass c o) = ROk (flat_map (piece v3) l) /\ reads l [OClass c o].
Proof.
  intros CO (calls & ops & D & M & R & K). destruct (cond_any c CO) as (e & E & CH & VI). cbn [dump]. rewrite E. cbn [bind]. rewrite D. cbn [bind]. exists [XIf e (map XCall calls)]. split.
  { cbn [flat_map piece]. rewrite app_nil_r. reflexivity. }
  split; [constructor; [|constructor]; cbn [plain]; intros X; rewrite map_length; auto|]. intros st G. cbn [importStatements importStatement]. destruct (CH _ G) as (ws' & W & G'). rewrite W.
  assert (X : mapr (fun s => match s with XCall c => importCall v3 Q c | _ => RError end) (map XCall calls) = ROk ops).
  { rewrite <- M. clear. induction calls as [|c l IH]; [reflexivity|]. cbn [map mapr]. now rewrite IH. }
  rewrite X. cbn [bind]. rewrite VI. cbn [bind]. do 2 eexists. split; [reflexivity|]. split; [exact G'|]. split; [reflexivity|]. intros b. unfold then_ops. destruct ops as [|o1 ops].
  - rewrite run_one. cbn [run run_op]. pose proof (R b) as RB. rewrite run_one in RB. cbn [run] in RB. rewrite <- RB. now destruct (cond_holds c (snd b)).
  - rewrite !run_one. cbn [run_op]. destruct (cond_holds c (snd b)); auto. change (run_op (OComp false (o1 :: ops)) b = run_op o b). rewrite run_comp, <- run_one. apply R.
Qed.

(* ---- circuits ---- *)
Notation fine := (exportable v3 qregs bregs nq nb asked).
Lemma any_op o : fine o -> exists l, dump v3 qregs bregs o = ROk (flat_map (piece v3) l) /\ reads l [o].
Proof.
  induction o as [s|qs cs|qs|c o IH|cu l IH] using cop_rect'; intros G.
  - now apply std_ok.
  - now apply meas_any.
  - now apply reset_any.
  - destruct G as [G1 G2]. apply class_any; auto. destruct v3 eqn:V; [apply block3|apply block2]; auto.
  - assert (X : exists m, dump_list v3 qregs bregs l = ROk (flat_map (piece v3) m) /\ reads m l).
    { cbn [exportable] in G. clear cu. induction IH as [|o l H _ IHl]; [exists []; split; [reflexivity|apply reads_nil]|]. destruct G as [G1 G2]. destruct (H G1) as (m1 & D1 & R1). destruct (IHl G2) as (m2 & D2 & R2).
      exists (m1 ++ m2). cbn [dump_list]. rewrite D1. cbn [bind]. rewrite D2. cbn [bind]. split; [now rewrite flat_map_app|]. now apply (reads_app m1 m2 [o] l). }
    destruct X as (m & D & R). exists m. split; [now rewrite dump_comp|]. eapply reads_same; [|exact R]. apply same_sym, comp_run.
Qed.
Lemma any_ops l : Forall fine l -> exists m, dump_list v3 qregs bregs l = ROk (flat_map (piece v3) m) /\ reads m l.
Proof.
  induction 1 as [|o l F _ IH]; [exists []; split; [reflexivity|apply reads_nil]|]. destruct (any_op o F) as (m1 & D1 & R1). destruct IH as (m2 & D2 & R2).
  exists (m1 ++ m2). cbn [dump_list]. rewrite D1. cbn [bind]. rewrite D2. cbn [bind]. split; [now rewrite flat_map_app|]. now apply (reads_app m1 m2 [o] l).
Qed.
Hypothesis ND : NoDup (map fst qregs ++ map fst bregs).
Lemma names_sorted : nodup_names (map fst (decls qregs) ++ map fst (decls bregs)) = true.
Proof.
  assert (E : forall l, map fst (decls l) = map fst (sortedRegs l)) by (intros l; unfold decls; rewrite map_map; reflexivity). rewrite !E.
  assert (P : Permutation (map fst qregs ++ map fst bregs) (map fst (sortedRegs qregs) ++ map fst (sortedRegs bregs))).
  { apply Permutation_app; apply Permutation_map, Permutation_sym; [apply (proj1 (sorted_perm qregs nq DQ))|apply (proj1 (sorted_perm bregs nb DB))]. }
  pose proof (Permutation_NoDup P ND) as ND'. clear - ND'. induction ND' as [|x l NI _ IH]; [reflexivity|]. cbn [nodup_names]. rewrite IH, andb_true_r. apply negb_true_iff, not_true_is_false. intros X.
  apply existsb_exists in X. destruct X as (y & I & E). apply String.eqb_eq in E. now subst.
Qed.
Theorem round_trip ops : Forall fine ops -> exists p c, dumpOpenQASM v3 qregs bregs ops = ROk p /\ import asserts p = ROk c /\ ci_qregs c = Q /\ ci_bregs c = B /\ same_run (ci_ops c) ops.
Proof.
  intros F. destruct (any_ops ops F) as (m & D & P & H). unfold dumpOpenQASM. rewrite D. cbn [bind]. eexists.
  set (ws := map (fun d : decl => (fst d, Z.of_nat (snd d))) (decls bregs)).
  assert (G : good ws).
  { intros r I. unfold ws, decls. rewrite map_map. cbn [fst snd]. assert (I' : In r (sortedRegs bregs)) by (apply (Permutation_in _ (Permutation_sym (proj1 (sorted_perm bregs nb DB)))); auto).
    assert (F1 : reg_find (fst r) (sortedRegs bregs) = Some (start r, size r)) by (rewrite (find_sorted bregs nb), (reg_find_in bregs nb) by auto; auto).
    exists (Z.of_nat (size r)). split; [|split; [|right; lia]].
    - revert F1. generalize (sortedRegs bregs). clear. intros l. induction l as [|[k [s n]] l IH]; cbn [reg_find map width_find fst snd]; [discriminate|]. destruct (String.eqb k (fst r)); auto. intros E. injection E as -> ->. auto.
    - destruct DB as (_ & FA & _). rewrite Forall_forall in FA. pose proof (FA r I). lia. }
  destruct (H {| i_ws := ws; i_ops := [] |} G) as (st' & ops' & E & _ & I & R). exists {| ci_qregs := Q; ci_bregs := B; ci_ops := i_ops st' |}. split; [reflexivity|]. split.
  - unfold import. cbn [pr_qubits pr_bits pr_items pr_v3]. rewrite names_sorted. rewrite (declare_back qregs nq), (declare_back bregs nb) by auto.
    rewrite parse_program by (auto; apply pieces_len). unfold ws, Q, B in E |- *. unfold decl in *. rewrite E. reflexivity.
  - cbn [ci_qregs ci_bregs ci_ops]. split; [reflexivity|]. split; [reflexivity|]. rewrite I. exact R.
Qed.
End Circuit.
