(* Calls: the reader finds the controls and targets that were written, and the operations act alike. *)
From Coq Require Import Reals ZArith NArith Bool List String Ascii Arith Lia Lra FunctionalExtensionality.
From Verif Require Import Cplx Qsem GateModel GateSpec GateProofs IRModel IRSpec IRProofs QasmEnvModel QasmConstModel QasmIfModel QasmGateModel QasmGateSpec QasmGateProofs
  AlgoBaseProofs AlgoGroverProofs ExportModel ExportSpec ExportRegProofs ExportGateProofs.
Import ListNotations.
Local Open Scope nat_scope.

(* ---- modifiers ---- *)
Definition pol (b : bool) (l : list operand) : list (operand * bool) := map (fun o => (o, b)) l.
Lemma firstn_pol {A B} (f : A -> B) n l : firstn n (map f l) = map f (firstn n l). Proof. revert l. induction n; intros [|x l]; cbn; congruence. Qed.
Lemma skipn_skip {A} a b (l : list A) : skipn a (skipn b l) = skipn (b + a) l.
Proof. revert l. induction b as [|b IH]; intros l; [reflexivity|]. destruct l as [|x l]; [now rewrite !skipn_nil|]. cbn. apply IH. Qed.
Lemma modifiers_runs (l : list ctl) : forall (cur : bool) count (ops : list operand) nC, 1 <= count -> nC + count + List.length l <= List.length ops ->
  modifiers (runs cur count l) ops nC false =
  Some ((combine (firstn (count + List.length l) (skipn nC ops)) (repeat cur count ++ map snd l))%list, nC + count + List.length l, false).
Proof.
  assert (X : forall (cur : bool) count (ops : list operand), map (fun o => (o, cur)) (firstn count ops) = combine (firstn count ops) (repeat cur count)).
  { intros cur count. induction count as [|k IH]; intros [|o ops]; cbn; auto. now rewrite IH. }
  assert (CT : forall n, 1 <= n -> match count_text n with Some m => m | None => 1 end = n).
  { intros n L. unfold count_text. destruct (Nat.ltb_spec 1 n); lia. }
  induction l as [|c l IH]; intros cur count ops nC L1 L2; cbn [List.length] in L2; cbn [runs].
  - cbn [modifiers]. rewrite CT by auto. destruct (Nat.ltb_spec (List.length ops) (count + nC)); [lia|]. rewrite !app_nil_r, X. cbn [List.length]. rewrite !Nat.add_0_r. reflexivity.
  - destruct (Bool.eqb (snd c) cur) eqn:E.
    + apply eqb_prop in E. rewrite IH by lia. cbn [List.length map]. replace (S count + List.length l) with (count + S (List.length l)) by lia.
      replace (nC + S count + List.length l) with (nC + count + S (List.length l)) by lia. rewrite E. cbn [repeat]. rewrite repeat_cons, <- app_assoc. reflexivity.
    + cbn [modifiers]. rewrite CT by auto. destruct (Nat.ltb_spec (List.length ops) (count + nC)); [lia|]. rewrite IH by lia. cbn [List.length map].
      replace (nC + count + 1 + List.length l) with (nC + count + S (List.length l)) by lia. do 3 f_equal. rewrite X.
      assert (FS : firstn (count + S (List.length l)) (skipn nC ops) = firstn count (skipn nC ops) ++ firstn (1 + List.length l) (skipn (nC + count) ops)).
      { rewrite <- (firstn_skipn count (skipn nC ops)) at 1. rewrite firstn_app. rewrite firstn_firstn, Nat.min_r by lia. f_equal.
        rewrite firstn_length, skipn_length, Nat.min_l by lia. replace (count + S (List.length l) - count) with (1 + List.length l) by lia. now rewrite skipn_skip. }
      rewrite FS. assert (LE : List.length (firstn count (skipn nC ops)) = List.length (repeat cur count)) by (rewrite firstn_length, skipn_length, repeat_length; lia).
      clear - LE. revert LE. generalize (firstn count (skipn nC ops)) (repeat cur count) (firstn (1 + List.length l) (skipn (nC + count) ops)). intros a b d. revert b.
      induction a as [|x a IHa]; intros [|y b] LE; try discriminate LE; cbn; [reflexivity|]. f_equal. apply IHa. now injection LE.
Qed.

Section Calls.
Variables (qregs : cregs) (nq : nat).
Hypothesis DQ : divides qregs nq.
Let Q := sortedRegs qregs.
Let N := nm qregs.
Lemma operands_nm l : below nq l -> operands Q (map N l) 1 = ROk (map (fun q => (q, 1)) l, 1).
Proof.
  induction l as [|q l IH]; intros B; [reflexivity|]. inversion B; subst. cbn [map operands]. unfold N, Q in *. rewrite (nm_back qregs nq) by auto. cbn [Nat.eqb Nat.ltb Nat.leb andb]. rewrite IH by auto. reflexivity.
Qed.
Lemma distinct_nodup l : NoDup l -> distinct l = true.
Proof.
  induction 1 as [|x l NI ND IH]; [reflexivity|]. cbn [distinct]. rewrite IH, andb_true_r. apply negb_true_iff, not_true_is_false. intros E.
  apply existsb_exists in E. destruct E as (y & I & E). apply Nat.eqb_eq in E. now subst.
Qed.
Lemma eval_call compat G name mods args ps t nc nt np imp (cl : list ctl) tgt :
  found compat G name = Some (GStd t nc nt np, imp) -> List.length args = np -> pevals constants args = Some ps -> List.length tgt = nt ->
  below nq (map fst cl ++ tgt) -> NoDup (map fst cl ++ tgt) ->
  (let ops := map N (map fst cl ++ tgt) in
   exists cs', modifiers mods ops (nc + imp) false = Some (cs', List.length cl, false) /\ nc + imp <= List.length cl /\
     pol true (firstn (nc + imp) ops) ++ cs' = map (fun c => (N (fst c), snd c)) cl) ->
  evaluateGateCall 9 compat G constants Q {| c_gate := name; c_mods := mods; c_args := args; c_ops := map N (map fst cl ++ tgt) |} =
  ROk (OStd {| o_type := t; o_par := ps; o_ctl := cl; o_tgt := tgt |}).
Proof.
  unfold ctl in *. intros F LA PE LT B ND (cs' & M & LE & CC). unfold ctl in *. cbn [evaluateGateCall c_gate c_mods c_args c_ops]. fold (found compat G name). rewrite F. cbn [nParameters nControls nTargets].
  rewrite LA, Nat.eqb_refl. cbn [negb]. destruct (Nat.ltb_spec (List.length (map N (map fst cl ++ tgt))) (nc + imp)) as [L|L]; [rewrite map_length, app_length, map_length in L; lia|].
  rewrite M. assert (SK : skipn (List.length cl) (map N (map fst cl ++ tgt)) = map N tgt).
  { rewrite map_app, skipn_app, !map_length, Nat.sub_diag. rewrite skipn_all2 by (rewrite !map_length; lia). reflexivity. }
  rewrite SK, map_length, LT, Nat.eqb_refl. cbn [negb]. rewrite PE. apply Forall_app in B. destruct B as [B1 B2]. rewrite operands_nm by exact B2.
  unfold pol in CC. rewrite CC. rewrite map_map. cbn [fst]. rewrite <- (map_map fst N). rewrite operands_nm by exact B1.
  assert (CO : combine (map (fun q : nat => (q, 1)) (map fst cl)) (map snd (map (fun c : nat * bool => (N (fst c), snd c)) cl)) = map (fun c => ((fst c, 1), snd c)) cl).
  { clear. induction cl as [|c l IH]; [reflexivity|]. cbn. now rewrite IH. }
  rewrite CO. cbn [rounds]. rewrite !map_map. cbn [fst snd bit_at Nat.ltb Nat.leb].
  rewrite map_id. change (map (fun x : nat * bool => fst x) cl) with (map fst cl). rewrite distinct_nodup by exact ND.
  cbn [applyQuantumOperation invert_if]. cbn [Nat.eqb]. do 3 f_equal. clear. induction cl as [|[q v] l IH]; [reflexivity|]. cbn. f_equal. exact IH.
Qed.

(* ---- standard operations ---- *)
Lemma generic o prefix mods : o_type o <> gBarrier -> o_type o <> gPeres -> o_type o <> gPeresdg -> dumpGateType qregs o prefix mods =
  bind (mapr (fun c => elem qregs (fst c)) (o_ctl o)) (fun ctls => bind (mapr (elem qregs) (o_tgt o)) (fun ts =>
      match gate_text (o_type o) (o_par o) (match o_ctl o with [] => false | _ => true end) with
      | ROk (name, args) => ROk [stmt_of prefix name mods args (ctls ++ ts)%list]
      | RError => ROk [TBad]
      | RUndef => RUndef
      end)).
Proof. intros A B C. unfold dumpGateType. destruct (o_type o); try congruence; reflexivity. Qed.
Lemma ctl_names l : below nq (map fst l) -> mapr (fun c : ctl => elem qregs (fst c)) l = ROk (map N (map fst l)).
Proof.
  intros B. rewrite map_map. apply mapr_ok. intros c I. apply (elem_nm qregs nq); auto. unfold below in B. rewrite Forall_forall in B. apply B. now apply in_map.
Qed.
Lemma gate_facts s : gate_ok nq s -> o_type s <> gBarrier -> o_type s <> gPeres /\ o_type s <> gPeresdg /\ NoDup (map fst (o_ctl s) ++ o_tgt s) /\ below nq (map fst (o_ctl s) ++ o_tgt s) /\
  exists M, gate_matrix (o_type s) (o_par s) = Some (List.length (o_tgt s), M) /\ semf s = controlled (o_ctl s) (apply M (o_tgt s)).
Proof.
  intros ((W & f & E) & ND & B & P) NB. split; [intros X; now rewrite X in P|]. split; [intros X; now rewrite X in P|]. split; [|split; [exact B|]].
  - destruct W as [W1 W2]. clear - ND W1 W2. induction (o_ctl s) as [|c l IH]; [exact W1|]. cbn in *. inversion ND; subst. constructor.
    + intros I. apply in_app_iff in I. destruct I as [I|I]; auto. apply (W2 c (or_introl eq_refl) I).
    + apply IH; auto. intros d I. apply (W2 d (or_intror I)).
  - destruct (sem_controlled s f E NB) as (M & EM & ->). exists M. split; auto. unfold semf. now rewrite E.
Qed.
Lemma semf_new t ps cl ts M : t <> gBarrier -> gate_matrix t ps = Some (List.length ts, M) -> semf {| o_type := t; o_par := ps; o_ctl := cl; o_tgt := ts |} = controlled cl (apply M ts).
Proof. intros A B. unfold semf. now rewrite (sem_std t ps cl ts M). Qed.
Definition positive (l : list ctl) : list ctl := map (fun c => (fst c, true)) l.
Lemma all_true (l : list ctl) : forallb snd l = true -> positive l = l.
Proof. unfold positive. induction l as [|[q v] l IH]; [reflexivity|]. cbn. intros E. apply andb_true_iff in E. destruct E as [-> E]. now rewrite IH. Qed.
(* prefixed names: all controls positive *)
Lemma prefixed v3 name args ps t nc nt imp (cl : list ctl) tgt : found (negb v3) (library v3) name = Some (GStd t nc nt (List.length args), imp) -> pevals constants args = Some ps -> List.length tgt = nt ->
  nc + imp = List.length cl -> below nq (map fst cl ++ tgt) -> NoDup (map fst cl ++ tgt) ->
  importCall v3 Q {| c_gate := name; c_mods := []; c_args := args; c_ops := map N (map fst cl ++ tgt) |} =
  ROk (OStd {| o_type := t; o_par := ps; o_ctl := positive cl; o_tgt := tgt |}).
Proof.
  unfold ctl in *. intros F PE LT LC B ND. assert (EX : exists cl', cl' = positive cl) by eauto. destruct EX as [cl' CE]. rewrite <- CE.
  assert (EF : map fst cl' = map fst cl) by (unfold positive in CE; rewrite CE, map_map; reflexivity). assert (LL : List.length cl' = List.length cl) by (unfold positive in CE; now rewrite CE, map_length). rewrite <- EF in B, ND |- *. unfold importCall.
  apply (eval_call (negb v3) (library v3) name [] args ps t nc nt (List.length args) imp cl' tgt); auto. cbn zeta. exists []. assert (LC' : nc + imp = List.length cl') by lia. unfold ctl in *. split; [cbn [modifiers]; rewrite LC'; reflexivity|]. split; [rewrite LC'; apply Nat.le_refl|].
  rewrite app_nil_r, LC'. rewrite map_app, firstn_app, !map_length. replace (Datatypes.length cl' - Datatypes.length cl') with 0 by (symmetry; apply Nat.sub_diag). cbn [firstn]. rewrite app_nil_r, firstn_all2 by (rewrite !map_length; lia).
  rewrite CE. unfold pol, positive. rewrite !map_map. reflexivity.
Qed.
Lemma std3 s : gate_ok nq s -> o_type s <> gBarrier -> exists c o', dumpOpenQASM3 qregs s = ROk [TStmt (XCall c)] /\ importCall true Q c = ROk (OStd o') /\ semf o' = semf s.
Proof.
  intros OK NB. destruct (gate_facts s OK NB) as (P1 & P2 & ND & B & M & EM & ES).
  destruct (text_ok (o_type s) (o_par s) (match o_ctl s with [] => false | _ => true end) _ M EM P1 P2) as (name & args & t' & ps' & M' & T & PE & NB' & EM' & MQ & L1 & L2 & _).
  assert (SE : semf {| o_type := t'; o_par := ps'; o_ctl := o_ctl s; o_tgt := o_tgt s |} = semf s).
  { rewrite (semf_new _ _ _ _ M'), ES by auto. unfold controlled. apply functional_extensionality. intros psi. apply functional_extensionality. intros b. now rewrite (apply_meq M' M). }
  unfold dumpOpenQASM3. pose proof (proj1 (Forall_app _ _ _) B) as [B1 B2].
  assert (GEN : forall n mods, dumpGateType qregs s n mods = ROk [TStmt (XCall {| c_gate := cs n name; c_mods := mods; c_args := args; c_ops := map N (map fst (o_ctl s) ++ o_tgt s) |})]).
  { intros n mods. rewrite generic by auto. rewrite ctl_names, (elems_nm qregs nq) by auto. cbn [bind]. rewrite T. unfold stmt_of. rewrite map_app. reflexivity. }
  unfold dumpControls. destruct (o_ctl s) as [|c0 cl] eqn:EC.
  - rewrite GEN. do 2 eexists. split; [reflexivity|]. split; [|exact SE]. change (cs 0 name) with name.
    apply (prefixed true name args ps' t' 0 (List.length (o_tgt s)) 0 [] (o_tgt s)); auto. all: unfold found; cbn [negb]; now rewrite L1.
  - destruct (forallb snd (c0 :: cl) && builtin (o_type s) (List.length (c0 :: cl))) eqn:BI.
    + apply andb_true_iff in BI. destruct BI as [AT BI]. rewrite GEN. do 2 eexists. split; [reflexivity|]. split; [|exact SE].
      rewrite <- (all_true _ AT) at 3. eapply prefixed; eauto. unfold found. rewrite (L2 _ BI). reflexivity.
    + rewrite GEN. do 2 eexists. split; [reflexivity|]. split; [|exact SE]. change (cs 0 name) with name. unfold importCall.
      apply (eval_call (negb true) (library true) name _ args ps' t' 0 (List.length (o_tgt s)) (List.length args) 0); auto.
      * unfold found. now rewrite L1.
      * unfold ctl in *. cbn zeta. cbn [runs]. rewrite Bool.eqb_reflx. cbn [Nat.add]. rewrite modifiers_runs by (try lia; rewrite map_length, app_length, map_length; unfold ctl in *; cbn [List.length]; lia).
        eexists. split; [cbn [List.length]; reflexivity|]. split; [lia|]. cbn [firstn pol map app Nat.add skipn repeat fst]. f_equal. rewrite !map_app, firstn_app, !map_length, Nat.sub_diag. cbn [firstn]. rewrite app_nil_r, firstn_all2 by (rewrite !map_length; unfold ctl; lia).
        cbn [combine map]. f_equal. clear. induction cl as [|[q v] l IH]; [reflexivity|]. cbn. f_equal. exact IH.
Qed.
End Calls.
