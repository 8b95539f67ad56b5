(** The type checker: scopes, crashes, kinds. *)
From Coq Require Import ZArith QArith Bool List String Lia.
From Verif Require Import QasmScanModel QasmEnvModel QasmConstModel QasmTypeModel QasmTypeSpec QasmTypeProofs.
Import ListNotations.
Local Close Scope Q_scope.
Local Open Scope nat_scope.
Local Open Scope list_scope.

(** ** Scopes *)
Lemma find_in {T} id (m : scope T) v : map_find id m = Some v -> In id (map fst m).
Proof. induction m as [|[k w] m IH]; cbn [map_find map]; [discriminate|]. destruct (String.eqb_spec k id) as [->|]; [now left|right; auto]. Qed.
Lemma in_find {T} id (m : scope T) : In id (map fst m) -> exists v, map_find id m = Some v.
Proof. induction m as [|[k w] m IH]; cbn [map_find map]; [intros []|]. destruct (String.eqb_spec k id) as [->|N]; [eauto|]. intros [H|H]; [contradiction|auto]. Qed.
Lemma ext_dom s s' : ext s s' -> dom s' = dom s. Proof. intros (A & _). unfold dom. now rewrite A. Qed.
Lemma expr_scoped e : forall s r s', sane s -> check_expr e s = TOk r s' -> bad s' = false -> incl (names_of e) (dom s).
Proof.
  induction e as [sg z|q|b|id idx|op a IHa b IHb|op a IHa]; intros s r s' S E B; cbn [check_expr names_of] in *; try solve [intros ? []].
  - destruct (map_find id (names s)) as [a|] eqn:F; [apply find_in in F; intros x [<-|[]]; exact F|].
    destruct idx; [|discriminate]. apply fail_ok in E as [_ ->]. discriminate B.
  - destruct (check_expr a s) as [ta s1| |] eqn:A; try discriminate. cbn [tbind] in E. destruct (check_expr_post _ _ _ _ S A) as (X1 & L1 & B1). pose proof (ext_sane _ _ X1 S) as S1.
    destruct (check_expr b s1) as [tb s2| |] eqn:C; try discriminate. cbn [tbind] in E. destruct (check_expr_post _ _ _ _ S1 C) as (X2 & L2 & B2). pose proof (ext_sane _ _ X2 S1) as S2.
    assert (B' : bad s2 = false). { destruct ta, tb; try (injection E as _ <-; exact B). apply check_binary_post in E; auto; [|apply X2; auto]. destruct E as (X & _ & _). eapply ext_bad; eauto. }
    apply incl_app; [eapply IHa; eauto; eapply ext_bad; eauto|]. rewrite <- (ext_dom _ _ X1). eapply IHb; eauto.
  - destruct (check_expr a s) as [ta s1| |] eqn:A; try discriminate. cbn [tbind] in E. destruct (check_expr_post _ _ _ _ S A) as (X1 & L1 & B1). eapply IHa; eauto.
    destruct op; try (apply new_ok in E as (_ & <- & _); exact B).
    + destruct ta; [|discriminate]. destruct (isNumber _); [injection E as _ <-; exact B|]. apply fail_ok in E as [_ ->]. discriminate B.
    + destruct ta; [|discriminate]. destruct (isConvertibleToBool _); [injection E as _ <-; exact B|]. apply fail_ok in E as [_ ->]. discriminate B.
    + injection E as _ <-. exact B.
Qed.
Lemma indices_scoped l : forall s u s', sane s -> check_indices l s = TOk u s' -> bad s' = false -> incl (flat_map names_of l) (dom s).
Proof.
  induction l as [|e l IH]; intros s u s' S E B; cbn [check_indices flat_map] in *; [intros x []|].
  destruct (check_expr e s) as [t s1| |] eqn:A; try discriminate. cbn [tbind] in E. destruct (check_expr_post _ _ _ _ S A) as (X & _ & _). pose proof (ext_sane _ _ X S) as S1.
  assert (K : exists s2, check_indices l s2 = TOk u s' /\ ext s1 s2) by (destruct t as [a|]; [destruct (isUint _)|]; eauto using ext_refl, (poison_ext s1)). clear E. destruct K as (s2 & E & X2).
  pose proof (ext_sane _ _ X2 S1) as S2. pose proof (check_indices_ext _ _ _ _ S2 E) as X3. apply incl_app.
  - eapply expr_scoped; eauto. eapply ext_bad; [exact X2|]. eapply ext_bad; eauto.
  - rewrite <- (ext_dom _ _ (ext_trans _ _ _ X X2)). eapply IH; eauto.
Qed.
Lemma cii_scoped id idx s u s' : sane s -> checkIndexedIdentifier id idx s = TOk u s' -> bad s' = false -> In id (dom s) /\ incl (flat_map names_of idx) (dom s).
Proof.
  intros S. unfold checkIndexedIdentifier. destruct (map_find id (names s)) eqn:F; intros E B.
  - split; [now apply find_in in F|]. eapply indices_scoped; eauto.
  - apply check_indices_ext in E; [|exact S]. destruct E as (_ & _ & H). cbn [bad] in H. rewrite H in B by reflexivity. discriminate.
Qed.
Lemma operand_scoped o s u s' : sane s -> checkGateOperand o s = TOk u s' -> bad s' = false -> incl (names_op o) (dom s).
Proof. intros S. destruct o; cbn [checkGateOperand names_op]; intros E B; [intros x []|]. apply cii_scoped in E as [H I]; auto. intros x [<-|J]; auto. Qed.
Lemma rhs_scoped r s x s' : sane s -> check_rhs r s = TOk x s' -> bad s' = false -> incl (names_rhs r) (dom s).
Proof.
  intros S. destruct r as [e|o]; cbn [check_rhs names_rhs]; [intros E B; eapply expr_scoped; eauto|]. destruct o as [n|id idx]; cbn [check_measure]; intros E B; [intros y []|].
  destruct (checkIndexedIdentifier id idx s) as [u s1| |] eqn:A; try discriminate. cbn [tbind] in E.
  assert (B1 : bad s1 = false).
  { destruct idx; [|apply new_ok in E as (_ & <- & _); exact B]. destruct (map_find id (names s1)); [|apply fail_ok in E as [_ ->]; discriminate B]. destruct (deref _ _); try discriminate. apply new_ok in E as (_ & <- & _); exact B. }
  apply cii_scoped in A as [H I]; auto. intros y [<-|J]; auto.
Qed.
Lemma emplace_dom id a s x : In x (dom (emplace id a s)) <-> x = id \/ In x (dom s).
Proof.
  unfold emplace, dom. destruct (map_find id (names s)) eqn:F.
  - apply find_in in F. split; [auto|]. intros [->|H]; auto.
  - cbn [names]. rewrite map_app, in_app_iff. cbn. intuition.
Qed.
Lemma emplace_bad id a s : bad (emplace id a s) = bad s. Proof. unfold emplace. now destruct (map_find id (names s)). Qed.
Lemma decl_scoped consts t id init s u s' : sane s -> check_decl consts t id init s = TOk u s' -> bad s' = false ->
  incl (names_typed t) (dom s) /\ (forall r, init = Some r -> incl (names_rhs r) (dom s)) /\ (forall x, In x (dom s') <-> x = id \/ In x (dom s)).
Proof.
  intros S. rewrite check_decl_eq.
  assert (R : forall s0, sane s0 -> decl_rest consts t id init s0 = TOk u s' -> bad s' = false -> (forall r, init = Some r -> incl (names_rhs r) (dom s0)) /\ (forall x, In x (dom s') <-> x = id \/ In x (dom s0)) /\ bad s0 = false).
  { intros s0 S0. unfold decl_rest. destruct (resolve consts t) as [rt|]; [|discriminate]. destruct (alloc rt s0) as [a s1] eqn:A. apply alloc_ok in A as (X & L & _ & Bs). pose proof (ext_sane _ _ X S0) as S1. destruct init as [r|].
    - destruct (check_rhs r s1) as [x s2| |] eqn:C; try discriminate. cbn [tbind]. intros E B. injection E as _ <-. rewrite emplace_bad in B. destruct (rhs_post _ _ _ _ S1 C) as (X2 & _ & _).
      assert (K : exists s3, emplace id a (match x with Some b => if fits (deref a s2) (deref b s2) then s2 else mkT (heap s2) (names s2) true | None => s2 end) = emplace id a s3 /\ dom s3 = dom s2 /\ bad s3 = false /\ ext s2 s3) by (destruct x; [destruct (fits _ _)|]; cbn [bad] in B; try discriminate B; exists s2; auto using ext_refl).
      destruct K as (s3 & -> & D3 & B3 & X3). assert (B2 : bad s2 = false) by (eapply ext_bad; eauto). split; [|split].
      + intros r' H. injection H as <-. rewrite <- (ext_dom _ _ X). eapply rhs_scoped; eauto.
      + intros y. rewrite emplace_dom, D3, (ext_dom _ _ X2), (ext_dom _ _ X). reflexivity.
      + rewrite <- Bs. eapply ext_bad; eauto.
    - intros E B. injection E as _ <-. rewrite emplace_bad in B. split; [discriminate|]. split; [|congruence]. intros y. rewrite emplace_dom, (ext_dom _ _ X). reflexivity. }
  destruct t as [k [d|]| |]; cbn [names_typed]; try (intros E B; destruct (R s S E B) as (H1 & H2 & _); split; [intros x []|auto]).
  destruct (check_expr d s) as [x s1| |] eqn:C; try discriminate. cbn [tbind]. destruct (check_expr_post _ _ _ _ S C) as (X & _ & _). pose proof (ext_sane _ _ X S) as S1.
  intros E B. destruct x as [a|]; [destruct (isUint _)|]; try (injection E as _ <-; discriminate B).
  destruct (R s1 S1 E B) as (H1 & H2 & B1). rewrite (ext_dom _ _ X) in *. split; auto. eapply expr_scoped; eauto.
Qed.
Lemma assign_scoped id idx r s u s' : sane s -> check_assign id idx r s = TOk u s' -> bad s' = false ->
  In id (dom s) /\ incl (flat_map names_of idx) (dom s) /\ incl (names_rhs r) (dom s) /\ dom s' = dom s.
Proof.
  intros S. unfold check_assign. destruct (checkIndexedIdentifier id idx s) as [v s1| |] eqn:A; try discriminate. cbn [tbind]. pose proof (cii_ext _ _ _ _ _ S A) as X1. pose proof (ext_sane _ _ X1 S) as S1.
  destruct (check_rhs r s1) as [x s2| |] eqn:C; try discriminate. cbn [tbind]. destruct (rhs_post _ _ _ _ S1 C) as (X2 & _ & _). intros E B.
  destruct (map_find id (names s2)); [destruct x; [destruct (fits _ _)|discriminate]|]; injection E as _ <-; try discriminate B.
  assert (B1 : bad s1 = false) by (eapply ext_bad; eauto). apply cii_scoped in A as [H I]; auto. split; auto. split; auto. split.
  - rewrite <- (ext_dom _ _ X1). eapply rhs_scoped; eauto.
  - now rewrite (ext_dom _ _ X2), (ext_dom _ _ X1).
Qed.
Lemma args_scoped l : forall s u s', sane s -> check_args l s = TOk u s' -> bad s' = false -> incl (flat_map names_of l) (dom s).
Proof.
  induction l as [|e l IH]; intros s u s' S E B; cbn [check_args flat_map] in *; [intros x []|].
  destruct (check_expr e s) as [t s1| |] eqn:A; try discriminate. cbn [tbind] in E. destruct (check_expr_post _ _ _ _ S A) as (X & _ & _). pose proof (ext_sane _ _ X S) as S1.
  pose proof (args_ext _ _ _ _ S1 E) as X2. apply incl_app; [eapply expr_scoped; eauto; eapply ext_bad; eauto|]. rewrite <- (ext_dom _ _ X). eapply IH; eauto.
Qed.
Lemma operands_scoped l : forall s u s', sane s -> check_operands l s = TOk u s' -> bad s' = false -> incl (flat_map names_op l) (dom s).
Proof.
  induction l as [|e l IH]; intros s u s' S E B; cbn [check_operands flat_map] in *; [intros x []|].
  destruct (checkGateOperand e s) as [t s1| |] eqn:A; try discriminate. cbn [tbind] in E. pose proof (operand_ext _ _ _ _ S A) as X. pose proof (ext_sane _ _ X S) as S1.
  pose proof (operands_ext _ _ _ _ S1 E) as X2. apply incl_app; [eapply operand_scoped; eauto; eapply ext_bad; eauto|]. rewrite <- (ext_dom _ _ X). eapply IH; eauto.
Qed.
Lemma declare_dom t l : forall s, (forall x, In x (dom (declare_all t l s)) <-> In x l \/ In x (dom s)) /\ bad (declare_all t l s) = bad s.
Proof.
  induction l as [|y l IH]; intros s; cbn [declare_all]; [cbn; intuition|]. destruct (alloc t s) as [a s1] eqn:A. apply alloc_ok in A as (X & _ & _ & Bs). destruct (IH (emplace y a s1)) as [D B]. split.
  - intros x. rewrite D, emplace_dom, (ext_dom _ _ X). cbn [In]. intuition.
  - rewrite B, emplace_bad. exact Bs.
Qed.
(* the claim for one statement; sets of names are compared by [same_names] *)
Definition scopes (consts : env cvalue) (x : stmt) : Prop := forall s u s' G, sane s -> check_stmt consts x s = TOk u s' -> bad s' = false -> same_names G (dom s) ->
  exists G', scoped G x G' /\ same_names G' (dom s').
Lemma block_scoped consts l : Forall (scopes consts) l -> forall s u s' G, sane s -> check_block consts l s = TOk u s' -> bad s' = false -> same_names G (dom s) ->
  exists G', scoped_all G l G' /\ same_names G' (dom s').
Proof.
  induction 1 as [|x l Hx F IH]; intros s u s' G S E B N; [rewrite check_block_nil in E; injection E as _ <-; exists G; split; [constructor|auto]|]. rewrite check_block_cons in E.
  destruct (check_stmt consts x s) as [v s1| |] eqn:A; try discriminate. cbn [tbind] in E. pose proof (stmt_grow _ _ _ _ _ S A) as G1.
  assert (G2 : grow s1 s'). { eapply block_grow; [|apply G1|exact E]. apply Forall_forall. intros y _. apply stmt_grow. }
  destruct (Hx _ _ _ G S A (grow_bad _ _ G2 B) N) as (G' & H1 & N1). destruct (IH _ _ _ G' (proj2 (proj2 (proj2 G1))) E B N1) as (G'' & H2 & N2). exists G''. split; auto. econstructor; eauto.
Qed.
Lemma incl_same l G H : incl l H -> same_names G H -> incl l G. Proof. intros A B x I. apply B, A, I. Qed.
Lemma all_grow consts l : Forall (fun x => forall s u s', sane s -> check_stmt consts x s = TOk u s' -> grow s s') l.
Proof. apply Forall_forall. intros y _. apply stmt_grow. Qed.
Lemma stmt_scoped consts x : scopes consts x.
Proof.
  induction x as [b t id init|id idx r|ps qs body IH|args|os|o|c a b IHa IHb|] using stmt_ind'; intros s u s' G S E B N.
  - cbn [check_stmt] in E. apply decl_scoped in E as (H1 & H2 & H3); auto. exists (id :: G). split; [constructor; [eapply incl_same; eauto|intros r E'; eapply incl_same; [apply H2, E'|auto]]|].
    intros x. rewrite H3. cbn [In]. rewrite (N x). intuition.
  - cbn [check_stmt] in E. apply assign_scoped in E as (H1 & H2 & H3 & H4); auto. exists G. rewrite H4. split; auto. constructor; [now apply N|eapply incl_same; eauto|eapply incl_same; eauto].
  - rewrite check_gate_eq in E. destruct (check_block _ _ _) as [v s1| |] eqn:A; try discriminate. cbn [tbind] in E. injection E as _ <-. cbn [bad] in B.
    pose proof (declare_grow (TD KFloat 64) ps s S) as G1. pose proof (declare_grow (TD KQubit 1) qs _ (proj2 (proj2 (proj2 G1)))) as G2.
    destruct (block_scoped _ _ IH _ _ _ (ps ++ qs ++ G) (proj2 (proj2 (proj2 G2))) A B) as (G' & H & _).
    { intros x. rewrite !in_app_iff. destruct (declare_dom (TD KQubit 1) qs (declare_all (TD KFloat 64) ps s)) as [D _]. rewrite D. destruct (declare_dom (TD KFloat 64) ps s) as [D' _]. rewrite D', (N x). intuition. }
    exists G. split; [now apply sc_gate with G'|exact N].
  - cbn [check_stmt] in E. exists G. split; [constructor; eapply incl_same; [eapply args_scoped; eauto|auto]|]. apply args_ext in E; auto. now rewrite (ext_dom _ _ E).
  - cbn [check_stmt] in E. exists G. split; [constructor; eapply incl_same; [eapply operands_scoped; eauto|auto]|]. apply operands_ext in E; auto. now rewrite (ext_dom _ _ E).
  - cbn [check_stmt] in E. exists G. split; [constructor; eapply incl_same; [eapply operand_scoped; eauto|auto]|]. apply operand_ext in E; auto. now rewrite (ext_dom _ _ E).
  - rewrite check_if_eq in E. destruct (check_expr c s) as [t s1| |] eqn:A; try discriminate. cbn [tbind] in E. destruct (check_expr_post _ _ _ _ S A) as (X & _ & _).
    change (match t with Some p => if isConvertibleToBool (deref p s1) then s1 else mkT (heap s1) (names s1) true | None => s1 end) with (after_cond t s1) in E.
    pose proof (ext_trans _ _ _ X (after_cond_ext t s1)) as X'. pose proof (ext_sane _ _ X' S) as S1.
    destruct (check_block consts a _) as [v s2| |] eqn:C; try discriminate. cbn [tbind] in E. pose proof (block_grow _ _ (all_grow consts a) _ _ _ S1 C) as Ga. pose proof (block_grow _ _ (all_grow consts b) _ _ _ (proj2 (proj2 (proj2 Ga))) E) as Gb.
    pose proof (grow_bad _ _ Gb B) as B2. pose proof (grow_bad _ _ Ga B2) as B1.
    destruct (block_scoped _ _ IHa _ _ _ G S1 C B2) as (G1 & H1 & N1); [rewrite (ext_dom _ _ X'); exact N|].
    destruct (block_scoped _ _ IHb _ _ _ G1 (proj2 (proj2 (proj2 Ga))) E B N1) as (G2 & H2 & N2).
    exists G2. split; auto. econstructor; eauto. eapply incl_same; [eapply expr_scoped; [exact S|exact A|exact (ext_bad _ _ (after_cond_ext t s1) B1)]|auto].
  - injection E as _ <-. exists G. split; [constructor|auto].
Qed.

(** ** Crashes *)
Lemma check_op_def op a s : check_op op a s <> TUndef.
Proof. unfold check_op, new, fail. cbv zeta. destruct (alloc TBool s). repeat match goal with |- context [if ?b then _ else _] => destruct b end; discriminate. Qed.
Lemma check_binary_def op l r s : check_binary op l r s <> TUndef.
Proof.
  unfold check_binary. cbv zeta. destruct (_ && _); [destruct (alloc TBool s); apply check_op_def|]. destruct (_ && _).
  - destruct (setDesignator _ _ _); [apply check_op_def|discriminate].
  - destruct (Nat.eqb l r); [apply check_op_def|discriminate].
Qed.
Lemma expr_calm e : forall s, sane s -> calm (dom s) e -> check_expr e s <> TUndef.
Proof.
  induction e as [sg z|q|b|id idx|op a IHa b IHb|op a IHa]; intros s S H; cbn [check_expr]; try discriminate.
  - destruct idx as [|i idx]; [destruct (map_find id (names s)); discriminate|]. cbn [calm] in H. apply in_find in H as [v ->]. destruct (setDesignator v 1 s); discriminate.
  - cbn [calm] in H. destruct H as [Ha Hb]. destruct (check_expr a s) as [ta s1| |] eqn:A; [|discriminate|now apply IHa in A]. cbn [tbind].
    destruct (check_expr_post _ _ _ _ S A) as (X & _ & _). pose proof (ext_sane _ _ X S) as S1. rewrite <- (ext_dom _ _ X) in Hb.
    destruct (check_expr b s1) as [tb s2| |] eqn:B; [|discriminate|now apply IHb in B]. cbn [tbind]. destruct ta, tb; try discriminate. apply check_binary_def.
  - assert (Ha : calm (dom s) a /\ op <> BitwiseNot /\ op <> LogicalNot) by (cbn [calm] in H; destruct op; try contradiction; repeat split; auto; discriminate).
    destruct Ha as (Ha & N1 & N2). destruct (check_expr a s) as [ta s1| |] eqn:A; [|discriminate|now apply IHa in A]. cbn [tbind]. destruct op; try discriminate; contradiction.
Qed.

(** ** Kinds *)
Lemma same_kind_ty t u : same_kind t u -> ty_kind t = ty_kind u.
Proof. destruct t as [[] w| |], u as [[] w'| |]; cbn; intros; try discriminate; try contradiction; auto. Qed.
Lemma of_kind_same v t u : same_kind t u -> of_kind v t -> of_kind v u.
Proof. intros K (k & E & B). exists k. split; auto. rewrite <- E. symmetry. now apply same_kind_ty. Qed.
Lemma type_of_deref s id a : a < size s -> map_find id (names s) = Some a -> type_of s id = Some (deref a s).
Proof. intros L F. unfold type_of. rewrite F. unfold deref. now apply nth_error_nth'. Qed.
Lemma type_of_grow s s' id t : sane s -> grow s s' -> type_of s id = Some t -> exists t', type_of s' id = Some t' /\ same_kind t t'.
Proof.
  intros S (A & B & _ & S') E. unfold type_of in E. destruct (map_find id (names s)) as [a|] eqn:F; [|discriminate]. pose proof (S _ _ F) as L.
  assert (D : t = deref a s) by (unfold deref; symmetry; now apply nth_error_nth). subst t. destruct (B a L) as [L' K]. exists (deref a s'). split; auto. apply type_of_deref; auto.
Qed.
Lemma consistent_grow consts s s' : sane s -> grow s s' -> consistent consts s -> consistent consts s'.
Proof. intros S G C id v F. destruct (C id v F) as (t & T & K). destruct (type_of_grow _ _ _ _ S G T) as (t' & T' & K'). exists t'. split; auto. eapply of_kind_same; eauto. Qed.
Lemma below_bool k : below k kBool -> k = kBool. Proof. inversion 1; auto. Qed.
Lemma below_num k : below kBool k -> k = kBool. Proof. inversion 1; auto. Qed.
Lemma evalInt_kind op x y w sg v : evalIntExpression op x y w sg = Ok v -> if arith op || bitop op then val_kind v = (if sg then kInt else kUint) else val_kind v = kBool.
Proof.
  assert (N : forall z, narrow sg w z = Ok v -> val_kind v = (if sg then kInt else kUint)) by (intros z; unfold narrow; destruct (_ || _); [|discriminate]; intros E; injection E as <-; cbn; destruct sg; reflexivity).
  unfold evalIntExpression. cbv zeta. destruct op; cbn [arith bitop orb];
    repeat match goal with |- context [if ?b then _ else _] => destruct b | |- context [match power ?a ?b ?c with _ => _ end] => destruct (power a b c) end;
    intros E; try discriminate E; try (injection E as <-; reflexivity); try (specialize (N _ E); exact N); eauto.
Qed.
Lemma evalFloat_kind op l r v : evalFloatExpression op l r = Ok v -> if arith op || bitop op then val_kind v = kFloat else val_kind v = kBool.
Proof. unfold evalFloatExpression. destruct op; cbn [arith bitop orb]; try discriminate; try (intros E; injection E as <-; reflexivity). destruct (Qeq_bool r 0); [discriminate|intros E; injection E as <-; reflexivity]. Qed.
Definition num_ty (t : ty) : bool := match t with TD (KInt | KUint | KFloat) _ => true | _ => false end.
Lemma of_kind_cases v t : of_kind v t -> (t = TBool /\ exists b, v = VBool b) \/ (num_ty t = true /\ isNumber t = true /\ isConvertibleToBool t = false /\ forall b, v <> VBool b).
Proof.
  intros (k & E & B). destruct t as [[] w| |]; try discriminate E; injection E as <-; [right|right|right|left].
  1-3: repeat split; auto; intros b ->; apply below_num in B; discriminate B.
  apply below_bool in B. split; auto. destruct v as [[] z w|q|b]; try discriminate B. now exists b.
Qed.
Lemma num_result op va vb v tl tr w : of_kind va tl -> of_kind vb tr -> num_ty tl = true -> num_ty tr = true -> eval_binary op va vb = Ok v ->
  if arith op || bitop op then of_kind v (match (if isFP tr || isUint tl then tr else tl) with TD k _ => TD k w | t => t end) else val_kind v = kBool.
Proof.
  intros (k1 & E1 & B1) (k2 & E2 & B2) N1 N2 E.
  assert (R : if arith op || bitop op then val_kind v = (match val_kind va, val_kind vb with kFloat, _ | _, kFloat => kFloat | kInt, _ | _, kInt => kInt | _, _ => kUint end) else val_kind v = kBool).
  { destruct va as [sa x wa|qa|ba]; [| |destruct tl as [[] ?| |]; try discriminate N1; injection E1 as <-; apply below_num in B1; discriminate B1];
    (destruct vb as [sb y wb|qb|bb]; [| |destruct tr as [[] ?| |]; try discriminate N2; injection E2 as <-; apply below_num in B2; discriminate B2]); cbn [eval_binary] in E.
    - apply evalInt_kind in E. destruct (_ || _); auto. rewrite E. destruct sa, sb; reflexivity.
    - apply evalFloat_kind in E. destruct (_ || _); auto. rewrite E. destruct sa; reflexivity.
    - destruct sb; apply evalFloat_kind in E; destruct (_ || _); auto.
    - apply evalFloat_kind in E. destruct (_ || _); auto. }
  destruct (arith op || bitop op); auto. unfold of_kind. rewrite R. clear R E.
  destruct tl as [[] w1| |]; try discriminate N1; injection E1 as <-; destruct tr as [[] w2| |]; try discriminate N2; injection E2 as <-; cbn [isFP isUint orb ty_kind];
    eexists; (split; [reflexivity|]); destruct (val_kind va); inversion B1; subst; destruct (val_kind vb); inversion B2; subst; constructor.
Qed.
Lemma check_op_kind op a s b s' : check_op op a s = TOk (Some b) s' ->
  if arith op || bitop op then b = a /\ s' = s /\ isNumber (deref a s) = true else deref b s' = TBool /\ (logic op = true -> isBool (deref a s) = true) /\ (order op = true -> isBool (deref a s) = false).
Proof.
  unfold check_op. cbv zeta. destruct (arith op || bitop op) eqn:AB.
  - destruct (isNumber _) eqn:I; [|discriminate]. intros E. injection E as <- <-. auto.
  - destruct (order op) eqn:O.
    + destruct (isBool _) eqn:I; [discriminate|]. intros E. apply new_ok in E as (_ & _ & c & H & _ & D). injection H as <-. split; auto. split; auto. destruct op; discriminate.
    + destruct (logic op) eqn:Lg.
      * destruct (isBool _) eqn:I; [|discriminate]. intros E. injection E as <- <-. split; [|split; [auto|discriminate]]. destruct (deref a s); try discriminate I. reflexivity.
      * intros E. apply new_ok in E as (_ & _ & c & H & _ & D). injection H as <-. split; auto. split; discriminate.
Qed.
Lemma of_bool v : val_kind v = kBool -> of_kind v TBool. Proof. intros E. exists kBool. rewrite E. split; [reflexivity|constructor]. Qed.
Lemma binary_sound op x y s a s' va vb v : x < size s -> y < size s -> of_kind va (deref x s) -> of_kind vb (deref y s) -> check_binary op x y s = TOk (Some a) s' -> eval_binary op va vb = Ok v -> of_kind v (deref a s').
Proof.
  intros Lx Ly Ka Kb. unfold check_binary. cbv zeta. destruct (of_kind_cases _ _ Ka) as [(Ta & ba & ->)|(Na & Ia & Ca & Ba)].
  - destruct (of_kind_cases _ _ Kb) as [(Tb & bb & ->)|(Nb & Ib & Cb & Bb)].
    + rewrite Ta, Tb. cbn [isConvertibleToBool andb]. destruct (alloc TBool s) as [c s1] eqn:A. apply alloc_ok in A as (_ & _ & D & _). intros E V.
      apply check_op_kind in E. rewrite D in E. destruct (arith op || bitop op); [destruct E as (_ & _ & E); discriminate E|]. destruct E as (-> & _). apply of_bool.
      cbn [eval_binary] in V. unfold evalBoolExpression in V. destruct op; try discriminate V; injection V as <-; reflexivity.
    + rewrite Ta, Cb. cbn [isConvertibleToBool isNumber andb]. destruct (Nat.eqb_spec x y) as [->|N]; [rewrite Ta in Nb; discriminate Nb|]. discriminate.
  - rewrite Ca, Ia. cbn [andb]. destruct (of_kind_cases _ _ Kb) as [(Tb & bb & ->)|(Nb & Ib & Cb & Bb)].
    + rewrite Tb. cbn [isNumber]. destruct (Nat.eqb_spec x y) as [->|N]; [rewrite Tb in Na; discriminate Na|]. discriminate.
    + rewrite Ib. set (c := if isFP (deref y s) || isUint (deref x s) then y else x). destruct (setDesignator c _ s) as [s1|] eqn:D; [|discriminate]. intros E V.
      assert (Lc : c < size s) by (unfold c; now destruct (_ || _)). apply set_ok in D as (_ & _ & k & w0 & D0 & D1); auto.
      pose proof (num_result op va vb v _ _ (Z.max (width (deref x s)) (width (deref y s))) Ka Kb Na Nb V) as R. apply check_op_kind in E. destruct (arith op || bitop op).
      * destruct E as (-> & -> & _). rewrite D1. replace (if isFP (deref y s) || isUint (deref x s) then deref y s else deref x s) with (deref c s) in R by (unfold c; destruct (_ || _); reflexivity). rewrite D0 in R. exact R.
      * destruct E as (-> & _). now apply of_bool.
Qed.
Lemma expr_sound consts e : forall s a s' v, sane s -> consistent consts s -> check_expr e s = TOk (Some a) s' -> ceval consts e = Ok v -> of_kind v (deref a s').
Proof.
  induction e as [sg z|q|b|id idx|op x IHx y IHy|op x IHx]; intros s a s' v S C E V; cbn [check_expr ceval] in *.
  - apply new_ok in E as (_ & _ & c & H & _ & D). injection H as <-. rewrite D. injection V as <-. exists (if sg then kInt else kUint). destruct sg; split; try reflexivity; constructor.
  - apply new_ok in E as (_ & _ & c & H & _ & D). injection H as <-. rewrite D. injection V as <-. exists kFloat. split; [reflexivity|constructor].
  - apply new_ok in E as (_ & _ & c & H & _ & D). injection H as <-. rewrite D. injection V as <-. now apply of_bool.
  - destruct idx; [|discriminate V]. destruct (env_find id consts) as [v'|] eqn:F; [|discriminate V]. injection V as <-. destruct (C _ _ F) as (t & T & K).
    destruct (map_find id (names s)) as [c|] eqn:M; [|discriminate E]. injection E as <- <-. rewrite (type_of_deref _ _ _ (S _ _ M) M) in T. injection T as <-. exact K.
  - destruct (check_expr x s) as [ta s1| |] eqn:A; try discriminate. cbn [tbind] in E. destruct (check_expr_post _ _ _ _ S A) as (X1 & L1 & B1). pose proof (ext_sane _ _ X1 S) as S1.
    destruct (check_expr y s1) as [tb s2| |] eqn:B; try discriminate. cbn [tbind] in E. destruct (check_expr_post _ _ _ _ S1 B) as (X2 & L2 & B2).
    destruct ta as [p|]; [|discriminate E]. destruct tb as [q|]; [|discriminate E]. destruct (ceval consts x) as [va| | | |] eqn:VA; try discriminate V. destruct (ceval consts y) as [vb| | | |] eqn:VB; try discriminate V.
    assert (C1 : consistent consts s1) by (eapply consistent_grow; [exact S|apply ext_grow; auto|exact C]).
    eapply binary_sound; [| | | |exact E|exact V]; [apply X2; auto|auto| |exact (IHy _ _ _ _ S1 C1 B eq_refl)]. eapply of_kind_same; [apply X2; auto|]. exact (IHx _ _ _ _ S C A eq_refl).
  - destruct (check_expr x s) as [ta s1| |] eqn:A; try discriminate. cbn [tbind] in E. destruct (ceval consts x) as [va| | | |] eqn:VA; try discriminate V.
    destruct op; cbn [eval_unary] in V; try (destruct va; discriminate V).
    + destruct ta as [p|]; [|discriminate E]. destruct (isNumber _); [|discriminate E]. injection E as <- <-. pose proof (IHx _ _ _ _ S C A eq_refl) as K. destruct va as [sg z w|q|b]; try discriminate V. injection V as <-. exact K.
    + destruct ta as [p|]; [|discriminate E]. destruct (isConvertibleToBool _); [|discriminate E]. injection E as <- <-. pose proof (IHx _ _ _ _ S C A eq_refl) as K. destruct va as [sg z w|q|b]; try discriminate V. injection V as <-. exact K.
    + injection E as -> <-. pose proof (IHx _ _ _ _ S C A eq_refl) as K. destruct va as [[] z w|q|b]; try discriminate V; [destruct (Z.eqb z _); [discriminate V|]|]; injection V as <-; exact K.
Qed.
