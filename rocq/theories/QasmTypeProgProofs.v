(** The type checker: evaluation after checking, whole programs. *)
From Coq Require Import ZArith QArith Bool List String Lia.
From Verif Require Import QasmScanModel QasmEnvModel QasmConstModel QasmTypeModel QasmTypeSpec QasmTypeProofs QasmTypeMainProofs.
Import ListNotations.
Local Close Scope Q_scope.
Local Open Scope nat_scope.
Local Open Scope list_scope.

(** ** Failures *)
Lemma evalInt_wide op x y sg v : evalIntExpression op x y 64 sg = Ok v -> wide v.
Proof.
  assert (N : forall z, narrow sg 64 z = Ok v -> wide v) by (intros z E; unfold narrow in E; cbn [Z.eqb Pos.eqb orb] in E; injection E as <-; reflexivity).
  unfold evalIntExpression. cbv zeta. destruct op;
    repeat match goal with |- context [if ?b then _ else _] => destruct b | |- context [match power ?a ?b ?c with _ => _ end] => destruct (power a b c) end;
    intros E; try discriminate E; try (injection E as <-; reflexivity); try (exact (N _ E)).
Qed.
Lemma evalFloat_wide op l r v : evalFloatExpression op l r = Ok v -> wide v.
Proof. unfold evalFloatExpression. destruct op; try discriminate; try (intros E; injection E as <-; reflexivity). destruct (Qeq_bool r 0); [discriminate|intros E; injection E as <-; reflexivity]. Qed.
Lemma binary_wide op va vb v : wide va -> wide vb -> eval_binary op va vb = Ok v -> wide v.
Proof.
  destruct va as [sa x wa|qa|ba], vb as [sb y wb|qb|bb]; cbn [wide eval_binary]; intros Wa Wb; try discriminate.
  - subst. apply evalInt_wide.
  - apply evalFloat_wide.
  - destruct sb; apply evalFloat_wide.
  - apply evalFloat_wide.
  - unfold evalBoolExpression. destruct op; try discriminate; intros E; injection E as <-; exact I.
Qed.
Lemma eval_wide consts e : all_wide consts -> forall v, ceval consts e = Ok v -> wide v.
Proof.
  intros W. induction e as [sg z|q|b|id idx|op x IHx y IHy|op x IHx]; intros v V; cbn [ceval] in V; try (injection V as <-; reflexivity).
  - destruct idx; [|discriminate]. destruct (env_find id consts) eqn:F; [|discriminate]. injection V as <-. eauto.
  - destruct (ceval consts x); try discriminate. destruct (ceval consts y); try discriminate. eapply binary_wide; [| |exact V]; auto.
  - destruct (ceval consts x) as [va| | | |]; try discriminate. specialize (IHx va eq_refl). destruct op, va as [[] z w|q|b]; cbn [eval_unary] in V; try discriminate V; try (destruct (Z.eqb z _); try discriminate V); injection V as <-; auto.
Qed.
Lemma evalInt_error op x y sg : evalIntExpression op x y 64 sg = Error -> op = Power \/ logic op = true.
Proof.
  assert (N : forall z, narrow sg 64 z <> Error) by (intros z; unfold narrow; cbn [Z.eqb Pos.eqb orb]; discriminate).
  unfold evalIntExpression. cbv zeta. destruct op; auto;
    repeat match goal with |- context [if ?b then _ else _] => destruct b end;
    intros E; try discriminate E; exfalso; exact (N _ E).
Qed.
Lemma evalFloat_error op l r : evalFloatExpression op l r = Error -> In op [LeftShift; RightShift; BitwiseAnd; BitwiseXor; BitwiseOr] \/ logic op = true.
Proof. unfold evalFloatExpression. destruct op; try discriminate; cbn; auto 10. destruct (Qeq_bool r 0); discriminate. Qed.
Lemma binary_error op x y s a s' va vb : x < size s -> y < size s -> of_kind va (deref x s) -> of_kind vb (deref y s) -> wide va -> wide vb ->
  check_binary op x y s = TOk (Some a) s' -> eval_binary op va vb = Error -> bits_of_float op va vb \/ int_power op va vb.
Proof.
  intros Lx Ly Ka Kb Wa Wb. unfold check_binary. cbv zeta. destruct (of_kind_cases _ _ Ka) as [(Ta & ba & ->)|(Na & Ia & Ca & Ba)].
  - destruct (of_kind_cases _ _ Kb) as [(Tb & bb & ->)|(Nb & Ib & Cb & Bb)].
    + rewrite Ta, Tb. cbn [isConvertibleToBool andb]. destruct (alloc TBool s) as [c s1] eqn:A. apply alloc_ok in A as (_ & _ & D & _). intros E V. exfalso.
      apply check_op_kind in E. rewrite D in E. cbn [eval_binary] in V. unfold evalBoolExpression in V.
      destruct op; cbn [arith bitop orb logic order] in E; try discriminate V; destruct E as (_ & _ & E); discriminate E; reflexivity.
    + rewrite Ta, Cb. cbn [isConvertibleToBool isNumber andb]. destruct (Nat.eqb_spec x y) as [->|N]; [rewrite Ta in Nb; discriminate Nb|]. discriminate.
  - rewrite Ca, Ia. cbn [andb]. destruct (of_kind_cases _ _ Kb) as [(Tb & bb & ->)|(Nb & Ib & Cb & Bb)].
    + rewrite Tb. cbn [isNumber]. destruct (Nat.eqb_spec x y) as [->|N]; [rewrite Tb in Na; discriminate Na|]. discriminate.
    + rewrite Ib. set (c := if isFP (deref y s) || isUint (deref x s) then y else x). destruct (setDesignator c _ s) as [s1|] eqn:D; [|discriminate]. intros E V.
      assert (Lc : c < size s) by (unfold c; now destruct (_ || _)). apply set_ok in D as (_ & _ & k & w0 & D0 & D1); auto. apply check_op_kind in E. rewrite D1 in E.
      assert (Lg : logic op = true -> False) by (intros L; destruct op; try discriminate L; cbn [arith bitop orb] in E; destruct E as (_ & E & _); discriminate (E eq_refl)).
      destruct va as [sa za wa|qa|ba]; [| |now destruct (Ba ba)]; (destruct vb as [sb zb wb|qb|bb]; [| |now destruct (Bb bb)]); cbn [eval_binary wide] in *.
      * subst. apply evalInt_error in V as [->|V]; [right; repeat split|destruct (Lg V)].
      * apply evalFloat_error in V as [V|V]; [left; split; auto|destruct (Lg V)].
      * left. split; [|now left]. destruct sb; apply evalFloat_error in V as [V|V]; auto; destruct (Lg V).
      * apply evalFloat_error in V as [V|V]; [left; split; auto|destruct (Lg V)].
Qed.
Lemma expr_fails consts e : all_wide consts -> forall s r s', sane s -> consistent consts s -> check_expr e s = TOk r s' -> bad s' = false -> ceval consts e = Error -> excuse consts e.
Proof.
  intros W. induction e as [sg z|q|b|id idx|op x IHx y IHy|op x IHx]; intros s r s' S C E Bd V; cbn [check_expr ceval] in *; try discriminate V.
  - destruct idx; [|discriminate V]. destruct (env_find id consts); discriminate V.
  - destruct (check_expr x s) as [ta s1| |] eqn:A; try discriminate. cbn [tbind] in E. destruct (check_expr_post _ _ _ _ S A) as (X1 & L1 & B1). pose proof (ext_sane _ _ X1 S) as S1.
    destruct (check_expr y s1) as [tb s2| |] eqn:B; try discriminate. cbn [tbind] in E. destruct (check_expr_post _ _ _ _ S1 B) as (X2 & L2 & B2). pose proof (ext_sane _ _ X2 S1) as S2.
    assert (Bd2 : bad s2 = false). { destruct ta, tb; try (injection E as _ <-; exact Bd). apply check_binary_post in E; auto; [|apply X2; auto]. destruct E as (X & _ & _). eapply ext_bad; eauto. }
    assert (Bd1 : bad s1 = false) by (eapply ext_bad; eauto).
    assert (C1 : consistent consts s1) by (eapply consistent_grow; [exact S|apply ext_grow; auto|exact C]).
    destruct (ceval consts x) as [va| | | |] eqn:VA; try discriminate V.
    + destruct (ceval consts y) as [vb| | | |] eqn:VB; try discriminate V.
      * destruct ta as [p|]; [|rewrite B1 in Bd1; [discriminate|reflexivity]]. destruct tb as [q|]; [|rewrite B2 in Bd2; [discriminate|reflexivity]].
        assert (Lp : p < size s1) by auto. assert (Lq : q < size s2) by auto. assert (Lp2 : p < size s2) by (apply X2; auto).
        destruct r as [a|]; [|exfalso; pose proof (check_binary_post _ _ _ _ _ _ Lp2 Lq E) as (_ & _ & H); rewrite H in Bd by reflexivity; discriminate Bd].
        exists op, x, y, va, vb. split; [constructor|]. split; auto. split; auto.
        eapply binary_error; [exact Lp2|exact Lq| | | | |exact E|exact V].
        -- eapply of_kind_same; [apply X2; auto|]. exact (expr_sound _ _ _ _ _ _ S C A VA).
        -- exact (expr_sound _ _ _ _ _ _ S1 C1 B VB).
        -- exact (eval_wide _ _ W _ VA).
        -- exact (eval_wide _ _ W _ VB).
      * destruct (IHy _ _ _ S1 C1 B Bd2 eq_refl) as (o & a & b & v & w & P & H). exists o, a, b, v, w. split; auto. now constructor.
    + destruct (IHx _ _ _ S C A Bd1 eq_refl) as (o & a & b & v & w & P & H). exists o, a, b, v, w. split; auto. now constructor.
  - destruct (check_expr x s) as [ta s1| |] eqn:A; try discriminate. cbn [tbind] in E.
    assert (Bd1 : bad s1 = false).
    { destruct op; try (apply new_ok in E as (_ & <- & _); exact Bd).
      - destruct ta; [|discriminate]. destruct (isNumber _); [injection E as _ <-; exact Bd|]. apply fail_ok in E as [_ ->]. discriminate Bd.
      - destruct ta; [|discriminate]. destruct (isConvertibleToBool _); [injection E as _ <-; exact Bd|]. apply fail_ok in E as [_ ->]. discriminate Bd.
      - injection E as _ <-. exact Bd. }
    destruct (ceval consts x) as [va| | | |] eqn:VA; try discriminate V; [exfalso; destruct op, va as [[] z w|q|b]; cbn [eval_unary] in V; try discriminate V; destruct (Z.eqb z _); discriminate V|].
    destruct (IHx _ _ _ S C A Bd1 eq_refl) as (o & a & b & v & w & P & H). exists o, a, b, v, w. split; auto. now constructor.
Qed.

(** ** Programs *)
Lemma block_names consts l : Forall (fun x => forall s u s', sane s -> no_decl x -> check_stmt consts x s = TOk u s' -> names s' = names s) l ->
  (fix all l := match l with [] => True | x :: l' => no_decl x /\ all l' end) l -> forall s u s', sane s -> check_block consts l s = TOk u s' -> names s' = names s.
Proof.
  induction 1 as [|x l Hx F IH]; intros N s u s' S E; [rewrite check_block_nil in E; now injection E as _ <-|]. rewrite check_block_cons in E. destruct N as [Nx Nl].
  destruct (check_stmt consts x s) as [v s1| |] eqn:A; try discriminate. cbn [tbind] in E. pose proof (stmt_grow _ _ _ _ _ S A) as G1. rewrite (IH Nl _ _ _ (proj2 (proj2 (proj2 G1))) E). eauto.
Qed.
Lemma stmt_names consts x : forall s u s', sane s -> no_decl x -> check_stmt consts x s = TOk u s' -> names s' = names s.
Proof.
  induction x as [b t id init|id idx r|ps qs body IH|args|os|o|c a b IHa IHb|] using stmt_ind'; intros s u s' S N E.
  - destruct N.
  - cbn [check_stmt] in E. unfold check_assign in E. destruct (checkIndexedIdentifier id idx s) as [v s1| |] eqn:A; try discriminate. cbn [tbind] in E. pose proof (cii_ext _ _ _ _ _ S A) as X1. pose proof (ext_sane _ _ X1 S) as S1.
    destruct (check_rhs r s1) as [x s2| |] eqn:C; try discriminate. cbn [tbind] in E. destruct (rhs_post _ _ _ _ S1 C) as (X2 & _ & _). rewrite <- (proj1 X1), <- (proj1 X2).
    destruct (map_find id (names s2)); [destruct x; [destruct (fits _ _)|discriminate]|]; injection E as _ <-; reflexivity.
  - rewrite check_gate_eq in E. destruct (check_block _ _ _) as [v s1| |] eqn:A; try discriminate. cbn [tbind] in E. now injection E as _ <-.
  - cbn [check_stmt] in E. apply args_ext in E; [apply E|exact S].
  - cbn [check_stmt] in E. apply operands_ext in E; [apply E|exact S].
  - cbn [check_stmt] in E. apply operand_ext in E; [apply E|exact S].
  - rewrite check_if_eq in E. destruct (check_expr c s) as [t s1| |] eqn:A; try discriminate. cbn [tbind] in E. destruct (check_expr_post _ _ _ _ S A) as (X & _ & _).
    change (match t with Some p => if isConvertibleToBool (deref p s1) then s1 else mkT (heap s1) (names s1) true | None => s1 end) with (after_cond t s1) in E.
    pose proof (ext_trans _ _ _ X (after_cond_ext t s1)) as X'. pose proof (ext_sane _ _ X' S) as S1. destruct N as [Na Nb].
    destruct (check_block consts a _) as [v s2| |] eqn:C; try discriminate. cbn [tbind] in E. pose proof (block_grow _ _ (all_grow consts a) _ _ _ S1 C) as Ga.
    rewrite (block_names _ _ IHb Nb _ _ _ (proj2 (proj2 (proj2 Ga))) E), (block_names _ _ IHa Na _ _ _ S1 C). apply X'.
  - now injection E as _ <-.
Qed.
Lemma fits_kind v rt t : (t = match v with VInt sg z _ => TD (if sg then KInt else KUint) (int_width sg z) | VFloat _ => TD KFloat 64 | VBool _ => TBool end) -> fits rt t = true -> of_kind v rt.
Proof.
  intros -> F. destruct v as [[] z w|q|b], rt as [[] w'| |]; cbn [fits dkind_eqb orb andb] in F; try discriminate F;
    (eexists; split; [reflexivity|]); constructor.
Qed.
Lemma toExpr_check v s : exists a s', check_expr (toExpr v) s = TOk (Some a) s' /\ deref a s' = match v with VInt sg z _ => TD (if sg then KInt else KUint) (int_width sg z) | VFloat _ => TD KFloat 64 | VBool _ => TBool end.
Proof.
  destruct v as [sg z w|q|b]; cbn [toExpr check_expr]; match goal with |- context [new ?t s] => destruct (new t s) as [r s'| |] eqn:N; [|discriminate N|discriminate N] end;
    apply new_ok in N as (_ & _ & a & -> & _ & D); exists a, s'; auto.
Qed.
Lemma decl_kind consts t id v s u s' : sane s -> check_decl consts t id (Some (RExpr (toExpr v))) s = TOk u s' -> bad s' = false -> map_find id (names s) = None ->
  exists t', type_of s' id = Some t' /\ of_kind v t'.
Proof.
  intros S. rewrite check_decl_eq.
  assert (R : forall s0, sane s0 -> decl_rest consts t id (Some (RExpr (toExpr v))) s0 = TOk u s' -> bad s' = false -> map_find id (names s0) = None -> exists t', type_of s' id = Some t' /\ of_kind v t').
  { intros s0 S0. unfold decl_rest. destruct (resolve consts t) as [rt|]; [|discriminate]. destruct (alloc rt s0) as [a s1] eqn:A. apply alloc_ok in A as (X & L & Da & Bs). pose proof (ext_sane _ _ X S0) as S1.
    cbn [check_rhs]. destruct (toExpr_check v s1) as (b & s2 & E2 & Db). rewrite E2. cbn [tbind]. destruct (check_expr_post _ _ _ _ S1 E2) as (X2 & L2 & _). intros E B M. injection E as _ <-.
    destruct (fits (deref a s2) (deref b s2)) eqn:F; [|rewrite emplace_bad in B; discriminate B]. exists (deref a s2). split.
    - unfold emplace. rewrite (proj1 X2), (proj1 X), M. unfold type_of. cbn [names heap]. rewrite map_find_app, M, String.eqb_refl. unfold deref. apply nth_error_nth'. apply X2. exact L.
    - eapply fits_kind; [exact Db|exact F]. }
  destruct t as [k [d|]| |]; try (apply R; exact S).
  destruct (check_expr d s) as [x s1| |] eqn:C; try discriminate. cbn [tbind]. destruct (check_expr_post _ _ _ _ S C) as (X & _ & _). pose proof (ext_sane _ _ X S) as S1.
  intros E B M. destruct x as [a|]; [destruct (isUint _)|]; try (injection E as _ <-; discriminate B). apply (R s1); auto. now rewrite (proj1 X).
Qed.
(* what holds behind the declarations of the names [D] *)
Definition inv (D : list string) (consts : env cvalue) (s : tst) : Prop :=
  sane s /\ consistent consts s /\ all_wide consts /\ (forall id, In id (dom s) -> In id builtins \/ In id D) /\ (forall id, In id builtins -> env_find id consts <> None) /\ exists m, consts = [m].
Lemma accept_ok consts x s u s' : accept consts x s = TOk u s' -> exists v, check_stmt consts x s = TOk v s' /\ bad s' = false.
Proof. unfold accept. destruct (check_stmt consts x s) as [v s1| |]; try discriminate. cbn [tbind]. destruct (bad s1) eqn:B; [discriminate|]. intros E. injection E as _ <-. eauto. Qed.
Lemma run_ok consts x s c s' : match accept consts x s with TOk _ s' => POk consts s' | TThrow => PThrow | TUndef => PUndef end = POk c s' -> c = consts /\ exists v, check_stmt consts x s = TOk v s' /\ bad s' = false.
Proof. destruct (accept consts x s) as [u s1| |] eqn:A; try discriminate. intros E. injection E as <- <-. apply accept_ok in A. auto. Qed.
Lemma inv_quiet D consts x s u s' : inv D consts s -> no_decl x -> check_stmt consts x s = TOk u s' -> inv D consts s'.
Proof.
  intros (S & C & W & N & B & M) Nd E. pose proof (stmt_grow _ _ _ _ _ S E) as G. split; [apply G|]. split; [eapply consistent_grow; eauto|]. split; auto. split; auto. unfold dom. rewrite (stmt_names _ _ _ _ _ S Nd E). exact N.
Qed.
Lemma type_of_dom s id t : type_of s id = Some t -> In id (dom s).
Proof. unfold type_of. destruct (map_find id (names s)) eqn:F; [|discriminate]. intros _. now apply find_in in F. Qed.
Lemma process_inv D x consts s c s' : inv D consts s -> top_only x -> (forall id, In id (declared [x]) -> ~ In id D) -> process x consts s = POk c s' -> inv (declared [x] ++ D) c s'.
Proof.
  intros I T F P. destruct x as [b t id init|id idx r|ps qs body|args|os|o|cd a b|]; cbn [declared app].
  2-3, 5-8: cbn [process] in P; apply run_ok in P as (-> & v & E & _); eapply inv_quiet; eauto.
  - assert (Id : ~ In id D) by (apply F; now left). destruct I as (S & C & W & N & B & m & ->). destruct b.
    + destruct init as [[e|o]|]; try discriminate P. cbn [process] in P. destruct (ceval [m] e) as [v| | | |] eqn:V; try discriminate P. cbn [env_emplace] in P. apply run_ok in P as (-> & u & E & Bd). cbn [check_stmt] in E.
      pose proof (decl_grow _ _ _ _ _ _ _ S E) as G. destruct (decl_scoped _ _ _ _ _ _ _ S E Bd) as (_ & _ & H3).
      assert (N' : forall x, In x (dom s') -> In x builtins \/ In x (id :: D)) by (intros x Hx; apply H3 in Hx as [->|Hx]; [right; now left|destruct (N _ Hx); [now left|right; now right]]).
      destruct (map_find id m) as [w|] eqn:Fm.
      * split; [apply G|]. split; [eapply consistent_grow; eauto|]. repeat (split; auto). now exists m.
      * assert (Ns : map_find id (names s) = None).
        { destruct (map_find id (names s)) eqn:Fs; auto. exfalso. apply find_in in Fs. destruct (N _ Fs) as [Hb|Hd]; [|contradiction]. apply (B _ Hb). cbn [env_find]. now rewrite Fm. }
        destruct (decl_kind _ _ _ _ _ _ _ S E Bd Ns) as (t' & T' & K').
        assert (Ef : forall x, env_find x [m ++ [(id, v)]] = match env_find x [m] with Some w => Some w | None => if String.eqb id x then Some v else None end) by (intros x; cbn [env_find]; rewrite map_find_app; destruct (map_find x m); auto; now destruct (String.eqb id x)).
        split; [apply G|]. split; [|split; [|split; [exact N'|split; [|now eexists]]]].
        -- intros x w. rewrite Ef. destruct (env_find x [m]) as [w'|] eqn:Fx.
           ++ intros H. injection H as <-. eapply consistent_grow; eauto.
           ++ destruct (String.eqb_spec id x) as [<-|]; [|discriminate]. intros H. injection H as <-. eauto.
        -- intros x w. rewrite Ef. destruct (env_find x [m]) as [w'|] eqn:Fx; [intros H; injection H as <-; eauto|].
           destruct (String.eqb id x); [|discriminate]. intros H. injection H as <-. eapply eval_wide; eauto.
        -- intros x Hx. rewrite Ef. specialize (B x Hx). destruct (env_find x [m]); [discriminate|contradiction].
    + cbn [process] in P. apply run_ok in P as (-> & u & E & Bd). cbn [check_stmt] in E. pose proof (decl_grow _ _ _ _ _ _ _ S E) as G. destruct (decl_scoped _ _ _ _ _ _ _ S E Bd) as (_ & _ & H3).
      split; [apply G|]. split; [eapply consistent_grow; eauto|]. split; auto. split; [|split; [auto|now exists m]].
      intros x Hx. apply H3 in Hx as [->|Hx]; [right; now left|destruct (N _ Hx); [now left|right; now right]].
  - cbn [process] in P. destruct (fold_args consts args); [|discriminate]. apply run_ok in P as (-> & v & E & _). exact (inv_quiet _ _ (SCall l) _ _ _ I Logic.I E).
Qed.
Lemma declared_cons x l : declared (x :: l) = declared [x] ++ declared l. Proof. destruct x; reflexivity. Qed.
Lemma process_all_inv l : forall D consts s c s', inv D consts s -> Forall top_only l -> NoDup (declared l) -> (forall id, In id (declared l) -> ~ In id D) -> process_all l consts s = POk c s' -> exists D', inv D' c s'.
Proof.
  induction l as [|x l IH]; intros D consts s c s' I T ND F P; cbn [process_all] in P; [injection P as <- <-; eauto|].
  destruct (process x consts s) as [c1 s1| | |] eqn:E; try discriminate P. rewrite declared_cons in *. inversion T as [|? ? Tx Tl]; subst.
  assert (I1 : inv (declared [x] ++ D) c1 s1) by (eapply process_inv; eauto; intros id H; apply F, in_or_app; now left).
  eapply IH; [exact I1|exact Tl| | |exact P].
  - clear - ND. induction (declared [x]) as [|y d IHd]; auto. inversion ND; auto.
  - intros id H. rewrite in_app_iff. intros [H'|H']; [|eapply F; [apply in_or_app; right; exact H|exact H']].
    clear - ND H H'. induction (declared [x]) as [|y d IHd]; [destruct H'|]. inversion ND; subst. destruct H' as [->|H']; [apply H2, in_or_app; now right|auto].
Qed.
Lemma start_inv : inv [] (fst start) (snd start).
Proof.
  split; [|split; [|split; [|split; [|split; [|eexists; reflexivity]]]]].
  - intros id a F. cbn in *. repeat match type of F with (if ?b then _ else _) = _ => destruct b end; try discriminate; injection F as <-; auto.
  - intros id v F. cbn in F. unfold type_of. cbn. repeat match type of F with context [if ?b then _ else _] => destruct b end; try discriminate; injection F as <-; (eexists; split; [reflexivity|exists kFloat; split; [reflexivity|constructor]]).
  - intros id v F. cbn in F. repeat match type of F with context [if ?b then _ else _] => destruct b end; try discriminate; injection F as <-; exact I.
  - intros id H. now left.
  - intros id H. repeat destruct H as [<-|H]; try destruct H; discriminate.
Qed.
Lemma program_inv l c s : process_all l (fst start) (snd start) = POk c s -> NoDup (declared l) -> Forall top_only l -> sane s /\ consistent c s /\ all_wide c.
Proof. intros P N T. destruct (process_all_inv l [] _ _ c s start_inv T N (fun _ _ H => H) P) as (D & S & C & W & _). auto. Qed.
