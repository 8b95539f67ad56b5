(** The type checker follows the typing rules. *)
From Coq Require Import ZArith QArith Bool List String Lia.
From Verif Require Import QasmScanModel QasmEnvModel QasmConstModel QasmTypeModel QasmTypeSpec QasmTypeProofs QasmTypeMainProofs.
Import ListNotations.
Local Close Scope Q_scope.
Local Open Scope nat_scope.
Local Open Scope list_scope.

Lemma types_fun G e k : types G e k -> forall l, types G e l -> k = l.
Proof.
  induction 1; intros m M; inversion M; subst; try congruence; auto;
    repeat match goal with IH : forall l, types G ?a l -> ?k = l, H : types G ?a ?l |- _ => apply IH in H; subst end; try congruence; cbn [In] in *; exfalso; intuition congruence.
Qed.
Lemma kinds_ext s s' id : sane s -> ext s s' -> kinds s' id = kinds s id.
Proof.
  intros S X. unfold kinds, type_of. rewrite (proj1 X). destruct (map_find id (names s)) as [a|] eqn:F; auto. pose proof (S _ _ F) as L. destruct (proj1 (proj2 X) a L) as [L' K].
  unfold deref in K. rewrite (nth_error_nth' _ TBool L), (nth_error_nth' _ TBool L'). symmetry. now apply same_kind_ty.
Qed.
Lemma types_same G H e k : (forall id, G id = H id) -> types G e k -> types H e k.
Proof. intros E. induction 1; try (econstructor; eauto; fail). constructor. now rewrite <- E. Qed.
Lemma plain_ext s s' e : sane s -> ext s s' -> plain s e -> plain s' e.
Proof. intros S X. induction e; cbn [plain]; auto; intuition. rewrite (kinds_ext _ _ _ S X) in *. rewrite (ext_dom _ _ X) in *. auto. Qed.
Definition follows (e : expr) (s : tst) : Prop :=
  (exists k a s', types (kinds s) e k /\ check_expr e s = TOk (Some a) s' /\ bad s' = bad s /\ ty_kind (deref a s') = Some k) \/
  ((forall k, ~ types (kinds s) e k) /\ (check_expr e s = TUndef \/ exists r s', check_expr e s = TOk r s' /\ bad s' = true)).
Lemma kind_bool t : ty_kind t = Some kBool -> t = TBool. Proof. destruct t as [[] w| |]; try discriminate; auto. Qed.
Lemma kind_num t k : ty_kind t = Some k -> k <> kBool -> isNumber t = true /\ isConvertibleToBool t = false /\ isBool t = false.
Proof. destruct t as [[] w| |]; try discriminate; intros E N; try (injection E as <-; contradiction N; reflexivity); auto. Qed.
Definition numop (op : bop) : bool := arith op || bitop op.
Lemma new_bool s : exists a s', new TBool s = TOk (Some a) s' /\ bad s' = bad s /\ deref a s' = TBool.
Proof. destruct (new TBool s) as [r s'| |] eqn:N; try discriminate N. apply new_ok in N as (_ & B & a & -> & _ & D). eauto. Qed.
Lemma binary_bool op x y s : deref x s = TBool -> deref y s = TBool ->
  if logic op || negb (numop op || order op) then exists a s', check_binary op x y s = TOk (Some a) s' /\ bad s' = bad s /\ deref a s' = TBool
  else exists r s', check_binary op x y s = TOk r s' /\ bad s' = true.
Proof.
  intros Tx Ty. unfold check_binary. rewrite Tx, Ty. cbn [isConvertibleToBool andb]. destruct (alloc TBool s) as [c s1] eqn:A. apply alloc_ok in A as (_ & _ & D & B). unfold check_op, numop. cbv zeta. rewrite D. cbn [isNumber isBool].
  destruct op; cbn [arith bitop order logic orb negb]; try (do 2 eexists; split; [reflexivity|]; reflexivity); try (exists c, s1; split; [reflexivity|auto]; fail);
    rewrite <- B; apply new_bool.
Qed.
Lemma binary_num op x y s k l : x < size s -> y < size s -> ty_kind (deref x s) = Some k -> ty_kind (deref y s) = Some l -> k <> kBool -> l <> kBool ->
  if numop op then exists a s', check_binary op x y s = TOk (Some a) s' /\ bad s' = bad s /\ ty_kind (deref a s') = Some (join k l)
  else if logic op then exists r s', check_binary op x y s = TOk r s' /\ bad s' = true
  else exists a s', check_binary op x y s = TOk (Some a) s' /\ bad s' = bad s /\ deref a s' = TBool.
Proof.
  intros Lx Ly Tx Ty Nk Nl. destruct (kind_num _ _ Tx Nk) as (Ix & Cx & _), (kind_num _ _ Ty Nl) as (Iy & Cy & _). unfold check_binary. cbv zeta. rewrite Cx, Ix, Iy. cbn [andb].
  set (c := if isFP (deref y s) || isUint (deref x s) then y else x). assert (Lc : c < size s) by (unfold c; now destruct (_ || _)).
  assert (Kc : ty_kind (deref c s) = Some (join k l)).
  { unfold c. destruct (deref x s) as [[] w| |] eqn:Dx; try discriminate Tx; injection Tx as <-; try (contradiction Nk; reflexivity); destruct (deref y s) as [[] w'| |] eqn:Dy; try discriminate Ty; injection Ty as <-; try (contradiction Nl; reflexivity); cbn [isFP isUint orb join]; rewrite ?Dx, ?Dy; reflexivity. }
  destruct (setDesignator c _ s) as [s1|] eqn:D.
  2:{ exfalso. unfold setDesignator in D. destruct (deref c s); try discriminate D; try discriminate Kc. destruct k, l; cbn in Kc; try discriminate Kc; congruence. }
  apply set_ok in D as (_ & B & kd & w0 & D0 & D1); auto. rewrite D0 in Kc. unfold check_op, numop. cbv zeta. rewrite D1.
  assert (I : isNumber (TD kd (Z.max (width (deref x s)) (width (deref y s)))) = true) by (destruct kd; try discriminate Kc; reflexivity). rewrite I. cbn [isBool]. rewrite <- B.
  destruct (arith op || bitop op); [exists c, s1; rewrite D1; auto|]. destruct op; cbn [order logic]; try apply new_bool; do 2 eexists; split; reflexivity.
Qed.
Lemma number_set a w s : isNumber (deref a s) = true -> setDesignator a w s <> None.
Proof. unfold setDesignator. destruct (deref a s); discriminate. Qed.
Lemma check_op_nothrow op a s : check_op op a s <> TThrow.
Proof. unfold check_op, new, fail. cbv zeta. destruct (alloc TBool s). repeat match goal with |- context [if ?b then _ else _] => destruct b end; discriminate. Qed.
Lemma binary_nothrow op l r s : check_binary op l r s <> TThrow.
Proof.
  unfold check_binary. cbv zeta. destruct (_ && _); [destruct (alloc TBool s); apply check_op_nothrow|]. destruct (isNumber (deref l s) && isNumber (deref r s)) eqn:I.
  - apply andb_prop in I as [I J]. destruct (setDesignator _ _ _) eqn:D; [apply check_op_nothrow|]. exfalso. revert D. apply number_set. now destruct (_ || _).
  - destruct (Nat.eqb l r); [apply check_op_nothrow|discriminate].
Qed.
Lemma plain_nothrow e : forall s, sane s -> plain s e -> check_expr e s <> TThrow.
Proof.
  induction e as [sg z|q|b|id idx|op x IHx y IHy|op x IHx]; intros s S P; cbn [plain check_expr] in *; try discriminate.
  - destruct P as [-> _]. destruct (map_find id (names s)); discriminate.
  - destruct P as [Px Py]. destruct (check_expr x s) as [tx s1| |] eqn:A; [|now apply IHx in A|discriminate]. cbn [tbind]. destruct (check_expr_post _ _ _ _ S A) as (X1 & _ & _). pose proof (ext_sane _ _ X1 S) as S1.
    destruct (check_expr y s1) as [ty s2| |] eqn:B; [|exfalso; exact (IHy s1 S1 (plain_ext _ _ _ S X1 Py) B)|discriminate]. cbn [tbind]. destruct tx, ty; try discriminate. apply binary_nothrow.
  - destruct P as [_ P]. destruct (check_expr x s) as [tx s1| |] eqn:A; [|now apply IHx in A|discriminate]. cbn [tbind]. destruct op; try discriminate; (destruct tx; [|discriminate]); match goal with |- context [if ?b then _ else _] => destruct b end; discriminate.
Qed.
(* a reported error stays *)
Lemma left_bad op x y s r s1 r' s' : sane s -> check_expr x s = TOk r s1 -> bad s1 = true -> check_expr (EBin op x y) s = TOk r' s' -> bad s' = true.
Proof.
  intros S A B E. cbn [check_expr] in E. rewrite A in E. cbn [tbind] in E. destruct (check_expr_post _ _ _ _ S A) as (X1 & L1 & _). pose proof (ext_sane _ _ X1 S) as S1.
  destruct (check_expr y s1) as [q s2| |] eqn:C; try discriminate E. cbn [tbind] in E. destruct (check_expr_post _ _ _ _ S1 C) as (X2 & L2 & _). pose proof (proj2 (proj2 X2) B) as B2.
  destruct r as [p|]; [|now injection E as _ <-]. destruct q as [q|]; [|now injection E as _ <-]. apply check_binary_post in E as (X & _); [now apply X|apply X2; auto|auto].
Qed.
Lemma right_bad op x y s r s1 q s2 r' s' : sane s -> check_expr x s = TOk r s1 -> check_expr y s1 = TOk q s2 -> bad s2 = true -> check_expr (EBin op x y) s = TOk r' s' -> bad s' = true.
Proof.
  intros S A C B2 E. cbn [check_expr] in E. rewrite A in E. cbn [tbind] in E. rewrite C in E. cbn [tbind] in E. destruct (check_expr_post _ _ _ _ S A) as (X1 & L1 & _). pose proof (ext_sane _ _ X1 S) as S1.
  destruct (check_expr_post _ _ _ _ S1 C) as (X2 & L2 & _).
  destruct r as [p|]; [|now injection E as _ <-]. destruct q as [q|]; [|now injection E as _ <-]. apply check_binary_post in E as (X & _); [now apply X|apply X2; auto|auto].
Qed.
Lemma arg_bad op x s r s1 r' s' : sane s -> check_expr x s = TOk r s1 -> bad s1 = true -> check_expr (EUn op x) s = TOk r' s' -> bad s' = true.
Proof.
  intros S A B E. cbn [check_expr] in E. rewrite A in E. cbn [tbind] in E.
  destruct op; try (apply new_ok in E as (_ & -> & _); exact B).
  - destruct r; [|discriminate]. destruct (isNumber _); [injection E as _ <-; exact B|]. apply fail_ok in E as [_ ->]. reflexivity.
  - destruct r; [|discriminate]. destruct (isConvertibleToBool _); [injection E as _ <-; exact B|]. apply fail_ok in E as [_ ->]. reflexivity.
  - injection E as _ <-. exact B.
Qed.
Lemma refused e s : sane s -> plain s e -> (forall r s', check_expr e s = TOk r s' -> bad s' = true) -> check_expr e s = TUndef \/ exists r s', check_expr e s = TOk r s' /\ bad s' = true.
Proof. intros S P H. destruct (check_expr e s) as [r s'| |] eqn:E; [right; eauto|now apply plain_nothrow in E|now left]. Qed.
Lemma checker_follows e : forall s, sane s -> plain s e -> follows e s.
Proof.
  induction e as [sg z|q|b|id idx|op x IHx y IHy|op x IHx]; intros s S P; cbn [plain] in P.
  - left. exists (if sg then kInt else kUint). cbn [check_expr]. destruct (new _ s) as [r s'| |] eqn:N; try discriminate N. apply new_ok in N as (_ & B & a & -> & _ & D). exists a, s'. rewrite D. destruct sg; repeat split; auto; constructor.
  - left. exists kFloat. cbn [check_expr]. destruct (new _ s) as [r s'| |] eqn:N; try discriminate N. apply new_ok in N as (_ & B & a & -> & _ & D). exists a, s'. rewrite D. repeat split; auto; constructor.
  - left. exists kBool. cbn [check_expr]. destruct (new _ s) as [r s'| |] eqn:N; try discriminate N. apply new_ok in N as (_ & B & a & -> & _ & D). exists a, s'. rewrite D. repeat split; auto; constructor.
  - destruct P as [-> P]. unfold follows. cbn [check_expr]. destruct (map_find id (names s)) as [a|] eqn:F.
    + left. pose proof (type_of_deref _ _ _ (S _ _ F) F) as T. destruct (kinds s id) as [k|] eqn:K; [|exfalso; apply P; auto; now apply find_in in F].
      exists k, a, s. split; [now constructor|]. repeat split; auto. unfold kinds in K. now rewrite T in K.
    + right. split; [|right; do 2 eexists; split; reflexivity]. intros k T. inversion T; subst. unfold kinds, type_of in *. rewrite F in *. discriminate.
  - destruct P as [Px Py]. destruct (IHx s S Px) as [(k & p & s1 & Tx & Ex & Bx & Kx)|(Nx & [Ex|(r & s1 & Ex & Bx)])].
    + destruct (check_expr_post _ _ _ _ S Ex) as (X1 & L1 & _). pose proof (ext_sane _ _ X1 S) as S1. specialize (L1 p eq_refl).
      pose proof (fun id => kinds_ext _ _ id S X1) as KE. destruct (IHy s1 S1 (plain_ext _ _ _ S X1 Py)) as [(l & q & s2 & Ty & Ey & By & Ky)|(Ny & H)].
      * destruct (check_expr_post _ _ _ _ S1 Ey) as (X2 & L2 & _). specialize (L2 q eq_refl). destruct (proj1 (proj2 X2) p L1) as [L1' SK]. apply same_kind_ty in SK. rewrite Kx in SK. symmetry in SK.
        apply (types_same _ (kinds s)) in Ty; [|exact KE]. unfold follows. cbn [check_expr]. rewrite Ex. cbn [tbind]. rewrite Ey. cbn [tbind].
        assert (Dk : {k = kBool} + {k <> kBool}) by (destruct k; (now left) || (right; discriminate)). assert (Dl : {l = kBool} + {l <> kBool}) by (destruct l; (now left) || (right; discriminate)).
        assert (U : forall m, types (kinds s) (EBin op x y) m -> exists k' l', k' = k /\ l' = l /\ (k <> kBool /\ l <> kBool /\ logic op = false \/ k = kBool /\ l = kBool /\ (numop op || order op) = false)).
        { intros m T. exists k, l. split; auto. split; auto. inversion T as [| | | | |o a b k' l' Ta Tb Na Nb Io|o a b k' l' Ta Tb Na Nb Io|o a b Ta Tb Io| | | |]; subst; apply (types_fun _ _ _ Tx) in Ta; apply (types_fun _ _ _ Ty) in Tb; subst.
          - left. repeat split; auto. cbn [In] in Io. repeat destruct Io as [<-|Io]; try destruct Io; reflexivity.
          - left. repeat split; auto. cbn [In] in Io. repeat destruct Io as [<-|Io]; try destruct Io; reflexivity.
          - right. repeat split; auto. cbn [In] in Io. repeat destruct Io as [<-|Io]; try destruct Io; reflexivity. }
        destruct Dk as [->|Nk], Dl as [->|Nl].
        -- pose proof (binary_bool op p q s2 (kind_bool _ SK) (kind_bool _ Ky)) as H. destruct (logic op || negb (numop op || order op)) eqn:Lo.
           ++ left. destruct H as (a & s' & H & B & D). exists kBool, a, s'. rewrite D. split; [|repeat split; auto; congruence]. apply t_logic; auto. destruct op; try discriminate Lo; cbn; auto 10.
           ++ right. split; [|right; exact H]. intros m T. destruct (U m T) as (? & ? & _ & _ & [(N & _)|(_ & _ & E)]); [now apply N|]. rewrite E in Lo. destruct (logic op); discriminate Lo.
        -- right. split; [intros m T; destruct (U m T) as (? & ? & _ & _ & [(N & _)|(_ & E & _)]); [now apply N|contradiction]|]. right. destruct (kind_num _ _ Ky Nl) as (I & C & _).
           unfold check_binary. cbv zeta. rewrite (kind_bool _ SK), C. cbn [isConvertibleToBool isNumber andb]. destruct (Nat.eqb_spec p q) as [->|]; [rewrite SK in Ky; congruence|]. do 2 eexists. split; reflexivity.
        -- right. split; [intros m T; destruct (U m T) as (? & ? & _ & _ & [(_ & N & _)|(E & _)]); [now apply N|contradiction]|]. right. destruct (kind_num _ _ SK Nk) as (I & C & _).
           unfold check_binary. cbv zeta. rewrite (kind_bool _ Ky), C, I. cbn [isNumber andb]. destruct (Nat.eqb_spec p q) as [->|]; [rewrite SK in Ky; congruence|]. do 2 eexists. split; reflexivity.
        -- pose proof (binary_num op p q s2 k l L1' L2 SK Ky Nk Nl) as H. destruct (numop op) eqn:No; [|destruct (logic op) eqn:Lo].
           ++ left. destruct H as (a & s' & H & B & D). exists (join k l), a, s'. split; [|repeat split; auto; congruence]. apply t_arith; auto. destruct op; try discriminate No; cbn; auto 20.
           ++ right. split; [|right; exact H]. intros m T. destruct (U m T) as (? & ? & _ & _ & [(_ & _ & E)|(E & _)]); [discriminate E|contradiction].
           ++ left. destruct H as (a & s' & H & B & D). exists kBool, a, s'. rewrite D. split; [|repeat split; auto; congruence]. apply t_compare with k l; auto. destruct op; try discriminate No; try discriminate Lo; cbn; auto 20.
      * right. split; [assert (Ny' : forall m, ~ types (kinds s) y m) by (intros m T; apply (Ny m); eapply types_same; [intros id; symmetry; apply KE|exact T]); intros m T; inversion T; subst; eapply Ny'; eassumption|].
        destruct H as [Ey|(r & s2 & Ey & By)]; [left; cbn [check_expr]; rewrite Ex; cbn [tbind]; now rewrite Ey|].
        apply refused; [exact S|split; auto|]. intros r' s'. eapply right_bad; eauto.
    + right. split; [intros m T; inversion T; subst; eapply Nx; eassumption|]. left. cbn [check_expr]. now rewrite Ex.
    + right. split; [intros m T; inversion T; subst; eapply Nx; eassumption|]. apply refused; [exact S|split; auto|]. intros r' s'. eapply left_bad; eauto.
  - destruct P as [No P]. destruct (IHx s S P) as [(k & p & s1 & Tx & Ex & Bx & Kx)|(Nx & [Ex|(r & s1 & Ex & Bx)])].
    + assert (F : forall f, In f [Sin; Cos; Tan; Exp; Ln; Sqrt] -> op = f -> follows (EUn op x) s).
      { intros f I ->. left. destruct (new (TD KFloat 64) s1) as [r s'| |] eqn:N; try discriminate N. pose proof N as N'. apply new_ok in N as (_ & B & a & -> & _ & D).
        exists kFloat, a, s'. rewrite D. split; [econstructor; eauto|]. split; [|split; [congruence|reflexivity]]. cbn [check_expr]. rewrite Ex. cbn [tbind]. repeat destruct I as [<-|I]; try destruct I; exact N'. }
      assert (Dk : {k = kBool} + {k <> kBool}) by (destruct k; (now left) || (right; discriminate)).
      destruct op; try (eapply F; [|reflexivity]; cbn; auto 10; fail); try contradiction; unfold follows; cbn [check_expr]; rewrite Ex; cbn [tbind].
      * destruct Dk as [->|Nk].
        -- right. rewrite (kind_bool _ Kx). split; [|right; do 2 eexists; split; reflexivity]. intros m T. inversion T; subst; [|cbn in *; intuition discriminate]. match goal with H : types _ x m |- _ => apply (types_fun _ _ _ Tx) in H end. auto.
        -- left. exists k, p, s1. destruct (kind_num _ _ Kx Nk) as (-> & _). split; [now constructor|]. auto.
      * destruct Dk as [->|Nk].
        -- left. exists kBool, p, s1. rewrite (kind_bool _ Kx). split; [now constructor|]. auto.
        -- right. destruct (kind_num _ _ Kx Nk) as (_ & -> & _). split; [|right; do 2 eexists; split; reflexivity]. intros m T. inversion T; subst; [|cbn in *; intuition discriminate]. match goal with H : types _ x _ |- _ => apply (types_fun _ _ _ Tx) in H end. auto.
      * left. exists k, p, s1. split; [now constructor|]. auto.
    + right. split; [intros m T; inversion T; subst; eapply Nx; eassumption|]. left. cbn [check_expr]. now rewrite Ex.
    + right. split; [intros m T; inversion T; subst; eapply Nx; eassumption|]. apply refused; [exact S|split; auto|]. intros r' s'. eapply arg_bad; eauto.
Qed.
Lemma rules_iff e s : sane s -> plain s e -> bad s = false -> forall k, types (kinds s) e k <-> exists a s', check_expr e s = TOk (Some a) s' /\ bad s' = false /\ ty_kind (deref a s') = Some k.
Proof.
  intros S P B k. destruct (checker_follows e s S P) as [(k' & a & s' & T & E & B' & K)|(N & H)].
  - split; [intros T'; rewrite (types_fun _ _ _ T' _ T); exists a, s'; repeat split; auto; congruence|]. intros (a' & s'' & E' & _ & K'). rewrite E in E'. injection E' as <- <-. congruence.
  - split; [intros T; destruct (N k T)|]. intros (a & s' & E & B' & _). destruct H as [H|(r & s2 & H & B2)]; rewrite H in E; [discriminate|]. injection E as _ <-. congruence.
Qed.
Lemma fits_below t u k l : ty_kind t = Some k -> ty_kind u = Some l -> (fits t u = true <-> below l k /\ (width u <= width t)%Z).
Proof.
  intros Kt Ku. split.
  - intros F. destruct t as [[] w| |]; try discriminate Kt; injection Kt as <-; destruct u as [[] v| |]; try discriminate Ku; injection Ku as <-; cbn [fits dkind_eqb orb andb width] in *; try discriminate F;
      (split; [first [apply b_same|apply b_ui|apply b_uf|apply b_if]|]); try (apply Z.leb_le; exact F); apply Z.le_refl.
  - intros [H L]. apply Z.leb_le in L. destruct t as [[] w| |]; try discriminate Kt; injection Kt as <-; destruct u as [[] v| |]; try discriminate Ku; injection Ku as <-; cbn [fits dkind_eqb orb andb width] in *; try exact L; try reflexivity; inversion H.
Qed.
Lemma assign_rules consts id e s kt : sane s -> plain s e -> bad s = false -> kinds s id = Some kt ->
  forall s', accept consts (SAssign id [] (RExpr e)) s = TOk tt s' <-> exists k b tb tid, types (kinds s) e k /\ below k kt /\ check_expr e s = TOk (Some b) s' /\ tb = deref b s' /\ type_of s' id = Some tid /\ (width tb <= width tid)%Z.
Proof.
  intros S P B K s'. unfold accept. cbn [check_stmt]. unfold check_assign, checkIndexedIdentifier. cbn [check_indices].
  assert (F : exists a, map_find id (names s) = Some a) by (unfold kinds, type_of in K; destruct (map_find id (names s)); [eauto|discriminate]). destruct F as [a F]. rewrite F. cbn [tbind check_rhs].
  destruct (checker_follows e s S P) as [(k & b & s1 & T & E & B' & Kb)|(N & H)].
  - rewrite E. cbn [tbind]. destruct (check_expr_post _ _ _ _ S E) as (X & _ & _). rewrite (proj1 X), F. pose proof (kinds_ext _ _ id S X) as K1. rewrite K in K1.
    assert (F1 : map_find id (names s1) = Some a) by (now rewrite (proj1 X)). pose proof (type_of_deref _ _ _ (ext_sane _ _ X S _ _ F1) F1) as T1. unfold kinds in K1. rewrite T1 in K1.
    pose proof (fits_below _ _ _ _ K1 Kb) as Fb. destruct (fits (deref a s1) (deref b s1)); cbn [tbind failed bad].
    + rewrite B', B. destruct (proj1 Fb eq_refl) as [H1 H2]. split.
      * intros H. injection H as <-. exists k, b, (deref b s1), (deref a s1). auto 10.
      * intros (k' & b' & tb & tid & _ & _ & H & _). now injection H as _ <-.
    + split; [discriminate|]. intros (k' & b' & tb & tid & T' & H1 & H & -> & H3 & H4). injection H as <- <-. rewrite T1 in H3. injection H3 as <-. rewrite (types_fun _ _ _ T' _ T) in H1. destruct Fb as [_ Fb]. discriminate (Fb (conj H1 H4)).
  - split; [|intros (k & b & tb & tid & T & _); destruct (N k T)]. destruct H as [->|(r & s1 & E & B')]; [discriminate|]. rewrite E. cbn [tbind]. destruct (check_expr_post _ _ _ _ S E) as (X & _ & _). rewrite (proj1 X), F.
    destruct r as [b|]; [|discriminate]. destruct (fits _ _); cbn [tbind failed bad]; [rewrite B'|]; discriminate.
Qed.
Lemma cond_rules consts c s : sane s -> plain s c -> bad s = false -> ((exists s', accept consts (SIf c [] []) s = TOk tt s') <-> types (kinds s) c kBool).
Proof.
  intros S P B. unfold accept. rewrite check_if_eq. rewrite (rules_iff c s S P B kBool). destruct (checker_follows c s S P) as [(k & b & s1 & T & E & B' & Kb)|(N & H)].
  - rewrite E. cbn [tbind]. rewrite !check_block_nil. cbn [tbind]. rewrite check_block_nil. split.
    + intros [s' H]. exists b, s1. split; auto. split; [congruence|]. destruct k; auto; exfalso; destruct (kind_num _ _ Kb ltac:(discriminate)) as (_ & C & _); rewrite C in H; discriminate H.
    + intros (b' & s2 & E' & B2 & K2). injection E' as <- <-. rewrite (kind_bool _ K2). cbn [isConvertibleToBool tbind]. rewrite B2. eauto.
  - split; [|intros (b & s' & E & B' & K); destruct H as [H|(r & s1 & H & B1)]; rewrite H in E; [discriminate|]; injection E as _ <-; congruence].
    intros [s' H']. destruct H as [H|(r & s1 & H & B1)]; rewrite H in H'; [discriminate|]. cbn [tbind] in H'. rewrite !check_block_nil in H'. cbn [tbind] in H'. rewrite check_block_nil in H'. cbn [tbind] in H'.
    destruct r; [destruct (isConvertibleToBool _)|]; cbn [bad] in H'; rewrite ?B1 in H'; discriminate H'.
Qed.
Lemma measure_rules consts id q s m n : sane s -> bad s = false -> type_of s id = Some (TD KBit n) -> type_of s q = Some (TD KQubit m) ->
  ((exists s', accept consts (SAssign id [] (RMeasure (Named q []))) s = TOk tt s') <-> (m <= n)%Z).
Proof.
  intros S B Ti Tq. unfold accept. cbn [check_stmt]. unfold check_assign, checkIndexedIdentifier. cbn [check_indices check_rhs check_measure].
  unfold type_of in Ti, Tq. destruct (map_find id (names s)) as [a|] eqn:Fa; [|discriminate]. destruct (map_find q (names s)) as [b|] eqn:Fb; [|discriminate]. cbn [tbind].
  unfold checkIndexedIdentifier. cbn [check_indices tbind]. rewrite ?Fb. cbn [tbind]. rewrite ?Fb. unfold deref. rewrite (nth_error_nth _ _ _ Tq). unfold new, alloc. cbn [tbind names heap]. rewrite Fa.
  rewrite (app_nth1 _ _ _ (S _ _ Fa)), (nth_error_nth _ _ _ Ti). rewrite app_nth2, PeanoNat.Nat.sub_diag by apply le_n. cbn [nth fits dkind_eqb orb andb].
  destruct (Z.leb_spec m n) as [L|L]; cbn [tbind failed bad].
  - rewrite B. split; eauto.
  - split; [intros [s' H]; discriminate H|]. intros H. apply Zle_not_lt in H. contradiction.
Qed.
