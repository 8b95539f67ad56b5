(* Expression parsing. *)
From Coq Require Import ZArith QArith Bool List String Lia.
From Verif Require Import QasmConstModel QasmParseModel QasmParseSpec.
Import ListNotations.
Local Close Scope Q_scope.
Local Open Scope nat_scope.

Section WInd.
Variable P : written -> Prop.
Hypothesis (hi : forall s z, P (WInt s z)) (hf : forall q, P (WFloat q)) (hb : forall b, P (WBool b)) (hid : forall id idx, Forall P idx -> P (WId id idx))
  (hp : forall w, P w -> P (WParen w)) (hfn : forall f w, P w -> P (WFun f w)) (hu : forall op w, P w -> P (WUn op w)) (hbn : forall op a b, P a -> P b -> P (WBin op a b)).
Fixpoint written_ind' (w : written) : P w :=
  match w with
  | WInt s z => hi s z | WFloat q => hf q | WBool b => hb b
  | WId id idx => hid id idx ((fix go l := match l return Forall P l with [] => Forall_nil _ | x :: l' => Forall_cons _ (written_ind' x) (go l') end) idx)
  | WParen w => hp w (written_ind' w) | WFun f w => hfn f w (written_ind' w) | WUn op w => hu op w (written_ind' w)
  | WBin op a b => hbn op a b (written_ind' a) (written_ind' b)
  end.
End WInd.

Definition runs (m : mode) (ts : list token) (res : expr * list token) : Prop := exists n, forall k, n <= k -> parse k m ts = Some res.
Definition nolb (r : list token) : Prop := match r with KLBracket :: _ => False | _ => True end.
Definition nocaret (r : list token) : Prop := match r with KCaret :: _ | KLBracket :: _ => False | _ => True end.
Definition nomul (r : list token) : Prop := match r with KAsterisk :: _ | KSlash :: _ | KCaret :: _ | KLBracket :: _ => False | _ => True end.
Definition nocmp (r : list token) : Prop := match r with KCmp _ :: _ | KAsterisk :: _ | KSlash :: _ | KCaret :: _ | KLBracket :: _ => False | _ => True end.
Definition stop (r : list token) : Prop := match r with KPlus :: _ | KMinus :: _ | KCmp _ :: _ | KAsterisk :: _ | KSlash :: _ | KCaret :: _ | KLBracket :: _ => False | _ => True end.
Lemma w1 r : nocaret r -> nolb r. Proof. destruct r as [|[]]; cbn; auto. Qed.
Lemma w2 r : nomul r -> nocaret r. Proof. destruct r as [|[]]; cbn; auto. Qed.
Lemma w3 r : nocmp r -> nomul r. Proof. destruct r as [|[]]; cbn; auto. Qed.
Lemma w4 r : stop r -> nocmp r. Proof. destruct r as [|[]]; cbn; auto. Qed.

Ltac start n := exists (S n); intros [|k] Hk; [lia|]; cbn [parse].
Lemma runs_ret m ts res : (forall k, parse (S k) m ts = Some res) -> runs m ts res.
Proof. intros H. exists 1. intros [|k] Hk; [lia|apply H]. Qed.
Lemma facL_stop x r : nocaret r -> runs (MFactorL x) r (x, r).
Proof. intros H. apply runs_ret. intros k. cbn. destruct r as [|[]]; cbn in *; auto; contradiction. Qed.
Lemma termL_stop x r : nomul r -> runs (MTermL x) r (x, r).
Proof. intros H. apply runs_ret. intros k. cbn. destruct r as [|[]]; cbn in *; auto; contradiction. Qed.
Lemma cmpL_stop x r : nocmp r -> runs (MComparisonL x) r (x, r).
Proof. intros H. apply runs_ret. intros k. cbn. destruct r as [|[]]; cbn in *; auto; contradiction. Qed.
Lemma exprL_stop x r : stop r -> runs (MExprL x) r (x, r).
Proof. intros H. apply runs_ret. intros k. cbn. destruct r as [|[]]; cbn in *; auto; contradiction. Qed.
Ltac two H1 H2 := destruct H1 as (n1 & H1), H2 as (n2 & H2); start (n1 + n2); rewrite H1 by lia; apply H2; lia.
Lemma fac ts x r res : runs MExp ts (x, r) -> runs (MFactorL x) r res -> runs MFactor ts res.
Proof. intros H1 H2. two H1 H2. Qed.
Lemma facL ts x y r res : runs MExp ts (y, r) -> runs (MFactorL (EBin Power x y)) r res -> runs (MFactorL x) (KCaret :: ts) res.
Proof. intros H1 H2. two H1 H2. Qed.
Lemma term ts x r res : runs MFactor ts (x, r) -> runs (MTermL x) r res -> runs MTerm ts res.
Proof. intros H1 H2. two H1 H2. Qed.
Lemma termL op ts x y r res : strength op = 4 -> runs MFactor ts (y, r) -> runs (MTermL (EBin op x y)) r res -> runs (MTermL x) (op_token op :: ts) res.
Proof. intros E H1 H2. destruct op; try discriminate E; cbn [op_token]; two H1 H2. Qed.
Lemma cmp ts x r res : runs MTerm ts (x, r) -> runs (MComparisonL x) r res -> runs MComparison ts res.
Proof. intros H1 H2. two H1 H2. Qed.
Lemma cmpL op ts x y r res : strength op = 1 \/ strength op = 2 -> runs MTerm ts (y, r) -> runs (MComparisonL (EBin op x y)) r res -> runs (MComparisonL x) (op_token op :: ts) res.
Proof. intros E H1 H2. destruct op; cbn in E; try (exfalso; lia); cbn [op_token]; two H1 H2. Qed.
Lemma exprL op ts x y r res : strength op = 3 -> runs MComparison ts (y, r) -> runs (MExprL (EBin op x y)) r res -> runs (MExprL x) (op_token op :: ts) res.
Proof. intros E H1 H2. destruct op; try discriminate E; cbn [op_token]; two H1 H2. Qed.
Lemma exprU op ts x r res : op = Negate \/ op = LogicalNot \/ op = BitwiseNot -> runs MTerm ts (x, r) -> runs (MExprL (EUn op x)) r res -> runs MExpr (un_token op :: ts) res.
Proof. intros [->|[->| ->]] H1 H2; cbn [un_token]; two H1 H2. Qed.
Definition plain (ts : list token) : Prop := match ts with KMinus :: _ | KBang :: _ | KTilde :: _ => False | _ => True end.
Lemma expr0 ts x r res : plain ts -> runs MComparison ts (x, r) -> runs (MExprL x) r res -> runs MExpr ts res.
Proof. intros E H1 H2. destruct ts as [|[]]; cbn in E; try contradiction; two H1 H2. Qed.

Lemma followed_weaken w : standard w -> followed true w -> level w <> 3 -> level w <> 5 -> followed false w /\ signed w = false.
Proof.
  destruct w as [| | | | | | |op a b]; cbn [level]; try (cbn; now auto); try (cbn; lia).
  intros St F L _. destruct op; cbn [strength] in *; try lia; cbn [standard] in St; cbn [followed strength] in F |- *; cbn [signed];
    try (destruct F as (Fb & Fa & Fs & Fl); specialize (Fs eq_refl); clear St; tauto);
    try (destruct F as (Fb & Fa & Fs); specialize (Fs eq_refl); clear St; tauto).
  destruct F as (Fb & Fa & Fs). destruct St as (L1 & _). split; auto. destruct a as [| | | | | | |op' ? ?]; cbn in L1 |- *; auto; try lia. destruct op'; cbn in L1; lia.
Qed.
Lemma head_plain w r : signed w = false -> plain (text w ++ r).
Proof.
  revert r. induction w as [| | [] | | | | |op a b IHa _] using written_ind'; intros r S; cbn in *; auto; try discriminate. rewrite <- app_assoc. now apply IHa.
Qed.

Record good (w : written) : Prop := {
  gA : forall r, followed false w -> level w = 5 \/ level w = 7 -> nolb r -> runs MExp (text w ++ r) (tree w, r);
  gB : forall r res, followed false w -> 5 <= level w -> nolb r -> runs (MFactorL (tree w)) r res -> runs MFactor (text w ++ r) res;
  gC : forall r res, followed false w -> 4 <= level w -> nocaret r -> runs (MTermL (tree w)) r res -> runs MTerm (text w ++ r) res;
  gD : forall r res, followed false w -> level w <> 3 -> nomul r -> runs (MComparisonL (tree w)) r res -> runs MComparison (text w ++ r) res;
  gE : forall r res, followed true w -> nocmp r -> runs (MExprL (tree w)) r res -> runs MExpr (text w ++ r) res }.
Lemma op_nolb op r : nolb (op_token op :: r). Proof. now destruct op. Qed.
Lemma op_nocaret op r : strength op < 6 -> nocaret (op_token op :: r). Proof. destruct op; cbn; auto; lia. Qed.
Lemma op_nomul op r : strength op < 4 -> nomul (op_token op :: r). Proof. destruct op; cbn; auto; lia. Qed.
Lemma op_nocmp op r : strength op = 3 -> nocmp (op_token op :: r). Proof. destruct op; cbn; auto; lia. Qed.

Lemma atoms_good w : standard w -> level w = 7 -> (forall r, followed false w -> nolb r -> runs MExp (text w ++ r) (tree w, r)) -> good w.
Proof.
  intros St L HA.
  assert (HB : forall r res, followed false w -> nolb r -> runs (MFactorL (tree w)) r res -> runs MFactor (text w ++ r) res).
  { intros r res F N H. eapply fac; [apply HA|]; auto. }
  assert (HC : forall r res, followed false w -> nocaret r -> runs (MTermL (tree w)) r res -> runs MTerm (text w ++ r) res).
  { intros r res F N H. eapply term; [apply HB|]; auto using w1. now apply facL_stop. exact H. }
  assert (HD : forall r res, followed false w -> nomul r -> runs (MComparisonL (tree w)) r res -> runs MComparison (text w ++ r) res).
  { intros r res F N H. eapply cmp; [apply HC|]; auto using w2. now apply termL_stop. exact H. }
  split; auto. intros r res F N H. destruct (followed_weaken w St F) as (F' & S); [lia|lia|].
  eapply expr0; [now apply head_plain|apply HD|]; auto using w3. now apply cmpL_stop. exact H.
Qed.

Lemma idx_runs idx : Forall (fun i => standard i -> good i) idx -> fold_right (fun i P => standard i /\ P) True idx -> fold_right (fun i P => followed true i /\ P) True idx ->
  forall id acc r, nolb r -> runs (MId id acc) (flat_map (fun i => KLBracket :: text i ++ [KRBracket]) idx ++ r) (EId id (acc ++ map tree idx), r).
Proof.
  induction 1 as [|i idx Hi _ IH]; cbn [fold_right flat_map map]; intros St F id acc r N.
  - cbn. rewrite app_nil_r. apply runs_ret. intros k. cbn. destruct r as [|[]]; cbn in *; auto; contradiction.
  - destruct St as [Si St], F as [Fi F]. specialize (Hi Si). cbn [app]. rewrite <- !app_assoc. cbn [app].
    assert (H1 : runs MExpr (text i ++ KRBracket :: flat_map (fun i => KLBracket :: text i ++ [KRBracket]) idx ++ r) (tree i, KRBracket :: flat_map (fun i => KLBracket :: text i ++ [KRBracket]) idx ++ r)).
    { apply (gE i Hi); cbn; auto. apply exprL_stop. cbn. auto. }
    assert (H2 := IH St F id (acc ++ [tree i]) r N). rewrite <- app_assoc in H2. cbn [app] in H2. two H1 H2.
Qed.

Lemma paren_runs w r : good w -> followed true w -> exists n, forall k, n <= k -> parse k MExpr ((text w ++ [KRParen]) ++ r) = Some (tree w, KRParen :: r).
Proof. intros G F. rewrite <- app_assoc. apply (gE w G); cbn; auto. apply exprL_stop. cbn. auto. Qed.

Lemma all_good w : standard w -> good w.
Proof.
  induction w as [s z|q|b|id idx IH|w IH|f w IH|op w IH|op a b IHa IHb] using written_ind'; intros St.
  - apply atoms_good; auto. intros r _ _. apply runs_ret. reflexivity.
  - apply atoms_good; auto. intros r _ _. apply runs_ret. reflexivity.
  - apply atoms_good; auto. intros r _ _. apply runs_ret. now destruct b.
  - apply atoms_good; auto. intros r F N. cbn [text]. destruct (idx_runs idx IH St F id [] r N) as (n & Hn). start n. apply Hn. lia.
  - apply atoms_good; auto. intros r F _. cbn [text]. cbn in F. destruct (paren_runs w r (IH St) F) as (n & Hn). cbn [app]. start n. rewrite Hn by lia. reflexivity.
  - assert (St0 := St). cbn in St. destruct St as [_ St]. apply atoms_good; [exact St0|reflexivity|]. intros r F _. cbn [text]. cbn in F. destruct (paren_runs w r (IH St) F) as (n & Hn). cbn [app]. start n. rewrite Hn by lia. reflexivity.
  - cbn in St. destruct St as (O & L & Sw). specialize (IH Sw).
    assert (L3 : level w = 5 \/ level w = 6 \/ level w = 7) by (destruct w as [| | | | | | |[]]; cbn in *; lia).
    assert (HA : forall r, followed false (WUn op w) -> nolb r -> runs MExp (text (WUn op w) ++ r) (tree (WUn op w), r)).
    { intros r [F [F'|[-> F']]] N; [discriminate|]. cbn [text tree un_token app]. assert (H := gA w IH r F ltac:(lia) N). destruct H as (n & Hn). start n. rewrite Hn by lia. reflexivity. }
    assert (HB : forall r res, followed false (WUn op w) -> nolb r -> runs (MFactorL (tree (WUn op w))) r res -> runs MFactor (text (WUn op w) ++ r) res).
    { intros r res F N H. eapply fac; [apply HA|]; auto. }
    assert (HC : forall r res, followed false (WUn op w) -> nocaret r -> runs (MTermL (tree (WUn op w))) r res -> runs MTerm (text (WUn op w) ++ r) res).
    { intros r res F N H. eapply term; [apply HB|]; auto using w1. now apply facL_stop. exact H. }
    assert (HD : forall r res, followed false (WUn op w) -> nomul r -> runs (MComparisonL (tree (WUn op w))) r res -> runs MComparison (text (WUn op w) ++ r) res).
    { intros r res F N H. eapply cmp; [apply HC|]; auto using w2. now apply termL_stop. exact H. }
    split; auto. intros r res [F _] N H. cbn [text app]. eapply exprU; auto; [apply (gC w IH)|]; auto using w2, w3; [lia| |exact H]. apply termL_stop. auto using w3.
  - assert (Sab : standard a /\ standard b) by (destruct op; cbn in St; tauto). destruct Sab as [Sa Sb]. specialize (IHa Sa). specialize (IHb Sb).
    assert (E : forall r, text (WBin op a b) ++ r = text a ++ op_token op :: text b ++ r) by (intros r; cbn [text]; now rewrite <- app_assoc).
    destruct (strength op) as [|[|[|[|[|[|[|]]]]]]] eqn:Op; try (destruct op; discriminate Op).
    { destruct op; try discriminate Op; cbn in St; lia. }
    1,2:
      (assert (HD : forall r res, followed false (WBin op a b) -> nomul r -> runs (MComparisonL (tree (WBin op a b))) r res -> runs MComparison (text (WBin op a b) ++ r) res);
        [ intros r res F N H; cbn [followed] in F; rewrite Op in F; destruct F as (Fb & Fa & _ & La & Lb); rewrite E;
          apply (gD a IHa); auto; [apply op_nomul; lia|]; eapply cmpL; [lia| |exact H]; apply (gC b IHb); auto using w2; now apply termL_stop
        | split; cbn [level]; rewrite ?Op; try lia; auto;
          intros r res F N H; destruct (followed_weaken _ St F) as (F' & S); [cbn [level]; lia|cbn [level]; lia|];
          eapply expr0; [now apply head_plain|apply HD; auto using w3; now apply cmpL_stop|exact H] ]).
    + (* sums *) split; cbn [level]; rewrite ?Op; try lia. intros r res F N H. cbn [followed] in F. rewrite Op in F. destruct F as (Fb & Fa). rewrite E.
      assert (Lb : 4 <= level b) by (destruct op; cbn in St, Op; lia).
      apply (gE a IHa); auto; [now apply op_nocmp|]. eapply exprL; auto; [|exact H]. apply (gD b IHb); auto using w3; [lia|]. now apply cmpL_stop.
    + (* products *)
      assert (HC : forall r res, followed false (WBin op a b) -> nocaret r -> runs (MTermL (tree (WBin op a b))) r res -> runs MTerm (text (WBin op a b) ++ r) res).
      { intros r res F N H. cbn [followed] in F. rewrite Op in F. destruct F as (Fb & Fa & _). rewrite E.
        assert (L : 4 <= level a /\ 5 <= level b) by (destruct op; cbn in St, Op; lia).
        apply (gC a IHa); auto; [lia|apply op_nocaret; lia|]. eapply termL; auto; [|exact H]. apply (gB b IHb); auto using w1; [lia|]. now apply facL_stop. }
      assert (HD : forall r res, followed false (WBin op a b) -> nomul r -> runs (MComparisonL (tree (WBin op a b))) r res -> runs MComparison (text (WBin op a b) ++ r) res).
      { intros r res F N H. eapply cmp; [apply HC|]; auto using w2. now apply termL_stop. exact H. }
      split; cbn [level]; rewrite ?Op; try lia; auto. intros r res F N H. destruct (followed_weaken _ St F) as (F' & S); [cbn [level]; lia|cbn [level]; lia|].
      eapply expr0; [now apply head_plain|apply HD; auto using w3; now apply cmpL_stop|exact H].
    + (* powers *)
      assert (HB : forall r res, followed false (WBin op a b) -> nolb r -> runs (MFactorL (tree (WBin op a b))) r res -> runs MFactor (text (WBin op a b) ++ r) res).
      { intros r res F N H. cbn [followed] in F. rewrite Op in F. destruct F as (Fb & Fa & Fl). destruct op; try discriminate Op. cbn [standard] in St. destruct St as (L1 & L2 & _). rewrite E.
        assert (La : level a = 7) by (destruct a as [| | | | | | |[]]; cbn in *; lia).
        assert (Lb : level b = 5 \/ level b = 7) by (destruct b as [| | | | | | |[]]; cbn in *; lia).
        eapply fac; [apply (gA a IHa); auto; apply op_nolb|]. cbn [op_token]. eapply facL; [|exact H]. apply (gA b IHb); auto. }
      assert (HC : forall r res, followed false (WBin op a b) -> nocaret r -> runs (MTermL (tree (WBin op a b))) r res -> runs MTerm (text (WBin op a b) ++ r) res).
      { intros r res F N H. eapply term; [apply HB|]; auto using w1. now apply facL_stop. exact H. }
      assert (HD : forall r res, followed false (WBin op a b) -> nomul r -> runs (MComparisonL (tree (WBin op a b))) r res -> runs MComparison (text (WBin op a b) ++ r) res).
      { intros r res F N H. eapply cmp; [apply HC|]; auto using w2. now apply termL_stop. exact H. }
      split; cbn [level]; rewrite ?Op; try lia; auto. intros r res F N H. destruct (followed_weaken _ St F) as (F' & S); [cbn [level]; lia|cbn [level]; lia|].
      eapply expr0; [now apply head_plain|apply HD; auto using w3; now apply cmpL_stop|exact H].
Qed.

Theorem parse_ok w r : standard w -> followed true w -> stop r -> exists n, forall k, n <= k -> parseExpression k (text w ++ r) = Some (tree w, r).
Proof. intros St F N. apply (gE w (all_good w St)); auto using w4. now apply exprL_stop. Qed.
