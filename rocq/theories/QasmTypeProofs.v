(** The type checker: what a visit changes. *)
From Coq Require Import ZArith QArith Bool List String Lia.
From Verif Require Import QasmScanModel QasmEnvModel QasmConstModel QasmTypeModel QasmTypeSpec.
Import ListNotations.
Local Close Scope Q_scope.
Local Open Scope nat_scope.
Local Open Scope list_scope.

Lemma same_kind_refl t : same_kind t t. Proof. destruct t; cbn; auto. Qed.
Lemma same_kind_trans t u v : same_kind t u -> same_kind u v -> same_kind t v.
Proof. destruct t, u, v; cbn; try tauto; congruence. Qed.
Definition size (s : tst) : nat := List.length (heap s).
Definition ext (s s' : tst) : Prop := names s' = names s /\ (forall a, a < size s -> a < size s' /\ same_kind (deref a s) (deref a s')) /\ (bad s = true -> bad s' = true).
Lemma ext_refl s : ext s s. Proof. split; [reflexivity|]. split; auto using same_kind_refl. Qed.
Lemma ext_trans s t u : ext s t -> ext t u -> ext s u.
Proof.
  intros (A & B & D) (A' & B' & D'). split; [congruence|]. split; auto. intros a L. destruct (B a L) as [L1 K1]. destruct (B' a L1) as [L2 K2]. split; auto. eapply same_kind_trans; eauto.
Qed.
Lemma ext_sane s s' : ext s s' -> sane s -> sane s'.
Proof. intros (A & B & _) S id a F. rewrite A in F. apply B. exact (S id a F). Qed.
Lemma ext_bad s s' : ext s s' -> bad s' = false -> bad s = false.
Proof. intros (_ & _ & H) E. destruct (bad s); auto. now rewrite H in E. Qed.
Lemma alloc_ok t s a s' : alloc t s = (a, s') -> ext s s' /\ a < size s' /\ deref a s' = t /\ bad s' = bad s.
Proof.
  unfold alloc. intros E. injection E as <- <-. unfold ext, size, deref. cbn [heap names bad]. rewrite app_length. cbn [List.length].
  split; [split; [reflexivity|split; [|auto]]; intros b L; split; [lia|rewrite app_nth1 by auto; apply same_kind_refl]|].
  split; [lia|]. split; [|reflexivity]. rewrite app_nth2, Nat.sub_diag by lia. reflexivity.
Qed.
Lemma new_ok t s r s' : new t s = TOk r s' -> ext s s' /\ bad s' = bad s /\ exists a, r = Some a /\ a < size s' /\ deref a s' = t.
Proof. unfold new. destruct (alloc t s) as [a s1] eqn:A. intros E. injection E as <- <-. apply alloc_ok in A as (X & L & D & B). split; auto. split; auto. now exists a. Qed.
Lemma put_length l a t : List.length (put l a t) = List.length l.
Proof. revert a. induction l as [|x l IH]; intros [|a]; cbn; auto. Qed.
Lemma put_nth l a t b : a < List.length l -> nth b (put l a t) TBool = if Nat.eqb a b then t else nth b l TBool.
Proof.
  revert a b. induction l as [|x l IH]; intros [|a] b L; cbn in L; try lia; destruct b; cbn [put nth Nat.eqb]; auto. apply IH. lia.
Qed.
Lemma set_ok a w s s' : a < size s -> setDesignator a w s = Some s' -> ext s s' /\ bad s' = bad s /\ exists k w0, deref a s = TD k w0 /\ deref a s' = TD k w.
Proof.
  unfold setDesignator, size. intros L. destruct (deref a s) as [k w0| |] eqn:D; try discriminate. intros E. injection E as <-.
  assert (N : forall b, deref b (mkT (put (heap s) a (TD k w)) (names s) (bad s)) = if Nat.eqb a b then TD k w else deref b s) by (intros b; unfold deref; cbn [heap]; now apply put_nth).
  split; [|split; [reflexivity|exists k, w0; rewrite N, Nat.eqb_refl; auto]].
  split; [reflexivity|]. split; [|auto]. intros b Lb. unfold size. cbn [heap]. rewrite put_length. split; auto. rewrite N. destruct (Nat.eqb_spec a b) as [<-|]; [rewrite D; reflexivity|apply same_kind_refl].
Qed.
Definition poison (s : tst) : tst := mkT (heap s) (names s) true.
Lemma poison_ext s : ext s (poison s).
Proof. split; [reflexivity|]. split; [|reflexivity]. intros a L. split; auto. apply same_kind_refl. Qed.
Lemma fail_ok s r s' : fail s = TOk r s' -> r = None /\ s' = poison s. Proof. unfold fail. intros E. injection E as <- <-. auto. Qed.

(** the result of a visit *)
Definition post (s : tst) (r : option nat) (s' : tst) : Prop := ext s s' /\ (forall a, r = Some a -> a < size s') /\ (r = None -> bad s' = true).
Lemma post_fail s r s' : fail s = TOk r s' -> post s r s'.
Proof. intros E. apply fail_ok in E as [-> ->]. split; [apply poison_ext|]. split; [discriminate|reflexivity]. Qed.
Lemma post_new t s r s' : new t s = TOk r s' -> post s r s'.
Proof. intros E. apply new_ok in E as (X & _ & a & -> & L & _). split; auto. split; [intros b H; now injection H as <-|discriminate]. Qed.
Lemma post_same s a : a < size s -> post s (Some a) s.
Proof. intros L. split; [apply ext_refl|]. split; [intros b H; now injection H as <-|discriminate]. Qed.
Lemma post_trans s s1 r s' : ext s s1 -> post s1 r s' -> post s r s'.
Proof. intros X (Y & A & B). split; [eapply ext_trans; eauto|auto]. Qed.
Lemma check_op_post op a s r s' : a < size s -> check_op op a s = TOk r s' -> post s r s'.
Proof.
  intros L. unfold check_op. cbv zeta. destruct (_ || _); [destruct (isNumber _)|destruct (order op); [destruct (isBool _)|destruct (logic op); [destruct (isBool _)|]]];
    intros E; try (apply post_fail in E; exact E); try (apply post_new in E; exact E); injection E as <- <-; now apply post_same.
Qed.
Lemma check_binary_post op l x s r s' : l < size s -> x < size s -> check_binary op l x s = TOk r s' -> post s r s'.
Proof.
  intros Ll Lx. unfold check_binary. cbv zeta. destruct (_ && _).
  - destruct (alloc TBool s) as [a s1] eqn:A. apply alloc_ok in A as (X & La & _ & _). intros E. eapply post_trans; [exact X|]. now apply check_op_post in E.
  - destruct (_ && _).
    + set (a := if isFP (deref x s) || isUint (deref l s) then x else l). assert (La : a < size s) by (unfold a; now destruct (_ || _)).
      destruct (setDesignator a _ s) as [s1|] eqn:D; [|discriminate]. apply set_ok in D as (X & _ & _); auto. intros E. eapply post_trans; [exact X|]. apply check_op_post in E; auto. now apply X.
    + destruct (Nat.eqb l x); intros E; [now apply check_op_post in E|now apply post_fail in E].
Qed.
Lemma check_expr_post e : forall s r s', sane s -> check_expr e s = TOk r s' -> post s r s'.
Proof.
  induction e as [sg z|q|b|id idx|op a IHa b IHb|op a IHa]; intros s r s' S E; cbn [check_expr] in E; try (now apply post_new in E).
  - destruct (map_find id (names s)) as [a|] eqn:F.
    + assert (L : a < size s) by exact (S id a F). destruct idx; [injection E as <- <-; now apply post_same|].
      destruct (setDesignator a 1 s) as [s1|] eqn:D; [|discriminate]. injection E as <- <-. apply set_ok in D as (X & _ & _); auto. eapply post_trans; [exact X|]. apply post_same. now apply X.
    + destruct idx; [now apply post_fail in E|discriminate].
  - destruct (check_expr a s) as [ta s1| |] eqn:A; try discriminate. cbn [tbind] in E. destruct (IHa _ _ _ S A) as (X1 & L1 & B1).
    destruct (check_expr b s1) as [tb s2| |] eqn:B; try discriminate. cbn [tbind] in E. pose proof (ext_sane _ _ X1 S) as S1. destruct (IHb _ _ _ S1 B) as (X2 & L2 & B2).
    eapply post_trans; [eapply ext_trans; [exact X1|exact X2]|]. destruct ta as [x|].
    + destruct tb as [y|]; [|injection E as <- <-; split; [apply ext_refl|split; [discriminate|auto]]].
      apply check_binary_post in E; auto. apply X2. auto.
    + injection E as <- <-. split; [apply ext_refl|]. split; [discriminate|]. intros _. apply X2. auto.
  - destruct (check_expr a s) as [ta s1| |] eqn:A; try discriminate. cbn [tbind] in E. destruct (IHa _ _ _ S A) as (X1 & L1 & B1). eapply post_trans; [exact X1|].
    destruct op; try (now apply post_new in E).
    + destruct ta as [x|]; [|discriminate]. destruct (isNumber _); [injection E as <- <-; now apply post_same; auto|now apply post_fail in E].
    + destruct ta as [x|]; [|discriminate]. destruct (isConvertibleToBool _); [injection E as <- <-; now apply post_same; auto|now apply post_fail in E].
    + injection E as <- <-. split; [apply ext_refl|]. auto.
Qed.
Lemma check_indices_ext l : forall s u s', sane s -> check_indices l s = TOk u s' -> ext s s'.
Proof.
  induction l as [|e l IH]; intros s u s' S E; cbn [check_indices] in E; [injection E as _ <-; apply ext_refl|].
  destruct (check_expr e s) as [t s1| |] eqn:A; try discriminate. cbn [tbind] in E. destruct (check_expr_post _ _ _ _ S A) as (X & _ & _).
  eapply ext_trans; [exact X|]. pose proof (ext_sane _ _ X S) as S1. destruct t as [a|]; [destruct (isUint _)|]; try (now apply IH in E).
  eapply ext_trans; [apply poison_ext|]. apply IH in E; auto. 
Qed.
Lemma cii_ext id idx s u s' : sane s -> checkIndexedIdentifier id idx s = TOk u s' -> ext s s'.
Proof.
  intros S. unfold checkIndexedIdentifier. destruct (map_find id (names s)); intros E; [now apply check_indices_ext in E|]. eapply ext_trans; [apply poison_ext|]. now apply check_indices_ext in E.
Qed.
Lemma operand_ext o s u s' : sane s -> checkGateOperand o s = TOk u s' -> ext s s'.
Proof. intros S. destruct o; cbn [checkGateOperand]; intros E; [injection E as _ <-; apply ext_refl|now apply cii_ext in E]. Qed.
Lemma measure_post o s r s' : sane s -> check_measure o s = TOk r s' -> post s r s'.
Proof.
  intros S. destruct o as [n|id idx]; cbn [check_measure]; intros E; [now apply post_new in E|].
  destruct (checkIndexedIdentifier id idx s) as [u s1| |] eqn:A; try discriminate. cbn [tbind] in E. apply cii_ext in A; auto. eapply post_trans; [exact A|].
  destruct idx; [|now apply post_new in E]. destruct (map_find id (names s1)); [|now apply post_fail in E]. destruct (deref _ _); try discriminate. now apply post_new in E.
Qed.
Lemma rhs_post r s x s' : sane s -> check_rhs r s = TOk x s' -> post s x s'.
Proof. intros S. destruct r; cbn [check_rhs]; [now apply check_expr_post|now apply measure_post]. Qed.

(** ** Statements: names are added, never changed *)
Definition grow (s s' : tst) : Prop :=
  (forall id a, map_find id (names s) = Some a -> map_find id (names s') = Some a) /\
  (forall a, a < size s -> a < size s' /\ same_kind (deref a s) (deref a s')) /\ (bad s = true -> bad s' = true) /\ sane s'.
Lemma ext_grow s s' : sane s -> ext s s' -> grow s s'.
Proof. intros S X. pose proof (ext_sane _ _ X S). destruct X as (A & B & D). split; [intros; now rewrite A|auto]. Qed.
Lemma grow_trans s t u : grow s t -> grow t u -> grow s u.
Proof.
  intros (A & B & D & _) (A' & B' & D' & S'). split; [auto|]. split; auto. intros a L. destruct (B a L) as [L1 K1]. destruct (B' a L1) as [L2 K2]. split; auto. eapply same_kind_trans; eauto.
Qed.
Lemma grow_bad s s' : grow s s' -> bad s' = false -> bad s = false.
Proof. intros (_ & _ & H & _) E. destruct (bad s); auto. now rewrite H in E. Qed.
Lemma map_find_app {T} id x (a : T) m : map_find id (m ++ [(x, a)]) = match map_find id m with Some v => Some v | None => if String.eqb x id then Some a else None end.
Proof. induction m as [|[k v] m IH]; cbn [app map_find]; auto. destruct (String.eqb k id); auto. Qed.
Lemma emplace_grow id a s : sane s -> a < size s -> grow s (emplace id a s).
Proof.
  intros S L. unfold emplace. destruct (map_find id (names s)) eqn:F; [apply ext_grow; auto; apply ext_refl|].
  split; [|split; [|split]]; cbn [names bad]; auto.
  - intros i b H. now rewrite map_find_app, H.
  - intros b Lb. split; auto. apply same_kind_refl.
  - intros i b. cbn [names heap]. rewrite map_find_app. destruct (map_find i (names s)) eqn:H; [intros E; injection E as <-; exact (S _ _ H)|]. destruct (String.eqb id i); [intros E; injection E as <-; exact L|discriminate].
Qed.
Definition decl_rest (consts : env cvalue) (t : typed) (id : string) (init : option rhs) (s : tst) : tres unit :=
  match resolve consts t with
  | None => TThrow
  | Some rt =>
      let '(a, s1) := alloc rt s in
      match init with
      | None => TOk tt (emplace id a s1)
      | Some r => tbind (check_rhs r s1) (fun x s2 =>
          TOk tt (emplace id a (match x with Some b => if fits (deref a s2) (deref b s2) then s2 else mkT (heap s2) (names s2) true | None => s2 end)))
      end
  end.
Lemma check_decl_eq consts t id init s : check_decl consts t id init s =
  match t with
  | Sized _ (Some d) => tbind (check_expr d s) (fun x s1 => match x with Some a => if isUint (deref a s1) then decl_rest consts t id init s1 else failed s1 | None => failed s1 end)
  | _ => decl_rest consts t id init s
  end.
Proof. reflexivity. Qed.
Lemma decl_grow consts t id init s u s' : sane s -> check_decl consts t id init s = TOk u s' -> grow s s'.
Proof.
  intros S. rewrite check_decl_eq.
  assert (R : forall s0, sane s0 -> decl_rest consts t id init s0 = TOk u s' -> grow s0 s').
  { intros s0 S0. unfold decl_rest. destruct (resolve consts t) as [rt|]; [|discriminate]. destruct (alloc rt s0) as [a s1] eqn:A. apply alloc_ok in A as (X & L & _ & _).
    pose proof (ext_sane _ _ X S0) as S1. destruct init as [r|].
    - destruct (check_rhs r s1) as [x s2| |] eqn:C; try discriminate. cbn [tbind]. intros E. injection E as _ <-. destruct (rhs_post _ _ _ _ S1 C) as (X2 & _ & _).
      eapply grow_trans; [apply ext_grow; [exact S0|eapply ext_trans; [exact X|exact X2]]|]. pose proof (ext_sane _ _ X2 S1) as S2. assert (L2 : a < size s2) by now apply X2.
      destruct x as [b|]; [destruct (fits _ _)|]; try now apply emplace_grow.
      eapply grow_trans; [apply ext_grow; [exact S2|apply poison_ext]|]. apply emplace_grow; auto.
    - intros E. injection E as _ <-. eapply grow_trans; [apply ext_grow; [exact S0|exact X]|]. now apply emplace_grow. }
  destruct t as [k [d|]| |]; try (now apply R).
  destruct (check_expr d s) as [x s1| |] eqn:C; try discriminate. cbn [tbind]. destruct (check_expr_post _ _ _ _ S C) as (X & _ & _). pose proof (ext_sane _ _ X S) as S1.
  intros E. eapply grow_trans; [apply ext_grow; [exact S|exact X]|]. destruct x as [a|]; [destruct (isUint _)|]; try (now apply R); injection E as _ <-; apply ext_grow; auto; apply poison_ext.
Qed.
Lemma assign_grow id idx r s u s' : sane s -> check_assign id idx r s = TOk u s' -> grow s s'.
Proof.
  intros S. unfold check_assign. destruct (checkIndexedIdentifier id idx s) as [v s1| |] eqn:A; try discriminate. cbn [tbind]. apply cii_ext in A; auto. pose proof (ext_sane _ _ A S) as S1.
  destruct (check_rhs r s1) as [x s2| |] eqn:C; try discriminate. cbn [tbind]. destruct (rhs_post _ _ _ _ S1 C) as (X & _ & _). pose proof (ext_sane _ _ X S1) as S2.
  intros E. eapply grow_trans; [apply ext_grow; [exact S|eapply ext_trans; [exact A|exact X]]|].
  destruct (map_find id (names s2)); [destruct x; [destruct (fits _ _)|discriminate]|]; injection E as _ <-; apply ext_grow; auto; try apply ext_refl; apply poison_ext.
Qed.
Lemma args_ext l : forall s u s', sane s -> check_args l s = TOk u s' -> ext s s'.
Proof.
  induction l as [|e l IH]; intros s u s' S E; cbn [check_args] in E; [injection E as _ <-; apply ext_refl|].
  destruct (check_expr e s) as [t s1| |] eqn:A; try discriminate. cbn [tbind] in E. destruct (check_expr_post _ _ _ _ S A) as (X & _ & _). pose proof (ext_sane _ _ X S) as S1. eapply ext_trans; eauto.
Qed.
Lemma operands_ext l : forall s u s', sane s -> check_operands l s = TOk u s' -> ext s s'.
Proof.
  induction l as [|e l IH]; intros s u s' S E; cbn [check_operands] in E; [injection E as _ <-; apply ext_refl|].
  destruct (checkGateOperand e s) as [t s1| |] eqn:A; try discriminate. cbn [tbind] in E. apply operand_ext in A; auto. pose proof (ext_sane _ _ A S) as S1. eapply ext_trans; eauto.
Qed.
Lemma declare_grow t l : forall s, sane s -> grow s (declare_all t l s).
Proof.
  induction l as [|x l IH]; intros s S; cbn [declare_all]; [apply ext_grow; auto using ext_refl|]. destruct (alloc t s) as [a s1] eqn:A. apply alloc_ok in A as (X & L & _ & _).
  pose proof (emplace_grow x a s1 (ext_sane _ _ X S) L) as G. eapply grow_trans; [apply ext_grow; [exact S|exact X]|]. eapply grow_trans; [exact G|]. apply IH. apply G.
Qed.
Definition check_block (consts : env cvalue) : list stmt -> tst -> tres unit := fix block (l : list stmt) (s : tst) : tres unit := match l with [] => TOk tt s | x :: l' => tbind (check_stmt consts x s) (fun _ s1 => block l' s1) end.
Lemma check_block_cons consts x l s : check_block consts (x :: l) s = tbind (check_stmt consts x s) (fun _ s1 => check_block consts l s1). Proof. reflexivity. Qed.
Lemma check_block_nil consts s : check_block consts [] s = TOk tt s. Proof. reflexivity. Qed.
Lemma check_gate_eq consts ps qs body s : check_stmt consts (SGate ps qs body) s =
  tbind (check_block consts body (declare_all (TD KQubit 1) qs (declare_all (TD KFloat 64) ps s))) (fun _ s1 => TOk tt (mkT (heap s1) (names s) (bad s1))).
Proof. reflexivity. Qed.
Lemma check_if_eq consts c a b s : check_stmt consts (SIf c a b) s = tbind (check_expr c s) (fun t s1 =>
        tbind (check_block consts a (match t with Some p => if isConvertibleToBool (deref p s1) then s1 else mkT (heap s1) (names s1) true | None => s1 end)) (fun _ s2 => check_block consts b s2)).
Proof. reflexivity. Qed.
Section stmt_ind.
  Variable P : stmt -> Prop.
  Hypothesis Hd : forall b t id init, P (SDecl b t id init).
  Hypothesis Ha : forall id idx r, P (SAssign id idx r).
  Hypothesis Hg : forall ps qs body, Forall P body -> P (SGate ps qs body).
  Hypothesis Hc : forall args, P (SCall args).
  Hypothesis Hb : forall os, P (SBarrier os).
  Hypothesis Hr : forall o, P (SReset o).
  Hypothesis Hi : forall c a b, Forall P a -> Forall P b -> P (SIf c a b).
  Hypothesis Ho : P SOther.
  Fixpoint stmt_ind' (x : stmt) : P x :=
    let all := fix all (l : list stmt) : Forall P l := match l with [] => Forall_nil P | x :: l' => Forall_cons x (stmt_ind' x) (all l') end in
    match x with
    | SDecl b t id init => Hd b t id init | SAssign id idx r => Ha id idx r | SGate ps qs body => Hg ps qs body (all body)
    | SCall args => Hc args | SBarrier os => Hb os | SReset o => Hr o | SIf c a b => Hi c a b (all a) (all b) | SOther => Ho
    end.
End stmt_ind.
Definition after_cond (t : option nat) (s1 : tst) : tst := match t with Some p => if isConvertibleToBool (deref p s1) then s1 else mkT (heap s1) (names s1) true | None => s1 end.
Lemma after_cond_ext t s : ext s (after_cond t s).
Proof. unfold after_cond. destruct t; [destruct (isConvertibleToBool _)|]; try apply ext_refl. apply poison_ext. Qed.
Lemma block_grow consts l : Forall (fun x => forall s u s', sane s -> check_stmt consts x s = TOk u s' -> grow s s') l -> forall s u s', sane s -> check_block consts l s = TOk u s' -> grow s s'.
Proof.
  induction 1 as [|x l Hx _ IH]; intros s u s' S E; [rewrite check_block_nil in E; injection E as _ <-; apply ext_grow; auto using ext_refl|]. rewrite check_block_cons in E.
  destruct (check_stmt consts x s) as [v s1| |] eqn:A; try discriminate. cbn [tbind] in E. apply Hx in A; auto. eapply grow_trans; [exact A|]. apply IH in E; auto. apply A.
Qed.
Lemma stmt_grow consts x : forall s u s', sane s -> check_stmt consts x s = TOk u s' -> grow s s'.
Proof.
  induction x as [b t id init|id idx r|ps qs body IH|args|os|o|c a b IHa IHb|] using stmt_ind'; intros s u s' S E.
  - cbn [check_stmt] in E. now apply decl_grow in E.
  - cbn [check_stmt] in E. now apply assign_grow in E.
  - rewrite check_gate_eq in E. destruct (check_block _ _ _) as [v s1| |] eqn:A; try discriminate. cbn [tbind] in E. injection E as _ <-.
    pose proof (declare_grow (TD KFloat 64) ps s S) as G1. pose proof (declare_grow (TD KQubit 1) qs _ (proj2 (proj2 (proj2 G1)))) as G2.
    apply (block_grow _ _ IH) in A; [|apply G2]. pose proof (grow_trans _ _ _ G1 (grow_trans _ _ _ G2 A)) as (_ & B & D & _).
    split; [auto|]. split; [exact B|]. split; [exact D|]. intros i a F. apply (B a). exact (S i a F).
  - cbn [check_stmt] in E. apply ext_grow; auto. now apply args_ext in E.
  - cbn [check_stmt] in E. apply ext_grow; auto. now apply operands_ext in E.
  - cbn [check_stmt] in E. apply ext_grow; auto. now apply operand_ext in E.
  - rewrite check_if_eq in E. destruct (check_expr c s) as [t s1| |] eqn:A; try discriminate. cbn [tbind] in E. destruct (check_expr_post _ _ _ _ S A) as (X & _ & _).
    change (match t with Some p => if isConvertibleToBool (deref p s1) then s1 else mkT (heap s1) (names s1) true | None => s1 end) with (after_cond t s1) in E.
    pose proof (ext_trans _ _ _ X (after_cond_ext t s1)) as X'. pose proof (ext_sane _ _ X' S) as S1.
    destruct (check_block consts a _) as [v s2| |] eqn:B; try discriminate. cbn [tbind] in E. apply (block_grow _ _ IHa) in B; auto. apply (block_grow _ _ IHb) in E; [|apply B].
    eapply grow_trans; [apply ext_grow; [exact S|exact X']|]. eapply grow_trans; eauto.
  - injection E as _ <-. apply ext_grow; auto using ext_refl.
Qed.
