(* Proofs for C67: parameters, operands, modifiers, the translation of a call. *)
From Coq Require Import Reals Bool List String Ascii Arith Lia FunctionalExtensionality.
From Verif Require Import Cplx Qsem GateModel GateSpec GateProofs IRModel IRSpec IRProofs QasmEnvModel QasmIfModel QasmGateModel QasmGateSpec QasmGateProofs.
Import ListNotations.
Local Open Scope nat_scope.

(* ---- parameters ---------------------------------------------------------------------------------------------------- *)
Lemma peval_ok E look e v : (forall x, In x (names e) -> env_find x E = look x) -> peval E e = Some v -> pval look e = Some v.
Proof.
  revert v. induction e; intros v H K; simpl in *; auto.
  - rewrite <- H; auto.
  - destruct (peval E e) as [x|]; [|discriminate]. now rewrite (IHe x).
  - destruct (peval E e1) as [x|]; [|discriminate]. destruct (peval E e2) as [y|]; [|discriminate].
    rewrite (IHe1 x), (IHe2 y); auto; intros z I; apply H; apply in_app_iff; auto.
Qed.
Lemma pevals_ok E look l vs : (forall e x, In e l -> In x (names e) -> env_find x E = look x) -> pevals E l = Some vs -> Forall2 (fun e v => pval look e = Some v) l vs.
Proof.
  revert vs. induction l as [|e l IH]; intros vs H K; simpl in K.
  - injection K as <-. constructor.
  - destruct (peval E e) as [x|] eqn:EX; [|discriminate]. destruct (pevals E l) as [r|] eqn:ER; [|discriminate]. injection K as <-. constructor.
    + eapply peval_ok; [|exact EX]. intros y I. apply (H e); auto. now left.
    + apply IH; auto. intros e' x' I J. apply (H e'); auto. now right.
Qed.
Lemma map_find_app {T} s (m n : scope T) : map_find s (m ++ n) = match map_find s m with Some v => Some v | None => map_find s n end.
Proof. induction m as [|[k v] m IH]; simpl; auto. destruct (String.eqb k s); auto. Qed.
Lemma define_frame names : forall vals m (E : env R) s, List.length vals = List.length names ->
  env_find s (define names vals (m :: E)) = match map_find s m with Some v => Some v | None => match map_find s (combine names vals) with Some v => Some v | None => env_find s E end end.
Proof.
  induction names as [|n names IH]; intros [|v vals] m E s L; try discriminate L; simpl; [reflexivity|].
  - injection L as L. destruct (map_find n m) as [w|] eqn:EN.
    + rewrite IH by auto. destruct (map_find s m) eqn:ES; auto. destruct (String.eqb_spec n s) as [->|]; [congruence|auto].
    + rewrite IH by auto. rewrite map_find_app. destruct (map_find s m) eqn:ES; auto. simpl. destruct (String.eqb n s); auto.
Qed.
Lemma define_find names vals (E : env R) s : List.length vals = List.length names ->
  env_find s (define names vals (env_push E)) = match map_find s (combine names vals) with Some v => Some v | None => env_find s E end.
Proof. intros L. unfold env_push. now rewrite define_frame. Qed.
Lemma map_find_In {T} s (m : scope T) v : map_find s m = Some v -> In (s, v) m.
Proof. induction m as [|[k w] m IH]; simpl; [discriminate|]. destruct (String.eqb_spec k s) as [->|]; intros E; [injection E as ->; auto|auto]. Qed.
Lemma map_find_some {T} s names (vals : list T) : List.length vals = List.length names -> In s names -> exists v, map_find s (combine names vals) = Some v.
Proof.
  revert vals. induction names as [|n names IH]; intros [|v vals] L I; try discriminate L; [destruct I|]. simpl. destruct (String.eqb_spec n s) as [->|D]; eauto.
  destruct I as [->|I]; [congruence|]. injection L as L. auto.
Qed.

(* ---- operands ------------------------------------------------------------------------------------------------------ *)
Definition tr (regs : cregs) (o : operand) (p : nat * nat) : Prop := translateGateOperand regs o = ROk p.
Lemma operands_ok regs l : forall w r w', operands regs l w = ROk (r, w') -> 1 <= w ->
  Forall2 (tr regs) l r /\ Forall (fun p => snd p = 1 \/ snd p = w') r /\ (w = 1 \/ w' = w) /\ (w' = w \/ exists o p, In o l /\ tr regs o p /\ snd p = w') /\ 1 <= w'.
Proof.
  induction l as [|o l IH]; intros w r w' E W; simpl in E.
  - injection E as <- <-. repeat split; auto.
  - destruct (translateGateOperand regs o) as [[s n]| |] eqn:ET; try discriminate. destruct (Nat.eqb_spec n 0) as [|N0]; [discriminate|].
    destruct (Nat.ltb 1 n && negb (Nat.eqb w 1) && negb (Nat.eqb n w)) eqn:EB; [discriminate|].
    destruct (operands regs l (if Nat.ltb 1 n then n else w)) as [[r' w1]| |] eqn:EO; try discriminate. injection E as <- <-.
    assert (W1 : 1 <= if Nat.ltb 1 n then n else w) by (destruct (Nat.ltb 1 n); lia). destruct (IH _ _ _ EO W1) as (F & S & D & X & P). clear IH.
    split; [constructor; auto|]. destruct (Nat.ltb_spec 1 n) as [L|L].
    + assert (K : w = 1 \/ n = w). { destruct (Nat.eqb_spec w 1); auto. destruct (Nat.eqb_spec n w); auto. simpl in EB. discriminate. }
      assert (NW : w1 = n) by (destruct D; lia). subst w1. split; [constructor; auto|]. split; [destruct K; auto|]. split; auto. right. exists o, (s, n). repeat split; auto. now left.
    + split; [constructor; auto; left; simpl; lia|]. split; auto. split; auto. destruct X as [X|(o' & p & I & T & N)]; auto. right. exists o', p. repeat split; auto. now right.
Qed.
Lemma operands_app regs l1 l2 : forall w r1 w1 r2 w2, operands regs l1 w = ROk (r1, w1) -> operands regs l2 w1 = ROk (r2, w2) -> operands regs (l1 ++ l2) w = ROk (r1 ++ r2, w2).
Proof.
  induction l1 as [|o l1 IH]; intros w r1 w1 r2 w2 E1 E2; simpl in E1.
  - injection E1 as <- <-. exact E2.
  - simpl. destruct (translateGateOperand regs o) as [[s n]| |]; try discriminate. destruct (Nat.eqb n 0); [discriminate|]. destruct (_ && _); [discriminate|].
    destruct (operands regs l1 _) as [[r' w']| |] eqn:EO; try discriminate. injection E1 as <- <-. now rewrite (IH _ _ _ _ _ EO E2).
Qed.
Lemma tr_stands regs w j o p : tr regs o p -> snd p = 1 \/ snd p = w -> 1 <= snd p -> j < w -> stands regs w j o (bit_at j p).
Proof.
  unfold tr, translateGateOperand, stands, bit_at. intros T K P J. destruct (reg_find (op_name o) regs) as [[s n]|]; [|discriminate]. exists s, n. split; auto.
  destruct (op_index o) as [i|].
  - destruct (Nat.ltb_spec i n); [|discriminate]. injection T as <-. simpl. auto.
  - injection T as <-. simpl in *. destruct (Nat.ltb_spec 1 n); [right; destruct K; lia|left; lia].
Qed.
Lemma tr_pos regs l : forall w r w', operands regs l w = ROk (r, w') -> Forall (fun p => 1 <= snd p) r.
Proof.
  induction l as [|o l IH]; intros w r w' E; simpl in E; [injection E as <- <-; constructor|].
  destruct (translateGateOperand regs o) as [[s n]| |]; try discriminate. destruct (Nat.eqb_spec n 0); [discriminate|]. destruct (_ && _); [discriminate|].
  destruct (operands regs l _) as [[r' w1]| |] eqn:EO; try discriminate. injection E as <- <-. constructor; [simpl; lia|eauto].
Qed.
Lemma distinct_ok l : distinct l = true -> NoDup l.
Proof.
  induction l as [|x l IH]; simpl; intros E; constructor; apply andb_prop in E; destruct E as [E1 E2]; auto. intros I. apply negb_true_iff in E1.
  assert (X : existsb (Nat.eqb x) l = true) by (apply existsb_exists; exists x; split; [auto|apply Nat.eqb_refl]). congruence.
Qed.

Lemma nd_app_r {A} (l m : list A) : NoDup (l ++ m) -> NoDup m.
Proof. induction l; simpl; auto. intros N. inversion N; auto. Qed.
(* ---- modifiers ----------------------------------------------------------------------------------------------------- *)
Definition count (c : option nat) : nat := match c with Some n => n | None => 1 end.
Fixpoint msigns (m : list modifier) : list bool := match m with MCtrl pos c :: m' => repeat pos (count c) ++ msigns m' | _ :: m' => msigns m' | [] => [] end.
Fixpoint minv (m : list modifier) : bool := match m with MInv :: m' => negb (minv m') | _ :: m' => minv m' | [] => false end.
Lemma combine_app {A B} (l1 l2 : list A) (m1 m2 : list B) : List.length l1 = List.length m1 -> combine (l1 ++ l2) (m1 ++ m2) = combine l1 m1 ++ combine l2 m2.
Proof. revert m1. induction l1 as [|a l1 IH]; intros [|b m1] L; try discriminate L; simpl; auto. injection L as L. now rewrite IH. Qed.
Lemma combine_repeat {A B} (l : list A) (x : B) : combine l (repeat x (List.length l)) = map (fun a => (a, x)) l.
Proof. induction l; simpl; congruence. Qed.
Lemma firstn_add {A} (l : list A) a b : firstn (a + b) l = firstn a l ++ firstn b (skipn a l).
Proof. revert l. induction a; intros [|x l]; simpl; auto; [now rewrite firstn_nil|]. now rewrite IHa. Qed.
Lemma skipn_add {A} (l : list A) a b : skipn b (skipn a l) = skipn (a + b) l.
Proof. revert l. induction a; intros l; simpl; auto. destruct l; auto. now rewrite skipn_nil. Qed.
Lemma modifiers_ok m : forall ops n inv cs k i, n <= List.length ops -> modifiers m ops n inv = Some (cs, k, i) ->
  k = n + List.length (msigns m) /\ k <= List.length ops /\ cs = combine (firstn (k - n) (skipn n ops)) (msigns m) /\ i = xorb inv (minv m) /\ Forall (fun x => x <> MPow) m.
Proof.
  induction m as [|x m IH]; intros ops n inv cs k i LN E; simpl in E.
  - injection E as <- <- <-. replace (n - n) with 0 by lia. simpl. rewrite xorb_false_r. repeat split; auto.
  - destruct x as [pos c| |]; [|..|discriminate].
    + fold (count c) in E. destruct (Nat.ltb_spec (List.length ops) (count c + n)); [discriminate|].
      destruct (modifiers m ops (n + count c) inv) as [[[cs' k'] i']|] eqn:EM; [|discriminate]. injection E as <- <- <-.
      assert (LN' : n + count c <= List.length ops) by lia. destruct (IH _ _ _ _ _ _ LN' EM) as (K & L & C & I & P). simpl. rewrite app_length, repeat_length. split; [lia|]. split; auto. split; [|split; auto; constructor; auto; discriminate].
      replace (k' - n) with (count c + (k' - (n + count c))) by lia. rewrite firstn_add, skipn_add.
      assert (LF : List.length (firstn (count c) (skipn n ops)) = count c) by (rewrite firstn_length, skipn_length; lia).
      rewrite combine_app by (rewrite repeat_length; exact LF). f_equal; auto. rewrite <- LF at 3. now rewrite combine_repeat.
    + destruct (IH _ _ _ _ _ _ LN E) as (K & L & C & I & P). simpl. repeat split; auto; [|constructor; auto; discriminate]. rewrite I. now destruct inv, (minv m).
Qed.

Section Calls.
Variables (G : gates) (glob : string -> option R).
Hypothesis PG : plain_gates G.
Hypothesis STD : forall id t nc nt np, In (id, GStd t nc nt np) G -> t <> gBarrier /\ forall ps, List.length ps = np -> exists M, gate_matrix t ps = Some (nt, M).

(* the gate without modifiers and without its own controls *)
Definition base (g : gate) (ps : list R) (tb : list nat) (h : state -> state) : Prop :=
  match g with
  | GStd t _ nt _ => exists M, gate_matrix t ps = Some (nt, M) /\ h = apply M tb
  | GComp params targets body => den_body G glob (inner params ps glob) (combine targets tb) body h
  end.
Lemma base_gate g ps cq tb h : base g ps tb h -> List.length ps = nParameters g -> List.length tb = nTargets g -> List.length cq = nControls g ->
  den_gate G glob g ps (cq ++ tb) (controlled (map (fun q => (q, true)) cq) h).
Proof.
  destruct g as [t nc nt np|params targets body]; simpl; intros B LP LT LC.
  - destruct B as (M & EM & ->). now apply DStd.
  - destruct cq; [|discriminate]. simpl. rewrite controlled_nil. now apply DComp.
Qed.
(* modifiers on it; the controls of the modifiers stand before those of the gate *)
Lemma mods_den m g ps tb h h' bq : base g ps tb h -> inverse_maps h h' -> local tb h -> local tb h' -> List.length ps = nParameters g -> List.length tb = nTargets g -> List.length bq = nControls g ->
  forall mq, List.length mq = List.length (msigns m) -> Forall (fun x => x <> MPow) m -> NoDup (mq ++ bq ++ tb) ->
  den_mods G glob m g ps (mq ++ bq ++ tb) (controlled (combine mq (msigns m) ++ map (fun q => (q, true)) bq) (if minv m then h' else h)).
Proof.
  intros B I L L' LP LT LC. induction m as [|x m IH]; intros mq LM P N.
  - destruct mq; [|discriminate]. simpl. apply DGate. now apply base_gate.
  - inversion P as [|y m' P1 P2]; subst. destruct x as [pos c| |]; [| |congruence].
    + simpl in LM. rewrite app_length, repeat_length in LM. simpl.
      rewrite <- (firstn_skipn (count c) mq) at 1 2. set (m1 := firstn (count c) mq). set (m2 := skipn (count c) mq).
      assert (L1 : List.length m1 = count c) by (unfold m1; rewrite firstn_length; lia). assert (L2 : List.length m2 = List.length (msigns m)) by (unfold m2; rewrite skipn_length; lia).
      rewrite combine_app by (now rewrite repeat_length). rewrite <- L1, combine_repeat. rewrite <- !app_assoc, <- controlled_app.
      apply DCtrl; [exact L1|]. apply IH; auto. rewrite <- (firstn_skipn (count c) mq), <- app_assoc in N. now apply nd_app_r in N.
    + simpl. eapply DInv; [apply IH; auto|]. set (cs := combine mq (msigns m) ++ map (fun q => (q, true)) bq).
      assert (A : apart cs tb).
      { intros d J K. assert (X : In (fst d) (mq ++ bq)).
        { unfold cs in J. apply in_app_iff in J. apply in_app_iff. destruct J as [J|J]; [left; destruct d; apply in_combine_l in J; exact J|right]. apply in_map_iff in J. destruct J as (q & <- & J). exact J. }
        rewrite app_assoc in N. revert X K. clear - N. induction (mq ++ bq) as [|a l IH]; intros X K; [destruct X|]. simpl in N. inversion N; subst. destruct X as [->|X]; [apply H1, in_app_iff; auto|auto]. }
      destruct (minv m); simpl; apply (controlled_inv cs tb); auto. destruct I. split; auto.
Qed.

(* ---- bodies -------------------------------------------------------------------------------------------------------- *)
Definition composed (fs : list (state -> state)) : state -> state := fun psi => fold_left (fun p f => f p) fs psi.
Definition fine_env (E : env R) : Prop := forall s, ~ is_param G s -> env_find s E = glob s.
Definition call_spec (look : string -> option R) (regs : cregs) (c : call) (o : cop) : Prop :=
  exists g ps fs, map_find (c_gate c) G = Some g /\ Forall2 (fun e v => pval look e = Some v) (c_args c) ps /\
  (List.length fs = 1 \/ exists o s, In o (c_ops c) /\ op_index o = None /\ reg_find (op_name o) regs = Some (s, List.length fs)) /\
  (forall j f, nth_error fs j = Some f -> exists qs, Forall2 (stands regs (List.length fs) j) (c_ops c) qs /\ NoDup qs /\ den_mods G glob (c_mods c) g ps qs f) /\
  gd o /\ opf o = composed fs /\ (forall x, In x (tq o) -> exists o s n, In o (c_ops c) /\ reg_find (op_name o) regs = Some (s, n) /\ s <= x < s + n).
Definition rec_ok (rec : env R -> cregs -> call -> res cop) : Prop := forall E regs c o look,
  (forall e x, In e (c_args c) -> In x (names e) -> env_find x E = look x) -> fine_env E -> plain_call G c -> rec E regs c = ROk o -> call_spec look regs c o.

Lemma nested_find s targets tb : reg_find s (combine targets (map (fun q => (q, 1)) tb)) = option_map (fun q => (q, 1)) (map_find s (combine targets tb)).
Proof. revert tb. induction targets as [|t targets IH]; intros [|q tb]; simpl; auto. destruct (String.eqb t s); auto. Qed.
Lemma body_ok rec E look targets tb : rec_ok rec -> fine_env E -> forall body l,
  (forall s, In s body -> match s with SCall c => plain_call G c /\ forall e x, In e (c_args c) -> In x (names e) -> env_find x E = look x | SBarrier _ => True | SReset _ => False end) ->
  NoDup tb -> translateBody rec E (combine targets (map (fun q => (q, 1)) tb)) targets body = ROk l ->
  Forall gd l /\ incl (flat_map tq l) tb /\ den_body G glob look (combine targets tb) body (opfs l).
Proof.
  intros RO FE. induction body as [|s body IH]; intros l H ND E0; simpl in E0.
  - injection E0 as <-. split; [constructor|]. split; [apply incl_nil_l|]. apply DNil.
  - match type of E0 with (match ?r with _ => _ end) = _ => destruct r as [o| |] eqn:ES end; try discriminate.
    destruct (translateBody rec E _ targets body) as [l'| |] eqn:EB; try discriminate. injection E0 as <-.
    destruct (IH l' (fun s' I => H s' (or_intror I)) ND eq_refl) as (F & T & D). pose proof (H s (or_introl eq_refl)) as HS.
    destruct s as [c|bl|r]; [| |contradiction].
    + destruct HS as [PC HN]. destruct (existsb _ (c_ops c)) eqn:EX; [discriminate|]. destruct (RO _ _ _ _ _ HN FE PC ES) as (g & ps & fs & EG & EP & W & DM & GO & OF & TQ).
      assert (Q1 : forall o s n, In o (c_ops c) -> reg_find (op_name o) (combine targets (map (fun q => (q, 1)) tb)) = Some (s, n) -> n = 1 /\ map_find (op_name o) (combine targets tb) = Some s /\ op_index o = None).
      { intros o' s n I J. rewrite nested_find in J. destruct (map_find (op_name o') (combine targets tb)) as [q|] eqn:EM; [|discriminate]. injection J as <- <-. split; auto. split; auto.
        destruct (op_index o') eqn:EI; auto. exfalso. apply map_find_In in EM. apply in_combine_l in EM.
        assert (X : existsb (fun o => match op_index o with Some _ => existsb (String.eqb (op_name o)) targets | None => false end) (c_ops c) = true).
        { apply existsb_exists. exists o'. split; auto. rewrite EI. apply existsb_exists. exists (op_name o'). split; auto. apply String.eqb_refl. }
        congruence. }
      assert (L1 : List.length fs = 1). { destruct W as [|(o' & s & I & _ & J)]; auto. now destruct (Q1 _ _ _ I J). }
      destruct fs as [|f [|]]; try discriminate L1. destruct (DM 0 f eq_refl) as (qs & ST & NQ & DD).
      split; [constructor; auto|]. split.
      * simpl. apply incl_app; auto. intros x I. destruct (TQ x I) as (o' & s & n & I1 & I2 & I3). destruct (Q1 _ _ _ I1 I2) as (-> & EM & _). replace x with s by lia.
        apply map_find_In in EM. now apply in_combine_r in EM.
      * change (opfs (o :: l')) with (fun psi => opfs l' (opf o psi)). rewrite OF. change (composed [f]) with f. apply (DCall G glob look _ c g ps qs f body (opfs l')); auto.
        clear - ST Q1. revert Q1. induction ST as [|o' q ops qs S ST IH]; intros Q1; constructor.
        { destruct S as (s & n & J & K). destruct (Q1 o' s n (or_introl eq_refl) J) as (-> & EM & EI). rewrite EI in K. split; auto. rewrite EM. f_equal. simpl in K. lia. }
        { apply IH. intros o2 s n I J. apply (Q1 o2); auto. now right. }
    + destruct (operands _ bl 1) as [[ps w]| |] eqn:EO; try discriminate. injection ES as <-. split; [constructor; auto; left; reflexivity|]. split.
      * simpl. apply incl_app; auto. destruct (operands_ok _ _ _ _ _ EO (le_n 1)) as (F2 & _). clear - F2. induction F2 as [|o p ops ps T F IH]; simpl; [apply incl_nil_l|].
        apply incl_cons; auto. unfold tr, translateGateOperand in T. rewrite nested_find in T. destruct (map_find (op_name o) (combine targets tb)) as [q|] eqn:EM; [|discriminate]. simpl in T.
        apply map_find_In, in_combine_r in EM. destruct (op_index o) as [i|]; [|injection T as <-; exact EM]. destruct (Nat.ltb_spec i 1); [|discriminate]. injection T as <-. simpl. now replace (q + i) with q by lia.
      * change (opfs (OStd {| o_type := gBarrier; o_par := []; o_ctl := []; o_tgt := map fst ps |} :: l')) with (opfs l'). now apply DBarrier.
Qed.

Lemma apply_ok rec E g id tb cb ps inv o : rec_ok rec -> fine_env E -> In (id, g) G -> List.length ps = nParameters g -> List.length tb = nTargets g -> NoDup (map fst cb ++ tb) ->
  applyQuantumOperation rec E g tb cb ps inv = ROk o ->
  exists h h', base g ps tb h /\ inverse_maps h h' /\ local tb h /\ local tb h' /\ gd o /\ incl (tq o) tb /\ opf o = controlled cb (if inv then h' else h).
Proof.
  intros RO FE IG LP LT ND E0.
  assert (ND2 : NoDup tb) by (now apply nd_app_r in ND).
  assert (A : apart cb tb).
  { intros d J K. assert (X : In (fst d) (map fst cb)) by (now apply in_map). revert X K. clear - ND. induction (map fst cb) as [|a l IH]; intros X K; [destruct X|]. simpl in ND. inversion ND; subst.
    destruct X as [->|X]; [apply H1, in_app_iff; auto|auto]. }
  destruct g as [t nc nt np|params targets body]; simpl in *.
  - destruct (STD _ _ _ _ _ IG) as [NB SM]. destruct (SM ps LP) as [M EM]. rewrite <- LT in EM.
    assert (GD : forall cs, apart cs tb -> gd (OStd {| o_type := t; o_par := ps; o_ctl := cs; o_tgt := tb |})).
    { intros cs AC. right. split; [split; auto|]. exists (controlled cs (apply M tb)). apply sem_std; auto. }
    assert (OF : forall cs, opf (OStd {| o_type := t; o_par := ps; o_ctl := cs; o_tgt := tb |}) = controlled cs (apply M tb)).
    { intros cs. simpl. unfold semf. now rewrite (sem_std t ps cs tb M). }
    assert (G0 : gd (OStd {| o_type := t; o_par := ps; o_ctl := []; o_tgt := tb |})) by (apply GD; intros d []).
    destruct (invert_maps _ G0) as (i & EI & IM). destruct (invert_gd _ G0 _ EI) as [GI TI]. rewrite OF, controlled_nil in IM.
    exists (apply M tb), (opf i). split; [exists M; rewrite <- LT; auto|]. split; auto. split; [apply local_apply|].
    assert (LI : local tb (opf i)) by (apply (local_sub (tq i)); [exact TI|now apply opf_local]). split; auto.
    eapply (invert_if_ok inv _ o tb cb (apply M tb) (opf i)); [apply (GD cb A)|apply incl_refl|exact A|apply OF|exact IM|apply local_apply|exact LI|exact E0].
  - destruct (translateBody rec _ _ targets body) as [l| |] eqn:EB; try discriminate. destruct (setControls cb (OComp true l)) as [o1|] eqn:ES; [|discriminate].
    destruct (invert_if inv o1) as [o2| |] eqn:EI; try discriminate. injection E0 as <-.
    assert (NP : forall s, ~ is_param G s -> map_find s (combine params ps) = None).
    { intros s N. destruct (map_find s (combine params ps)) eqn:EM; auto. exfalso. apply N. apply map_find_In, in_combine_l in EM. exists id, params, targets, body. auto. }
    assert (FE' : fine_env (define params ps (env_push E))).
    { intros s N. rewrite define_find by auto. rewrite NP by auto. apply FE. auto. }
    destruct (body_ok rec _ (inner params ps glob) targets tb RO FE' body l) as (F & T & D); auto.
    { intros s I. specialize (PG _ _ _ _ IG s I). destruct s as [c| |]; auto. destruct PG as [P1 P2]. split; auto. intros e x J K. rewrite define_find by auto. unfold inner.
      destruct (P2 e x J K) as [Q|Q]; [destruct (map_find_some x params ps LP Q) as [v ->]; auto|]. rewrite NP by auto. apply FE. auto. }
    assert (GC : gd (OComp true l)) by (now apply gd_comp). destruct (setControls_ok cb _ _ GC ES) as (G1 & T1 & A1 & O1).
    destruct (invert_maps _ GC) as (i & EV & IM). destruct (invert_gd _ GC _ EV) as [GI TI]. rewrite (opf_comp true l) in *. rewrite (tq_comp true l) in *.
    exists (opfs l), (opf i). split; auto. split; auto.
    assert (L1 : local tb (opfs l)) by (rewrite <- (opf_comp true l); apply (local_sub (tq (OComp true l))); [rewrite tq_comp; exact T|now apply opf_local]).
    assert (L2 : local tb (opf i)) by (apply (local_sub (tq i)); [eapply incl_tran; eauto|now apply opf_local]). split; auto. split; auto.
    destruct (invert_if_ok inv o1 o2 tb cb (opfs l) (opf i)) as (G2 & T2 & O2); auto; [now rewrite T1|]. destruct (unwrap_ok _ G2) as (U1 & U2 & U3). rewrite U2, U3. auto.
Qed.

Definition all_true (n : nat) (l : list nat) : list ctl := map (fun q => (q, true)) (firstn n l).
Lemma rounds_ok rec E g id ts cs ps inv : rec_ok rec -> fine_env E -> In (id, g) G -> List.length ps = nParameters g -> List.length ts = nTargets g -> forall n j l,
  rounds rec E g ts cs ps inv j n = ROk l ->
  List.length l = n /\ forall k o, nth_error l k = Some o -> let tb := map (bit_at (j + k)) ts in let cb := map (fun c => (bit_at (j + k) (fst c), snd c)) cs in
    NoDup (map fst cb ++ tb) /\ exists h h', base g ps tb h /\ inverse_maps h h' /\ local tb h /\ local tb h' /\ gd o /\ incl (tq o) tb /\ opf o = controlled cb (if inv then h' else h).
Proof.
  intros RO FE IG LP LT. induction n as [|n IH]; intros j l E0; simpl in E0.
  - injection E0 as <-. split; auto. intros [|k] o X; discriminate X.
  - destruct (distinct _) eqn:ED; [|discriminate]. destruct (applyQuantumOperation _ _ _ _ _ _ _) as [o1| |] eqn:EA; try discriminate.
    destruct (rounds rec E g ts cs ps inv (S j) n) as [l'| |] eqn:ER; try discriminate. injection E0 as <-. destruct (IH _ _ ER) as [L K]. split; [simpl; congruence|].
    apply distinct_ok in ED. intros [|k] o X; simpl in X.
    + injection X as <-. rewrite Nat.add_0_r. split; [exact ED|]. apply (apply_ok rec E g id); auto. now rewrite map_length.
    + replace (j + S k) with (S j + k) by lia. now apply K.
Qed.

Lemma pevals_len E l vs : pevals E l = Some vs -> List.length vs = List.length l.
Proof. revert vs. induction l as [|e l IH]; intros vs H; simpl in H; [injection H as <-; auto|]. destruct (peval E e); [|discriminate]. destruct (pevals E l); [|discriminate]. injection H as <-. simpl. f_equal. auto. Qed.

Lemma Forall2_len {A B} (P : A -> B -> Prop) l m : Forall2 P l m -> List.length l = List.length m.
Proof. induction 1; simpl; auto. Qed.
Lemma msigns_true m : Forall (fun x => match x with MCtrl pos _ => pos = true | _ => True end) m -> msigns m = repeat true (List.length (msigns m)).
Proof.
  induction m as [|x m IH]; intros F; auto. inversion F as [|? ? X Y]; subst. destruct x as [pos c| |]; simpl; auto. subst pos. rewrite app_length, repeat_length. rewrite IH at 1 by auto. symmetry. apply repeat_app.
Qed.
(* the controls in the order of the code and in the order of the language *)
Lemma signs_order m n0 (cb : list nat) : n0 = 0 \/ Forall (fun x => match x with MCtrl pos _ => pos = true | _ => True end) m -> List.length cb = n0 + List.length (msigns m) ->
  combine cb (repeat true n0 ++ msigns m) = combine (firstn (List.length (msigns m)) cb) (msigns m) ++ map (fun q => (q, true)) (skipn (List.length (msigns m)) cb).
Proof.
  intros [-> |F] L.
  - simpl in *. rewrite <- L, firstn_all, skipn_all. simpl. now rewrite app_nil_r.
  - pose proof (msigns_true m F) as M. set (k := List.length (msigns m)) in *. clearbody k. rewrite M, <- repeat_app, <- L, combine_repeat.
    assert (LK : List.length (firstn k cb) = k) by (rewrite firstn_length; lia).
    replace (repeat true k) with (repeat true (List.length (firstn k cb))) by (now rewrite LK). rewrite combine_repeat, <- map_app, firstn_skipn. reflexivity.
Qed.
Lemma combine_bits (f : nat * nat -> nat) (l : list (nat * nat)) (sg : list bool) : map (fun c => (f (fst c), snd c)) (combine l sg) = combine (map f l) sg.
Proof. revert sg. induction l as [|a l IH]; intros [|x sg]; simpl; auto. now rewrite IH. Qed.
Lemma fst_combine {A B} (l : list A) (m : list B) : List.length l = List.length m -> map fst (combine l m) = l.
Proof. revert m. induction l as [|a l IH]; intros [|b m] L; try discriminate L; simpl; auto. f_equal. auto. Qed.
Lemma snd_combine {A B} (l : list A) (m : list B) : List.length l = List.length m -> map snd (combine l m) = m.
Proof. revert m. induction l as [|a l IH]; intros [|b m] L; try discriminate L; simpl; auto. f_equal. auto. Qed.
Lemma map_find_pair s (g : gate) : map_find s G = Some g -> In (s, g) G.
Proof. apply (map_find_In s G g). Qed.

Lemma stands_all regs w j ops ps : Forall2 (tr regs) ops ps -> Forall (fun p => (snd p = 1 \/ snd p = w) /\ 1 <= snd p) ps -> j < w -> Forall2 (stands regs w j) ops (map (bit_at j) ps).
Proof. intros F W J. induction F as [|o p ops ps T F IH]; simpl; constructor; inversion W as [|? ? [X1 X2] Y]; subst; auto. now apply tr_stands. Qed.
Lemma call_ok fuel : rec_ok (evaluateGateCall fuel false G).
Proof.
  induction fuel as [|fuel IH]; intros E regs c o look HN FE PC E0; simpl in E0; [discriminate|].
  destruct (map_find (c_gate c) G) as [g|] eqn:EG; [|discriminate]. rewrite Nat.add_0_r in E0.
  destruct (Nat.eqb_spec (nParameters g) (List.length (c_args c))) as [NP|]; [|discriminate]. simpl in E0.
  destruct (Nat.ltb_spec (List.length (c_ops c)) (nControls g)) as [|LO]; [discriminate|].
  destruct (modifiers (c_mods c) (c_ops c) (nControls g) false) as [[[cs k] inv]|] eqn:EM; [|discriminate].
  destruct (modifiers_ok _ _ _ _ _ _ _ LO EM) as (K & LK & CS & INV & NOP). rewrite xorb_false_l in INV.
  set (m := c_mods c) in *. set (n0 := nControls g) in *. set (ops := c_ops c) in *. set (nm := List.length (msigns m)) in *.
  destruct (Nat.eqb_spec (nTargets g) (List.length (skipn k ops))) as [NT|]; [|discriminate]. simpl in E0.
  destruct (pevals E (c_args c)) as [ps|] eqn:EP; [|discriminate].
  assert (CE : map (fun o => (o, true)) (firstn n0 ops) ++ cs = combine (firstn k ops) (repeat true n0 ++ msigns m)).
  { assert (LF : List.length (firstn n0 ops) = n0) by (rewrite firstn_length; lia). rewrite CS, <- combine_repeat, LF. replace k with (n0 + (k - n0)) at 2 by lia. rewrite firstn_add. symmetry. apply combine_app. now rewrite repeat_length. }
  rewrite CE in E0. assert (LS : List.length (firstn k ops) = List.length (repeat true n0 ++ msigns m)) by (rewrite firstn_length, app_length, repeat_length; fold nm; lia).
  rewrite fst_combine, snd_combine in E0 by auto.
  destruct (operands regs (skipn k ops) 1) as [[ts w1]| |] eqn:ET; try discriminate. destruct (operands regs (firstn k ops) w1) as [[cqs w]| |] eqn:EC; try discriminate.
  destruct (rounds _ E g ts _ ps inv 0 w) as [l| |] eqn:ER; try discriminate.
  pose proof (operands_app _ _ _ _ _ _ _ _ ET EC) as EO. destruct (operands_ok _ _ _ _ _ EO (le_n 1)) as (F2 & FW & _ & WX & W1). pose proof (tr_pos _ _ _ _ _ EO) as TP.
  destruct (operands_ok _ _ _ _ _ ET (le_n 1)) as (F2t & _ & _ & _ & W1'). destruct (operands_ok _ _ _ _ _ EC W1') as (F2c & _).
  assert (LP : List.length ps = nParameters g) by (rewrite NP; eapply pevals_len; eauto). assert (LTS : List.length ts = nTargets g) by (rewrite NT; symmetry; eapply Forall2_len; eauto).
  assert (LCQ : List.length cqs = n0 + nm) by (rewrite <- (Forall2_len _ _ _ F2c), firstn_length; lia).
  destruct (rounds_ok _ E g (c_gate c) ts _ ps inv IH FE (map_find_pair _ _ EG) LP LTS _ _ _ ER) as [LL RK].
  assert (FA : Forall2 (tr regs) ops (cqs ++ ts)) by (rewrite <- (firstn_skipn k ops); now apply Forall2_app).
  assert (FW' : Forall (fun p => (snd p = 1 \/ snd p = w) /\ 1 <= snd p) (cqs ++ ts)).
  { apply Forall_forall. intros p I. rewrite Forall_forall in FW, TP. assert (I' : In p (ts ++ cqs)) by (apply in_app_iff; apply in_app_iff in I; tauto). split; auto. }
  assert (OF : forall x, (match l with [o] => if Nat.eqb w 1 then ROk o else ROk (OComp false [o]) | _ => ROk (OComp false l) end) = ROk x -> (Forall gd l -> gd x) /\ opf x = opfs l /\ tq x = flat_map tq l).
  { intros x X. destruct l as [|a [|b l]]; [| |]; try (injection X as <-; rewrite gd_comp, opf_comp, tq_comp; auto).
    destruct (Nat.eqb w 1); injection X as <-; [|rewrite gd_comp, opf_comp, tq_comp; auto]. split; [intros F; inversion F; auto|]. split; [reflexivity|]. simpl. now rewrite app_nil_r. }
  assert (E1 : (match l with [o] => if Nat.eqb w 1 then ROk o else ROk (OComp false [o]) | _ => ROk (OComp false l) end) = ROk o) by (destruct l as [|a [|b l]]; exact E0).
  destruct (OF _ E1) as (O1 & O2 & O3). clear OF E0 E1.
  assert (RL : forall j a, nth_error l j = Some a -> j < w) by (intros j a X; rewrite <- LL; apply nth_error_Some; congruence).
  exists g, ps, (map opf l). rewrite map_length, LL. split; auto. split; [eapply pevals_ok; eauto|]. split; [|split; [|split; [|split]]].
  - destruct WX as [-> |(o' & p & I & T & N)]; auto. unfold tr, translateGateOperand in T. destruct (reg_find (op_name o') regs) as [[s n]|] eqn:EF; [|discriminate].
    assert (IO : In o' ops) by (rewrite <- (firstn_skipn k ops); apply in_app_iff; apply in_app_iff in I; tauto).
    destruct (op_index o') as [i|] eqn:EI.
    + destruct (Nat.ltb i n); [|discriminate]. injection T as <-. simpl in N. auto.
    + injection T as <-. simpl in N. subst n. right. exists o', s. auto.
  - intros j f X. rewrite nth_error_map in X. destruct (nth_error l j) as [a|] eqn:EA; [|discriminate]. injection X as <-. pose proof (RL _ _ EA) as JW.
    destruct (RK j a EA) as (ND & h & h' & B & IM & L & L' & GA & TA & OA). cbn zeta in *. simpl in ND, B, L, L', TA, OA. rewrite combine_bits in ND, OA.
    set (cb := map (bit_at j) cqs) in *. set (tb := map (bit_at j) ts) in *.
    assert (LC : List.length cb = n0 + nm) by (unfold cb; now rewrite map_length).
    rewrite fst_combine in ND by (rewrite app_length, repeat_length; exact LC).
    exists (cb ++ tb). split; [|split; [exact ND|]].
    + unfold cb, tb. rewrite <- map_app. now apply stands_all.
    + rewrite OA, signs_order by (auto; apply PC; exact EG). fold nm. rewrite INV.
      replace (cb ++ tb) with (firstn nm cb ++ skipn nm cb ++ tb) by (now rewrite app_assoc, firstn_skipn).
      apply mods_den; auto; rewrite ?map_length; auto.
      * unfold tb. now rewrite map_length.
      * rewrite skipn_length. fold n0. lia.
      * rewrite firstn_length. fold nm. lia.
      * rewrite app_assoc, firstn_skipn. exact ND.
  - apply O1. apply Forall_forall. intros a I. apply In_nth_error in I. destruct I as [j X]. destruct (RK j a X) as (_ & h & h' & _ & _ & _ & _ & GA & _). exact GA.
  - rewrite O2. apply functional_extensionality. intros psi. unfold opfs, composed. clear. revert psi. induction l; intros psi; simpl; auto.
  - intros x I. rewrite O3 in I. apply in_flat_map in I. destruct I as (a & I & J). apply In_nth_error in I. destruct I as [j X]. pose proof (RL _ _ X) as JW.
    destruct (RK j a X) as (_ & h & h' & _ & _ & _ & _ & _ & TA & _). cbn zeta in *. simpl in TA. apply TA, in_map_iff in J. destruct J as (p & <- & IP).
    assert (Q : exists o', In o' ops /\ tr regs o' p).
    { assert (IP' : In p (cqs ++ ts)) by (apply in_app_iff; auto). clear - FA IP'. induction FA as [|o' q ops' qs T F IH']; [destruct IP'|]. destruct IP' as [-> |IP']; [exists o'; split; auto; now left|]. destruct (IH' IP') as (o2 & I2 & T2). exists o2. split; auto. now right. }
    destruct Q as (o' & IO & T). assert (PW : (snd p = 1 \/ snd p = w) /\ 1 <= snd p) by (rewrite Forall_forall in FW'; apply FW', in_app_iff; auto).
    unfold tr, translateGateOperand in T. destruct (reg_find (op_name o') regs) as [[s n]|] eqn:EF; [|discriminate]. exists o', s, n. split; auto. split; auto. unfold bit_at.
    destruct (op_index o') as [i|]; [destruct (Nat.ltb_spec i n); [|discriminate]|]; injection T as <-; simpl in *; [lia|]. destruct (Nat.ltb_spec 1 n); lia.
Qed.
End Calls.
