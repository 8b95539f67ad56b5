(* C67: gate calls, modifiers, broadcasting and declared gates. *)
From Coq Require Import Reals Bool List String Ascii Arith Lia Lra FunctionalExtensionality.
From Verif Require Import Cplx Qsem GateModel GateSpec GateProofs IRModel IRSpec IRProofs QasmEnvModel QasmIfModel QasmGateModel QasmGateSpec QasmGateProofs QasmGateMainProofs.
Import ListNotations.
Local Open Scope nat_scope.
Local Open Scope string_scope.

Definition std_fine (G : gates) : Prop := forall id t nc nt np, In (id, GStd t nc nt np) G -> t <> gBarrier /\ forall ps, List.length ps = np -> exists M, gate_matrix t ps = Some (nt, M).
Lemma standard_fine : std_fine standard_gates.
Proof.
  intros id t nc nt np I. unfold standard_gates in I.
  repeat (destruct I as [I|I]; [injection I as <- <- <- <- <-; split; [discriminate|]; intros ps L; destruct ps as [|p0 [|p1 [|p2 [|p3 ps]]]]; try discriminate L; eexists; reflexivity|]). destruct I.
Qed.
Lemma declared_fine G : declared G -> std_fine G.
Proof.
  induction 1 as [|G id params targets body G' D IH V]; [exact standard_fine|]. unfold visitGateStatement in V. destruct (map_find id G) as [[|]|]; [injection V as <-; exact IH|discriminate|].
  destruct (_ && _); [|discriminate]. injection V as <-. intros id' t nc nt np I. apply in_app_iff in I. destruct I as [I|[I|[]]]; [eapply IH; eauto|discriminate].
Qed.

Lemma declare G id params targets body : declared G -> map_find id G = None -> nodup_names params && nodup_names targets = true -> declared (G ++ [(id, GComp params targets body)])%list.
Proof. intros D E N. eapply (DecGate G id params targets body); auto. unfold visitGateStatement. now rewrite E, N. Qed.

(* Whatever gates were declared before: if a call is accepted, the operations it is translated to are, for each index of the
   registers, the operator the language gives to the call (declared gates, modifiers and parameters included), in order.
   Missing for the full statement: the cases refuted below, that is negative controls on gates with controls of their own and
   constants named like a parameter of another gate; programs in the mode for OpenQASM 2. *)
Theorem C67_call_partial : forall G E regs c fuel o, declared G -> plain_gates G -> plain_call G c -> evaluateGateCall fuel false G E regs c = ROk o ->
  exists fs, den_call G (fun s => env_find s E) regs c fs /\ forall psi m, run_op o (psi, m) = [(fold_left (fun p f => f p) fs psi, m)].
Proof.
  intros G E regs c fuel o D PG PC H.
  destruct (call_ok G (fun s => env_find s E) PG (declared_fine G D) fuel E regs c o (fun s => env_find s E)) as (g & ps & fs & A1 & A2 & A3 & A4 & A5 & A6 & _); auto.
  { intros s _. reflexivity. }
  exists fs. split; [exists g, ps; auto|]. intros psi m. rewrite run_gd by auto. now rewrite A6.
Qed.
Print Assumptions C67_call_partial.

Definition q (s : string) : operand := {| op_name := s; op_index := None |}.
Definition qi (s : string) (i : nat) : operand := {| op_name := s; op_index := Some i |}.
Definition cal (g : string) (m : list modifier) (a : list pexpr) (o : list operand) : call := {| c_gate := g; c_mods := m; c_args := a; c_ops := o |}.
(* gate twist(a) u, v { rx(a/2) u; ctrl @ inv @ rz(a) u, v; barrier u; }   ctrl @ inv @ twist(1) r, s[1], t;  with r and t of two qubits *)
Definition twist : gates := (standard_gates ++ [("twist", GComp ["a"] ["u"; "v"]
  [SCall (cal "rx" [] [PAp1 (fun x => x / 2)%R (PName "a")] [q "u"]); SCall (cal "rz" [MCtrl true None; MInv] [PName "a"] [q "u"; q "v"]); SBarrier [q "u"]])])%list.
Definition regs3 : cregs := [("r", (0, 2)); ("s", (2, 2)); ("t", (4, 2))].
Definition tcall : call := cal "twist" [MCtrl true None; MInv] [PNum 1] [q "r"; qi "s" 1; q "t"].
Definition std t p c ts := OStd {| o_type := t; o_par := p; o_ctl := c; o_tgt := ts |}.
Example C67_example : declared twist /\ plain_gates twist /\ plain_call twist tcall /\ evaluateGateCall 5 false twist [] regs3 tcall = ROk (OComp false
  [OComp true [std gBarrier [] [(0, true)] [3]; std gRZ [- - 1]%R [(3, true); (0, true)] [4]; std gRX [- (1 / 2)]%R [(0, true)] [3]];
   OComp true [std gBarrier [] [(1, true)] [3]; std gRZ [- - 1]%R [(3, true); (1, true)] [5]; std gRX [- (1 / 2)]%R [(1, true)] [3]]]).
Proof.
  split; [|split; [|split]].
  - apply declare; [apply DecStd|reflexivity|reflexivity].
  - intros id ps ts body I s J. apply in_app_iff in I. destruct I as [I|[I|[]]].
    + exfalso. unfold standard_gates in I. repeat (destruct I as [I|I]; [discriminate|]). destruct I.
    + injection I as <- <- <- <-. destruct J as [<-|[<-|[<-|[]]]]; auto; (split; [intros g E; injection E as <-; left; reflexivity|]); intros e x [<-|[]] K; cbn in K; destruct K as [<-|[]]; left; left; reflexivity.
  - intros g E. injection E as <-. left. reflexivity.
  - reflexivity.
Qed.

(* ---- counterexamples ----------------------------------------------------------------------------------------------- *)
(* the call is accepted, but for no meaning of it do the operations agree with it on all states *)
Definition mistranslated (G : gates) (E : env R) (regs : cregs) (c : call) : Prop := exists o, evaluateGateCall 9 false G E regs c = ROk o /\
  (exists fs, den_call G (fun s => env_find s E) regs c fs) /\
  forall fs, den_call G (fun s => env_find s E) regs c fs -> exists psi m, run_op o (psi, m) <> [(fold_left (fun p f => f p) fs psi, m)].

Definition abc : cregs := [("a", (0, 1)); ("b", (1, 1)); ("c", (2, 1))].
Ltac qsolve := repeat constructor; cbn; intuition discriminate.
Ltac stands1 := repeat constructor; eexists; eexists; (split; [reflexivity|]); cbn; auto.
Lemma one_round G glob regs c fs : den_call G glob regs c fs -> (forall o s n, In o (c_ops c) -> reg_find (op_name o) regs = Some (s, n) -> n = 1) ->
  exists f g ps qs, fs = [f] /\ map_find (c_gate c) G = Some g /\ Forall2 (fun e v => pval glob e = Some v) (c_args c) ps /\ Forall2 (stands regs 1 0) (c_ops c) qs /\ den_mods G glob (c_mods c) g ps qs f.
Proof.
  intros (g & ps & EG & EP & W & D) R. assert (L : List.length fs = 1) by (destruct W as [|(o & s & I & _ & J)]; [auto|eapply R; eauto]).
  destruct fs as [|f [|]]; try discriminate L. destruct (D 0 f eq_refl) as (qs & S & _ & M). exists f, g, ps, qs. auto.
Qed.
Lemma abc_one o s n : reg_find (op_name o) abc = Some (s, n) -> n = 1.
Proof. unfold abc. cbn [reg_find]. do 3 (destruct (String.eqb _ _); [intros E; injection E; auto|]). intros E. discriminate E. Qed.
Lemma stands_abc s qu i : reg_find s abc = Some (i, 1) -> stands abc 1 0 (q s) qu -> qu = i.
Proof. intros E (s' & n & F & K). cbn in F, K. unfold abc in E. cbn in E. rewrite E in F. injection F as <- <-. lia. Qed.

(* negctrl @ cx a, b, c: the negative control is put on b instead of a. *)
Definition ncx : call := cal "cx" [MCtrl false None] [] [q "a"; q "b"; q "c"].
Theorem C67_negctrl_refuted : mistranslated standard_gates [] abc ncx.
Proof.
  exists (std gX [] [(0, true); (1, false)] [2]). split; [reflexivity|]. split.
  - exists [controlled [(0, false)] (controlled [(1, true)] (apply (m2 C0 C1 C1 C0) [2]))]. exists (GStd gX 1 1 0), []. split; [reflexivity|]. split; [constructor|]. split; [left; reflexivity|]. intros [|[|j]] f E; try discriminate E. injection E as <-.
    exists [0; 1; 2]. split; [stands1|]. split; [qsolve|]. apply (DCtrl standard_gates (fun s => env_find s []) [] (GStd gX 1 1 0) [] [0] [1; 2] (controlled [(1, true)] (apply (m2 C0 C1 C1 C0) [2])) false None); [reflexivity|]. apply DGate. apply (DStd _ _ gX 1 1 0 [] [1] [2]); reflexivity.
  - intros fs D. destruct (one_round _ _ _ _ _ D) as (f & g & ps & qs & -> & EG & EP & S & M); [intros; eapply abc_one; eauto|]. injection EG as <-. inversion EP; subst.
    inversion S as [|? ? ? ? S1 S']; subst. inversion S' as [|? ? ? ? S2 S'']; subst. inversion S'' as [|? ? ? ? S3 S''']; subst. inversion S'''; subst.
    apply (stands_abc _ _ 0) in S1; [|reflexivity]. apply (stands_abc _ _ 1) in S2; [|reflexivity]. apply (stands_abc _ _ 2) in S3; [|reflexivity]. subst.
    inversion M as [| |? ? ? cq qs h pos cnt L M' EM EG EP' EQ EF]; subst. destruct cq as [|c0 [|]]; try discriminate L. injection EQ as -> ->.
    inversion M' as [? ? ? ? DG| |]; subst. inversion DG as [? ? ? ? ? cq tq N L0 L1 L2 GM A1 A2 A3 A4|]; subst. destruct cq as [|c1 [|]]; try discriminate L1. injection A3 as -> ->.
    injection GM as <-. exists (fun b : bits => if b 2 then C1 else C0), (fun _ => false). cbn [fold_left]. intros X. injection X as X. apply (f_equal (fun f : state => f (fun i => Nat.eqb i 1))) in X.
    revert X. unfold semf, std. cbn. unfold capply, controlled, apply. cbn. intros X. injection X. lra.
Qed.
Print Assumptions C67_negctrl_refuted.

(* const float x = 0; gate inner u { p(x) u; }  gate outer(x) u { inner u; }  outer(pi) a;  The inner gate uses the parameter of the outer one. *)
Definition scoped : gates := (standard_gates ++ [("inner", GComp [] ["u"] [SCall (cal "p" [] [PName "x"] [q "u"])]); ("outer", GComp ["x"] ["u"] [SCall (cal "inner" [] [] [q "u"])])])%list.
Theorem C67_scope_refuted : declared scoped /\ mistranslated scoped [[("x", 0%R)]] abc (cal "outer" [] [PNum PI] [q "a"]).
Proof.
  assert (DS : declared scoped).
  { unfold scoped. change [("inner", GComp [] ["u"] [SCall (cal "p" [] [PName "x"] [q "u"])]); ("outer", GComp ["x"] ["u"] [SCall (cal "inner" [] [] [q "u"])])]%list
      with ([("inner", GComp [] ["u"] [SCall (cal "p" [] [PName "x"] [q "u"])])] ++ [("outer", GComp ["x"] ["u"] [SCall (cal "inner" [] [] [q "u"])])])%list.
    rewrite app_assoc. apply declare; [apply declare; [apply DecStd|reflexivity|reflexivity]|reflexivity|reflexivity]. }
  split; [exact DS|]. exists (std gP [PI] [] [0]). split; [reflexivity|].
  assert (D0 : forall glob, glob "x" = Some 0%R -> forall f, den_mods scoped glob [] (GComp ["x"] ["u"] [SCall (cal "inner" [] [] [q "u"])]) [PI] [0] f -> f = controlled [] (apply (pMat 0) [0])).
  { intros glob EX f M. inversion M as [? ? ? ? DG| |]; subst. inversion DG as [|? ? ? ? ? ? L1 L2 DB]; subst. inversion DB as [| |? ? ? g ps qs f1 ? h EG EP EO N DM DB']; subst. inversion DB'; subst.
    injection EG as <-. inversion EP; subst. inversion EO as [|? ? ? ? [_ O1] EO']; subst. inversion EO'; subst. injection O1 as <-.
    inversion DM as [? ? ? ? DG2| |]; subst. inversion DG2 as [|? ? ? ? ? ? L3 L4 DB2]; subst. inversion DB2 as [| |? ? ? g2 ps2 qs2 f2 ? h2 EG2 EP2 EO2 N2 DM2 DB2']; subst. inversion DB2'; subst.
    injection EG2 as <-. inversion EP2 as [|? v ? ? EV EP3]; subst. inversion EP3; subst. cbn in EV. unfold inner in EV. cbn in EV. rewrite EX in EV. injection EV as <-.
    inversion EO2 as [|? ? ? ? [_ O2] EO3]; subst. inversion EO3; subst. injection O2 as <-.
    inversion DM2 as [? ? ? ? DG3| |]; subst. inversion DG3 as [? ? ? ? ? cq tq ? L5 L6 L7 GM A1 A2 A3 A4|]; subst. destruct cq; [|discriminate L6]. cbn in A3. subst. injection GM as <-. reflexivity. }
  split.
  - exists [controlled [] (apply (pMat 0) [0])]. exists (GComp ["x"] ["u"] [SCall (cal "inner" [] [] [q "u"])]), [PI]. split; [reflexivity|]. split; [repeat constructor|]. split; [left; reflexivity|].
    intros [|[|j]] f E; try discriminate E. injection E as <-. exists [0]. split; [stands1|]. split; [qsolve|]. apply DGate. apply DComp; try reflexivity.
    apply (DCall _ _ _ _ _ (GComp [] ["u"] [SCall (cal "p" [] [PName "x"] [q "u"])]) [] [0] (controlled [] (apply (pMat 0) [0])) [] (fun psi => psi)); [reflexivity|constructor|repeat constructor|qsolve| |constructor].
    apply DGate. apply DComp; try reflexivity.
    apply (DCall _ _ _ _ _ (GStd gP 0 1 1) [0%R] [0] (controlled [] (apply (pMat 0) [0])) [] (fun psi => psi)); [reflexivity|repeat constructor|repeat constructor|qsolve| |constructor].
    apply DGate. apply (DStd _ _ gP 0 1 1 [0%R] [] [0]); reflexivity.
  - intros fs D. destruct (one_round _ _ _ _ _ D) as (f & g & ps & qs & -> & EG & EP & S & M); [intros; eapply abc_one; eauto|]. injection EG as <-. inversion EP as [|? v ? ? EV EP']; subst. inversion EP'; subst. injection EV as <-.
    inversion S as [|? ? ? ? S1 S']; subst. inversion S'; subst. apply (stands_abc _ _ 0) in S1; [|reflexivity]. subst. apply D0 in M; [|reflexivity]. subst.
    exists (fun _ => C1), (fun _ => false). cbn [fold_left]. intros X. injection X as X. apply (f_equal (fun f : state => f (fun i => Nat.eqb i 0))) in X.
    revert X. unfold semf, std. cbn. unfold capply, controlled, apply. cbn. rewrite cos_PI, sin_PI, cos_0, sin_0. intros X. injection X. lra.
Qed.
Print Assumptions C67_scope_refuted.

(* gate g u { g u; } is accepted; a call of it recurses without end. *)
Definition looping : gates := (standard_gates ++ [("g", GComp [] ["u"] [SCall (cal "g" [] [] [q "u"])])])%list.
Theorem C67_recursion_refuted : declared looping /\ forall fuel E i, evaluateGateCall fuel false looping E [("u", (i, 1))] (cal "g" [] [] [q "u"]) = RUndef.
Proof.
  split; [apply declare; [apply DecStd|reflexivity|reflexivity]|]. induction fuel as [|fuel IH]; intros E i; [reflexivity|].
  cbn [evaluateGateCall]. cbn. fold looping. rewrite IH. reflexivity.
Qed.
Print Assumptions C67_recursion_refuted.

(* A declaration of a gate with the name of a built-in one is ignored, even if nothing was included: gate x u { h u; }  x a;  applies X.
   In the mode for OpenQASM 2, the declaration of cs is ignored likewise, and cfoo cannot be declared beside foo. *)
Definition hbody : list stmt := [SCall (cal "h" [] [] [q "u"])].
Theorem C67_redeclared_refuted : exists G', visitGateStatement false standard_gates "x" [] ["u"] hbody = ROk G' /\ evaluateGateCall 9 false G' [] abc (cal "x" [] [] [q "a"]) = ROk (std gX [] [] [0]) /\
  visitGateStatement true standard_gates "cs" [] ["u"; "v"] hbody = ROk standard_gates /\
  exists G1, visitGateStatement true standard_gates "foo" [] ["u"] hbody = ROk G1 /\ visitGateStatement true G1 "cfoo" [] ["u"] hbody = RError.
Proof. exists standard_gates. repeat split. eexists. split; reflexivity. Qed.
Print Assumptions C67_redeclared_refuted.
