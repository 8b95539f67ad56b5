(* Functionality, simulation, relayouting, measuring and sampling: C44-C48. *)
From Coq Require Import Reals Lra List Bool Arith Lia FunctionalExtensionality Permutation.
From Verif Require Import Cplx Qsem GateModel GateSpec GateProofs OpProofs IRModel IRSpec IRProofs OutcomeSpec OptModel
  OptDagProofs OptElideProofs OptResetProofs DDModel DDSpec DDProofs DDCanonProofs DDOpsProofs DDGateProofs DDStateProofs DDProps
  SimModel SimOpProofs SimPermProofs SimLoopProofs SimMeasProofs SimNormProofs SimSampleProofs SimStaticProofs.
Import ListNotations.
Local Open Scope R_scope.

(* --- C44: buildFunctionalityRecursive and buildFunctionality agree --------------------------------------- *)
(* circ_ok: the operations have diagrams, the layout is injective and holds all their qubits, and the
   output permutation speaks about qubits and levels of the layout *)
Theorem C44_recursive_partial : forall c, circ_ok c -> (2 <= length (qc_ops c))%nat ->
  exists e, buildFunctionality c = DOk e /\ buildFunctionalityRecursive c = DOk e.
Proof. exact functionality_recursive. Qed.
Print Assumptions C44_recursive_partial.

Lemma cp_loop_id {T} n (mul : medge -> T -> dres T) to : forall from on, (forall i g, In (i, g) to -> plookup from i = Some g) ->
  cp_loop n mul to from on = DOk (from, on).
Proof.
  induction to as [|[i g] to IH]; intros from on H; cbn [cp_loop]; auto.
  rewrite (H i g) by (cbn; auto). rewrite Nat.eqb_refl. apply IH. intros; apply H; cbn; auto.
Qed.
(* a single operation that is no SWAP, the outputs staying where the inputs were *)
Theorem C44_single_operation_partial : forall c o, circ_ok c -> qc_ops c = [o] -> is_swap o = None ->
  (forall i g, In (i, g) (qc_out c) -> plookup (qc_init c) i = Some g) ->
  exists e, buildFunctionality c = DOk e /\ buildFunctionalityRecursive c = DOk e.
Proof.
  intros c o (N & (P & F & K) & O) E S ID. rewrite E in F, K. inversion F as [|? ? D _]; subst. cbn [flat_map] in K. rewrite app_nil_r in K.
  destruct (pgood_pi _ _ P) as (pi & A & I).
  destruct (getDD_spec (qc_n c) (qc_init c) pi o A I D (pgood_placed _ _ _ _ P A K)) as (d & G & Cd & _).
  unfold buildFunctionality, buildFunctionalityRecursive. destruct (Nat.eqb_spec (qc_n c) 0); [lia|]. rewrite E. cbn [func_loop].
  rewrite S, G. cbn [dbind]. destruct (mm_spec (qc_n c) d mone Cd (mone_canon _)) as (r & R & Cr & Dr). rewrite R. cbn [dbind].
  assert (r = d) by (apply (mact_inj (qc_n c)); auto; intros psi; rewrite Dr, mact_mone; auto). subst r.
  exists d. unfold changePermutationM. rewrite cp_loop_id by auto. destruct (match snd d with MT => _ | _ => _ end); auto.
Qed.
Print Assumptions C44_single_operation_partial.

(* a barrier on two qubits whose outputs are exchanged: the recursive construction returns the identity *)
Definition xout (ops : list cop) : qcirc := {| qc_n := 2; qc_ops := ops; qc_init := [(0, 0); (1, 1)]%nat; qc_out := [(0, 1); (1, 0)]%nat; qc_phase := 0 |}.
Definition bar (qs : list nat) : cop := OStd {| o_type := gBarrier; o_par := []; o_ctl := []; o_tgt := qs |}.
Definition hop (q : nat) : cop := OStd {| o_type := gH; o_par := []; o_ctl := []; o_tgt := [q] |}.
Definition xop (q : nat) : cop := OStd {| o_type := gX; o_par := []; o_ctl := []; o_tgt := [q] |}.
Definition cxop (c q : nat) : cop := OStd {| o_type := gX; o_par := []; o_ctl := [(c, true)]; o_tgt := [q] |}.
Lemma pgood2 : pgood 2 [(0, 0); (1, 1)]%nat.
Proof.
  apply pgood_of; [discriminate| |].
  - split; repeat constructor; cbn; intuition lia.
  - repeat constructor.
Qed.
Lemma bar_ok qs : NoDup qs -> dd_ok (bar qs).
Proof.
  intros N. split; [split; [split; [auto|intros c []]|eexists; reflexivity]|]. split; [constructor|]. split; [exact Logic.I|discriminate].
Qed.
Lemma hop_ok q : dd_ok (hop q).
Proof.
  split; [split; [split; [repeat constructor; intros []|intros c []]|eexists; reflexivity]|]. split; [constructor|]. split; [exact Logic.I|discriminate].
Qed.
Lemma xop_ok q : dd_ok (xop q).
Proof.
  split; [split; [split; [repeat constructor; intros []|intros c []]|eexists; reflexivity]|]. split; [constructor|]. split; [exact Logic.I|discriminate].
Qed.
Lemma cxop_ok c q : c <> q -> dd_ok (cxop c q).
Proof.
  intros N. split; [split; [split; [repeat constructor; intros []|intros x [<-|[]] [X|[]]; cbn in X; congruence]|eexists; reflexivity]|].
  split; [repeat constructor; intros []|]. split; [split; [intros x []|exact Logic.I]|discriminate].
Qed.
Lemma xout_ok ops : Forall dd_ok ops -> incl (flat_map used ops) [0; 1]%nat -> circ_ok (xout ops).
Proof.
  intros F K. split; [cbn; lia|]. split; [split; [apply pgood2|split; [auto|exact K]]|].
  split; [repeat constructor; cbn; intuition lia|]. split; [repeat constructor; cbn; intuition lia|].
  intros i g [H|[H|[]]]; injection H as <- <-; (split; [cbn; auto|]); [exists 1%nat|exists 0%nat]; auto.
Qed.
Theorem C44_single_operation_refuted : exists c e e', circ_ok c /\ length (qc_ops c) = 1%nat /\ buildFunctionality c = DOk e /\
  buildFunctionalityRecursive c = DOk e' /\ exists psi, mact (qc_n c) e psi <> mact (qc_n c) e' psi.
Proof.
  set (c := xout [bar [0%nat; 1%nat]]).
  assert (OK : circ_ok c). { apply xout_ok; [constructor; [apply bar_ok; repeat constructor; cbn; intuition lia|constructor]|intros x X; exact X]. }
  destruct (changeM 2 [(0, 0); (1, 1)]%nat [(0, 1); (1, 0)]%nat mone) as (sg & f' & f1 & e' & E & Ce & M & P & [MV MT'] & _).
  - destruct OK as (_ & _ & O). apply (out_cp 2 [(0, 0); (1, 1)]%nat); auto using pgood2, same_dom_refl.
  - apply mone_canon.
  - exists c, e', mone. split; [auto|]. split; [auto|]. split; [|split].
    + destruct (mm_spec 2 mone mone (mone_canon 2) (mone_canon 2)) as (r & R & Cr & Dr).
      assert (r = mone) by (apply (mact_inj 2); auto using mone_canon; intros psi; rewrite Dr, mact_mone; auto). subst r.
      unfold buildFunctionality. cbn [c xout qc_n qc_ops qc_init qc_out Nat.eqb func_loop is_swap getDD bar o_type dbind].
      rewrite R. cbn [dbind]. rewrite E. auto.
    + reflexivity.
    + exists (fun b : bits => if b 0%nat then C1 else C0). cbn [c xout qc_n]. rewrite M, mact_mone. intros X.
      assert (S : sg 0%nat = 1%nat).
      { pose proof (MV 0%nat) as Y. rewrite (MT' 0%nat 1%nat) in Y by (cbn; auto). cbn in Y. congruence. }
      apply (f_equal (fun g : state => g (fun q => Nat.eqb q 0))) in X. unfold move in X. rewrite S in X. cbn in X. symmetry in X. now apply C1_neq_C0.
Qed.
Print Assumptions C44_single_operation_refuted.
(* the recursive construction does not handle the empty circuit *)
Theorem C44_empty_refuted : exists c e, circ_ok c /\ buildFunctionality c = DOk e /\ buildFunctionalityRecursive c = DUb.
Proof.
  set (c := {| qc_n := 2; qc_ops := []; qc_init := [(0, 0); (1, 1)]%nat; qc_out := [(0, 0); (1, 1)]%nat; qc_phase := 0 |}).
  exists c, mone. split; [|split; [|reflexivity]].
  - split; [cbn; lia|]. split; [split; [apply pgood2|split; [constructor|intros x []]]|].
    split; [repeat constructor; cbn; intuition lia|]. split; [repeat constructor; cbn; intuition lia|].
    intros i g [H|[H|[]]]; injection H as <- <-; (split; [cbn; auto|]); [exists 0%nat|exists 1%nat]; auto.
  - unfold buildFunctionality. cbn [c qc_n qc_ops Nat.eqb func_loop dbind]. unfold changePermutationM.
    rewrite cp_loop_id by (intros i g [H|[H|[]]]; injection H as <- <-; auto). destruct (match snd mone with MT => _ | _ => _ end); auto.
Qed.
Print Assumptions C44_empty_refuted.

(* a Bell circuit with a SWAP and exchanged outputs *)
Definition swop (a b : nat) : cop := OStd {| o_type := gSWAP; o_par := []; o_ctl := []; o_tgt := [a; b] |}.
Lemma swop_ok a b : a <> b -> dd_ok (swop a b).
Proof.
  intros N. split; [split; [split; [repeat constructor; cbn; intuition congruence|intros c []]|eexists; reflexivity]|].
  split; [constructor|]. split; [exact Logic.I|discriminate].
Qed.
Lemma bell_ok : circ_ok (xout [hop 0; swop 0 1; cxop 1 0]).
Proof.
  apply xout_ok.
  - constructor; [apply hop_ok|]. constructor; [apply swop_ok; lia|]. constructor; [apply cxop_ok; lia|constructor].
  - intros x X. cbn in X. cbn. intuition lia.
Qed.
Example C44_ex : exists e, buildFunctionality (xout [hop 0; swop 0 1; cxop 1 0]) = DOk e /\
  buildFunctionalityRecursive (xout [hop 0; swop 0 1; cxop 1 0]) = DOk e.
Proof. apply C44_recursive_partial; [apply bell_ok|cbn; lia]. Qed.

(* --- C45: the functionality applied to a state is the simulation ------------------------------------------ *)
Theorem C45_simulate_partial : forall c inp, circ_ok c -> vcanon (qc_n c) inp ->
  exists f r out, buildFunctionality c = DOk f /\ multiplyMV f inp = DOk r /\ simulate c inp = DOk out /\
    veden out = sscal (Cexp (qc_phase c)) (veden r) /\ (qc_phase c = 0 -> out = r).
Proof. exact functionality_simulate. Qed.
Print Assumptions C45_simulate_partial.
(* simulation carries out the operations and the global phase; pi and pi' give the levels of the qubits
   before and after, as the initial layout and the output permutation demand *)
Theorem C45_simulate_meaning : forall c inp, circ_ok c -> vcanon (qc_n c) inp ->
  exists out, simulate c inp = DOk out /\ vcanon (qc_n c) out /\
    forall pi psi, agrees_out pi (qc_init c) -> inj pi -> veden inp = move pi psi ->
    exists pi' chi, inj pi' /\ agrees_out pi' (qc_out c) /\ (permutes (qc_n c) pi -> permutes (qc_n c) pi') /\
      (forall m, run_qc c (psi, m) = [(chi, m)]) /\ veden out = move pi' chi.
Proof. exact simulate_correct. Qed.
Print Assumptions C45_simulate_meaning.

(* the state with all qubits 0 *)
Definition zstate (n : nat) : state := fun b => if forallb (fun k => negb (b k)) (seq 0 n) then C1 else C0.
Definition zket (n : nat) : vedge := zero_loop n 0.
Lemma move_id' psi : move (fun q => q) psi = psi. Proof. reflexivity. Qed.
Lemma zket_good n : dgood n (fun q => q) (zket n) (zstate n).
Proof.
  destruct (zero_loop_spec n 0) as (A & B & D). split; [apply B; auto|]. split; [unfold zket; rewrite A; apply Cnorm2_1|].
  rewrite move_id'. apply functional_extensionality. intros b. unfold zket. rewrite D. reflexivity.
Qed.
Lemma zstate_0 n : zstate n zeros = C1.
Proof. unfold zstate. replace (forallb (fun k => negb (zeros k)) (seq 0 n)) with true; auto. symmetry. apply forallb_forall. auto. Qed.
(* circuits on n qubits that stay in place *)
Definition idp (n : nat) : perm := map (fun q => (q, q)) (seq 0 n).
Definition plain (n : nat) (ops : list cop) (phase : R) : qcirc := {| qc_n := n; qc_ops := ops; qc_init := idp n; qc_out := idp n; qc_phase := phase |}.
Lemma idp_fst n : map fst (idp n) = seq 0 n.
Proof. unfold idp. rewrite map_map. apply map_id. Qed.
Lemma idp_snd n : map snd (idp n) = seq 0 n.
Proof. unfold idp. rewrite map_map. apply map_id. Qed.
Lemma idp_look n q l : plookup (idp n) q = Some l -> q = l.
Proof. intros H. apply plookup_In in H. unfold idp in H. apply in_map_iff in H. destruct H as (x & E & _). congruence. Qed.
Lemma idp_good n : (0 < n)%nat -> pgood n (idp n).
Proof.
  intros N. apply pgood_of.
  - destruct n; [lia|discriminate].
  - split; [rewrite idp_fst|rewrite idp_snd]; apply seq_NoDup.
  - apply Forall_forall. intros x X. unfold idp in X. apply in_map_iff in X. destruct X as (q & <- & Q). apply in_seq in Q. cbn. lia.
Qed.
Lemma idp_out n : out_ok (idp n) (idp n).
Proof.
  split; [rewrite idp_fst; apply seq_NoDup|]. split; [rewrite idp_snd; apply seq_NoDup|]. intros i g H.
  assert (i = g) by (unfold idp in H; apply in_map_iff in H; destruct H as (x & E & _); congruence). subst g.
  split; [apply (in_map fst) in H; exact H|]. exists i. apply plookup_complete; auto. rewrite idp_fst. apply seq_NoDup.
Qed.
Lemma idp_agrees n : agrees (fun q => q) (idp n).
Proof.
  intros q r H. destruct (idp n) as [|x l] eqn:E; [unfold papply in H; congruence|]. rewrite papply_nonnil, <- E in H by discriminate.
  now apply idp_look in H.
Qed.
Lemma plain_ok n ops phase : (0 < n)%nat -> Forall dd_ok ops -> (forall q, In q (flat_map used ops) -> (q < n)%nat) -> circ_ok (plain n ops phase).
Proof.
  intros N F K. split; [auto|]. split; [|apply idp_out]. split; [apply idp_good; auto|]. split; [auto|].
  intros q Q. unfold keys. cbn [plain qc_init]. rewrite idp_fst. apply in_seq. specialize (K q Q). lia.
Qed.

(* the functionality lacks the global phase *)
Lemma Cexp_PI : Cexp PI = Copp C1.
Proof. unfold Cexp. rewrite cos_PI, sin_PI. apply Ceq; cbn; ring. Qed.
Theorem C45_global_phase_refuted : exists c inp f r out, circ_ok c /\ vcanon (qc_n c) inp /\ buildFunctionality c = DOk f /\
  multiplyMV f inp = DOk r /\ simulate c inp = DOk out /\ veden out <> veden r.
Proof.
  set (c := plain 1 [xop 0] PI).
  assert (OK : circ_ok c).
  { apply plain_ok; [lia|constructor; [apply xop_ok|constructor]|]. intros q [<-|[]]. lia. }
  destruct (zket_good 1) as (Cz & Wz & Dz).
  destruct (C45_simulate_partial c (zket 1) OK Cz) as (f & r & out & Ef & Er & Eo & D & _).
  exists c, (zket 1), f, r, out. split; [auto|]. split; [auto|]. split; [auto|]. split; [auto|]. split; [auto|].
  destruct (C45_simulate_meaning c (zket 1) OK Cz) as (out' & Eo' & Co & M). rewrite Eo in Eo'. injection Eo' as <-.
  destruct (M (fun q => q) (zstate 1)) as (pi' & chi & I & A & PP & R & V).
  { intros q l H. now apply idp_look in H. } { intros x y H. exact H. } { rewrite Dz. reflexivity. }
  intros X. assert (Z : veden out = fun _ => C0).
  { apply functional_extensionality. intros b. pose proof (f_equal (fun g : state => g b) D) as Y. rewrite <- X in Y. unfold sscal in Y. cbn [c plain qc_phase] in Y.
    rewrite Cexp_PI in Y. destruct (veden out b) as [x y]. injection Y as Y1 Y2. apply Ceq; cbn; lra. }
  rewrite V in Z. apply (move_zero 1) in Z; [|apply PP, permutes_id].
  specialize (R zeros). unfold run_qc in R. cbn [c plain qc_ops qc_phase] in R. rewrite run_uacts' in R by (constructor; [apply xop_ok|constructor]).
  assert (R' : sscal (Cexp PI) (uacts [xop 0] (zstate 1)) = chi) by (cbn [map fst snd] in R; congruence). clear R. pose proof (f_equal (fun g : state => g (setb zeros 0 true)) R') as Y. rewrite Z in Y. unfold sscal in Y.
  rewrite Cexp_PI in Y.
  assert (U : uacts [xop 0] (zstate 1) (setb zeros 0 true) = C1).
  { unfold uacts, zstate. cbn. unfold semf. cbn. unfold capply, apply, csum. cbn. apply Ceq; cbn; ring. }
  rewrite U in Y. injection Y as Y. lra.
Qed.
Print Assumptions C45_global_phase_refuted.

(* the controls of a global phase are ignored *)
Definition cphase (q : nat) (x : R) : cop := OStd {| o_type := gGPhase; o_par := [x]; o_ctl := [(q, true)]; o_tgt := [] |}.
Theorem C45_controlled_phase_refuted : exists n ops inp out chi, vcanon n inp /\ simulate (plain n ops 0) inp = DOk out /\
  (forall m, run ops (veden inp, m) = [(chi, m)]) /\ veden out <> chi.
Proof.
  destruct (zket_good 1) as (Cz & Wz & Dz).
  destruct (mv_spec 1 (Cexp PI, MT) (zket 1) Logic.I Cz) as (r & E & Cr & Dr).
  exists 1%nat, [cphase 0 PI], (zket 1), r, (semf {| o_type := gGPhase; o_par := [PI]; o_ctl := [(0%nat, true)]; o_tgt := [] |} (veden (zket 1))).
  split; [auto|]. split; [|split; [reflexivity|]].
  - unfold simulate. cbn [plain qc_n qc_ops qc_init qc_out qc_phase sim_loop is_swap cphase getDD o_type o_par dbind]. rewrite E. cbn [dbind].
    unfold changePermutationV. rewrite cp_loop_id by (intros i g [H|[]]; injection H as <- <-; auto).
    destruct (match snd r with VT => _ | _ => _ end); cbn [dbind]; rewrite Rabs_R0; destruct (Rlt_dec 0 0); auto; lra.
  - rewrite Dr, mact_MT, Dz, move_id'. intros X. apply (f_equal (fun g : state => g zeros)) in X. unfold sscal in X. rewrite Cexp_PI in X.
    assert (S : semf {| o_type := gGPhase; o_par := [PI]; o_ctl := [(0%nat, true)]; o_tgt := [] |} (zstate 1) zeros = zstate 1 zeros) by reflexivity.
    rewrite S, zstate_0 in X.
    injection X as X. lra.
Qed.
Print Assumptions C45_controlled_phase_refuted.
Example C45_ex : exists out, simulate (xout [hop 0; swop 0 1; cxop 1 0]) (zket 2) = DOk out /\ vcanon 2 out.
Proof. destruct (C45_simulate_meaning _ (zket 2) bell_ok) as (out & E & Co & _); [apply (zket_good 2)|]. exists out. auto. Qed.

(* --- C46: changePermutation -------------------------------------------------------------------------------- *)
(* sg is the movement of the levels: content and layout are moved alike, and the layout reaches 'to' *)
Theorem C46_vector_partial : forall n e from to, cp_ok n from to -> vcanon n e -> fst e <> C0 ->
  exists sg from' e', changePermutationV n e from to = DOk (from', e') /\ vcanon n e' /\ permutes n sg /\
    veden e' = move sg (veden e) /\ (forall i, plookup from' i = option_map sg (plookup from i)) /\
    (forall i g, In (i, g) to -> plookup from' i = Some g).
Proof.
  intros n e from to K V W. destruct (changeV n from to e K V) as (sg & f' & f1 & e' & E & Ce & M & P & [M1 M2] & F).
  assert (FF : f' = f1) by (apply F; destruct (snd e); auto; unfold ezero; destruct (Ceq_dec (fst e) C0); tauto).
  subst f'. exists sg, f1, e'. auto 10.
Qed.
Print Assumptions C46_vector_partial.
Theorem C46_matrix_partial : forall n (regular : bool) e from to, cp_ok n from to -> mcanon n e -> fst e <> C0 ->
  exists sg from' e', changePermutationM n regular e from to = DOk (from', e') /\ mcanon n e' /\ permutes n sg /\
    (forall psi, if regular then mact n e' psi = move sg (mact n e psi) else mact n e' (move sg psi) = mact n e psi) /\
    (forall i, plookup from' i = option_map sg (plookup from i)) /\
    (forall i g, In (i, g) to -> plookup from' i = Some g).
Proof.
  intros n regular e from to K V W. unfold changePermutationM.
  replace (match snd e with MT => ezero (fst e) | _ => false end) with false
    by (destruct (snd e); auto; unfold ezero; destruct (Ceq_dec (fst e) C0); tauto).
  destruct regular.
  - destruct (cpM_spec n from to e K V) as (sg & f1 & e1 & E & C1 & M & P & _ & M1 & M2). exists sg, f1, e1. auto 10.
  - destruct (cpMr_spec n from to e K V) as (sg & f1 & e1 & E & C1 & M & P & _ & M1 & M2). exists sg, f1, e1. auto 10.
Qed.
Print Assumptions C46_matrix_partial.

(* a level that no qubit occupies: qubit 0 is taken instead and loses its place *)
Theorem C46_free_level_refuted : exists n e from to from' e', perm_ok from /\ perm_ok to /\
  (forall i g, In (i, g) to -> In i (keys from) /\ (g < n)%nat) /\ vcanon n e /\ fst e <> C0 /\
  changePermutationV n e from to = DOk (from', e') /\ exists i g, In (i, g) to /\ plookup from' i <> Some g.
Proof.
  set (from := [(0, 0); (1, 2)]%nat). set (to := [(0, 0); (1, 1)]%nat).
  destruct (zket_good 3) as (Cz & Wz & _).
  destruct (swap_gate 3 2 0) as (s & Es & Cs & Ds); [lia|lia|lia|].
  destruct (mv_spec 3 s (zket 3) Cs Cz) as (r & Er & Cr & Dr).
  exists 3%nat, (zket 3), from, to, [(0, 2); (1, 1)]%nat, r.
  split; [split; repeat constructor; cbn; intuition lia|]. split; [split; repeat constructor; cbn; intuition lia|]. split.
  { intros i g [H|[H|[]]]; injection H as <- <-; cbn; auto. }
  split; [auto|]. split; [intros X; rewrite X, Cnorm2_0 in Wz; lra|]. split.
  - unfold changePermutationV. replace (match snd (zket 3) with VT => ezero (fst (zket 3)) | _ => false end) with false.
    2:{ destruct (snd (zket 3)); auto. unfold ezero. destruct (Ceq_dec (fst (zket 3)) C0) as [X|]; auto. rewrite X, Cnorm2_0 in Wz; lra. }
    cbn [to from cp_loop plookup Nat.eqb find_val]. rewrite Es. cbn [dbind]. rewrite Er. cbn [dbind]. reflexivity.
  - exists 0%nat, 0%nat. split; [cbn; auto|]. discriminate.
Qed.
Print Assumptions C46_free_level_refuted.
(* the zero vector is returned unchanged together with its layout *)
Theorem C46_zero_refuted : exists n from to e, cp_ok n from to /\ vcanon n e /\ exists from', changePermutationV n e from to = DOk (from', e) /\
  exists i g, In (i, g) to /\ plookup from' i <> Some g.
Proof.
  exists 2%nat, [(0, 0); (1, 1)]%nat, [(0, 1); (1, 0)]%nat, vzero. split.
  - destruct bell_ok as (_ & (P & _) & O). apply (out_cp 2 [(0, 0); (1, 1)]%nat); auto using same_dom_refl.
  - split; [apply vcanon_zero|]. exists [(0, 0); (1, 1)]%nat. split.
    + unfold changePermutationV, vzero. cbn [fst snd]. unfold ezero. destruct (Ceq_dec C0 C0); [auto|tauto].
    + exists 0%nat, 1%nat. split; [cbn; auto|discriminate].
Qed.
Print Assumptions C46_zero_refuted.
(* |01> over three levels, cyclically moved *)
Example C46_ex : exists sg from' e', changePermutationV 3 (zket 3) [(0, 0); (1, 1); (2, 2)]%nat [(0, 1); (1, 2); (2, 0)]%nat = DOk (from', e') /\
  sg 0%nat = 1%nat /\ sg 1%nat = 2%nat /\ sg 2%nat = 0%nat /\ veden e' = move sg (veden (zket 3)).
Proof.
  destruct (zket_good 3) as (Cz & Wz & _).
  destruct (C46_vector_partial 3 (zket 3) [(0, 0); (1, 1); (2, 2)]%nat [(0, 1); (1, 2); (2, 0)]%nat) as (sg & f & e & E & _ & _ & D & M1 & M2); auto.
  - split; [repeat constructor; cbn; intuition lia|]. split.
    { intros a b v. cbn. destruct a as [|[|[|a]]], b as [|[|[|b]]]; cbn; congruence. }
    split. { intros a v. cbn. destruct a as [|[|[|a]]]; cbn; intros H; inversion H; lia. }
    split; [repeat constructor; cbn; intuition lia|]. split; [repeat constructor; cbn; intuition lia|].
    intros i g [H|[H|[H|[]]]]; injection H as <- <-; (split; [eexists; reflexivity|]); [exists 1%nat|exists 2%nat|exists 0%nat]; auto.
  - intros X. rewrite X, Cnorm2_0 in Wz. lra.
  - exists sg, f, e. split; [auto|].
    pose proof (M1 0%nat) as A0. rewrite (M2 0%nat 1%nat) in A0 by (cbn; auto). cbn in A0.
    pose proof (M1 1%nat) as A1. rewrite (M2 1%nat 2%nat) in A1 by (cbn; auto). cbn in A1.
    pose proof (M1 2%nat) as A2. rewrite (M2 2%nat 0%nat) in A2 by (cbn; auto). cbn in A2.
    split; [congruence|]. split; [congruence|]. split; [congruence|]. auto.
Qed.

(* --- C48: measuring one qubit ------------------------------------------------------------------------------ *)
(* The two probabilities, for a vector of any norm, add up to its squared norm. *)
Theorem C48_probabilities : forall n e index, vcanon n e -> fst e <> C0 -> (index < n)%nat ->
  exists p0 p1, determineMeasurementProbabilities e index = DOk (p0, p1) /\
    p0 = weight n (project index false (veden e)) /\ p1 = weight n (project index true (veden e)) /\
    p0 + p1 = weight n (veden e).
Proof.
  intros n e index V W L. do 2 eexists. split; [apply (probabilities_spec n); auto|]. split; [auto|]. split; [auto|].
  symmetry. apply weight_split.
Qed.
Print Assumptions C48_probabilities.
(* A normalised state collapses to outcome 0 with the Born probability p0, to outcome 1 with p1 = 1 - p0; the
   result is the renormalised projection. *)
Theorem C48_measureOneCollapsing : forall n e index, vcanon n e -> Cnorm2 (fst e) = 1 -> (index < n)%nat ->
  let p0 := weight n (project index false (veden e)) in
  let p1 := weight n (project index true (veden e)) in
  p0 + p1 = 1 /\ 0 <= p0 /\ 0 <= p1 /\
  exists r0 r1, measureOneCollapsing n e index = RFlip p0 (RRet r0) (RRet r1) /\
    (0 < p0 -> exists v, r0 = DOk (false, v) /\ vcanon n v /\ Cnorm2 (fst v) = 1 /\
       veden v = sscal (RtoC (/ sqrt p0)) (project index false (veden e))) /\
    (0 < p1 -> exists v, r1 = DOk (true, v) /\ vcanon n v /\ Cnorm2 (fst v) = 1 /\
       veden v = sscal (RtoC (/ sqrt p1)) (project index true (veden e))).
Proof. exact measureOne_spec. Qed.
Print Assumptions C48_measureOneCollapsing.
(* the zero vector has no top node *)
Theorem C48_zero_vector_refuted : exists n e index, vcanon n e /\ (index < n)%nat /\ determineMeasurementProbabilities e index = DUb.
Proof. exists 1%nat, vzero, 0%nat. split; [apply vcanon_zero|]. split; [lia|reflexivity]. Qed.
Print Assumptions C48_zero_vector_refuted.
Example C48_ex : exists r0 r1, measureOneCollapsing 2 (zket 2) 1 = RFlip 1 (RRet r0) (RRet r1).
Proof.
  destruct (zket_good 2) as (Cz & Wz & Dz). destruct (C48_measureOneCollapsing 2 (zket 2) 1 Cz Wz) as (_ & _ & _ & r0 & r1 & E & _); [lia|].
  exists r0, r1. rewrite E. f_equal. rewrite Dz, move_id'. unfold weight, project, zstate. cbn. unfold setb. cbn. unfold Cnorm2. cbn. ring.
Qed.

(* --- C47: sampling ------------------------------------------------------------------------------------------- *)
(* a reset, a condition, or an operation after a measurement *)
Fixpoint dyn (seen : bool) (l : list cop) : bool :=
  match l with
  | [] => false
  | (OClass _ _ | OReset _) :: _ => true
  | OMeas _ _ :: r => dyn true r
  | (OStd _ | OComp _ _) :: r => seen || dyn seen r
  end.
Definition pairs (l : list cop) : list (nat * nat) := flat_map (fun o => match o with OMeas qs cs => combine qs cs | _ => [] end) l.
Lemma dyn_meas ms seen : dyn seen (map measop ms) = false.
Proof. revert seen. induction ms as [|x ms IH]; intros seen; cbn; auto. Qed.
Lemma dyn_static us ms : Forall (fun o => cunitary o = true) us -> dyn false (us ++ map measop ms) = false.
Proof.
  intros F. induction F as [|o us U F IH]; cbn [app]; [apply dyn_meas|]. destruct o; try discriminate U; exact IH.
Qed.
Lemma pairs_static us ms : Forall (fun o => cunitary o = true) us -> pairs (us ++ map measop ms) = flatm ms.
Proof.
  intros F. unfold pairs. rewrite flat_map_app. replace (flat_map _ us) with (@nil (nat * nat)).
  - cbn [app]. unfold flatm. induction ms as [|x ms IH]; cbn; auto. now rewrite IH.
  - induction F as [|o us U F IH]; cbn; auto. destruct o; try discriminate U; exact IH.
Qed.

(* One shot ends with classical bits satisfying f with the probability the semantics of the circuit
   assigns to them, whatever f.  Static circuits must not measure a qubit or write a bit twice and must
   have an output for every measured qubit. *)
Theorem C47_sample_partial : forall c nb noRegs inp psi pi f,
  pgood (qc_n c) (qc_init c) -> out_ok (qc_init c) (qc_out c) -> Forall (shot_ok nb (keys (qc_init c))) (qc_ops c) ->
  agrees pi (qc_init c) -> permutes (qc_n c) pi -> dgood (qc_n c) pi inp psi -> (noRegs = true -> nb <= qc_n c)%nat ->
  dyn false (qc_ops c) = true \/
    (exists qs cs, In (OMeas qs cs) (qc_ops c)) /\ NoDup (map fst (pairs (qc_ops c))) /\ NoDup (map snd (pairs (qc_ops c))) /\
    (forall q b, In (q, b) (pairs (qc_ops c)) -> In q (map fst (qc_out c))) ->
  rprob f (sample_shot c nb noRegs inp) = ends (qc_n c) f (run (qc_ops c) (psi, fun _ => false)).
Proof.
  intros c nb noRegs inp psi pi f P O F A PI D NB H. unfold sample_shot.
  assert (LE : Forall lens (qc_ops c)).
  { apply Forall_forall. intros o I. rewrite Forall_forall in F. specialize (F o I). destruct o; cbn in *; tauto. }
  destruct (scan_cases (qc_ops c) LE false []) as [(h & m' & E)|(us & ms & Eo & FU & _ & E)]; rewrite E; cbn [rlift].
  - rewrite (shot_spec (qc_n c) nb f (qc_ops c) (qc_init c) pi inp psi) by auto. reflexivity.
  - rewrite Eo in H. rewrite dyn_static, pairs_static in H by auto. destruct H as [|((qs & cs & I) & N1 & N2 & Q)]; [discriminate|].
    destruct ms as [|m ms].
    { exfalso. cbn [map] in I. rewrite app_nil_r in I. rewrite Forall_forall in FU. specialize (FU _ I). discriminate. }
    cbn [orb negb]. rewrite Eo in F. apply Forall_app in F. destruct F as [Fu Fm].
    apply (static_meas_spec f (qc_n c) us (m :: ms) (qc_init c) (qc_out c) pi); auto.
    + split; [auto|]. split.
      * apply Forall_forall. intros o X. rewrite Forall_forall in Fu, FU. specialize (Fu o X). specialize (FU o X).
        destruct o; try discriminate FU; apply Fu.
      * intros q X. apply in_flat_map in X. destruct X as (o & Io & X). rewrite Forall_forall in Fu, FU. specialize (Fu o Io). specialize (FU o Io).
        destruct o; try discriminate FU; apply Fu; auto.
    + intros [q b] X. split; [apply (Q q b X)|]. unfold flatm in X. apply in_flat_map in X. destruct X as (y & Iy & X).
      rewrite Forall_forall in Fm. specialize (Fm (measop y) (in_map measop _ _ Iy)). destruct Fm as (_ & _ & B).
      rewrite Forall_forall in B. cbn [snd]. specialize (B b (in_combine_r _ _ _ _ X)). destruct noRegs; [specialize (NB eq_refl); lia|auto].
Qed.
Print Assumptions C47_sample_partial.
(* without measurements: all outputs, when they stay in place, are measured into the bits of their index *)
Theorem C47_no_measurement_partial : forall c nb noRegs inp psi pi f,
  pgood (qc_n c) (qc_init c) -> out_ok (qc_init c) (qc_out c) -> Forall dd_ok (qc_ops c) -> incl (flat_map used (qc_ops c)) (keys (qc_init c)) ->
  agrees pi (qc_init c) -> permutes (qc_n c) pi -> dgood (qc_n c) pi inp psi -> (noRegs = false -> qc_n c <= nb)%nat ->
  (forall q b, In (q, b) (qc_out c) -> q = b) ->
  rprob f (sample_shot c nb noRegs inp)
  = ends (qc_n c) f (run (qc_ops c ++ [OMeas (map fst (qc_out c)) (map snd (qc_out c))]) (psi, fun _ => false)).
Proof.
  intros c nb noRegs inp psi pi f P O F K A PI D NB ID. unfold sample_shot.
  assert (FU : Forall (fun o => cunitary o = true) (qc_ops c)).
  { revert F. apply Forall_impl. intros o X. destruct o; auto; destruct X. }
  assert (E : scan (qc_ops c) false true [] = DOk (false, false, [])).
  { clear - FU. induction FU as [|o l U FU IH]; auto. destruct o; try discriminate U; exact IH. }
  rewrite E. cbn [rlift]. apply (static_nomeas_spec f (qc_n c) (qc_ops c) (qc_init c) (qc_out c) pi); auto.
  - split; auto.
  - destruct noRegs; auto.
  - intros [q b] X. apply (ID q b X).
Qed.
Print Assumptions C47_no_measurement_partial.

(* all shots end: the probabilities of the branches add up *)
Lemma measure_total n l : forall psi m, ends n (fun _ => true) (measure_all l (psi, m)) = weight n psi.
Proof.
  intros psi m. rewrite measure_ends. unfold weight. rewrite weight_wsum. apply wsum_ext. intros c. unfold ind. ring.
Qed.
Lemma reset_total n l : (forall q, In q l -> (q < n)%nat) -> forall psi m, ends n (fun _ => true) (reset_all l (psi, m)) = weight n psi.
Proof.
  induction l as [|q l IH]; intros L psi m.
  - unfold ends. cbn. ring.
  - cbn [reset_all]. unfold ends. rewrite rsum_flat. unfold reset1. cbn [rsum fold_right fst snd].
    change (ends n (fun _ => true) (reset_all l (project q false psi, m)) + (ends n (fun _ => true) (reset_all l (flip q (project q true psi), m)) + 0) = weight n psi).
    rewrite !IH by (intros; apply L; cbn; auto). rewrite weight_flip by (apply L; cbn; auto). rewrite (weight_split n q psi). ring.
Qed.
Lemma run_total n nb K l : (forall q, In q K -> (q < n)%nat) -> Forall (shot_ok nb K) l -> forall psi m,
  ends n (fun _ => true) (run l (psi, m)) = weight n psi.
Proof.
  intros LK F. induction F as [|o l H F IH]; intros psi m; [unfold ends; cbn; ring|].
  change (ends n (fun _ => true) (run (o :: l) (psi, m))) with (val_of n (fun _ => true) (o :: l) psi m). rewrite val_cons.
  transitivity (rsum (run_op o (psi, m)) (fun x => weight n (fst x))); [apply rsum_ext; intros x _; apply IH|].
  change (ends n (fun _ => true) (run_op o (psi, m)) = weight n psi).
  assert (G : forall o, dd_ok o -> incl (used o) K -> ends n (fun _ => true) (run_op o (psi, m)) = weight n psi).
  { intros o' D U. rewrite run_uact by auto. unfold ends. cbn [rsum fold_right fst snd]. rewrite weight_uact by auto. ring. }
  destruct o as [s|qs cs|qs|c o|cu ops]; cbn [shot_ok] in H.
  - apply G; tauto.
  - apply measure_total.
  - apply reset_total. auto.
  - cbn [run_op snd]. destruct (cond_holds c m); [apply G; tauto|unfold ends; cbn; ring].
  - apply G; tauto.
Qed.
(* a shot of such a circuit neither throws nor is undefined *)
Theorem C47_total : forall c nb noRegs inp psi pi,
  pgood (qc_n c) (qc_init c) -> out_ok (qc_init c) (qc_out c) -> Forall (shot_ok nb (keys (qc_init c))) (qc_ops c) ->
  agrees pi (qc_init c) -> permutes (qc_n c) pi -> dgood (qc_n c) pi inp psi -> (noRegs = true -> nb <= qc_n c)%nat ->
  dyn false (qc_ops c) = true \/
    (exists qs cs, In (OMeas qs cs) (qc_ops c)) /\ NoDup (map fst (pairs (qc_ops c))) /\ NoDup (map snd (pairs (qc_ops c))) /\
    (forall q b, In (q, b) (pairs (qc_ops c)) -> In q (map fst (qc_out c))) ->
  rprob (fun _ => true) (sample_shot c nb noRegs inp) = 1.
Proof.
  intros c nb noRegs inp psi pi P O F A PI D NB H. rewrite (C47_sample_partial c nb noRegs inp psi pi) by auto.
  rewrite (run_total (qc_n c) nb (keys (qc_init c))) by (auto; intros q Q; apply (pgood_lt (qc_n c) (qc_init c) pi); auto).
  destruct D as (Cn & W & D). rewrite <- (weight_move (qc_n c) pi) by auto. rewrite <- D, weight_veden; auto.
Qed.
Print Assumptions C47_total.

(* a Bell pair, measured: both bits agree; with a reset, afterwards the first bit is 0 *)
Definition zp n : permutes n (fun q => q) := permutes_id n.
Lemma key_idp n q : (q < n)%nat -> In q (keys (idp n)).
Proof. intros L. unfold keys. rewrite idp_fst. apply in_seq. lia. Qed.
Definition c2 (ops : list cop) : qcirc := plain 2 ops 0.
Example C47_ex_static : rprob (fun m => Bool.eqb (m 0%nat) (m 1%nat)) (sample_shot (c2 [hop 0; cxop 0 1; OMeas [0; 1] [0; 1]]%nat) 2 false (zket 2))
  = ends 2 (fun m => Bool.eqb (m 0%nat) (m 1%nat)) (run [hop 0; cxop 0 1; OMeas [0; 1] [0; 1]]%nat (zstate 2, fun _ => false)).
Proof.
  apply (C47_sample_partial (c2 [hop 0; cxop 0 1; OMeas [0; 1] [0; 1]]%nat) 2 false (zket 2) (zstate 2) (fun q => q)).
  - apply idp_good. cbn. lia.
  - apply idp_out.
  - constructor; [split; [apply hop_ok|intros q [<-|[]]; apply (key_idp 2); cbn; lia]|].
    constructor; [split; [apply cxop_ok; lia|intros q [<-|[<-|[]]]; apply (key_idp 2); cbn; lia]|].
    constructor; [split; [auto|split; [intros q [<-|[<-|[]]]; apply (key_idp 2); cbn; lia|repeat constructor]]|constructor].
  - apply idp_agrees.
  - apply permutes_id.
  - apply zket_good.
  - discriminate.
  - right. split; [exists [0; 1]%nat, [0; 1]%nat; cbn; auto|]. split; [repeat constructor; cbn; intuition lia|]. split; [repeat constructor; cbn; intuition lia|].
    intros q b [H|[H|[]]]; injection H as <- <-; cbn; auto.
Qed.
Example C47_ex_dynamic : rprob (fun m => m 0%nat) (sample_shot (c2 [hop 0; OMeas [0] [0]; OReset [0]; OMeas [0] [0]]%nat) 1 false (zket 2)) = 0.
Proof.
  rewrite (C47_sample_partial (c2 [hop 0; OMeas [0] [0]; OReset [0]; OMeas [0] [0]]%nat) 1 false (zket 2) (zstate 2) (fun q => q)).
  - unfold ends. cbn [c2 plain qc_n qc_ops run run_op combine flat_map measure_all measure1 reset_all reset1 app fst snd rsum fold_right].
    assert (W0 : forall psi, weight 2 (project 0 true (project 0 false psi)) = 0).
    { intros psi. unfold weight. rewrite weight_wsum. rewrite (wsum_ext 2 _ (fun _ => 0)); [apply wsum_zero|]. intros b. unfold project.
      destruct (b 0%nat); cbn [eqb]; apply Cnorm2_0. }
    assert (W1 : forall psi, weight 2 (project 0 true (flip 0 (project 0 true psi))) = 0).
    { intros psi. unfold weight. rewrite weight_wsum. rewrite (wsum_ext 2 _ (fun _ => 0)); [apply wsum_zero|]. intros b. unfold project, flip.
      rewrite setb_same. destruct (b 0%nat); cbn [eqb negb]; apply Cnorm2_0. }
    rewrite (run_uact (hop 0) (hop_ok 0)). cbn [flat_map app fst snd fold_right]. rewrite !W0, !W1. unfold setb. cbn [Nat.eqb]. ring.
  - apply idp_good. cbn. lia.
  - apply idp_out.
  - constructor; [split; [apply hop_ok|intros q [<-|[]]; apply (key_idp 2); cbn; lia]|].
    constructor; [split; [auto|split; [intros q [<-|[]]; apply (key_idp 2); cbn; lia|repeat constructor]]|].
    constructor; [intros q [<-|[]]; apply (key_idp 2); cbn; lia|].
    constructor; [split; [auto|split; [intros q [<-|[]]; apply (key_idp 2); cbn; lia|repeat constructor]]|constructor].
  - apply idp_agrees.
  - apply permutes_id.
  - apply zket_good.
  - discriminate.
  - left. reflexivity.
Qed.

(* X, then qubit 0 is measured into bits 0 and 1: only the last measurement counts, bit 0 stays 0 *)
Lemma rprob_false {A} (x : rnd A) f : (forall a, f a = false) -> rprob f x = 0.
Proof. intros H. induction x as [[a| |]|p a IHa b IHb]; cbn; auto; [now rewrite H|]. rewrite IHa, IHb. ring. Qed.
Definition one0 : state := fun b => if b 0%nat && negb (b 1%nat) then C1 else C0.
Lemma x_zero : uacts [xop 0] (zstate 2) = one0.
Proof.
  apply functional_extensionality. intros b. unfold uacts. cbn [fold_left uact xop]. unfold semf. cbn [sem o_type o_par o_ctl o_tgt].
  unfold one0, zstate, capply, apply, csum. cbn. unfold setb. cbn. destruct (b 0%nat), (b 1%nat); cbn; apply Ceq; cbn; ring.
Qed.
Lemma wsum_one0 g : wsum 2 (fun c => Cnorm2 (one0 c) * g c) zeros = g (setb (setb zeros 1 false) 0 true).
Proof.
  cbn [wsum]. unfold one0. cbv [setb zeros Nat.eqb andb negb]. rewrite Cnorm2_0, Cnorm2_1. ring.
Qed.
(* what is prescribed when X on qubit 0 is followed by measurements *)
Lemma x_prescribed f ms : ends 2 f (run ([xop 0] ++ map measop ms) (zstate 2, fun _ => false))
  = ind (f (upds (flatm ms) (setb (setb zeros 1 false) 0 true) zeros)).
Proof.
  rewrite run_app, run_uacts' by (constructor; [apply xop_ok|constructor]).
  cbn [flat_map]. rewrite app_nil_r, run_meas. rewrite measure_ends, x_zero. apply wsum_one0.
Qed.
Lemma c2_good us : Forall dd_ok us -> (forall q, In q (flat_map used us) -> (q < 2)%nat) -> good 2 us (idp 2).
Proof. intros F K. split; [apply idp_good; lia|]. split; [auto|]. intros q Q. apply key_idp. auto. Qed.
Theorem C47_measured_twice_refuted : exists c nb f, circ_ok (plain (qc_n c) (filter cunitary (qc_ops c)) 0) /\ c = plain 2 (qc_ops c) 0 /\
  rprob f (sample_shot c nb false (zket 2)) = 0 /\ ends 2 f (run (qc_ops c) (zstate 2, fun _ => false)) = 1.
Proof.
  exists (c2 ([xop 0] ++ map measop [([0], [0]); ([0], [1])])%nat), 2%nat, (fun m => m 0%nat).
  split; [apply plain_ok; [cbn; lia|constructor; [apply xop_ok|constructor]|intros q [<-|[]]; cbn; lia]|]. split; [reflexivity|]. split; [|apply x_prescribed].
  match goal with |- rprob ?f ?r = _ => change (rprob f (rlift (let* (p, e) := sim_loop 2 [xop 0] (idp 2) (zket 2) in
         let* (_, e') := changePermutationV 2 e p (idp 2) in DOk e')
    (fun e => rbind (measureAll e) (fun res => RRet (map_meas 2 2 (idp 2) res [(0, 1)]%nat (fun _ => false))))) = 0) end.
  destruct (static_prefix 2 [xop 0] (idp 2) (idp 2) (fun q => q) (zket 2) (zstate 2)) as (e & pi' & E & (Ce & We & De) & PP & AO);
    auto using idp_out, idp_agrees, permutes_id, zket_good.
  { apply c2_good; [constructor; [apply xop_ok|constructor]|intros q [<-|[]]; lia]. }
  rewrite E. cbn [rlift].
  replace (fun res : bits => RRet (map_meas 2 2 (idp 2) res [(0, 1)]%nat (fun _ : nat => false)))
    with (fun res : bits => RRet (DOk (upds [(0, 1)]%nat (fun x => res (pi' x)) zeros))).
  - rewrite rprob_map. apply rprob_false. intros a. reflexivity.
  - apply functional_extensionality. intros res. rewrite (map_meas_spec 2 2 (idp 2) pi'); auto.
    intros x [<-|[]]. cbn [fst snd]. split; [cbn; auto|]. split; [apply PP|]; lia.
Qed.
Print Assumptions C47_measured_twice_refuted.

(* without measurements the output permutation is applied twice: qubit 0 belongs to output 1, yet bit 0 is set *)
Theorem C47_outputs_refuted : exists c nb f, circ_ok c /\ rprob f (sample_shot c nb false (zket 2)) = 0 /\
  ends 2 f (run (qc_ops c ++ [OMeas (map fst (qc_out c)) (map snd (qc_out c))]) (zstate 2, fun _ => false)) = 1.
Proof.
  assert (OK : circ_ok (xout [xop 0])).
  { apply xout_ok; [constructor; [apply xop_ok|constructor]|intros q [<-|[]]; cbn; auto]. }
  exists (xout [xop 0]), 2%nat, (fun m => m 1%nat). split; [auto|]. split.
  - match goal with |- rprob ?f ?r = _ => change (rprob f (rlift (let* (p, e) := sim_loop 2 [xop 0] [(0, 0); (1, 1)]%nat (zket 2) in
         let* (_, e') := changePermutationV 2 e p [(0, 1); (1, 0)]%nat in DOk e')
      (fun e => rbind (measureAll e) (fun res => RRet (map_out 2 2 res [(0, 1); (1, 0)]%nat (fun _ => false))))) = 0) end.
    destruct OK as (_ & G & O). cbn [xout qc_n qc_ops qc_init qc_out] in G, O.
    destruct (static_prefix 2 [xop 0] [(0, 0); (1, 1)]%nat [(0, 1); (1, 0)]%nat (fun q => q) (zket 2) (zstate 2)) as (e & pi' & E & (Ce & We & De) & PP & AO);
      auto using permutes_id, zket_good, (idp_agrees 2).
    rewrite E. cbn [rlift]. assert (P0 : pi' 0%nat = 1%nat) by (apply AO; auto). assert (P1 : pi' 1%nat = 0%nat) by (apply AO; auto).
    replace (fun res : bits => RRet (map_out 2 2 res [(0, 1); (1, 0)]%nat (fun _ : nat => false)))
      with (fun res : bits => RRet (DOk (upds [(0, 1); (1, 0)]%nat res zeros))) by reflexivity.
    rewrite rprob_map, (measureAll_spec 2) by auto. rewrite De, (x_zero : uacts _ _ = one0). unfold move.
    rewrite (wsum_ext 2 _ (fun b => (fun c => Cnorm2 (one0 c) * ind (c 1%nat)) (fun x => b (pi' x)))).
    + etransitivity; [exact (wsum_pull 2 pi' (fun c => Cnorm2 (one0 c) * ind (c 1%nat)) PP)|].
      etransitivity; [exact (wsum_one0 (fun c => ind (c 1%nat)))|]. reflexivity.
    + intros b. cbv beta. rewrite P1. reflexivity.
  - change (qc_ops (xout [xop 0]) ++ [OMeas (map fst (qc_out (xout [xop 0]))) (map snd (qc_out (xout [xop 0])))])
      with ([xop 0] ++ map measop [([0; 1], [1; 0])])%nat. apply x_prescribed.
Qed.
Print Assumptions C47_outputs_refuted.

(* a measurement inside a compound operation is not sampled but throws *)
Theorem C47_nested_measurement_refuted : exists c nb, Forall op_ok (qc_ops c) /\ sample_shot c nb false (zket 2) = RRet DThrow /\
  ends 2 (fun _ => true) (run (qc_ops c) (zstate 2, fun _ => false)) = 1.
Proof.
  exists (c2 [OComp false [OMeas [0] [0]]])%nat, 1%nat. split; [repeat constructor|]. split; [reflexivity|].
  change (run (qc_ops (c2 [OComp false [OMeas [0] [0]]])%nat) (zstate 2, fun _ => false)) with (run (map measop [([0], [0])])%nat (zstate 2, zeros)).
  rewrite run_meas, measure_ends. cbn [wsum]. unfold zstate. cbv [setb zeros Nat.eqb andb negb seq forallb ind].
  rewrite Cnorm2_0, Cnorm2_1. ring.
Qed.
Print Assumptions C47_nested_measurement_refuted.
(* a condition inside a compound operation is ignored: X is applied although bit 0 is 0 *)
Theorem C47_nested_condition_refuted : exists c nb f, Forall op_ok (qc_ops c) /\
  rprob f (sample_shot c nb false (zket 2)) = 1 /\ ends 2 f (run (qc_ops c) (zstate 2, fun _ => false)) = 0.
Proof.
  set (ops := [OComp false [OClass (CBit 0 1 kEq) (xop 0)]; OMeas [0] [0]]%nat).
  set (ops' := [OComp false [xop 0]; OMeas [0] [0]]%nat).
  exists (c2 ops), 1%nat, (fun m => m 0%nat).
  assert (OX : dd_ok (OComp false [xop 0])) by (apply dd_ok_comp; constructor; [apply xop_ok|constructor]).
  split; [|split].
  - constructor; [|constructor; [reflexivity|constructor]]. split; [|exact Logic.I]. destruct (xop_ok 0) as (X & _). exact X.
  - change (sample_shot (c2 ops) 1 false (zket 2)) with (sample_shot (c2 ops') 1 false (zket 2)).
    rewrite (C47_sample_partial (c2 ops') 1 false (zket 2) (zstate 2) (fun q => q)); auto using idp_out, idp_agrees, permutes_id, zket_good.
    + cbn [c2 plain qc_n qc_ops]. change ops' with ([OComp false [xop 0]] ++ map measop [([0], [0])])%nat.
      rewrite run_app, run_uacts' by (constructor; [exact OX|constructor]). cbn [flat_map]. rewrite app_nil_r, run_meas, measure_ends.
      change (uacts [OComp false [xop 0]] (zstate 2)) with (uacts [xop 0] (zstate 2)). rewrite x_zero. apply wsum_one0.
    + apply idp_good. cbn. lia.
    + apply (idp_out 2).
    + change (Forall (shot_ok 1 (keys (idp 2))) ops'). constructor; [cbn [shot_ok]; split; [exact OX|intros q [<-|[]]; apply (key_idp 2); lia]|].
      constructor; [cbn [shot_ok]; split; [auto|split; [intros q [<-|[]]; apply (key_idp 2); lia|constructor; [lia|constructor]]]|constructor].
    + apply (idp_agrees 2).
    + discriminate.
    + right. split; [exists [0]%nat, [0]%nat; cbn; auto|]. split; [repeat constructor; cbn; intuition lia|]. split; [repeat constructor; cbn; intuition lia|].
      intros q b [H|[]]; injection H as <- <-; cbn; auto.
  - cbn [c2 plain qc_ops]. change (run ops (zstate 2, fun _ => false)) with (run (map measop [([0], [0])])%nat (zstate 2, zeros)).
    rewrite run_meas, measure_ends. cbn [wsum]. unfold zstate. cbv [setb zeros Nat.eqb andb negb seq forallb upds fold_left flatm flat_map combine app fst snd ind].
    rewrite Cnorm2_0, Cnorm2_1. ring.
Qed.
Print Assumptions C47_nested_condition_refuted.
