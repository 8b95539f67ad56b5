(* Stochastic and deterministic noise: C49 and C50. *)
From Coq Require Import Reals Lra List Bool Arith Lia FunctionalExtensionality Sorting.Sorted.
From Verif Require Import Cplx Qsem GateModel GateSpec GateProofs OutcomeSpec DDModel DDSpec DDProofs DDCanonProofs DDOpsProofs DDGateProofs DDProps
  OptResetProofs SimModel SimOpProofs SimMeasProofs SimNormProofs NoiseSpec NoiseModel NoiseExpProofs NoiseChanProofs NoiseStochProofs NoiseDetProofs.
Import ListNotations.
Local Open Scope R_scope.

(* --- C49: the operators of the stochastic simulation are complete ---------------------------------------- *)
Lemma mkStoch_inv g a f effs s : mkStoch g a f effs = DOk s -> 0 <= g /\ 0 <= a /\ g * f <= 1 /\ a * f <= 1 /\
  s = {| s_np := g; s_npM := g * f; s_sqrtA := sqrt a; s_oneMinusA := sqrt (1 - a); s_sqrtAM := sqrt g * f; s_oneMinusAM := sqrt (1 - f * a); s_effects := effs |}.
Proof.
  unfold mkStoch, faulty, rltb. destruct (Rlt_dec g 0), (Rlt_dec a 0), (Rlt_dec 1 (g * f)), (Rlt_dec 1 (a * f)); cbn [orb]; intros H; try discriminate.
  injection H as <-. repeat split; lra.
Qed.
(* the two Kraus operators of amplitude damping *)
Definition damping_operators (s : stoch) (multi : bool) : kraus := [(1, amp_matrix s multi false); (1, amp_matrix s multi true)].
Theorem C49_single_partial : forall g a f effs s, mkStoch g a f effs = DOk s -> a <= 1 -> complete (damping_operators s false).
Proof.
  intros g a f effs s H A. apply mkStoch_inv in H. destruct H as (G & A0 & _ & _ & ->).
  pose proof (sqrt_sqrt a ltac:(lra)) as S1. pose proof (sqrt_sqrt (1 - a) ltac:(lra)) as S2.
  intros [] []; unfold damping_operators, amp_matrix, sum2; cbn; apply Ceq; cbn; lra.
Qed.
Print Assumptions C49_single_partial.
(* with several targets: only when the two probabilities happen to match *)
Theorem C49_multi : forall g a f effs s, mkStoch g a f effs = DOk s ->
  (complete (damping_operators s true) <-> f * f * g = f * a).
Proof.
  intros g a f effs s H. apply mkStoch_inv in H. destruct H as (G & A0 & _ & A & ->).
  pose proof (sqrt_sqrt g ltac:(lra)) as S1. pose proof (sqrt_sqrt (1 - f * a) ltac:(lra)) as S2. split.
  - intros Co. specialize (Co true true). apply (f_equal fst) in Co. unfold damping_operators, amp_matrix, sum2 in Co. cbn in Co. nra.
  - intros E. intros [] []; unfold damping_operators, amp_matrix, sum2; cbn; apply Ceq; cbn; nra.
Qed.
Print Assumptions C49_multi.
(* sqrtAmplitudeDampingProbabilityMulti is computed from the gate noise instead of the damping probability,
   NoiseFunctionality.cpp:71-72; the parameters are probabilities and pass the sanity check *)
Theorem C49_multi_refuted : exists g a f s, 0 <= g <= 1 /\ 0 <= a <= 1 /\ 0 <= g * f <= 1 /\ 0 <= a * f <= 1 /\
  mkStoch g a f [nAmp] = DOk s /\ ~ complete (damping_operators s true).
Proof.
  assert (E : exists s, mkStoch (1 / 100) (1 / 100) 2 [nAmp] = DOk s).
  { unfold mkStoch, faulty, rltb. repeat (destruct Rlt_dec; [lra|]). cbn [orb]. eauto. }
  destruct E as [s E]. exists (1 / 100), (1 / 100), 2, s. repeat split; try lra; [auto|]. rewrite (C49_multi _ _ _ _ _ E). lra.
Qed.
Print Assumptions C49_multi_refuted.
(* the sanity check only looks at the products with the factor: damping probabilities above one pass *)
Theorem C49_sanity_refuted : exists g a f s, mkStoch g a f [nAmp] = DOk s /\ 1 < a /\ ~ complete (damping_operators s false).
Proof.
  assert (E : exists s, mkStoch (1 / 100) (3 / 2) (1 / 2) [nAmp] = DOk s).
  { unfold mkStoch, faulty, rltb. repeat (destruct Rlt_dec; [lra|]). cbn [orb]. eauto. }
  destruct E as [s E]. exists (1 / 100), (3 / 2), (1 / 2), s. split; [auto|]. split; [lra|]. apply mkStoch_inv in E. destruct E as (_ & _ & _ & _ & ->).
  intros Co. specialize (Co true true). apply (f_equal fst) in Co. unfold damping_operators, amp_matrix, sum2 in Co. cbn in Co.
  pose proof (sqrt_sqrt (3 / 2) ltac:(lra)). rewrite (sqrt_neg_0 (1 - 3 / 2)) in Co by lra. lra.
Qed.
Print Assumptions C49_sanity_refuted.

(* the other effects draw one of their operators: weights, at most one per type, realised by the draw *)
Theorem C49_mixtures : forall s multi op, 0 <= noise_prob s multi <= 1 -> op <> nAmp ->
  exists ws : list (R * ntype), Forall (fun wt => 0 <= fst wt) ws /\ complete (map (fun wt => (fst wt, noise_matrix s (snd wt))) ws) /\
  forall V : ntype -> R,
    expect (fun r => match r with DOk t => V t | _ => 0 end)
      (UDraw (fun u => URet (match return_noise s op u multi with Some t => DOk t | None => DThrow end)))
      (fold_right (fun wt acc => fst wt * V (snd wt) + acc) 0 ws).
Proof.
  intros s multi op P N. set (K := fun o : option ntype => URet (match o with Some t => DOk t | None => DThrow end)).
  assert (EK : forall V t, expect (fun r => match r with DOk t => V t | _ => 0 end) (K (Some t)) (V t)).
  { intros V t. apply (ex_ret (fun r : dres ntype => match r with DOk t => V t | _ => 0 end) (DOk t)). }
  destruct op; [tauto| | |].
  - exists [(1 - noise_prob s multi, tI); (noise_prob s multi, tZ)]. split; [repeat (constructor; [cbn; lra|]); constructor|].
    split; [apply phase_flip_complete|]. intros V. cbn [fold_right fst snd]. rewrite Rplus_0_r. apply (expect_phase _ s multi K); auto.
  - exists [(1 - noise_prob s multi * (3 / 4), tI); (noise_prob s multi / 4, tX); (noise_prob s multi / 4, tY); (noise_prob s multi / 4, tZ)].
    split; [repeat (constructor; [cbn; lra|]); constructor|]. split; [apply depolarising_complete|]. intros V. cbn [fold_right fst snd]. rewrite Rplus_0_r.
    apply (expect_depol _ s multi K); auto.
  - exists [(1, tI)]. split; [repeat (constructor; [cbn; lra|]); constructor|]. split.
    + intros [] []; unfold noise_matrix, mI, diag2, sum2; cbn; apply Ceq; cbn; ring.
    + intros V. cbn [fold_right fst snd]. rewrite Rplus_0_r, Rmult_1_l. apply (expect_ident _ s multi K); auto.
Qed.
Print Assumptions C49_mixtures.

(* the channel of an effect, for noise probability p and damping probability a *)
Definition textbook (p a : R) (e : noise) : kraus :=
  match e with
  | nAmp => amplitude_damping a
  | nPhase => phase_flip p
  | nDepol => depolarising p
  | nIdent => [(1, mI)]
  end.
Lemma full_textbook s (multi : bool) p a e : 0 <= a -> noise_prob s multi = p ->
  (if multi then s_sqrtAM s else s_sqrtA s) = sqrt a -> (if multi then s_oneMinusAM s else s_oneMinusA s) = sqrt (1 - a) ->
  full s multi e = textbook p a e.
Proof.
  intros A Ep E1 E2. destruct e; unfold full, krs, textbook; rewrite ?Ep; auto. unfold amplitude_damping.
  assert (K0 : amp_matrix s multi false = diag2 C1 (RtoC (sqrt (1 - a)))).
  { unfold amp_matrix, diag2. rewrite <- E2. apply functional_extensionality; intros i. apply functional_extensionality; intros j. destruct i, j; auto. }
  assert (K1 : amp_matrix s multi true = anti2 (RtoC (sqrt a)) C0).
  { unfold amp_matrix, anti2. rewrite <- E1. apply functional_extensionality; intros i. apply functional_extensionality; intros j. destruct i, j; auto. }
  rewrite K0, K1. auto.
Qed.
Lemma textbook_complete p a e : 0 <= a <= 1 -> complete (textbook p a e).
Proof.
  intros A. destruct e; [apply amplitude_damping_complete; auto|apply phase_flip_complete|apply depolarising_complete|].
  intros [] []; unfold textbook, mI, diag2, sum2; cbn; apply Ceq; cbn; ring.
Qed.
(* damping comes once, after phase flips only (such as "PA", "APD", "A", "PD") *)
Definition damping_first (effs : list noise) : Prop := ~ In nAmp effs \/
  exists pre post, effs = pre ++ nAmp :: post /\ (forall e, In e pre -> e = nPhase \/ e = nIdent) /\ ~ In nAmp post.

(* The whole simulation: starting from a normalised state after the operation, the expected density operator
   is the composition of the effects' channels on the targets in turn. Every linear functional L, so every
   entry. The number of levels of the package may exceed that of the state. *)
Theorem C49_channel_partial : forall g a f effs s n nq targets op st L, mkStoch g a f effs = DOk s ->
  g <= 1 -> a <= 1 -> 0 <= f -> (length targets = 1%nat \/ f * f * g = f * a) -> damping_first effs ->
  (n <= nq)%nat -> targets <> [] -> (forall q, In q targets -> (q < n)%nat) ->
  vcanon n st -> mcanon n op -> weight n (mact n op (veden st)) = 1 -> linear L ->
  let multi := Nat.ltb 1 (length targets) in
  expect (fun r => match r with DOk (e, _) => L (proj (veden e)) | _ => 0 end)
    (applyNoiseOperation nq s targets op st (fun _ _ => None))
    (L (chains (map (textbook (if multi then g * f else g) (if multi then f * a else a)) effs) targets (proj (mact n op (veden st))))).
Proof.
  intros g a f effs s n nq targets op st L E G1 A1 F0 SM GE NQ NE T Cs Co W HL multi.
  assert (EM : multi = Nat.ltb 1 (length targets)) by reflexivity. clearbody multi.
  apply mkStoch_inv in E. destruct E as (G0 & A0 & GF & AF & Es).
  assert (P : 0 <= noise_prob s multi <= 1). { rewrite Es. unfold noise_prob. cbn. destruct multi; [split; [apply Rmult_le_pos; lra|lra]|lra]. }
  assert (PA : 0 <= (if multi then f * a else a) <= 1). { destruct multi; [split; [apply Rmult_le_pos; lra|lra]|lra]. }
  assert (FT : forall e, full s multi e = textbook (if multi then g * f else g) (if multi then f * a else a) e).
  { intros e. apply full_textbook; [lra| | |].
    - rewrite Es. unfold noise_prob. cbn. auto.
    - rewrite Es. cbn. destruct multi; [|auto]. destruct SM as [SM|SM]; [rewrite SM in EM; discriminate|].
      apply (Rsqr_inj (sqrt g * f)); [apply Rmult_le_pos; [apply sqrt_pos|auto]|apply sqrt_pos|]. unfold Rsqr.
      rewrite sqrt_sqrt by lra. pose proof (sqrt_sqrt g ltac:(lra)). nra.
    - rewrite Es. cbn. destruct multi; auto. }
  replace (map (textbook (if multi then g * f else g) (if multi then f * a else a)) effs) with (map (full s multi) (s_effects s)).
  - unfold applyNoiseOperation. rewrite <- EM. apply (apply_noise_spec n nq s multi); auto.
    + rewrite FT. apply (textbook_complete _ _ nAmp); auto.
    + rewrite Es. exact GE.
    + intros t q x Q X. discriminate.
  - rewrite Es at 2. cbn [s_effects]. apply map_ext. auto.
Qed.
Print Assumptions C49_channel_partial.
(* and that composition preserves the trace *)
Theorem C49_trace : forall n p a effs targets rho, 0 <= a <= 1 -> (forall q, In q targets -> (q < n)%nat) ->
  trace n (chains (map (textbook p a) effs) targets rho) = trace n rho.
Proof.
  intros n p a effs targets rho A T. apply trace_chains; auto. apply Forall_forall. intros ks K. apply in_map_iff in K. destruct K as (e & <- & _).
  apply textbook_complete; auto.
Qed.
Print Assumptions C49_trace.

(* The package keeps one operator per type and qubit whatever its parameters: a second simulation with other
   probabilities on the same package gets the operators of the first. *)
Lemma stack_stale nq q t m1 m2 op r c c' : c t q = None -> stack nq op q t m1 c = DOk (r, c') -> stack nq op q t m2 c' = DOk (r, c').
Proof.
  intros N. unfold stack. destruct (Nat.ltb q nq) eqn:Q; [|discriminate]. rewrite N. destruct makeGateDD as [g| |] eqn:G; cbn [dbind]; try discriminate.
  destruct multiplyMM as [x| |] eqn:M; cbn [dbind]; try discriminate. intros H. injection H as <- <-.
  unfold nc_set at 1. replace (ntype_eqb t t) with true by (destruct t; auto). rewrite Nat.eqb_refl. cbn [andb]. rewrite M. reflexivity.
Qed.
Theorem C49_cache_refuted : exists s1 s2 r1 r2 c1 c2, mkStoch (1 / 100) (1 / 4) 1 [nAmp] = DOk s1 /\ mkStoch (1 / 100) 1 1 [nAmp] = DOk s2 /\
  stack 1 (C1, MT) 0 tATrue (amp_matrix s1 false true) (fun _ _ => None) = DOk (r1, c1) /\
  stack 1 (C1, MT) 0 tATrue (amp_matrix s2 false true) c1 = DOk (r2, c2) /\
  ~ (forall psi, mact 1 r2 psi = app1 (amp_matrix s2 false true) 0 psi).
Proof.
  assert (E1 : exists s, mkStoch (1 / 100) (1 / 4) 1 [nAmp] = DOk s).
  { unfold mkStoch, faulty, rltb. repeat (destruct Rlt_dec; [lra|]). cbn [orb]. eauto. }
  assert (E2 : exists s, mkStoch (1 / 100) 1 1 [nAmp] = DOk s).
  { unfold mkStoch, faulty, rltb. repeat (destruct Rlt_dec; [lra|]). cbn [orb]. eauto. }
  destruct E1 as [s1 E1], E2 as [s2 E2].
  destruct (stack_spec 1 1 s1 (Nat.le_refl 1) (C1, MT) tATrue 0 (fun _ _ => None)) as (r & c & S1 & _ & _ & A1); [exact Logic.I|intros ? ? ? _ ?; discriminate|lia|].
  exists s1, s2, r, r, c, c. split; [auto|]. split; [auto|]. split; [exact S1|]. split; [eapply stack_stale; [|exact S1]; reflexivity|].
  intros H. set (psi := fun b : bits => if b 0%nat then C1 else C0). specialize (A1 psi). rewrite H in A1.
  apply (f_equal (fun phi => fst (phi (fun _ => false)))) in A1.
  change (mact 1 (C1, MT) psi) with (mact 1 mone psi) in A1. rewrite mact_mone in A1.
  apply mkStoch_inv in E1. destruct E1 as (_ & _ & _ & _ & ->). apply mkStoch_inv in E2. destruct E2 as (_ & _ & _ & _ & ->).
  unfold app1, sum2, amp_matrix, noise_matrix, psi, setb in A1. cbn in A1. rewrite sqrt_1 in A1.
  pose proof (sqrt_sqrt (1 / 4) ltac:(lra)) as Q. ring_simplify in A1. rewrite <- A1 in Q. lra.
Qed.
Print Assumptions C49_cache_refuted.

(* --- C50: deterministic noise --------------------------------------------------------------------------- *)
(* The maps on the four successors of a node of qubit n, seen as the 2x2 blocks of a density operator: the
   textbook channel of the effect on qubit n. good_block: a canonical diagram on the qubits below n, except
   that an edge of weight zero may lead to any diagram. *)
Definition good_block (n : nat) (e : medge) : Prop := mlev n (snd e) /\ (fst e = C0 \/ mcanon n e).
Definition blocks (n : nat) (e : edges4) : density := fun b c => meden n (e (b n) (c n)) b c.
Theorem C50_blocks : forall n p a (e : edges4), 0 <= a <= 1 -> (forall i j, good_block n (e i j)) ->
  (exists e', phaseFlipEdges p e = DOk e' /\ (forall i j, good_block n (e' i j)) /\ blocks n e' = channel (phase_flip p) n (blocks n e)) /\
  (exists e', ampDampEdges a e = DOk e' /\ (forall i j, good_block n (e' i j)) /\ blocks n e' = channel (amplitude_damping a) n (blocks n e)) /\
  (exists e', depolEdges p e = DOk e' /\ (forall i j, good_block n (e' i j)) /\ blocks n e' = channel (depolarising p) n (blocks n e)).
Proof. intros n p a e A H. split; [apply phase_spec; exact H|split; [apply amp_spec; auto; exact H|apply depol_spec; exact H]]. Qed.
Print Assumptions C50_blocks.
(* they preserve the trace *)
Theorem C50_blocks_trace : forall n p a (e e' : edges4), 0 <= a <= 1 -> (forall i j, good_block n (e i j)) ->
  phaseFlipEdges p e = DOk e' \/ ampDampEdges a e = DOk e' \/ depolEdges p e = DOk e' ->
  trace (S n) (blocks n e') = trace (S n) (blocks n e).
Proof.
  intros n p a e e' A H [E|[E|E]]; destruct (C50_blocks n p a e A H) as ((e1 & E1 & _ & D1) & (e2 & E2 & _ & D2) & (e3 & E3 & _ & D3)).
  - rewrite E1 in E. injection E as <-. rewrite D1. apply trace_channel; [apply phase_flip_complete|lia].
  - rewrite E2 in E. injection E as <-. rewrite D2. apply trace_channel; [apply amplitude_damping_complete; auto|lia].
  - rewrite E3 in E. injection E as <-. rewrite D3. apply trace_channel; [apply depolarising_complete|lia].
Qed.
Print Assumptions C50_blocks_trace.

Lemma mkDeterm_inv p pM a aM effs d : mkDeterm p pM a aM effs = DOk d -> 0 <= p <= 1 /\ 0 <= pM <= 1 /\ 0 <= a <= 1 /\ 0 <= aM <= 1 /\
  d = {| d_np := p; d_npM := pM; d_amp := a; d_ampM := aM; d_effects := effs |}.
Proof.
  unfold mkDeterm, faulty, rltb. repeat (destruct Rlt_dec; cbn [orb]; [discriminate|]). intros H. injection H as <-. repeat split; lra.
Qed.
Lemma below_all n used : (forall q, In q used -> (q < n)%nat) -> below n used = used.
Proof.
  unfold below. induction used as [|u r IH]; intros H; [auto|]. cbn [filter]. rewrite IH by (intros; apply H; cbn; auto).
  destruct (Nat.ltb_spec u n); auto. specialize (H u (or_introl eq_refl)). lia.
Qed.
(* The recursion over the diagram, when no level above the lowest used qubit is skipped over a node
   (mfull; skipping down to the terminal is fine). *)
Theorem C50_recursion_partial : forall p pM a aM effs d n used u0 r0 e, mkDeterm p pM a aM effs = DOk d ->
  used = u0 :: r0 -> StronglySorted lt used -> (forall q, In q used -> (q < n)%nat) -> mcanon n e -> mfull u0 n (snd e) ->
  let single := Nat.eqb (length used) 1 in
  exists r, applyNoiseEffects d n used e = DOk r /\ mcanon n r /\
    meden n r = chains (map (textbook (if single then p else pM) (if single then a else aM)) effs) used (meden n e) /\
    trace n (meden n r) = trace n (meden n e).
Proof.
  intros p pM a aM effs d n used u0 r0 e E U SS T Ce Fe single. apply mkDeterm_inv in E. destruct E as (P & PM & A & AM & Ed).
  assert (DA : d_a d single = if single then a else aM) by (rewrite Ed; reflexivity).
  assert (DP : d_p d single = if single then p else pM) by (rewrite Ed; reflexivity).
  destruct (dnoise_spec d used u0 r0 U SS) with (n := n) (e := e) as (r & Er & Cr & Dr); auto.
  { fold single. rewrite DA. destruct single; auto. }
  fold single in Dr. rewrite DA, DP, below_all in Dr by auto.
  assert (EF : map (dkraus (if single then p else pM) (if single then a else aM)) (d_effects d) = map (textbook (if single then p else pM) (if single then a else aM)) effs).
  { rewrite Ed. cbn [d_effects]. apply map_ext. intros []; reflexivity. }
  rewrite EF in Dr.
  exists (mlook r). unfold applyNoiseEffects. rewrite Er. cbn [dbind]. split; [auto|]. split; [apply mlook_canon; right; auto|].
  assert (ML : meden n (mlook r) = meden n r) by (apply dext; intros; apply mlook_den).
  split; [rewrite ML; auto|]. rewrite ML, Dr. apply C49_trace; auto. destruct single; lra.
Qed.
Print Assumptions C50_recursion_partial.

(* Deterministic noise on the density operator of a pure state is the expectation of the stochastic noise. *)
Theorem C50_agrees_partial : forall g a f effs s d n nq used u0 r0 op st rho,
  mkStoch g a f effs = DOk s -> mkDeterm g (g * f) a (f * a) effs = DOk d -> 0 <= f ->
  (length used = 1%nat \/ f * f * g = f * a) -> damping_first effs -> (n <= nq)%nat ->
  used = u0 :: r0 -> StronglySorted lt used -> (forall q, In q used -> (q < n)%nat) ->
  vcanon n st -> mcanon n op -> weight n (mact n op (veden st)) = 1 ->
  mcanon n rho -> meden n rho = proj (mact n op (veden st)) -> mfull u0 n (snd rho) ->
  exists r, applyNoiseEffects d n used rho = DOk r /\ forall L, linear L ->
    expect (fun x => match x with DOk (e, _) => L (proj (veden e)) | _ => 0 end)
      (applyNoiseOperation nq s used op st (fun _ _ => None)) (L (meden n r)).
Proof.
  intros g a f effs s d n nq used u0 r0 op st rho Es Ed F0 SM GE NQ U SS T Cs Co W Cr Dr Fr.
  destruct (C50_recursion_partial _ _ _ _ _ _ n used u0 r0 rho Ed U SS T Cr Fr) as (r & E & _ & D & _). exists r. split; [auto|]. intros L HL.
  pose proof (mkDeterm_inv _ _ _ _ _ _ Ed) as (G & _ & A & _ & _).
  pose proof (C49_channel_partial g a f effs s n nq used op st L Es (proj2 G) (proj2 A) F0 SM GE NQ) as H.
  cbv zeta in H, D. rewrite D, Dr.
  replace (if Nat.ltb 1 (length used) then g * f else g) with (if Nat.eqb (length used) 1 then g else g * f) in H by (rewrite U; destruct r0; reflexivity).
  replace (if Nat.ltb 1 (length used) then f * a else a) with (if Nat.eqb (length used) 1 then a else f * a) in H by (rewrite U; destruct r0; reflexivity).
  apply H; auto. rewrite U. discriminate.
Qed.
Print Assumptions C50_agrees_partial.

(* Without the guard: the diagram of (I/2) on qubit 1 and |0><0| on qubit 0 starts with a node of qubit 0, which
   the recursion takes for a node of qubit 1. Even without any effect the operator changes. *)
Definition half_zero : medge := ((RtoC (1 / 2)), MNode 0 (fun i j => if i || j then C0 else C1) (fun _ _ => MT)).
Theorem C50_skipped_level_refuted : exists d r b, mkDeterm 0 0 0 0 [nPhase] = DOk d /\ mcanon 2 half_zero /\
  trace 2 (meden 2 half_zero) = C1 /\ applyNoiseEffects d 2 [1%nat] half_zero = DOk r /\
  meden 2 r b b = C0 /\ channel (phase_flip 0) 1 (meden 2 half_zero) b b = RtoC (1 / 2).
Proof.
  assert (E : exists d, mkDeterm 0 0 0 0 [nPhase] = DOk d).
  { unfold mkDeterm, faulty, rltb. repeat (destruct Rlt_dec; cbn [orb]; [lra|]). eauto. }
  destruct E as [d E]. pose proof (mkDeterm_inv _ _ _ _ _ _ E) as (_ & _ & _ & _ & Ed).
  set (es := fun i j : bool => if eqb i j then (if i || j then C0 else C1, MT) else scale (1 - 2 * 0) (C0, MT)).
  set (r0 := mmk 1 es).
  exists d, (mlook (if ezero (fst r0) then r0 else ((fst r0 * RtoC (1 / 2))%C, snd r0))), (fun x => Nat.eqb x 1).
  split; [auto|]. split.
  { unfold mcanon, half_zero. cbn [fst snd mcan]. split; [apply RtoC_neq0; lra|]. split; [lia|]. split; [|split; [|auto]].
    - exists (false, false). split; [reflexivity|]. intros [[] []]; cbn; unfold Cnorm2; cbn; lra.
    - intros (_ & _ & _ & Q & _). cbn in Q. symmetry in Q. apply C1_neq_C0 in Q. auto. }
  split.
  { unfold trace, meden, half_zero. cbn. apply Ceq; cbn; field. }
  split.
  { unfold applyNoiseEffects. rewrite Ed. unfold half_zero. cbn [dnoise Nat.leb ezero]. unfold seq4. cbn [dnoise].
    assert (Z : ezero C0 = true) by apply ezero_0.
    assert (Z1 : ezero C1 = false) by (destruct (ezero C1) eqn:Q; auto; apply ezero_true in Q; apply C1_neq_C0 in Q; tauto).
    cbn [orb]. rewrite !Z, !Z1. cbn [dbind Nat.leb existsb Nat.eqb orb length effectsEdges d_effects d_np]. unfold phaseFlipEdges. cbn [dbind].
    match goal with |- context [mmk 1 ?X] => replace X with es end; [reflexivity|].
    apply functional_extensionality; intros i; apply functional_extensionality; intros j; destruct i, j; reflexivity. }
  assert (GE : forall i j, mcan0 1 (es i j)).
  { intros [] []; unfold es; cbn [eqb orb]; try (right; exact Logic.I); unfold scale; cbn [fst]; rewrite ezero_0; right; exact Logic.I. }
  split.
  - rewrite mlook_den. assert (D : meden 2 r0 (fun x => Nat.eqb x 1) (fun x => Nat.eqb x 1) = C0).
    { unfold r0. rewrite mmk_den0 by auto. cbn. unfold es, meden. cbn [eqb orb fst]. ring. }
    destruct (ezero (fst r0)); [auto|]. transitivity (RtoC (1 / 2) * meden 2 r0 (fun x => Nat.eqb x 1) (fun x => Nat.eqb x 1))%C; [unfold meden; cbn [fst snd]; ring|].
    rewrite D. ring.
  - unfold channel, phase_flip, kact, sum2, meden, half_zero, mI, mZ, diag2. cbn. apply Ceq; cbn; field.
Qed.
Print Assumptions C50_skipped_level_refuted.
(* an operation without qubits, such as a global phase: *usedQubits.begin() on an empty set *)
Theorem C50_no_qubits_refuted : exists d e, mkDeterm 0 0 0 0 [nPhase] = DOk d /\ mcanon 1 e /\ applyNoiseEffects d 1 [] e = DUb.
Proof.
  assert (E : exists d, mkDeterm 0 0 0 0 [nPhase] = DOk d).
  { unfold mkDeterm, faulty, rltb. repeat (destruct Rlt_dec; cbn [orb]; [lra|]). eauto. }
  destruct E as [d E]. exists d, (C1, MT). split; [auto|]. split; [exact Logic.I|]. unfold applyNoiseEffects. cbn [dnoise].
  destruct (ezero C1) eqn:Q; [apply ezero_true in Q; apply C1_neq_C0 in Q; tauto|]. reflexivity.
Qed.
Print Assumptions C50_no_qubits_refuted.

(* the defaults of the constructors (0.001, 0.002, factor 2) satisfy the condition of C49_multi *)
Example C49_defaults : exists s, mkStoch (1 / 1000) (2 / 1000) 2 [nAmp; nDepol] = DOk s /\ complete (damping_operators s true).
Proof.
  assert (E : exists s, mkStoch (1 / 1000) (2 / 1000) 2 [nAmp; nDepol] = DOk s).
  { unfold mkStoch, faulty, rltb. repeat (destruct Rlt_dec; [lra|]). cbn [orb]. eauto. }
  destruct E as [s E]. exists s. split; [auto|]. rewrite (C49_multi _ _ _ _ _ E). lra.
Qed.
(* damping |1><1| with probability 1/4 moves a quarter of the weight to |0><0| *)
Definition one_one : medge := (C1, MNode 0 (fun i j => if i && j then C1 else C0) (fun _ _ => MT)).
Lemma one_one_canon : mcanon 1 one_one.
Proof.
  unfold mcanon, one_one. cbn [fst snd mcan]. split; [apply C1_neq_C0|]. split; [lia|]. split; [|split; [|auto]].
  - exists (true, true). split; [reflexivity|]. intros [[] []]; cbn; unfold Cnorm2; cbn; lra.
  - intros (Q & _). cbn in Q. symmetry in Q. apply C1_neq_C0 in Q. auto.
Qed.
Example C50_damping : exists d r, mkDeterm 0 0 (1 / 4) (1 / 4) [nAmp] = DOk d /\ applyNoiseEffects d 1 [0%nat] one_one = DOk r /\
  meden 1 r (fun _ => false) (fun _ => false) = RtoC (1 / 4) /\ meden 1 r (fun _ => true) (fun _ => true) = RtoC (3 / 4).
Proof.
  assert (E : exists d, mkDeterm 0 0 (1 / 4) (1 / 4) [nAmp] = DOk d).
  { unfold mkDeterm, faulty, rltb. repeat (destruct Rlt_dec; cbn [orb]; [lra|]). eauto. }
  destruct E as [d E]. destruct (C50_recursion_partial _ _ _ _ _ _ 1 [0%nat] 0 [] one_one E) as (r & A & _ & D & _); auto.
  - constructor; constructor.
  - intros q [<-|[]]. lia.
  - apply one_one_canon.
  - cbn. right. split; auto.
  - exists d, r. split; [auto|]. split; [auto|]. rewrite D. unfold chains, chain, channel, textbook, amplitude_damping, kact, sum2, diag2, anti2, meden, one_one.
    pose proof (sqrt_sqrt (1 / 4) ltac:(lra)) as S1. pose proof (sqrt_sqrt (1 - 1 / 4) ltac:(lra)) as S2. cbn.
    set (x := sqrt (1 / 4)) in *. set (y := sqrt (1 - 1 / 4)) in *. clearbody x y. split; apply Ceq; cbn; nra.
Qed.
(* the diagrams of C50_recursion_partial and C50_agrees_partial: |1><1| is the operator of the state |1> *)
Lemma one_vcanon : vcanon 1 (C1, VNode 0 (fun k : bool => if k then C1 else C0) (fun _ => VT)).
Proof.
  unfold vcanon. cbn. split; [apply C1_neq_C0|]. split; [auto|]. split; [|intros ?; cbn; auto]. split; [unfold Cnorm2; cbn; ring|].
  exists 1. split; [lra|]. unfold vfirst. destruct Rle_dec as [H|H]; [unfold Cnorm2 in H; cbn in H; lra|reflexivity].
Qed.
Example C50_agrees_witness : exists s d st, mkStoch (1 / 10) (1 / 10) 1 [nAmp; nDepol] = DOk s /\ mkDeterm (1 / 10) (1 / 10 * 1) (1 / 10) (1 * (1 / 10)) [nAmp; nDepol] = DOk d /\
  vcanon 1 st /\ weight 1 (mact 1 (C1, MT) (veden st)) = 1 /\ meden 1 one_one = proj (mact 1 (C1, MT) (veden st)) /\ mfull 0 1 (snd one_one) /\
  damping_first [nAmp; nDepol].
Proof.
  assert (E1 : exists s, mkStoch (1 / 10) (1 / 10) 1 [nAmp; nDepol] = DOk s).
  { unfold mkStoch, faulty, rltb. repeat (destruct Rlt_dec; [lra|]). cbn [orb]. eauto. }
  assert (E2 : exists d, mkDeterm (1 / 10) (1 / 10 * 1) (1 / 10) (1 * (1 / 10)) [nAmp; nDepol] = DOk d).
  { unfold mkDeterm, faulty, rltb. repeat (destruct Rlt_dec; cbn [orb]; [lra|]). eauto. }
  destruct E1 as [s E1], E2 as [d E2]. exists s, d, (C1, VNode 0 (fun k => if k then C1 else C0) (fun _ => VT)).
  split; [auto|]. split; [auto|]. change (mact 1 (C1, MT)) with (mact 1 mone). rewrite mact_mone. split; [|split; [|split; [|split]]].
  - exact one_vcanon.
  - rewrite (weight_veden 1) by exact one_vcanon. apply Cnorm2_1.
  - apply dext. intros b c. unfold meden, proj, veden, one_one. cbn. destruct (b 0%nat), (c 0%nat); cbn; apply Ceq; cbn; ring.
  - cbn. right. split; auto.
  - right. exists [], [nDepol]. split; [reflexivity|]. split; [intros e []|]. intros [Q|[]]. discriminate.
Qed.
