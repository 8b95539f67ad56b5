(* C60: buildFunctionality represents the circuit's operator. *)
From Coq Require Import Reals QArith Qreals ZArith Bool List Arith Lia Lra FunctionalExtensionality.
From Verif Require Import Cplx Qsem GateModel GateSpec IRModel IRSpec IRProofs GateProofs PiModel PiProps ZXModel ZXSpec ZXSemProofs ZXPhaseProofs ZXUpdProofs ZXRuleProofs ZXRule2Proofs ZXBookProofs
  ZXBuildModel ZXBuildSpec ZXBuildProofs ZXBuildStateProofs ZXBuildGateProofs ZXBuildIOProofs ZXBuildMainProofs.
Import ListNotations.
Local Close Scope Q_scope.
Local Open Scope nat_scope.
Local Open Scope C_scope.

(* For every injective layout and every circuit of gates (nested compound operations included) that transformableToZX accepts, of the
   kinds that are translated right and with positive controls: the construction succeeds, and the well-formed diagram it gives, with
   inputs 0..n-1 and outputs n..2n-1 and no other boundary, is the circuit's operator up to a non-zero scalar. Missing for the full
   statement: the cases refuted below. *)
Theorem C60_build_partial : forall rho p n ops, layout_ok p n -> Forall (zop_ok rho p) ops ->
  exists d, build p n ops = RDone d /\ wf d /\ represents rho n d (zrun rho p ops) /\
  (forall v, live d v = true -> isBoundary d v = true -> In v (d_in d) \/ In v (d_out d)).
Proof. intros rho p n ops L K. now apply build_main. Qed.
Print Assumptions C60_build_partial.

(* what transformableToZX rejects, the construction rejects with an exception *)
Theorem C60_rejects : forall p t ps cs ts st, transformable (ZGate t ps cs ts) = false -> ts <> [] ->
  (forall q, In q (map fst cs ++ ts) -> exists x, plookup p q = Some x) -> parse_gate p t ps cs ts st = RThrow.
Proof.
  intros p t ps cs ts st Tr Ne Lk.
  assert (A : forall q, In q (map fst cs ++ ts) -> exists x, at_ p q = RDone x).
  { intros q I. destruct (Lk q I) as [x E]. unfold at_. rewrite E. eauto. }
  destruct ts as [|t0 ts]; [congruence|]. destruct cs as [|c0 [|c1 [|c2 cs]]].
  - destruct (A t0 (or_introl eq_refl)) as [x X]. destruct t; try discriminate Tr; cbn [parse_gate]; unfold parse_plain; cbn [front rbind]; rewrite X; reflexivity.
  - destruct (A t0 (or_intror (or_introl eq_refl))) as [x X]. destruct (A (fst c0) (or_introl eq_refl)) as [y Y].
    destruct ts as [|t1 ts]; [|destruct t; try discriminate Tr; reflexivity].
    destruct t; try discriminate Tr; cbn [parse_gate]; unfold parse_ctl1; rewrite X, Y; reflexivity.
  - destruct (A t0 (or_intror (or_intror (or_introl eq_refl)))) as [x X]. destruct (A (fst c0) (or_introl eq_refl)) as [y Y]. destruct (A (fst c1) (or_intror (or_introl eq_refl))) as [z Z].
    destruct t; try discriminate Tr; cbn [parse_gate]; unfold parse_ctl2; cbn [front rbind]; rewrite X, Y, Z; reflexivity.
  - destruct t; try discriminate Tr; reflexivity.
Qed.
Print Assumptions C60_rejects.

(* ---- counterexamples ------------------------------------------------------------------------------------------------------ *)
(* two operators represented by one diagram agree up to a scalar *)
Lemma rep_unique rho n d f g : represents rho n d f -> represents rho n d g ->
  exists c, c <> C0 /\ forall b, f (basis_in n b) (fun i => b (n + i)%nat) = c * g (basis_in n b) (fun i => b (n + i)%nat).
Proof.
  intros (_ & _ & c & Nc & F) (_ & _ & k & Nk & G). exists (/ c * k). split; [apply Cmul_neq0; auto; now apply Cinv_neq0|]. intros b.
  transitivity (/ c * (c * f (basis_in n b) (fun i => b (n + i)%nat))); [field; auto|]. rewrite <- F, G. ring.
Qed.
Lemma build_run rho p n ops st f : parse p (ZCompound ops) (start n, seq 0 n) = RDone st -> run rho n st (fun b => f (basis_in n b)) ->
  exists d, build p n ops = RDone d /\ represents rho n d f.
Proof.
  intros E (G & c & Nc & H). destruct st as [d qs]. unfold build. fold (start n). rewrite E. cbn [rbind]. eexists. split; [reflexivity|].
  apply (close_rep rho n d qs f c); auto.
Qed.
Lemma start_run rho n : run rho n (start n, seq 0 n) (basis_in n).
Proof. split; [apply (start_good rho n)|]. exists C1. split; [apply C1_neq_C0|]. intros b. rewrite start_T. now rewrite sscal_1. Qed.
Definition id2 : perm := [(0, 0); (1, 1)].
Lemma id2_ok : layout_ok id2 2.
Proof. split; [split; repeat constructor; cbn; intuition discriminate|]. intros x [<-|[<-|[]]]; cbn; lia. Qed.
Definition r0 : nat -> R := fun _ => 0%R.
Definition bit4 (a b c d : bool) : bits := fun i => match i with 0 => a | 1 => b | 2 => c | 3 => d | _ => false end.
Ltac differ d D H F := intros H; pose proof (rep_unique r0 2 d _ _ H D) as (k & Nk & F).

(* a control that should be 0: the polarity is not looked at *)
Theorem C60_negative_control_refuted : exists ops d, Forall (fun o => transformable o = true) ops /\ build id2 2 ops = RDone d /\ ~ represents r0 2 d (zrun r0 id2 ops).
Proof.
  exists [ZGate gX [] [(0, false)] [1]]. destruct (build_run r0 id2 2 [ZGate gX [] [(0, false)] [1]] (addCnot 0 1 (start 2, seq 0 2)) (cxm 0 1)) as (d & E & D).
  - reflexivity.
  - apply run_cx; auto. apply start_run.
  - exists d. split; [repeat constructor|]. split; [exact E|]. differ d D H F. specialize (F (bit4 false false false false)). apply Nk.
    transitivity (k * cxm 0 1 (basis_in 2 (bit4 false false false false)) (fun i => bit4 false false false false (2 + i)%nat)); [cbn; ring|]. rewrite <- F. cbn.
    unfold capply, apply. cbn. ring.
Qed.
Print Assumptions C60_negative_control_refuted.

(* ECR: the middle X spider has phase 0, so the diagram is the identity *)
Theorem C60_ecr_refuted : exists ops d, Forall (fun o => transformable o = true) ops /\ build id2 2 ops = RDone d /\ represents r0 2 d (fun psi => psi) /\ ~ represents r0 2 d (zrun r0 id2 ops).
Proof.
  exists [ZGate gECR [] [] [0; 1]].
  destruct (build_run r0 id2 2 [ZGate gECR [] [] [0; 1]] (addRzx (pi_neg (modPi (1 # 4)), []) 0 1 None (addX 0 p_zero (addRzx (p_const (1 # 4)) 0 1 None (start 2, seq 0 2)))) (fun psi => psi)) as (d & E & D).
  - reflexivity.
  - eapply run_eq; [|apply run_rzx; auto; [apply ph_okb_ok; reflexivity|]; apply run_x; auto; [apply ph_ok_zero|]; apply run_rzx; auto; [apply ph_okb_ok; reflexivity|apply start_run]].
    intros b. cbn beta. rewrite pexp_p_zero. set (psi := basis_in 2 b). clearbody psi.
    assert (W : pexp r0 (pi_neg (modPi (1 # 4)), []) * pexp r0 (p_const (1 # 4)) = C1).
    { change (pi_neg (modPi (1 # 4)), []) with (p_neg (p_const (1 # 4))). rewrite pexp_neg. apply pexp_conj_mul. }
    set (w := pexp r0 (p_const (1 # 4))) in *. set (w' := pexp r0 _) in *. clearbody w w'. assert (N : 0 <> 1) by auto.
    apply (V2_eq 0 1). intros y u v. rewrite V2_rzx by auto. rewrite !V2_xp by auto. rewrite !V2_rzx by auto. pose proof hf2' as HF. destruct u, v; cbn [sg negb]; ring [W HF].
  - exists d. split; [repeat constructor|]. split; [exact E|]. split; [exact D|]. differ d D H F. specialize (F (bit4 false false false false)). apply Nk.
    transitivity (k * basis_in 2 (bit4 false false false false) (fun i => bit4 false false false false (2 + i)%nat)); [cbn; ring|]. rewrite <- F. cbn.
    unfold capply, apply. cbn. ring.
Qed.
Print Assumptions C60_ecr_refuted.

(* a global-phase operation, accepted by transformableToZX, makes the code read the front of an empty vector *)
Theorem C60_gphase_refuted : exists ops, Forall (fun o => transformable o = true) ops /\ (forall p n, build p n ops = RUB).
Proof. exists [ZGate gGPhase [p_const 1] [] []]. split; [repeat constructor|reflexivity]. Qed.
Print Assumptions C60_gphase_refuted.

(* XXplusYY and XXminusYY: the angle has the wrong sign *)
Ltac phc := apply ph_okb_ok; reflexivity.
Ltac runs2 := lazymatch goal with
  | |- run _ _ (addCnot _ _ _) _ => apply run_cx; [auto|auto|auto|]; runs2
  | |- run _ _ (addZ _ _ _) _ => apply run_z; [auto|phc|]; runs2
  | |- run _ _ (addX _ _ _) _ => apply run_x; [auto|phc|]; runs2
  | |- run _ _ (addHalf _ _ _) _ => apply run_half; runs2
  | |- run _ _ (addRz _ _ _ _) _ => unfold addRz at 1; runs2
  | |- run _ _ (addRx _ _ _) _ => unfold addRx at 1; runs2
  | |- run _ _ (addRy _ _ _ _) _ => unfold addRy at 1; runs2
  | |- run _ _ (start _, _) _ => apply start_run
  end.
Definition xxp_got : mat := mat_of [[C1; C0; C0; C0]; [C0; C0; Ci; C0]; [C0; Ci; C0; C0]; [C0; C0; C0; C1]].
Definition xxm_got : mat := mat_of [[kap; C0; C0; Ci * kap]; [C0; C1; C0; C0]; [C0; C0; C1; C0]; [Ci * kap; C0; C0; kap]].
Ltac v2s N := repeat first [rewrite !V2_zp by exact N | rewrite !V2_zq by exact N | rewrite !V2_xp by exact N | rewrite !V2_xq by exact N | rewrite !V2_cpq by exact N].
Lemma xxp_run : run r0 2 (addXXplusYY (p_reduce (p_const 1)) (p_reduce (p_const 0)) 0 1 (Some (1%Q)) (start 2, seq 0 2)) (fun b => apply xxp_got [0; 1] (basis_in 2 b)).
Proof.
  unfold addXXplusYY. cbv zeta. eapply (run_conv _ _ _ _ _ (- Ci)); [apply mCi_neq| |runs2].
  intros b. cbn beta. set (psi := basis_in 2 b). clearbody psi. assert (N : 0 <> 1) by auto.
  change (p_const (- (1 # 2))) with (p_const (-1 # 2)). rewrite !e_half, !e_mhalf, !e_pi.
  change (p_reduce (p_const 0)) with (p_const 0). change (p_neg (p_const 0)) with (p_const 0). rewrite pexp_const0.
  apply (V2_eq 0 1). intros y u v. rewrite V2_sscal, V2_ap by auto. v2s N. pose proof hf2' as HF. pose proof Ci2 as CI.
  unfold xxp_got. destruct u, v; unfold mat_of, bidx; cbn [fold_left nth Nat.mul Nat.add xorb negb]; ring [HF CI].
Qed.
Theorem C60_xxplusyy_refuted : exists ops d, Forall (fun o => transformable o = true) ops /\ build id2 2 ops = RDone d /\ ~ represents r0 2 d (zrun r0 id2 ops).
Proof.
  exists [ZGate gXXplusYY [p_const 1; p_const 0] [] [0; 1]].
  destruct (build_run r0 id2 2 [ZGate gXXplusYY [p_const 1; p_const 0] [] [0; 1]] _ (apply xxp_got [0; 1]) eq_refl xxp_run) as (d & E & D).
  exists d. split; [repeat constructor|]. split; [exact E|]. differ d D H F.
  pose proof (F (bit4 false false false false)) as F0. pose proof (F (bit4 true false false true)) as F1.
  unfold zrun, zsem, semf in F0, F1. cbn [sem std_of o_type o_par o_ctl o_tgt gate_matrix single_matrix two_matrix map length Nat.eqb lay plookup id2] in F0, F1.
  assert (P : pval r0 (p_const 1) = PI) by (rewrite pval_eq; unfold p_const, sval, modPi, Q2R; cbn; lra).
  assert (Z : pval r0 (p_const 0) = 0%R) by (rewrite pval_eq; unfold p_const, sval, modPi, Q2R; cbn; lra).
  rewrite P, Z in *. unfold xxPlusYYMat in F0, F1. cbv zeta in F0, F1. unfold capply, apply in F0, F1. cbn in F0, F1. unfold mat_of, bidx in F0, F1. cbn in F0, F1.
  rewrite cos_PI2, sin_PI2, cos_0, sin_0 in *. 
  assert (K : k = C1) by (symmetry; etransitivity; [|etransitivity; [exact F0|]]; ring).
  assert (X : k * Ci = ((0 * 1)%R, (- (1) * 1)%R)) by (etransitivity; [|etransitivity; [exact (eq_sym F1)|]]; change (RtoC 0) with C0; ring).
  rewrite K in X. apply (f_equal snd) in X. cbn in X. lra.
Qed.
Print Assumptions C60_xxplusyy_refuted.
Lemma xxm_run : run r0 2 (addXXminusYY (p_reduce (p_const (1 # 2))) (p_reduce (p_const 0)) 0 1 (Some (1 # 2)%Q) (start 2, seq 0 2)) (fun b => apply xxm_got [0; 1] (basis_in 2 b)).
Proof.
  unfold addXXminusYY. cbv zeta. eapply (run_conv _ _ _ _ _ (- C1)); [intros E; injection E; lra| |runs2].
  intros b. cbn beta. set (psi := basis_in 2 b). clearbody psi. assert (N : 0 <> 1) by auto.
  assert (E1 : pexp r0 (p_addc (p_half (p_reduce (p_const (1 # 2)))) 1) = - (kap * (C1 + Ci))).
  { rewrite pexp_addc. change (p_half (p_reduce (p_const (1 # 2)))) with (p_const (1 # 4)). rewrite e_quarter. replace (PI * Q2R 1)%R with PI by (unfold Q2R; cbn; lra). rewrite Cexp_PI.
    unfold kap. fold sq2. apply Ceq; cbn; ring. }
  assert (E2 : pexp r0 (p_addc (p_half (p_neg (p_reduce (p_const (1 # 2))))) 1) = - (kap * (C1 - Ci))).
  { rewrite pexp_addc. change (p_half (p_neg (p_reduce (p_const (1 # 2))))) with (p_const (-1 # 4)). rewrite e_mquarter. replace (PI * Q2R 1)%R with PI by (unfold Q2R; cbn; lra). rewrite Cexp_PI.
    unfold kap. fold sq2. apply Ceq; cbn; ring. }
  change (p_const (- (1 # 2))) with (p_const (-1 # 2)). rewrite E1, E2, !e_half, !e_mhalf, !e_pi.
  change (p_reduce (p_const 0)) with (p_const 0). change (p_neg (p_const 0)) with (p_const 0). rewrite pexp_const0.
  apply (V2_eq 0 1). intros y u v. rewrite V2_sscal, V2_ap by auto. v2s N. pose proof hf2' as HF. pose proof Ci2 as CI. pose proof kaphf as KH.
  unfold xxm_got. destruct u, v; unfold mat_of, bidx; cbn [fold_left nth Nat.mul Nat.add xorb negb]; ring [HF CI KH].
Qed.
Theorem C60_xxminusyy_refuted : exists ops d, Forall (fun o => transformable o = true) ops /\ build id2 2 ops = RDone d /\ ~ represents r0 2 d (zrun r0 id2 ops).
Proof.
  exists [ZGate gXXminusYY [p_const (1 # 2); p_const 0] [] [0; 1]].
  destruct (build_run r0 id2 2 [ZGate gXXminusYY [p_const (1 # 2); p_const 0] [] [0; 1]] _ (apply xxm_got [0; 1]) eq_refl xxm_run) as (d & E & D).
  exists d. split; [repeat constructor|]. split; [exact E|]. differ d D H F.
  pose proof (F (bit4 true false true false)) as F0. pose proof (F (bit4 true true false false)) as F1.
  unfold zrun, zsem, semf in F0, F1. cbn [sem std_of o_type o_par o_ctl o_tgt gate_matrix single_matrix two_matrix map length Nat.eqb lay plookup id2] in F0, F1.
  assert (P : pval r0 (p_const (1 # 2)) = (PI / 2)%R) by (rewrite pval_eq; unfold p_const, sval, modPi, Q2R; cbn; lra).
  assert (Z : pval r0 (p_const 0) = 0%R) by (rewrite pval_eq; unfold p_const, sval, modPi, Q2R; cbn; lra).
  rewrite P, Z in *. unfold xxMinusYYMat in F0, F1. cbv zeta in F0, F1. unfold capply, apply in F0, F1. cbn in F0, F1. unfold mat_of, bidx in F0, F1. cbn in F0, F1.
  replace (PI / 2 / 2)%R with (PI / 4)%R in * by lra. rewrite cos_PI4, sin_PI4, cos_0, sin_0 in *.
  assert (K : k = C1) by (symmetry; etransitivity; [|etransitivity; [exact F0|]]; ring).
  assert (X : k * (Ci * kap) = ((- 0 * (1 / sqrt 2))%R, (- (1) * (1 / sqrt 2))%R)) by (etransitivity; [|etransitivity; [exact (eq_sym F1)|]]; ring).
  rewrite K in X. apply (f_equal snd) in X. cbn in X. assert (S : (0 < 1 / sqrt 2)%R) by (apply Rdiv_lt_0_compat; [lra|apply sqrt_lt_R0; lra]). unfold Rdiv in *. lra.
Qed.
Print Assumptions C60_xxminusyy_refuted.

(* ---- examples ----------------------------------------------------------------------------------------------------------------- *)
Ltac gate := split; [reflexivity|split; [reflexivity|split; [cbn; intuition subst; reflexivity|split; [repeat constructor; cbn; intuition discriminate|split; [cbn; intros q; intuition subst; eexists; reflexivity|]]]]].
(* a symbolic rotation, three CNOTs in a compound operation (an exchange), a measurement and a barrier, on a crossed layout *)
Definition crossed : perm := [(0, 1); (1, 0)].
Definition sample : list zop :=
  [ZGate gRZ [((1 # 2)%Q, [(0%nat, 1%Q)])] [] [0]; ZCompound [ZGate gX [] [(0, true)] [1]; ZGate gX [] [(1, true)] [0]; ZGate gX [] [(0, true)] [1]]; ZGate gMeasure [] [] [0; 1]; ZGate gBarrier [] [] [1]].
Example sample_ok rho : Forall (zop_ok rho crossed) sample.
Proof.
  repeat apply Forall_cons; try apply Forall_nil.
  - gate. eexists. reflexivity.
  - repeat (split; [gate; eexists; reflexivity|]). exact I.
  - gate. discriminate.
  - gate. exact I.
Qed.
Example sample_layout : layout_ok crossed 2.
Proof. split; [split; repeat constructor; cbn; intuition discriminate|]. intros x [<-|[<-|[]]]; cbn; lia. Qed.
(* four boundary vertices, the rotation, and the two vertices of the exchange; the rotation is on qubit 1 and carries the symbol *)
Definition done {A} (d0 : A) (r : res A) : A := match r with RDone d => d | _ => d0 end.
Lemma done_eq {A} (d0 : A) r : (match r with RDone _ => true | _ => false end) = true -> r = RDone (done d0 r).
Proof. destruct r; cbn; congruence. Qed.
Example sample_build : exists d, build crossed 2 sample = RDone d /\ d_nv d = 7%Z /\ d_ne d = 5%Z /\ vphase d 4 = ((1 # 2)%Q, [(0, 1%Q)]) /\ d_edges d 4 = [(1, false); (6, false)].
Proof. exists (done d_empty (build crossed 2 sample)). split; [apply done_eq; vm_compute; reflexivity|]. vm_compute. auto. Qed.
(* and the operator is the rotation on qubit 1 followed by the exchange *)
Example sample_sem rho psi : zrun rho crossed sample psi = swapq 0 1 (apply (rzMat (pval rho ((1 # 2)%Q, [(0, 1%Q)]))) [1] psi).
Proof.
  unfold zrun, sample. cbn [zsem]. set (a := semf (std_of rho crossed gRZ _ _ _) psi). change (apply (rzMat (pval rho ((1 # 2)%Q, [(0, 1%Q)]))) [1] psi) with a. clearbody a.
  change (capply [(1, true)] (m2 C0 C1 C1 C0) [0] (capply [(0, true)] (m2 C0 C1 C1 C0) [1] (capply [(1, true)] (m2 C0 C1 C1 C0) [0] a)) = swapq 0 1 a).
  rewrite <- !g_cx by auto. rewrite g_cx3 by auto. apply swapq_sym. auto.
Qed.
Example reject_example : parse_gate id2 gY [] [(0, true)] [1] (start 2, seq 0 2) = RThrow. Proof. reflexivity. Qed.
