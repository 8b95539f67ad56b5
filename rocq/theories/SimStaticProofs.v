(* Sampling static circuits: one simulation, then measuring all qubits. *)
From Coq Require Import Reals Lra List Bool Arith Lia FunctionalExtensionality Permutation.
From Verif Require Import Cplx Qsem GateModel GateSpec GateProofs OpProofs IRModel IRSpec IRProofs OutcomeSpec OptModel
  OptDagProofs OptElideProofs OptResetProofs DDModel DDSpec DDProofs DDCanonProofs DDOpsProofs DDGateProofs DDProps
  SimModel SimOpProofs SimPermProofs SimLoopProofs SimMeasProofs SimNormProofs SimSampleProofs.
Import ListNotations.
Local Open Scope R_scope.

Definition ind (b : bool) : R := if b then 1 else 0.
Definition zeros : bits := fun _ => false.

(** ** Measuring all qubits *)
Lemma walk_spec g : forall n t w res, vcan n w t -> w <> C0 -> (forall q, (q < n)%nat -> res q = false) ->
  rprob g (measure_walk n t res) = wsum n (fun b => Cnorm2 (vden t b) * ind (g b)) res.
Proof.
  induction n as [|n IH]; intros t w res Cn W Z.
  - cbn [measure_walk rprob wsum]. destruct t as [|v ws s]; [|destruct Cn as (_ & X & _); discriminate].
    cbn [vden]. rewrite Cnorm2_1. unfold ind. ring.
  - destruct t as [|v ws s]; [destruct Cn; [discriminate|tauto]|]. destruct Cn as (_ & X & [U _] & K). injection X as <-.
    cbn [measure_walk]. destruct (Req_EM_T (Cnorm2 (ws false) + Cnorm2 (ws true)) 1); [|tauto]. rewrite U.
    cbn [rprob wsum]. replace (Cnorm2 (ws false) / 1) with (Cnorm2 (ws false)) by field.
    pose proof (Cnorm2_pos (ws false)). pose proof (Cnorm2_pos (ws true)). rewrite clamp_id by lra.
    replace (1 - Cnorm2 (ws false)) with (Cnorm2 (ws true)) by lra.
    assert (B : forall i r, (forall q, (q < n)%nat -> r q = false) -> r n = i ->
      Cnorm2 (ws i) * rprob g (measure_walk n (s i) r) = wsum n (fun b => Cnorm2 (vden (VNode n ws s) b) * ind (g b)) r).
    { intros i r Zr Ri. rewrite (wsum_ext_in n _ (fun b => Cnorm2 (ws i) * (Cnorm2 (vden (s i) b) * ind (g b)))).
      2:{ intros c A. cbn [vden]. rewrite (A n) by lia. rewrite Ri, Cnorm2_mul. ring. }
      rewrite wsum_scal. destruct (Ceq_dec (ws i) C0) as [E|E]; [rewrite E, Cnorm2_0; ring|]. rewrite (IH (s i) (ws i)) by auto. auto. }
    f_equal.
    + rewrite B; [|auto|auto]. f_equal. rewrite <- (setb_id res n) at 1. rewrite Z by lia. auto.
    + apply B; [|apply setb_same]. intros q Q. rewrite setb_other by lia. auto.
Qed.
Lemma measureAll_spec n e g : vcanon n e -> Cnorm2 (fst e) = 1 ->
  rprob g (measureAll e) = wsum n (fun b => Cnorm2 (veden e b) * ind (g b)) zeros.
Proof.
  intros Cn W. assert (NZ : fst e <> C0) by (intros X; rewrite X, Cnorm2_0 in W; lra).
  rewrite (wsum_ext n _ (fun b => Cnorm2 (vden (snd e) b) * ind (g b))).
  2:{ intros b. unfold veden. rewrite Cnorm2_mul, W. ring. }
  unfold measureAll. destruct (Req_EM_T (Cnorm2 (fst e)) 0); [lra|]. unfold vcanon in Cn. destruct (snd e) as [|v ws s].
  - destruct Cn as [->|]; [|tauto]. cbn [rprob wsum vden]. rewrite Cnorm2_1. unfold ind, zeros. ring.
  - pose proof Cn as (_ & -> & _). apply (walk_spec g (S v) _ (fst e)); auto.
Qed.
Lemma rprob_map {A B} (f : B -> bool) (G : A -> B) (x : rnd A) : rprob f (rbind x (fun a => RRet (DOk (G a)))) = rprob (fun a => f (G a)) x.
Proof. induction x as [[a| |]|p a IHa b IHb]; cbn; auto. now rewrite IHa, IHb. Qed.

(** ** What the measurements at the end prescribe *)
Definition upds (l : list (nat * nat)) (c : bits) (m : store) : store := fold_left (fun m x => setb m (snd x) (c (fst x))) l m.
Lemma measure_ends n f l : forall chi m,
  ends n f (measure_all l (chi, m)) = wsum n (fun c => Cnorm2 (chi c) * ind (f (upds l c m))) zeros.
Proof.
  induction l as [|[q k] l IH]; intros chi m.
  - cbn [measure_all]. unfold ends. cbn [rsum fold_right fst snd upds fold_left]. unfold weight. rewrite weight_wsum, Rplus_0_r.
    destruct (f m); unfold ind.
    + apply wsum_ext. intros c. ring.
    + rewrite (wsum_ext n _ (fun _ => 0)) by (intros; ring). now rewrite wsum_zero.
  - cbn [measure_all]. unfold ends. rewrite rsum_flat. cbn [measure1 rsum fold_right fst snd].
    change (rsum (measure_all l (project q false chi, setb m k false)) (fun x => if f (snd x) then weight n (fst x) else 0))
      with (ends n f (measure_all l (project q false chi, setb m k false))).
    change (rsum (measure_all l (project q true chi, setb m k true)) (fun x => if f (snd x) then weight n (fst x) else 0))
      with (ends n f (measure_all l (project q true chi, setb m k true))).
    rewrite !IH, Rplus_0_r, <- wsum_add. apply wsum_ext. intros c. unfold project, upds. cbn [fold_left fst snd].
    destruct (c q); cbn [eqb]; rewrite Cnorm2_0; ring.
Qed.
Lemma upds_perm l l' c : Permutation l l' -> NoDup (map snd l) -> forall m, upds l c m = upds l' c m.
Proof.
  induction 1 as [|x l l' H IH|x y l|l l' l'' H IH H' IH']; intros N m; auto.
  - inversion N; subst. unfold upds in *. cbn. auto.
  - unfold upds. cbn. f_equal. apply setb_comm. inversion N; subst. cbn in H1. intros E. apply H1. auto.
  - rewrite IH by auto. apply IH'. eapply Permutation_NoDup; [|exact N]. now apply Permutation_map.
Qed.

(** ** The measurement map *)
Definition flatm (ms : list (list nat * list nat)) : list (nat * nat) := flat_map (fun x => combine (fst x) (snd x)) ms.
Definition measop (x : list nat * list nat) : cop := OMeas (fst x) (snd x).
Definition mset (m l : list (nat * nat)) : list (nat * nat) := fold_left (fun m x => mm_set m (fst x) (snd x)) l m.
Lemma mm_sets_eq qs : forall cs m, length qs = length cs -> mm_sets m qs cs = DOk (mset m (combine qs cs)).
Proof. induction qs as [|q qs IH]; intros [|c cs] m E; try discriminate; [auto|]. cbn [mm_sets combine]. rewrite IH by (cbn in E; lia). auto. Qed.
Lemma mm_set_fresh m q b : ~ In q (map fst m) -> Permutation (mm_set m q b) ((q, b) :: m).
Proof.
  induction m as [|[a c] m IH]; intros H; cbn [mm_set]; auto. cbn in H. destruct (Nat.eqb_spec q a) as [->|]; [tauto|].
  destruct (Nat.ltb q a); auto. eapply perm_trans; [apply perm_skip, IH; tauto|apply perm_swap].
Qed.
Lemma mset_fresh l : forall m, NoDup (map fst l ++ map fst m) -> Permutation (mset m l) (l ++ m).
Proof.
  induction l as [|[q b] l IH]; intros m N; cbn; auto. inversion N; subst.
  assert (F : ~ In q (map fst m)) by (intros I; apply H1, in_or_app; auto). pose proof (mm_set_fresh m q b F) as P.
  unfold mset in *. cbn. eapply perm_trans; [apply IH|].
  - eapply Permutation_NoDup; [|exact N]. cbn [map app fst]. apply (Permutation_map fst) in P. cbn in P.
    eapply perm_trans; [apply Permutation_middle|]. apply Permutation_app_head. now apply Permutation_sym.
  - eapply perm_trans; [apply Permutation_app_head, P|]. apply Permutation_sym, Permutation_middle.
Qed.

(** ** Static and dynamic circuits *)
Definition lens (o : cop) : Prop := match o with OMeas qs cs => length qs = length cs | _ => True end.
Lemma scan_last l : Forall lens l -> forall has m, exists h m', scan l has false m = DOk (true, h, m').
Proof.
  induction l as [|o l IH]; intros F has m; cbn [scan]; [eauto|]. inversion F; subst.
  destruct o; cbn in H1; try (destruct (has && _); auto); eauto. rewrite mm_sets_eq by auto. cbn [dbind]. auto.
Qed.
Lemma scan_cases l : Forall lens l -> forall has m,
  (exists h m', scan l has true m = DOk (true, h, m')) \/
  (exists us ms, l = us ++ map measop ms /\ Forall (fun o => cunitary o = true) us /\ (has = true -> us = []) /\
     scan l has true m = DOk (false, has || negb (match ms with [] => true | _ => false end), mset m (flatm ms))).
Proof.
  induction l as [|o l IH]; intros F has m.
  - right. exists [], []. split; [auto|]. split; [constructor|]. split; [auto|]. cbn. now rewrite orb_false_r.
  - inversion F; subst.
    assert (UN : cunitary o = true -> (forall b, scan (o :: l) has b m = scan l has (if has then false else b) m) ->
      (exists h m', scan (o :: l) has true m = DOk (true, h, m')) \/
      (exists us ms, o :: l = us ++ map measop ms /\ Forall (fun o => cunitary o = true) us /\ (has = true -> us = []) /\
        scan (o :: l) has true m = DOk (false, has || negb (match ms with [] => true | _ => false end), mset m (flatm ms)))).
    { intros U E. rewrite E. destruct has; [left; apply scan_last; auto|]. destruct (IH H2 false m) as [D|(us & ms & -> & FU & _ & S)]; [left; auto|].
      right. exists (o :: us), ms. split; [auto|]. split; [auto|]. split; [discriminate|]. auto. }
    destruct o as [s|qs cs|qs|c o|cu ops].
    + apply UN; auto. intros b. cbn. now rewrite andb_true_r.
    + cbn in H1. destruct (IH H2 true (mset m (combine qs cs))) as [(h & m' & S)|(us & ms & -> & FU & E & S)].
      * left. cbn [scan]. rewrite mm_sets_eq by auto. cbn [dbind]. eauto.
      * rewrite (E eq_refl) in *. right. exists [], ((qs, cs) :: ms). split; [auto|]. split; [constructor|]. split; [auto|].
        cbn [scan app]. rewrite mm_sets_eq by auto. cbn [dbind]. cbn [app] in S. rewrite S. cbn [negb orb]. rewrite orb_true_r.
        unfold flatm, mset. cbn [flat_map fst snd]. rewrite fold_left_app. auto.
    + left. cbn. eauto.
    + left. cbn. eauto.
    + apply UN; auto. intros b. cbn. now rewrite andb_true_r.
Qed.
Lemma filter_unitary us ms : Forall (fun o => cunitary o = true) us -> filter cunitary (us ++ map measop ms) = us.
Proof.
  intros F. rewrite filter_app. replace (filter cunitary us) with us by (induction F as [|o us E F IH]; cbn; auto; rewrite E; congruence).
  replace (filter cunitary (map measop ms)) with (@nil cop); [apply app_nil_r|]. induction ms as [|x ms IH]; auto.
Qed.
Lemma run_meas ms : forall b, run (map measop ms) b = measure_all (flatm ms) b.
Proof.
  assert (A : forall l l' b, measure_all (l ++ l') b = flat_map (measure_all l') (measure_all l b)).
  { induction l as [|[q k] l IH]; intros l' b; cbn; [now rewrite app_nil_r|]. rewrite !app_nil_r, flat_map_app, !IH. auto. }
  induction ms as [|x ms IH]; intros b; cbn; auto. rewrite A. apply flat_map_ext'. auto.
Qed.

(** ** One shot of a static circuit *)
Lemma static_prefix n us init out pi inp psi : good n us init -> out_ok init out -> agrees pi init -> permutes n pi -> dgood n pi inp psi ->
  exists e pi', (let* (p, e) := sim_loop n us init inp in let* (_, e') := changePermutationV n e p out in DOk e') = DOk e /\
    dgood n pi' e (uacts us psi) /\ permutes n pi' /\ agrees_out pi' out.
Proof.
  intros G O A PI (Cn & W & D). destruct (steps_spec n _ _ G) as (p' & ds & S & F & _ & P' & K' & T).
  destruct (sim_loop_steps n _ _ _ _ S F inp Cn) as (e & E & Ce & De). rewrite E. cbn [dbind].
  destruct (changeV n p' out e) as (sg & f' & f1 & e' & X & Ce' & MV & PS & MM & _); auto; [apply (out_cp n init); auto|].
  rewrite X. cbn [dbind]. destruct (T pi A (proj1 PI)) as (pi' & A1 & I1 & P1 & D1).
  exists e', (fun q => sg (pi' q)). split; [auto|]. assert (PP : permutes n (fun q => sg (pi' q))) by (apply permutes_comp; auto).
  assert (DD : veden e' = move (fun q => sg (pi' q)) (uacts us psi)) by (unfold moved_v in MV; rewrite MV, De, D, D1; reflexivity).
  destruct G as (PG & FD & KU). split; [|split; [auto|]].
  - split; [auto|]. split; [|auto]. rewrite <- (weight_veden n), DD, weight_move by auto. rewrite weight_uacts; auto.
    + rewrite <- (weight_move n pi) by auto. rewrite <- D, weight_veden; auto.
    + intros q Q. apply (pgood_lt n init pi); auto.
  - destruct O as (O1 & _ & O3). apply (moves_agrees sg pi' p' f1); auto; [apply P'|]. intros i g H. apply K'. eapply O3; eauto.
Qed.

Lemma map_meas_spec n nb out pi mm : permutes n pi -> agrees_out pi out ->
  (forall x, In x mm -> In (fst x) (map fst out) /\ (pi (fst x) < n)%nat /\ (snd x < nb)%nat) ->
  forall res acc, map_meas n nb out res mm acc = DOk (upds mm (fun x => res (pi x)) acc).
Proof.
  intros P A. induction mm as [|[q b] mm IH]; intros H res acc; cbn [map_meas]; auto.
  destruct (H (q, b)) as (K & L & B); [cbn; auto|]. cbn in K, L, B.
  apply plookup_some in K. destruct K as (l & E). rewrite E. rewrite <- (A _ _ E).
  apply Nat.ltb_lt in L, B. rewrite L, B. cbn [andb]. rewrite IH by (intros; apply H; cbn; auto). auto.
Qed.

Lemma static_meas_spec f n us ms init out pi nb c inp psi : qc_n c = n -> qc_ops c = us ++ map measop ms -> qc_init c = init -> qc_out c = out ->
  Forall (fun o => cunitary o = true) us -> good n us init -> out_ok init out ->
  agrees pi init -> permutes n pi -> dgood n pi inp psi ->
  NoDup (map fst (flatm ms)) -> NoDup (map snd (flatm ms)) ->
  (forall x, In x (flatm ms) -> In (fst x) (map fst out) /\ (snd x < nb)%nat) ->
  rprob f (static_shot c nb true (mset [] (flatm ms)) inp) = ends n f (run (qc_ops c) (psi, zeros)).
Proof.
  intros En Eo Ei Et FU G O A PI D N1 N2 H. unfold static_shot. rewrite En, Eo, Ei, Et, filter_unitary by auto.
  destruct (static_prefix n us init out pi inp psi G O A PI D) as (e & pi' & E & (Ce & We & De) & PP & AO). rewrite E. cbn [rlift].
  pose proof (mset_fresh (flatm ms) []) as MP. cbn [map] in MP. rewrite !app_nil_r in MP. specialize (MP N1).
  set (mm := mset [] (flatm ms)) in *.
  assert (MB : forall x, In x mm -> In (fst x) (map fst out) /\ (pi' (fst x) < n)%nat /\ (snd x < nb)%nat).
  { intros x X. apply (Permutation_in _ MP) in X. destruct (H x X) as [K B]. split; [auto|]. split; [|auto].
    apply PP. destruct O as (_ & _ & O3). apply in_map_iff in K. destruct K as ([i g] & Ek & K). cbn in Ek. subst i.
    destruct (O3 _ _ K) as [Q _]. destruct G as (PG & _). apply (pgood_lt n init pi); auto. }
  replace (fun res : bits => RRet (map_meas n nb out res mm (fun _ : nat => false)))
    with (fun res : bits => RRet (DOk (upds mm (fun x => res (pi' x)) zeros))).
  2:{ apply functional_extensionality. intros res. now rewrite (map_meas_spec n nb out pi' mm PP AO MB). }
  rewrite rprob_map, (measureAll_spec n) by auto. rewrite De. unfold move.
  etransitivity; [exact (wsum_pull n pi' (fun b => Cnorm2 (uacts us psi b) * ind (f (upds mm b zeros))) PP)|].
  destruct G as (_ & FD & _). rewrite run_app. rewrite run_uacts' by auto. cbn [flat_map]. rewrite app_nil_r, run_meas, measure_ends.
  apply wsum_ext. intros b. do 3 f_equal. apply upds_perm; auto. eapply Permutation_NoDup; [|exact N2]. apply Permutation_map. now symmetry.
Qed.

(* without measurements every qubit with an output is measured into the bit with the index of its level *)
Lemma map_out_spec n nb out : (forall x, In x out -> (fst x < n)%nat /\ (snd x < nb)%nat) ->
  forall res acc, map_out n nb res out acc = DOk (upds out res acc).
Proof.
  induction out as [|[q b] out IH]; intros H res acc; cbn [map_out]; auto. destruct (H (q, b)) as [L B]; [cbn; auto|]. cbn in L, B.
  apply Nat.ltb_lt in L, B. rewrite L, B. cbn [andb]. rewrite IH by (intros; apply H; cbn; auto). auto.
Qed.
Lemma static_nomeas_spec f n us init out pi nb c mm inp psi : qc_n c = n -> qc_ops c = us -> qc_init c = init -> qc_out c = out ->
  Forall (fun o => cunitary o = true) us -> good n us init -> out_ok init out ->
  agrees pi init -> permutes n pi -> dgood n pi inp psi -> (n <= nb)%nat ->
  (forall x, In x out -> fst x = snd x) ->
  rprob f (static_shot c nb false mm inp) = ends n f (run (qc_ops c ++ [OMeas (map fst out) (map snd out)]) (psi, zeros)).
Proof.
  intros En Eo Ei Et FU G O A PI D L ID. unfold static_shot. rewrite En, Eo, Ei, Et.
  pose proof (filter_unitary us [] FU) as FF. cbn [map] in FF. rewrite app_nil_r in FF. rewrite FF.
  destruct (static_prefix n us init out pi inp psi G O A PI D) as (e & pi' & E & (Ce & We & De) & PP & AO). rewrite E. cbn [rlift].
  assert (B : forall x, In x out -> (fst x < n)%nat /\ (snd x < nb)%nat).
  { intros [i g] X. cbn [fst snd]. pose proof (ID _ X) as Y. cbn in Y. subst g. destruct O as (_ & _ & O3). destruct (O3 _ _ X) as [Q _].
    destruct G as (PG & _). destruct (pgood_lt n init pi i PG A PI Q). split; lia. }
  replace (fun res : bits => RRet (map_out n nb res out (fun _ : nat => false))) with (fun res : bits => RRet (DOk (upds out res zeros))).
  2:{ apply functional_extensionality. intros res. now rewrite (map_out_spec n nb out B). }
  rewrite rprob_map, (measureAll_spec n) by auto. rewrite De. unfold move.
  rewrite (wsum_ext n _ (fun b => (fun c => Cnorm2 (uacts us psi c) * ind (f (upds out c zeros))) (fun x => b (pi' x)))).
  2:{ intros b. do 3 f_equal. assert (U : forall l m, (forall x, In x l -> In x out) -> upds l b m = upds l (fun x => b (pi' x)) m).
      { induction l as [|[q k] l IH]; intros m S; auto. unfold upds in *. cbn [fold_left fst snd].
        rewrite (AO q k). 2:{ apply plookup_complete; [apply O|apply S; cbn; auto]. }
        pose proof (ID (q, k) (S (q, k) (or_introl eq_refl))) as Y. cbn in Y. subst k. apply IH. intros; apply S; cbn; auto. }
      apply U. auto. }
  etransitivity; [exact (wsum_pull n pi' (fun c => Cnorm2 (uacts us psi c) * ind (f (upds out c zeros))) PP)|]. destruct G as (_ & FD & _). rewrite run_app. rewrite run_uacts' by auto.
  cbn [flat_map run run_op]. rewrite !app_nil_r. rewrite flat_map_one.
  replace (combine (map fst out) (map snd out)) with out.
  2:{ clear. induction out as [|[a b] o IH]; cbn; congruence. }
  rewrite measure_ends. auto.
Qed.
