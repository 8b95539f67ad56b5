(* Deterministic noise on decision diagrams of density operators. *)
From Coq Require Import Reals Lra List Bool Arith Lia FunctionalExtensionality Sorting.Sorted.
From Verif Require Import Cplx Qsem GateModel OutcomeSpec DDModel DDSpec DDProofs DDCanonProofs DDOpsProofs OptResetProofs SimMeasProofs
  NoiseSpec NoiseModel NoiseChanProofs.
Import ListNotations.
Local Open Scope R_scope.

(** ** Edges of bounded level; edges of weight zero may lead anywhere below *)
Definition egood (n : nat) (e : medge) : Prop := mlev n (snd e) /\ mcan0 n e.
Lemma mchild_lev v x i j : mlev (S v) (snd x) -> mlev v (snd (mchild v x i j)).
Proof.
  unfold mchild. destruct (snd x) as [|q w t] eqn:E; intros L.
  - destruct (eqb i j); [rewrite E|]; exact Logic.I.
  - destruct L as [A B]. destruct (Nat.ltb_spec q v); [destruct (eqb i j); [rewrite E; split; auto|exact Logic.I]|].
    assert (q = v) by lia. subst. apply B.
Qed.
Lemma madd_lev : forall n x y r, mlev n (snd x) -> mlev n (snd y) -> madd n x y = DOk r -> mlev n (snd r).
Proof.
  induction n as [|v IH]; intros x y r X Y; cbn [madd]; destruct (ezero (fst x)), (ezero (fst y));
    try solve [intros H; injection H as <-; auto; exact Logic.I];
    destruct mtree_eq_dec; try solve [intros H; injection H as <-; auto]; try discriminate.
  intros H. destruct (seq4 _) as [g| |] eqn:G; cbn [dbind] in H; try discriminate. injection H as <-. apply (mmk_wf v g). intros i j.
  unfold seq4 in G.
  destruct (madd v (mchild v x false false) (mchild v y false false)) as [a| |] eqn:Ea; cbn [dbind] in G; try discriminate.
  destruct (madd v (mchild v x false true) (mchild v y false true)) as [b| |] eqn:Eb; cbn [dbind] in G; try discriminate.
  destruct (madd v (mchild v x true false) (mchild v y true false)) as [c| |] eqn:Ec; cbn [dbind] in G; try discriminate.
  destruct (madd v (mchild v x true true) (mchild v y true true)) as [d| |] eqn:Ed; cbn [dbind] in G; try discriminate.
  injection G as <-. unfold mwf. destruct i, j; eapply IH; try eassumption; apply mchild_lev; auto.
Qed.
(* addition with the recursion depth of any larger index *)
Lemma madd_good n m x y : egood n x -> egood n y -> (mvar (snd x) < m)%nat -> (mvar (snd y) < m)%nat -> (m <= n)%nat \/ (snd x = MT /\ snd y = MT) ->
  exists r, madd m x y = DOk r /\ egood n r /\ forall b c, meden n r b c = (meden n x b c + meden n y b c)%C.
Proof.
  intros [Lx Cx] [Ly Cy] Mx My [H|[Tx Ty]].
  - assert (Rx : mlev m (snd x)). { destruct (mlev_root n (snd x) Lx) as [A _]. apply (mlev_mono (S (mvar (snd x)))); auto. }
    assert (Ry : mlev m (snd y)). { destruct (mlev_root n (snd y) Ly) as [A _]. apply (mlev_mono (S (mvar (snd y)))); auto. }
    destruct (madd_spec m x y) as (r & E & Cr & D).
    { destruct Cx as [Cx|Cx]; [left; auto|right; apply (mcanon_root n); auto]. }
    { destruct Cy as [Cy|Cy]; [left; auto|right; apply (mcanon_root n); auto]. }
    exists r. split; [auto|]. assert (Lr : mlev m (snd r)) by (eapply madd_lev; [exact Rx|exact Ry|eauto]). split.
    + split; [apply (mlev_mono m); auto|]. destruct Cr as [Cr|Cr]; [left; auto|right; unfold mcanon; apply (mcan_mono m); auto].
    + apply (madd_lift m n x y r); auto.
  - destruct m as [|m]; [lia|]. destruct x as [wx tx], y as [wy ty]. cbn [fst snd] in *. subst tx ty. cbn [madd fst snd].
    destruct (ezero wx) eqn:Zx; [apply ezero_true in Zx; subst wx|destruct (ezero wy) eqn:Zy; [apply ezero_true in Zy; subst wy|]].
    + destruct (ezero wy) eqn:Zy; [apply ezero_true in Zy; subst wy|]; (eexists; split; [reflexivity|]); (split; [split; [exact Logic.I|right; exact Logic.I]|]);
        intros b c; unfold meden; cbn [fst snd mzero]; ring.
    + eexists; split; [reflexivity|]. split; [split; [exact Logic.I|right; exact Logic.I]|]. intros b c; unfold meden; cbn [fst snd]; ring.
    + destruct mtree_eq_dec; [|tauto]. eexists; split; [reflexivity|]. split; [split; [exact Logic.I|right; exact Logic.I]|]. intros b c; unfold meden; cbn [fst snd]; ring.
Qed.
Lemma scale_good n r e : egood n e -> egood n (scale r e).
Proof.
  intros [L K]. unfold scale. destruct (ezero (fst e)) eqn:Z; [split; auto|]. split; [auto|]. apply mcan0_scale. auto.
Qed.
Lemma scale_den n r e b c : meden n (scale r e) b c = (RtoC r * meden n e b c)%C.
Proof. unfold scale. destruct (ezero (fst e)) eqn:Z; unfold meden; cbn [fst snd]; [apply ezero_true in Z; rewrite Z|]; ring. Qed.
Lemma helper_good n r e : egood n e -> egood n (helper r e).
Proof.
  intros [L K]. unfold helper. destruct (ezero (fst e)) eqn:Z; [split; [auto|left; auto]|]. split; [auto|]. apply mcan0_scale. auto.
Qed.
Lemma helper_den n r e b c : meden n (helper r e) b c = (RtoC r * meden n e b c)%C.
Proof. unfold helper. destruct (ezero (fst e)) eqn:Z; unfold meden; cbn [fst snd]; [apply ezero_true in Z; rewrite Z|]; ring. Qed.
Lemma snd_helper r e : snd (helper r e) = snd e.
Proof. unfold helper. destruct (ezero (fst e)); auto. Qed.
Lemma vars4_ge e i j : (mvar (snd (e i j)) < vars4 e)%nat.
Proof. unfold vars4. destruct i, j; lia. Qed.
Lemma vars4_le n e : (forall i j, egood n (e i j)) -> (vars4 e <= n)%nat \/ forall i j, snd (e i j) = MT.
Proof.
  intros H. assert (A : forall i j, snd (e i j) = MT \/ (S (mvar (snd (e i j))) <= n)%nat).
  { intros i j. destruct (H i j) as [L _]. apply (mlev_root n); auto. }
  unfold vars4. pose proof (A false false) as A0. pose proof (A false true) as A1. pose proof (A true false) as A2. pose proof (A true true) as A3.
  assert (M : forall t : mtree, t = MT -> mvar t = 0%nat) by (intros t ->; auto).
  destruct A0 as [A0|A0], A1 as [A1|A1], A2 as [A2|A2], A3 as [A3|A3];
    repeat match goal with H : snd _ = MT |- _ => pose proof (M _ H); revert H end; intros;
    try (left; lia); right; intros [] []; auto.
Qed.
Lemma madd4 n e i j k l x y : (forall i j, egood n (e i j)) -> egood n x -> egood n y -> snd x = snd (e i j) -> snd y = snd (e k l) ->
  exists r, madd (vars4 e) x y = DOk r /\ egood n r /\ forall b c, meden n r b c = (meden n x b c + meden n y b c)%C.
Proof.
  intros H X Y Ex Ey. apply madd_good; auto; rewrite ?Ex, ?Ey; auto using vars4_ge. destruct (vars4_le n e H); auto.
Qed.

(** ** The maps on the four blocks *)
Definition eden (n : nat) (e : edges4) : density := fun b c => meden n (e (b n) (c n)) b c.
Lemma eden_setb n e b c i j : eden n e (setb b n i) (setb c n j) = meden n (e i j) b c.
Proof. unfold eden. rewrite !setb_eq. unfold meden. now rewrite mden_setb by auto. Qed.
Lemma kact_eden K n e b c : kact K n (eden n e) b c = sum2 (fun i => sum2 (fun j => (K (b n) i * Cconj (K (c n) j) * meden n (e i j) b c)%C)).
Proof. unfold kact. unfold sum2. now rewrite !eden_setb. Qed.

Lemma phase_spec n p e : (forall i j, egood n (e i j)) -> exists e', phaseFlipEdges p e = DOk e' /\ (forall i j, egood n (e' i j)) /\
  eden n e' = channel (phase_flip p) n (eden n e).
Proof.
  intros H. unfold phaseFlipEdges. eexists. split; [reflexivity|]. split.
  - intros i j. destruct (eqb i j); auto using scale_good.
  - apply dext. intros b c. unfold channel, phase_flip. cbn [fold_right fst snd]. rewrite !kact_eden. unfold eden.
    replace (RtoC (1 - p)) with (C1 + - RtoC p)%C by (rewrite <- RtoC_opp, <- RtoC_1, <- RtoC_add; auto).
    unfold sum2, mI, mZ, diag2. destruct (b n), (c n); cbn [eqb]; rewrite ?scale_den, ?Cconj_0, ?Cconj_1, ?Cconj_opp, ?Cconj_1;
      try replace (RtoC (1 - 2 * p)) with (C1 + - (RtoC p + RtoC p))%C by (rewrite <- RtoC_add, <- RtoC_opp, <- RtoC_1, <- RtoC_add; f_equal; ring); ring.
Qed.
Lemma amp_spec n a e : 0 <= a <= 1 -> (forall i j, egood n (e i j)) -> exists e', ampDampEdges a e = DOk e' /\ (forall i j, egood n (e' i j)) /\
  eden n e' = channel (amplitude_damping a) n (eden n e).
Proof.
  intros A H. unfold ampDampEdges.
  assert (X : exists e0', (if ezero (fst (e true true)) then DOk (e false false)
              else if ezero (fst (e false false)) then DOk ((fst (e true true) * RtoC a)%C, snd (e true true))
              else madd (vars4 e) (e false false) ((fst (e true true) * RtoC a)%C, snd (e true true))) = DOk e0' /\ egood n e0' /\
            forall b c, meden n e0' b c = (meden n (e false false) b c + RtoC a * meden n (e true true) b c)%C).
  { assert (S3 : egood n ((fst (e true true) * RtoC a)%C, snd (e true true))). { destruct (H true true). split; [auto|apply mcan0_scale; auto]. }
    destruct (ezero (fst (e true true))) eqn:Z3; [|destruct (ezero (fst (e false false))) eqn:Z0].
    - eexists. split; [reflexivity|]. split; [auto|]. intros b c. apply ezero_true in Z3. unfold meden. rewrite Z3. ring.
    - eexists. split; [reflexivity|]. split; [auto|]. intros b c. apply ezero_true in Z0. unfold meden. rewrite Z0. cbn [fst snd]. ring.
    - destruct (madd4 n e false false true true _ _ H (H false false) S3 eq_refl eq_refl) as (r & E & G & D). exists r. split; [auto|]. split; [auto|].
      intros b c. rewrite D. unfold meden. cbn [fst snd]. ring. }
  destruct X as (e0' & -> & G0 & D0). cbn [dbind]. eexists. split; [reflexivity|]. split.
  - intros [] []; cbn [m4]; auto using scale_good.
  - apply dext. intros b c. unfold channel, amplitude_damping. cbn [fold_right fst snd]. rewrite !kact_eden. unfold eden.
    assert (S1 : (RtoC (sqrt a) * RtoC (sqrt a))%C = RtoC a) by (rewrite <- RtoC_mul, sqrt_sqrt by lra; auto).
    assert (S2 : (RtoC (sqrt (1 - a)) * RtoC (sqrt (1 - a)))%C = RtoC (1 - a)) by (rewrite <- RtoC_mul, sqrt_sqrt by lra; auto).
    unfold sum2, diag2, anti2, m4. rewrite RtoC_1.
    destruct (b n), (c n); cbn [eqb]; rewrite ?scale_den, ?D0, ?Cconj_0, ?Cconj_1, ?RtoC_conj, <- ?S1, <- ?S2; ring.
Qed.
Lemma depol_spec n p e : (forall i j, egood n (e i j)) -> exists e', depolEdges p e = DOk e' /\ (forall i j, egood n (e' i j)) /\
  eden n e' = channel (depolarising p) n (eden n e).
Proof.
  intros H. unfold depolEdges.
  destruct (madd4 n e false false true true (helper ((2 - p) * / 2) (e false false)) (helper (p * / 2) (e true true)) H) as (r0 & E0 & G0 & D0);
    auto using helper_good, snd_helper.
  destruct (madd4 n e true true false false (helper ((2 - p) * / 2) (e true true)) (helper (p * / 2) (e false false)) H) as (r3 & E3 & G3 & D3);
    auto using helper_good, snd_helper.
  rewrite E0. cbn [dbind]. rewrite E3. cbn [dbind]. eexists. split; [reflexivity|]. split.
  - intros [] []; cbn [m4]; auto using scale_good.
  - apply dext. intros b c. unfold channel, depolarising. cbn [fold_right fst snd]. rewrite !kact_eden. unfold eden.
    unfold sum2, mI, mX, mY, mZ, diag2, anti2, m4.
    destruct (b n), (c n); cbn [eqb]; rewrite ?scale_den, ?D0, ?D3, ?helper_den;
      repeat match goal with |- context [meden n ?x b c] => let z := fresh in set (z := meden n x b c); destruct z end;
      unfold RtoC, Cmul, Cadd, Cconj, Copp, C0, C1, Ci; cbn; apply Ceq; cbn; field.
Qed.

(** ** All effects on one level *)
Definition dkraus (p a : R) (e : noise) : kraus :=
  match e with
  | nAmp => amplitude_damping a
  | nPhase => phase_flip p
  | nDepol => depolarising p
  | nIdent => [(1, mI)]
  end.
Definition d_p (d : determ) (single : bool) : R := if single then d_np d else d_npM d.
Definition d_a (d : determ) (single : bool) : R := if single then d_amp d else d_ampM d.
Lemma channel_ident n rho : channel [(1, mI)] n rho = rho.
Proof.
  apply dext. intros b c. unfold channel, kact, sum2, mI, diag2. cbn [fold_right fst snd]. rewrite RtoC_1.
  assert (E : rho b c = rho (setb b n (b n)) (setb c n (c n))).
  { f_equal; apply functional_extensionality; intros x; unfold setb; destruct (Nat.eqb_spec x n); subst; auto. }
  rewrite E. destruct (b n), (c n); cbn [eqb]; rewrite ?Cconj_0, ?Cconj_1; ring.
Qed.
Lemma effects_spec n d single effs : 0 <= d_a d single <= 1 -> forall e : edges4, (forall i j, egood n (e i j)) ->
  exists e', effectsEdges d single effs e = DOk e' /\ (forall i j, egood n (e' i j)) /\
    eden n e' = chain (map (dkraus (d_p d single) (d_a d single)) effs) n (eden n e).
Proof.
  intros A. induction effs as [|x r IH]; intros e H.
  - exists e. auto.
  - cbn [effectsEdges]. unfold chain. cbn [map fold_left].
    assert (X : exists e1, match x with
               | nAmp => ampDampEdges (if single then d_amp d else d_ampM d) e
               | nPhase => phaseFlipEdges (if single then d_np d else d_npM d) e
               | nDepol => depolEdges (if single then d_np d else d_npM d) e
               | nIdent => DOk e
               end = DOk e1 /\ (forall i j, egood n (e1 i j)) /\ eden n e1 = channel (dkraus (d_p d single) (d_a d single) x) n (eden n e)).
    { destruct x; [apply amp_spec; auto|apply phase_spec; auto|apply depol_spec; auto|]. exists e. rewrite channel_ident. auto. }
    destruct X as (e1 & -> & H1 & D1). cbn [dbind]. destruct (IH e1 H1) as (e2 & E2 & H2 & D2). exists e2. split; [auto|]. split; [auto|].
    rewrite D2, D1. reflexivity.
Qed.

(** ** The recursion *)
Lemma channel_block ks q m (F : bool -> bool -> density) : q <> m ->
  channel ks q (fun b c => F (b m) (c m) b c) = fun b c => channel ks q (F (b m) (c m)) b c.
Proof.
  intros N. apply dext. intros b c. induction ks as [|[w K] ks IH]; [reflexivity|]. rewrite !channel_cons, IH. f_equal. f_equal.
  unfold kact, sum2. assert (E : forall b i, setb b q i m = b m). { intros b' i. unfold setb. destruct (Nat.eqb_spec m q); [congruence|auto]. }
  rewrite !E. auto.
Qed.
Lemma chain_block kss q m (N : q <> m) : forall (F : bool -> bool -> density),
  chain kss q (fun b c => F (b m) (c m) b c) = fun b c => chain kss q (F (b m) (c m)) b c.
Proof.
  induction kss as [|ks kss IH]; intros F; [reflexivity|]. unfold chain in *. cbn [fold_left]. rewrite channel_block by auto.
  apply (IH (fun i j => channel ks q (F i j))).
Qed.
Lemma chains_block kss m qs : (forall q, In q qs -> q <> m) -> forall (F : bool -> bool -> density),
  chains kss qs (fun b c => F (b m) (c m) b c) = fun b c => chains kss qs (F (b m) (c m)) b c.
Proof.
  induction qs as [|q qs IH]; intros N F; [reflexivity|]. unfold chains in *. cbn [fold_left]. rewrite chain_block by (apply N; cbn; auto).
  apply (IH (fun x X => N x (or_intror X)) (fun i j => chain kss q (F i j))).
Qed.
Lemma channel_cscal ks q k rho : channel ks q (fun b c => (k * rho b c)%C) = fun b c => (k * channel ks q rho b c)%C.
Proof.
  apply dext. intros b c. induction ks as [|[w K] ks IH]; [unfold channel; cbn; ring|]. rewrite !channel_cons, IH. unfold kact, sum2. ring.
Qed.
Lemma chain_cscal kss q k : forall rho, chain kss q (fun b c => (k * rho b c)%C) = fun b c => (k * chain kss q rho b c)%C.
Proof. induction kss as [|ks kss IH]; intros rho; [reflexivity|]. unfold chain in *. cbn [fold_left]. rewrite channel_cscal. apply IH. Qed.
Lemma chains_cscal kss qs k : forall rho, chains kss qs (fun b c => (k * rho b c)%C) = fun b c => (k * chains kss qs rho b c)%C.
Proof. induction qs as [|q qs IH]; intros rho; [reflexivity|]. unfold chains in *. cbn [fold_left]. rewrite chain_cscal. apply IH. Qed.
Lemma chains_zero kss qs : chains kss qs (fun _ _ => C0) = fun _ _ => C0.
Proof.
  transitivity (chains kss qs (fun b c : bits => (C0 * (fun _ _ : bits => C0) b c)%C)).
  - f_equal. apply dext. intros. ring.
  - rewrite chains_cscal. apply dext. intros. ring.
Qed.
Lemma chains_snoc kss qs q rho : chains kss (qs ++ [q]) rho = chain kss q (chains kss qs rho).
Proof. unfold chains. now rewrite fold_left_app. Qed.

Definition below (m : nat) (used : list nat) : list nat := filter (fun q => Nat.ltb q m) used.
Lemma below_S m used : StronglySorted lt used -> below (S m) used = below m used ++ (if existsb (Nat.eqb m) used then [m] else []).
Proof.
  unfold below. induction 1 as [|u r S IH F]; [reflexivity|]. cbn [filter existsb]. rewrite IH.
  destruct (Nat.ltb_spec u (Datatypes.S m)), (Nat.ltb_spec u m), (Nat.eqb_spec m u); try lia; cbn [orb app]; auto.
  subst u. assert (N : existsb (Nat.eqb m) r = false).
  { destruct (existsb (Nat.eqb m) r) eqn:E; auto. apply existsb_exists in E. destruct E as (y & Y & E). apply Nat.eqb_eq in E. subst y.
    rewrite Forall_forall in F. specialize (F m Y). lia. }
  assert (FN : filter (fun q => Nat.ltb q m) r = []).
  { clear -F. induction F as [|y r Y F IH]; [auto|]. cbn [filter]. destruct (Nat.ltb_spec y m); [lia|auto]. }
  rewrite N, FN. auto.
Qed.
(* above the lowest used qubit no level is skipped over a node *)
Fixpoint mfull (u0 n : nat) (t : mtree) : Prop :=
  match t with
  | MT => True
  | MNode q _ s => (n <= u0)%nat \/ (n = S q /\ forall i j, mfull u0 q (s i j))
  end.

Lemma dnoise_spec d used u0 r0 : used = u0 :: r0 -> StronglySorted lt used -> 0 <= d_a d (Nat.eqb (length used) 1) <= 1 ->
  let kss := map (dkraus (d_p d (Nat.eqb (length used) 1)) (d_a d (Nat.eqb (length used) 1))) (d_effects d) in
  forall n e, mcanon n e -> mfull u0 n (snd e) ->
  exists r, dnoise d used n e = DOk r /\ mcanon n r /\ meden n r = chains kss (below n used) (meden n e).
Proof.
  intros U S A kss. induction n as [|m IH]; intros [w t] Ce Fe; cbn [snd] in Fe.
  all: assert (STOP : forall k, (k <= u0)%nat -> below k used = []).
  1,3: intros k K; unfold below; rewrite U in *; inversion S as [|? ? _ F]; subst; cbn [filter]; destruct (Nat.ltb_spec u0 k); [lia|];
    clear -F K; induction F as [|y r Y F IHF]; [auto|]; cbn [filter]; destruct (Nat.ltb_spec y k); [lia|auto].
  - exists (w, t). split; [|split; [auto|rewrite STOP by lia; reflexivity]].
    cbn [dnoise]. rewrite U. destruct (match t with MT => ezero w | MNode _ _ _ => false end); auto.
  - cbn [dnoise]. destruct (match t with MT => ezero w | MNode _ _ _ => false end) eqn:Z.
    { destruct t; [|discriminate]. apply ezero_true in Z. subst w. exists (C0, MT). split; [auto|]. split; [auto|].
      replace (meden (Datatypes.S m) (C0, MT)) with (fun _ _ : bits => C0) by (apply dext; intros; unfold meden; cbn [fst]; ring).
      rewrite chains_zero. auto. }
    rewrite U. cbn [dnoise]. rewrite <- U.
    destruct (Nat.leb_spec (Datatypes.S m) u0) as [LE|GT].
    { exists (w, t). split; [auto|]. split; [auto|]. rewrite STOP by lia. reflexivity. }
    set (es0 := fun i j : bool => match t with MT => if eqb i j then (C1, MT) else mzero | MNode _ ws s => (ws i j, s i j) end).
    assert (NZ : w <> C0). { destruct t; [apply ezero_false in Z; auto|destruct Ce; auto]. }
    assert (C0' : forall i j, mcanon m (es0 i j)).
    { intros i j. unfold es0. destruct t as [|q ws s]; [destruct (eqb i j); exact Logic.I|]. destruct Fe as [Fe|[Eq Fe]]; [lia|].
      destruct Ce as (_ & _ & _ & _ & Ce). injection Eq as ->. apply Ce. }
    assert (F0 : forall i j, mfull u0 m (snd (es0 i j))).
    { intros i j. unfold es0. destruct t as [|q ws s]; [destruct (eqb i j); exact Logic.I|]. destruct Fe as [Fe|[Eq Fe]]; [lia|].
      injection Eq as ->. apply Fe. }
    assert (D0 : meden (Datatypes.S m) (w, t) = fun b c => (w * eden m es0 b c)%C).
    { apply dext. intros b c. unfold eden, es0, meden. cbn [fst snd]. destruct t as [|q ws s]; cbn [mden].
      - destruct (eqb (b m) (c m)); cbn [fst snd mzero]; ring.
      - destruct Fe as [Fe|[Eq Fe]]; [lia|]. injection Eq as ->. rewrite Nat.eqb_refl. cbn [fst snd]. ring. }
    assert (X : exists es, match t with
                   | MT => let* x := dnoise d used m (C1, MT) in DOk (m4 x mzero mzero x)
                   | MNode _ ws s => seq4 (fun i j => dnoise d used m (ws i j, s i j))
                   end = DOk es /\ (forall i j, mcanon m (es i j)) /\ forall i j, meden m (es i j) = chains kss (below m used) (meden m (es0 i j))).
    { destruct t as [|q ws s].
      - destruct (IH (C1, MT) Logic.I Logic.I) as (x & E & Cx & Dx). rewrite E. cbn [dbind]. eexists. split; [reflexivity|].
        assert (ZZ : meden m mzero = chains kss (below m used) (meden m mzero)).
        { replace (meden m mzero) with (fun _ _ : bits => C0) by (apply dext; intros; unfold meden, mzero; cbn [fst]; ring). now rewrite chains_zero. }
        split; [intros [] []; cbn; auto; exact Logic.I|]. intros [] []; unfold m4, es0; cbn [eqb]; auto.
      - destruct (seq4_ok (fun i j => dnoise d used m (ws i j, s i j))
          (fun i j x => mcanon m x /\ meden m x = chains kss (below m used) (meden m (es0 i j)))) as (g & E & G).
        { intros i j. destruct (IH (ws i j, s i j)) as (x & E & Cx & Dx); [apply (C0' i j)|apply (F0 i j)|]. exists x. auto. }
        exists g. split; [auto|]. split; intros i j; apply G. }
    destruct X as (es & -> & Ces & Des). cbn [dbind].
    assert (GE : forall i j, egood m (es i j)). { intros i j. split; [eapply mcan_lev; apply Ces|right; auto]. }
    assert (DE : eden m es = chains kss (below m used) (eden m es0)).
    { unfold eden. rewrite (chains_block kss m (below m used)) with (F := fun i j => meden m (es0 i j)).
      - apply dext. intros b c. now rewrite Des.
      - intros q Q. unfold below in Q. apply filter_In in Q. destruct Q as [_ Q]. apply Nat.ltb_lt in Q. lia. }
    assert (Y : exists es', (if existsb (Nat.eqb m) used then effectsEdges d (Nat.eqb (length used) 1) (d_effects d) es else DOk es) = DOk es' /\
       (forall i j, egood m (es' i j)) /\ eden m es' = chains kss (below (Datatypes.S m) used) (eden m es0)).
    { rewrite below_S by auto. destruct (existsb (Nat.eqb m) used).
      - destruct (effects_spec m d (Nat.eqb (length used) 1) (d_effects d) A es GE) as (es' & E & G & D). exists es'. split; [auto|]. split; [auto|].
        rewrite D, DE, chains_snoc. reflexivity.
      - exists es. rewrite app_nil_r. auto. }
    destruct Y as (es' & -> & GE' & DE'). cbn [dbind].
    assert (CM : mcanon (Datatypes.S m) (mmk m es')). { apply mmk_canon. intros i j. destruct (GE' i j) as [_ [G|G]]; auto. }
    assert (DM : meden (Datatypes.S m) (mmk m es') = eden m es').
    { apply dext. intros b c. rewrite mmk_den0 by (intros i j; apply GE'). reflexivity. }
    eexists. split; [reflexivity|]. split.
    + destruct (ezero (fst (mmk m es'))) eqn:ZM; [auto|]. apply ezero_false in ZM. unfold mcanon in *. cbn [fst snd]. eapply mcan_weight; eauto using Cmul_neq0.
    + rewrite D0, chains_cscal, <- DE', <- DM. apply dext. intros b c. destruct (ezero (fst (mmk m es'))) eqn:ZM; unfold meden; cbn [fst snd]; [|ring].
      apply ezero_true in ZM. rewrite ZM. ring.
Qed.
