(* Inversion of diagrams and the identity test. *)
From Coq Require Import Reals QArith Qreals ZArith Bool List Arith Lia Lra Permutation.
From Verif Require Import Cplx Qsem PiModel ZXModel ZXSpec ZXPhaseProofs ZXSemProofs ZXUpdProofs ZXUpd2Proofs ZXUpd3Proofs ZXRuleProofs ZXRule2Proofs ZXRule3Proofs ZXGadgetProofs ZXDiscProofs ZXBuildProofs.
Import ListNotations.
Local Close Scope Q_scope.
Local Open Scope nat_scope.

(* ---- invert -------------------------------------------------------------------------------------------------------- *)
Section Inv.
Variable rho : nat -> R.
Variable d : diag.
Notation d' := (invert d).
Lemma inv_live v : live d' v = live d v. Proof. unfold live, invert. cbn. now destruct (d_verts d v). Qed.
Lemma inv_vty v : vty d' v = vty d v. Proof. unfold vty, invert. cbn. now destruct (d_verts d v). Qed.
Lemma inv_edges v : d_edges d' v = d_edges d v. Proof. reflexivity. Qed.
Lemma inv_phase v : live d v = true -> vphase d' v = p_neg (vphase d v). Proof. unfold live, vphase, invert. cbn. now destruct (d_verts d v). Qed.
Lemma inv_inner v : inner d' v = inner d v. Proof. unfold inner, isBoundary. now rewrite inv_live, inv_vty. Qed.
Lemma inv_interior : interior d' = interior d.
Proof. unfold interior. apply filter_ext. apply inv_inner. Qed.
Lemma inv_gv : getVertices d' = getVertices d. Proof. unfold getVertices. apply filter_ext. apply inv_live. Qed.
Lemma inv_wf : wf d -> wf d'.
Proof.
  intros [Z B D I P]. constructor.
  - constructor.
    + intros v Hv. cbn. now rewrite (z_out _ Z v Hv).
    + intros v L. rewrite inv_live in L. apply (z_nodup _ Z v L).
    + intros u v h L. rewrite inv_live in L |- *. apply (z_sym _ Z u v h L).
  - constructor.
    + apply B.
    + intros v. cbn. rewrite (b_del _ B v). destruct (d_verts d v); cbn; [|tauto]. split; intros [_ X]; discriminate.
    + rewrite inv_gv. apply B.
    + rewrite inv_gv. apply B.
  - intros v L Bd. rewrite inv_live in L. unfold isBoundary in Bd. rewrite inv_vty in Bd. apply D; auto.
  - intros v H. cbn in H. rewrite inv_live. unfold isBoundary. rewrite inv_vty. apply I. tauto.
  - intros v L. rewrite inv_live in L. rewrite inv_phase by auto. apply ph_ok_neg. auto.
Qed.
Lemma conj_mul x y : Cconj (x * y)%C = (Cconj x * Cconj y)%C. Proof. apply Ceq; cbn; ring. Qed.
Lemma conj_add x y : Cconj (x + y)%C = (Cconj x + Cconj y)%C. Proof. apply Ceq; cbn; ring. Qed.
Lemma conj_cprod {A} (l : list A) f : Cconj (cprod l f) = cprod l (fun a => Cconj (f a)).
Proof. induction l; cbn; [apply Ceq; cbn; ring|]. now rewrite conj_mul, IHl. Qed.
Lemma conj_wgt h x y : Cconj (wgt h x y) = wgt h x y.
Proof. unfold wgt. destruct h, x, y; cbn; apply Ceq; cbn; ring. Qed.
Lemma conj_vsum vs f b : Cconj (vsum vs f b) = vsum vs (fun x => Cconj (f x)) b.
Proof. revert b. induction vs as [|v vs IH]; intros b; cbn; auto. now rewrite conj_add, !IH. Qed.
Lemma conj_1 : Cconj C1 = C1. Proof. apply Ceq; cbn; ring. Qed.
Lemma inv_weight x : weight rho d' x = Cconj (weight rho d x).
Proof.
  unfold weight. rewrite inv_interior, inv_gv, conj_mul, !conj_cprod. f_equal.
  - apply cprod_ext. intros v I. apply filter_In in I as [_ I]. unfold inner in I. apply andb_true_iff in I as [L _]. rewrite inv_phase by auto. destruct (x v); [apply pexp_neg|symmetry; apply conj_1].
  - apply cprod_ext. intros v _. rewrite conj_cprod. apply cprod_ext. intros e _. destruct (v <? fst e); [|symmetry; apply conj_1]. rewrite conj_wgt. unfold eh, isX. now rewrite !inv_vty.
Qed.
Lemma inv_den b : den rho d' b = (pexp rho (d_gphase d) * pexp rho (d_gphase d) * Cconj (den rho d b))%C.
Proof.
  unfold den. change (d_gphase d') with (d_gphase d). rewrite inv_interior, conj_mul, conj_vsum.
  rewrite (vsum_ext _ (weight rho d') (fun x => Cconj (weight rho d x))) by (intros; apply inv_weight).
  transitivity (pexp rho (d_gphase d) * (Cconj (pexp rho (d_gphase d)) * pexp rho (d_gphase d)) * vsum (interior d) (fun x => Cconj (weight rho d x)) b)%C; [|ring].
  rewrite pexp_conj_mul. ring.
Qed.
End Inv.

(* ---- isIdentity ---------------------------------------------------------------------------------------------------- *)
Lemma zsum_le_eq l f g : (forall v, In v l -> (f v <= g v)%Z) -> zsum l f = zsum l g -> forall v, In v l -> f v = g v.
Proof.
  induction l as [|a l IH]; intros H E v; [intros []|]. cbn in E. fold (zsum l f) (zsum l g) in E.
  assert (L : (zsum l f <= zsum l g)%Z). { clear IH E. induction l as [|c l IH]; cbn; [lia|]. fold (zsum l f) (zsum l g). pose proof (H c (or_intror (or_introl eq_refl))). enough (zsum l f <= zsum l g)%Z by lia. apply IH. intros u [->|I]; apply H; cbn; auto. }
  pose proof (H a (or_introl eq_refl)). intros [->|I]; [lia|]. apply IH; auto; [|lia]. intros u I'. apply H. now right.
Qed.
Lemma dprod_zero n g i j : i < j -> j < n -> g i j = C0 -> dprod n g = C0.
Proof.
  intros A B E. unfold dprod. apply cprod_zero with (a := i); [apply in_seq; lia|]. apply cprod_zero with (a := j); [apply in_seq; lia|]. apply Nat.ltb_lt in A. now rewrite A.
Qed.

(* The linear map is a multiple of the identity between the inputs and the outputs. *)
Definition id_map (rho : nat -> R) (d : diag) : Prop := exists c : C, c <> C0 /\
  forall b, den rho d b = (c * if forallb (fun p => eqb (b (fst p)) (b (snd p))) (combine (d_in d) (d_out d)) then C1 else C0)%C.

Lemma forallb_ext_in' {A} (f g : A -> bool) l : (forall a, In a l -> f a = g a) -> forallb f l = forallb g l.
Proof. induction l; cbn; intros H; auto. rewrite H by auto. f_equal. auto. Qed.

Section Id.
Variable rho : nat -> R.
Variable d : diag.
Hypothesis W : wf d.
Hypothesis ND : NoDup (d_in d ++ d_out d).
Hypothesis LN : length (d_in d) = length (d_out d).
Hypothesis ID : isIdentity d = true.
Hypothesis SI : forall u v, In (u, v) (combine (d_in d) (d_out d)) -> hv d u v = Some false.
Let Z := w_z _ W.
Lemma id_pair u v : In (u, v) (combine (d_in d) (d_out d)) -> live d u = true /\ live d v = true /\ isBoundary d u = true /\ isBoundary d v = true /\ hv d u v = Some false /\ hv d v u = Some false.
Proof.
  intros I. pose proof (in_combine_l _ _ _ _ I) as A. pose proof (in_combine_r _ _ _ _ I) as B. destruct (w_io _ W u) as [L1 B1]; auto. destruct (w_io _ W v) as [L2 B2]; auto.
  pose proof (SI _ _ I) as E. repeat (split; auto). rewrite <- E. now apply hv_sym.
Qed.
Lemma comb_l (l m : list nat) u : length l = length m -> In u l -> exists v, In (u, v) (combine l m).
Proof. revert m. induction l; intros [|b m] E; cbn in *; try easy; intros [->|I]; [eauto|]. injection E as E. destruct (IHl m E I) as (v & J). eauto. Qed.
Lemma comb_r (l m : list nat) u : length l = length m -> In u m -> exists v, In (v, u) (combine l m).
Proof. revert m. induction l; intros [|b m] E; cbn in *; try easy; intros [->|I]; [eauto|]. injection E as E. destruct (IHl m E I) as (v & J). eauto. Qed.
Lemma id_deg_io u : In u (d_in d ++ d_out d) -> live d u = true /\ degree d u = 1.
Proof.
  intros I. assert (H : live d u = true /\ isBoundary d u = true) by (apply (w_io _ W); now apply in_app_iff). destruct H as [L B]. split; auto.
  pose proof (w_d _ W u L B) as Dg. assert (N : degree d u <> 0); [|lia]. intros E0. unfold degree in E0. apply length_zero_iff_nil in E0.
  assert (exists v, hv d u v = Some false) as (v & Hv). { apply in_app_iff in I as [I|I]; [destruct (comb_l _ _ u LN I) as (v & J)|destruct (comb_r _ _ u LN I) as (v & J)]; apply id_pair in J; exists v; tauto. }
  apply hv_In' in Hv. rewrite E0 in Hv. destruct Hv.
Qed.
Lemma id_ne : d_ne d = Z.of_nat (length (d_in d)).
Proof. unfold isIdentity in ID. apply andb_true_iff in ID as [A _]. apply andb_true_iff in A as [A _]. now apply Z.eqb_eq. Qed.
Lemma id_iso u : live d u = true -> ~ In u (d_in d ++ d_out d) -> d_edges d u = [].
Proof.
  intros L N. set (n := d_size d).
  assert (E : zsum (seq 0 n) (fun v => if memb v (d_in d ++ d_out d) then 1%Z else 0%Z) = zsum (seq 0 n) (fun v => if live d v then Z.of_nat (degree d v) else 0%Z)).
  { rewrite zsum_mem; auto.
    - change (Z.of_nat (length (d_in d ++ d_out d)) = dsum d). rewrite <- (book_ne d (w_b _ W)), app_length, id_ne. lia.
    - intros v I. apply live_lt; auto. now apply id_deg_io. }
  apply zsum_le_eq with (v := u) in E.
  - rewrite L in E. destruct (memb u (d_in d ++ d_out d)) eqn:M; [now apply memb_In in M|]. unfold degree in E. apply length_zero_iff_nil. lia.
  - intros v _. destruct (memb v (d_in d ++ d_out d)) eqn:M.
    + apply memb_In, id_deg_io in M as [-> ->]. lia.
    + destruct (live d v); lia.
  - apply in_seq. pose proof (live_lt d u Z L). unfold n. lia.
Qed.
Lemma id_edge u v h : live d u = true -> hv d u v = Some h -> In (u, v) (combine (d_in d) (d_out d)) \/ In (v, u) (combine (d_in d) (d_out d)).
Proof.
  intros L E. apply hv_In' in E. destruct (in_dec Nat.eq_dec u (d_in d ++ d_out d)) as [I|N]; [|rewrite (id_iso u L N) in E; destruct E].
  destruct (id_deg_io u I) as [_ Dg]. unfold degree in Dg. destruct (d_edges d u) as [|e [|]] eqn:R; try discriminate. destruct E as [->|[]].
  apply in_app_iff in I as [I|I]; [destruct (comb_l _ _ u LN I) as (w & J); left|destruct (comb_r _ _ u LN I) as (w & J); right]; pose proof (id_pair _ _ J) as (_ & _ & _ & _ & H1 & H2); [clear H2|clear H1; rename H2 into H1]; apply hv_In' in H1; rewrite R in H1; destruct H1 as [H1|[]]; injection H1 as <- _; auto.
Qed.
Lemma bd_X v : isBoundary d v = true -> isX d v = false.
Proof. unfold isBoundary, isX. destruct (vty d v); cbn; congruence. Qed.
Lemma id_ew u v x : live d u = true -> ew d x u v = if match hv d u v with Some _ => true | None => false end then (if eqb (x u) (x v) then C1 else C0) else C1.
Proof.
  intros L. unfold ew. destruct (hv d u v) as [h|] eqn:E; auto. assert (h = false /\ isBoundary d u = true /\ isBoundary d v = true) as (-> & B1 & B2).
  { destruct (id_edge _ _ _ L E) as [J|J]; apply id_pair in J as (_ & _ & ? & ? & H1 & H2); split; auto; congruence. }
  unfold eh. rewrite !bd_X by auto. cbn [xorb]. apply wgt_false.
Qed.
Definition match_io (b : bits) : bool := forallb (fun p => eqb (b (fst p)) (b (snd p))) (combine (d_in d) (d_out d)).
Lemma id_pe b : pe none d b = if match_io b then C1 else C0.
Proof.
  unfold pe. destruct (match_io b) eqn:M.
  - unfold match_io in M. rewrite forallb_forall in M. rewrite <- (dprod_one (d_size d)). apply dprod_ext. intros i j _ _ _. unfold eg. destruct (live d i) eqn:L; cbn; auto. destruct (live d j); cbn; auto. rewrite id_ew by auto.
    destruct (hv d i j) as [h|] eqn:E; auto. destruct (id_edge _ _ _ L E) as [J|J]; apply M in J; cbn in J; apply eqb_prop in J; rewrite J; now rewrite eqb_reflx.
  - assert (exists p, In p (combine (d_in d) (d_out d)) /\ eqb (b (fst p)) (b (snd p)) = false) as ([u v] & J & E).
    { unfold match_io in M. revert M. generalize (combine (d_in d) (d_out d)) as l. induction l as [|p l IH]; cbn; [discriminate|]. intros M. apply andb_false_iff in M as [M|M]; [exists p; auto|]. destruct (IH M) as (q & A & B). exists q. auto. }
    cbn in E. pose proof (id_pair _ _ J) as (Lu & Lv & _ & _ & H1 & H2). pose proof (hv_live _ _ _ _ Z Lu H1) as [_ Nuv].
    assert (G1 : eg none d b u v = C0) by (unfold eg; rewrite Lu, Lv; cbn; rewrite id_ew by auto; now rewrite H1, E).
    assert (G2 : eg none d b v u = C0) by (unfold eg; rewrite Lu, Lv; cbn; rewrite id_ew by auto; rewrite H2; now destruct (b u), (b v)).
    pose proof (live_lt _ _ Z Lu). pose proof (live_lt _ _ Z Lv).
    destruct (Nat.lt_total u v) as [Q|[Q|Q]]; [apply (dprod_zero _ _ u v)|congruence|apply (dprod_zero _ _ v u)]; auto.
Qed.
Lemma id_den b : den rho d b = (pexp rho (d_gphase d) * vsum (interior d) (pv rho none d) (fun _ => false) * if match_io b then C1 else C0)%C.
Proof.
  unfold den. rewrite (vsum_ext_out _ _ (fun x => ((if match_io b then C1 else C0) * pv rho none d x)%C)).
  - rewrite vsum_scale. rewrite (vsum_dep rho (interior d) (pv rho none d) (fun v => inner d v = true) b (fun _ => false)).
    + ring.
    + intros x y E. unfold pv. apply cprod_ext. intros v _. destruct (inner d v) eqn:I; cbn; auto. unfold phw. now rewrite E.
    + intros v I N. destruct N. now apply (interior_In rho).
  - intros x E. rewrite weight_wx by auto. unfold wx. rewrite id_pe. enough (match_io x = match_io b) as -> by ring.
    unfold match_io. apply forallb_ext_in'. intros [u v] I. apply id_pair in I as (Lu & Lv & Bu & Bv & _). cbn. rewrite !E; auto; intros J; apply (interior_In rho) in J; auto; unfold inner in J; [rewrite Lv, Bv in J|rewrite Lu, Bu in J]; discriminate.
Qed.
Lemma id_main : (exists b, den rho d b <> C0) -> id_map rho d.
Proof.
  intros (b & N). exists (pexp rho (d_gphase d) * vsum (interior d) (pv rho none d) (fun _ => false))%C. split; [|apply id_den].
  intros E. apply N. rewrite id_den, E. ring.
Qed.
End Id.
