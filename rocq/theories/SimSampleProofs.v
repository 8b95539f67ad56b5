(* Sampling: the distribution of the classical bits. *)
From Coq Require Import Reals Lra List Bool Arith Lia FunctionalExtensionality Permutation.
From Verif Require Import Cplx Qsem GateModel GateSpec GateProofs OpProofs IRModel IRSpec IRProofs OutcomeSpec OptModel
  OptDagProofs OptElideProofs OptResetProofs DDModel DDSpec DDProofs DDCanonProofs DDOpsProofs DDGateProofs DDProps
  SimModel SimOpProofs SimPermProofs SimLoopProofs SimMeasProofs SimNormProofs.
Import ListNotations.
Local Open Scope R_scope.

Lemma rbind_assoc {A B D} (x : rnd A) (g : A -> rnd B) (k : B -> rnd D) : rbind (rbind x g) k = rbind x (fun a => rbind (g a) k).
Proof. induction x as [[a| |]|p a IHa b IHb]; cbn; auto. now rewrite IHa, IHb. Qed.
Lemma rsum_scal {A} (l : list A) k f : rsum l (fun x => k * f x) = k * rsum l f.
Proof. unfold rsum. induction l as [|x l IH]; cbn; [ring|]. rewrite IH. ring. Qed.

Definition homog (H : state -> R) : Prop := forall c psi, H (sscal c psi) = Cnorm2 c * H psi.
Lemma homog_zero H : homog H -> H (fun _ => C0) = 0.
Proof. intros Hh. rewrite <- (scal_zero (fun _ => C0)), Hh, Cnorm2_0. ring. Qed.

(* the weight of the branches whose classical bits satisfy f *)
Definition ends (n : nat) (f : store -> bool) (l : list branch) : R := rsum l (fun x => if f (snd x) then weight n (fst x) else 0).
Definition val_of (n : nat) (f : store -> bool) (l : list cop) (psi : state) (m : store) : R := ends n f (run l (psi, m)).
Lemma val_homog n f l m : homog (fun psi => val_of n f l psi m).
Proof.
  intros c psi. unfold val_of, ends. change (sscal c psi, m) with (bscal c (psi, m)). rewrite run_scal, rsum_map, <- rsum_scal.
  apply rsum_ext. intros x _. unfold bscal. cbn [fst snd]. destruct (f (snd x)); [apply weight_sscal|ring].
Qed.
Lemma val_cons n f o l psi m : val_of n f (o :: l) psi m = rsum (run_op o (psi, m)) (fun x => val_of n f l (fst x) (snd x)).
Proof.
  unfold val_of, ends. cbn [run]. rewrite rsum_flat. apply rsum_ext. intros [a b] _. auto.
Qed.

Lemma permutes_onto n pi : permutes n pi -> forall b : bits, exists b', b = fun x => b' (pi x).
Proof.
  intros P b. exists (fun y => match find (fun x => Nat.eqb (pi x) y) (seq 0 n) with Some x => b x | None => b y end).
  apply functional_extensionality. intros x. destruct (find _ _) as [z|] eqn:E.
  - apply find_some in E. destruct E as [_ E]. apply Nat.eqb_eq in E. apply P in E. now subst.
  - destruct (Nat.lt_ge_cases x n) as [L|L]; [|destruct P as (_ & _ & F); now rewrite F].
    pose proof (find_none _ _ E x) as N. cbv beta in N. rewrite Nat.eqb_refl in N. discriminate N. apply in_seq. lia.
Qed.
Lemma move_zero n pi psi : permutes n pi -> move pi psi = (fun _ => C0) -> psi = fun _ => C0.
Proof.
  intros P H. apply functional_extensionality. intros b. destruct (permutes_onto n pi P b) as (b' & ->).
  change (move pi psi b' = C0). now rewrite H.
Qed.
Lemma clamp_id p : 0 <= p -> p <= 1 -> clamp p = p.
Proof. intros A B. unfold clamp. rewrite Rmin_left, Rmax_right; lra. Qed.
Lemma sqrt_inv_norm p : 0 < p -> Cnorm2 (RtoC (/ sqrt p)) * p = 1.
Proof.
  intros P. rewrite Cnorm2_RtoC. pose proof (sqrt_lt_R0 p P) as SP. rewrite <- (sqrt_sqrt p) at 3 by lra. field. lra.
Qed.

(* a diagram of norm one for psi, the qubits placed by pi *)
Definition dgood (n : nat) (pi : nat -> nat) (e : vedge) (psi : state) : Prop :=
  vcanon n e /\ Cnorm2 (fst e) = 1 /\ veden e = move pi psi.

Section Steps.
Context {A : Type} (n nb : nat) (pi : nat -> nat) (f : A -> bool).
Hypothesis PI : permutes n pi.

Lemma measure_step e psi q (K : bool * vedge -> rnd A) (H : bool -> state -> R) : dgood n pi e psi -> (pi q < n)%nat ->
  (forall o e' psi', dgood n pi e' psi' -> rprob f (K (o, e')) = H o psi') -> (forall o, homog (H o)) ->
  rprob f (rbind (measureOneCollapsing n e (pi q)) K) = H false (project q false psi) + H true (project q true psi).
Proof.
  intros (Cn & W & D) L HK HH. destruct (measureOne_spec n e (pi q) Cn W L) as (S1 & N0 & N1 & r0 & r1 & E & R0 & R1).
  rewrite E. cbn [rbind rprob]. rewrite clamp_id by lra.
  assert (B : forall o r p, p = weight n (project (pi q) o (veden e)) ->
    (0 < p -> exists v, r = DOk (o, v) /\ vcanon n v /\ Cnorm2 (fst v) = 1 /\ veden v = sscal (RtoC (/ sqrt p)) (project (pi q) o (veden e))) ->
    p * rprob f (rbind (RRet r) K) = H o (project q o psi)).
  { intros o r p Ep R. assert (P0 : 0 <= p) by (rewrite Ep; apply weight_nonneg). destruct (Rle_lt_or_eq_dec 0 p P0) as [P|P].
    - destruct (R P) as (v & -> & Cv & Wv & Dv). cbn [rbind].
      rewrite (HK o v (sscal (RtoC (/ sqrt p)) (project q o psi))).
      + rewrite HH. rewrite <- Rmult_assoc, (Rmult_comm p), sqrt_inv_norm by auto. ring.
      + split; [auto|]. split; [auto|]. rewrite Dv, D. reflexivity.
    - rewrite <- P in *. assert (Z : project (pi q) o (veden e) = fun _ => C0) by (apply (collapse_zero n); auto).
      rewrite D, project_move in Z. apply (move_zero n) in Z; auto. rewrite Z, homog_zero by auto. ring. }
  replace (1 - weight n (project (pi q) false (veden e))) with (weight n (project (pi q) true (veden e))) by lra.
  f_equal; apply B; auto.
Qed.

Lemma meas_step l : forall e psi m (K : vedge * bits -> rnd A) (H : state -> store -> R), dgood n pi e psi ->
  (forall x, In x l -> (pi (fst x) < n)%nat /\ (snd x < nb)%nat) ->
  (forall e' psi' m', dgood n pi e' psi' -> rprob f (K (e', m')) = H psi' m') -> (forall m', homog (fun s => H s m')) ->
  rprob f (rbind (shot_meas n nb (map (fun x => (pi (fst x), snd x)) l) e m) K) = rsum (measure_all l (psi, m)) (fun x => H (fst x) (snd x)).
Proof.
  induction l as [|[q c] l IH]; intros e psi m K H G L HK HH; cbn [shot_meas map measure_all fst snd].
  - cbn. rewrite (HK _ psi m) by auto. ring.
  - rewrite rbind_assoc.
    rewrite (measure_step e psi q _ (fun o s => rsum (measure_all l (s, setb m c o)) (fun x => H (fst x) (snd x)))).
    + unfold measure1. cbn [flat_map fst snd]. rewrite app_nil_r, rsum_app. auto.
    + auto.
    + apply (L (q, c)). cbn; auto.
    + intros o e' psi' G'. cbn [fst snd]. destruct (L (q, c)) as [_ Lc]; [cbn; auto|]. cbn in Lc. apply Nat.ltb_lt in Lc. rewrite Lc.
      apply IH; auto. intros; apply L; cbn; auto.
    + intros o s psi'. change (sscal s psi', setb m c o) with (bscal s (psi', setb m c o)). rewrite measure_scal, rsum_map, <- rsum_scal.
      apply rsum_ext. intros x _. unfold bscal. cbn [fst snd]. apply (HH (snd x)).
Qed.

Lemma x_flip q : (q < n)%nat -> exists d, getDD n [] (x_op q) = DOk d /\ mcanon n d /\ forall psi, mact n d psi = flip q psi.
Proof.
  intros L. destruct (getDD_spec n [] (fun q => q) (x_op q)) as (d & E & Ca & D).
  - intros a r H. unfold papply in H. now inversion H.
  - intros a b H. exact H.
  - split; [split; [split; [repeat constructor; intros []|intros c []]|eexists; reflexivity]|].
    split; [constructor|]. split; [exact Logic.I|discriminate].
  - intros x [<-|[]]. split; auto.
  - exists d. split; [auto|]. split; [auto|]. intros psi. specialize (D psi). rewrite !move_id in D. rewrite D. cbn [uact].
    apply functional_extensionality. intros b. unfold semf, flip. cbn. unfold capply, apply, csum. cbn [sat forallb length allb map app setl].
    destruct (b q); cbn; ring.
Qed.

Lemma reset_step l : forall e psi m (K : vedge -> rnd A) (H : state -> store -> R), dgood n pi e psi ->
  (forall q, In q l -> (pi q < n)%nat) ->
  (forall e' psi', dgood n pi e' psi' -> rprob f (K e') = H psi' m) -> homog (fun s => H s m) ->
  rprob f (rbind (shot_reset n (map pi l) e) K) = rsum (reset_all l (psi, m)) (fun x => H (fst x) (snd x)).
Proof.
  induction l as [|q l IH]; intros e psi m K H G L HK HH; cbn [shot_reset map reset_all].
  - cbn. rewrite (HK _ psi) by auto. ring.
  - rewrite rbind_assoc.
    rewrite (measure_step e psi q _ (fun o s => rsum (reset_all l ((if o then flip q s else s), m)) (fun x => H (fst x) (snd x)))).
    + unfold reset1. cbn [flat_map fst snd]. rewrite app_nil_r, rsum_app. auto.
    + auto.
    + apply L. cbn; auto.
    + intros o e' psi' G'. cbn [fst snd]. destruct o; [|apply IH; auto; intros; apply L; cbn; auto].
      destruct (x_flip (pi q)) as (d & Ed & Cd & Dd); [apply L; cbn; auto|]. rewrite Ed. cbn [dbind].
      destruct G' as (C' & W' & D'). destruct (mv_spec n d e' Cd C') as (r & Er & Cr & Dr). rewrite Er. cbn [rlift].
      apply IH; auto; [|intros; apply L; cbn; auto].
      assert (DD : veden r = move pi (flip q psi')) by (rewrite Dr, Dd, D', flip_move by apply PI; auto).
      split; [auto|]. split; [|auto]. rewrite <- (weight_veden n) by auto. rewrite DD, weight_move by auto.
      rewrite weight_flip by (apply (permutes_lt n pi); auto; apply L; cbn; auto).
      rewrite <- (weight_move n pi) by auto. rewrite <- D', weight_veden; auto.
    + intros o s psi'. replace ((if o then flip q (sscal s psi') else sscal s psi'), m) with (bscal s ((if o then flip q psi' else psi'), m))
        by (destruct o; reflexivity). rewrite reset_scal, rsum_map, <- rsum_scal. apply rsum_ext. intros x X.
      assert (M : snd x = m).
      { clear - X. revert X. generalize (if o then flip q psi' else psi'). revert x. induction l as [|a l IH]; intros x s X; cbn in X.
        - destruct X as [<-|[]]; auto.
        - rewrite app_nil_r in X. apply in_app_or in X. destruct X as [X|X]; eapply IH; eauto. }
      unfold bscal. cbn [fst snd]. rewrite M. apply HH.
Qed.
End Steps.

(** ** Dynamic circuits *)
Definition shot_ok (nb : nat) (K : list nat) (o : cop) : Prop :=
  match o with
  | OStd _ | OComp _ _ => dd_ok o /\ incl (used o) K
  | OMeas qs cs => length qs = length cs /\ incl qs K /\ Forall (fun c => (c < nb)%nat) cs
  | OReset qs => incl qs K
  | OClass c o' => cond_narrow c /\ dd_ok o' /\ incl (used o') K
  end.

Lemma dgood_step n pi d e psi U : mcanon n d -> dgood n pi e psi -> forall pi', permutes n pi -> permutes n pi' ->
  (forall s, mact n d (move pi s) = move pi' (U s)) -> weight n (U psi) = weight n psi ->
  exists r, multiplyMV d e = DOk r /\ dgood n pi' r (U psi).
Proof.
  intros Cd (Cn & W & D) pi' P P' T WU. destruct (mv_spec n d e Cd Cn) as (r & Er & Cr & Dr). exists r. split; [auto|].
  assert (V : veden r = move pi' (U psi)) by (rewrite Dr, D, T; auto).
  split; [auto|]. split; [|auto]. rewrite <- (weight_veden n), V, weight_move, WU by auto.
  rewrite <- (weight_move n pi) by auto. rewrite <- D, weight_veden; auto.
Qed.
Lemma pgood_lt n p pi q : pgood n p -> agrees pi p -> permutes n pi -> In q (keys p) -> (pi q < n)%nat /\ (q < n)%nat.
Proof.
  intros P A PI I. destruct (pgood_placed n p pi [q] P A) with (q := q) as [_ L]; [intros x [<-|[]]; auto|cbn; auto|].
  split; [auto|]. apply (permutes_lt n pi); auto.
Qed.

Theorem shot_spec n nb f : forall l p pi e psi m, pgood n p -> agrees pi p -> permutes n pi -> Forall (shot_ok nb (keys p)) l ->
  dgood n pi e psi -> rprob f (shot n nb l p e m) = val_of n f l psi m.
Proof.
  induction l as [|o l IH]; intros p pi e psi m P A PI F G.
  { unfold val_of, ends. cbn [shot run rprob rsum fold_right fst snd].
    assert (W : weight n psi = 1). { destruct G as (Cn & W & D). rewrite <- (weight_move n pi) by auto. rewrite <- D, weight_veden; auto. }
    rewrite W. destruct (f m); ring. }
  inversion F as [|? ? OK FL]; subst. rewrite val_cons.
  assert (GATE : dd_ok o -> incl (used o) (keys p) ->
    rprob f (match is_swap o with
             | Some (a, b) => rlift (swap_perm p a b) (fun p' => shot n nb l p' e m)
             | None => rlift (let* d := getDD n p o in multiplyMV d e) (fun e' => shot n nb l p e' m)
             end) = rsum (run_op o (psi, m)) (fun x => val_of n f l (fst x) (snd x))).
  { intros DO U. rewrite run_uact by auto. cbn [rsum fold_right fst snd]. rewrite Rplus_0_r.
    assert (WU : weight n (uact o psi) = weight n psi).
    { apply weight_uact; auto. intros q Q. apply (pgood_lt n p pi); auto. }
    destruct (is_swap o) as [[a b]|] eqn:S.
    - destruct (swap_perm_spec n p o a b P DO S U) as (p' & E & P' & SD & T). rewrite E. cbn [rlift].
      destruct (T (mact n mone) (mact_mone n) pi A (proj1 PI)) as (pi' & A' & I' & PP & M).
      apply (IH p' pi'); auto.
      + rewrite Forall_forall in FL |- *. intros x X. specialize (FL x X). destruct SD as [SD _].
        assert (Q : incl (keys p) (keys p')) by (intros z Z; apply SD; auto). unfold shot_ok in *.
        destruct x; intuition eauto using incl_tran.
      + destruct G as (Cn & W & D). split; [auto|]. split; [auto|]. rewrite D, <- M, mact_mone. auto.
    - destruct (getDD_spec n p pi o A (proj1 PI) DO (pgood_placed n p pi _ P A U)) as (d & E & Cd & D). rewrite E. cbn [dbind].
      destruct (dgood_step n pi d e psi (uact o) Cd G pi PI PI D WU) as (r & Er & Gr). rewrite Er. cbn [rlift].
      apply (IH p pi); auto. }
  destruct o as [s|qs cs|qs|c o|cu ops].
  - destruct OK. apply GATE; auto.
  - destruct OK as (EL & U & LC). cbn [shot]. rewrite (placed_targets n p pi qs (pgood_placed n p pi _ P A U)).
    rewrite map_length. replace (Nat.ltb (length cs) (length qs)) with false by (symmetry; apply Nat.ltb_ge; lia).
    rewrite combine_map. cbn [run_op].
    rewrite (meas_step n nb pi f PI (combine qs cs) e psi m _ (fun s m' => val_of n f l s m')); auto.
    + intros [x y] X. cbn [fst snd]. split.
      * apply (pgood_lt n p pi x P A PI). apply U. apply (in_combine_l _ _ _ _ X).
      * rewrite Forall_forall in LC. apply LC. apply (in_combine_r _ _ _ _ X).
    + intros e' psi' m' G'. cbn [fst snd]. apply (IH p pi); auto.
    + intros m'. apply val_homog.
  - cbn [shot]. rewrite (placed_targets n p pi qs (pgood_placed n p pi _ P A OK)). cbn [run_op].
    rewrite (reset_step n pi f PI qs e psi m _ (fun s m' => val_of n f l s m')); auto.
    + intros x X. apply (pgood_lt n p pi x P A PI). apply OK; auto.
    + intros e' psi' G'. apply (IH p pi); auto.
    + apply val_homog.
  - destruct OK as (CN & DO & U). cbn [shot run_op]. rewrite (classic_control_ok c m CN). cbn [snd].
    destruct (cond_holds c m).
    + rewrite run_uact by auto. cbn [rsum fold_right fst snd]. rewrite Rplus_0_r. cbn [getDD].
      destruct (getDD_spec n p pi o A (proj1 PI) DO (pgood_placed n p pi _ P A U)) as (d & E & Cd & D). rewrite E. cbn [dbind].
      assert (WU : weight n (uact o psi) = weight n psi).
      { apply weight_uact; auto. intros q Q. apply (pgood_lt n p pi); auto. }
      destruct (dgood_step n pi d e psi (uact o) Cd G pi PI PI D WU) as (r & Er & Gr). rewrite Er. cbn [rlift].
      apply (IH p pi); auto.
    + cbn [rsum fold_right fst snd]. rewrite Rplus_0_r. apply (IH p pi); auto.
  - destruct OK. apply GATE; auto.
Qed.
