(* Loops over circuits with tracked SWAP gates; changing permutations. *)
From Coq Require Import Reals Lra List Bool Arith Lia FunctionalExtensionality.
From Verif Require Import Cplx Qsem GateModel GateSpec GateProofs OpProofs IRModel IRSpec IRProofs OptModel
  OptDagProofs OptElideProofs DDModel DDSpec DDProofs DDCanonProofs DDOpsProofs DDGateProofs DDProps SimModel SimOpProofs.
Import ListNotations.
Local Open Scope nat_scope.

(* a permutation of the qubits below n *)
Definition permutes (n : nat) (pi : nat -> nat) : Prop :=
  inj pi /\ (forall q, q < n -> pi q < n) /\ (forall q, n <= q -> pi q = q).
Lemma permutes_id n : permutes n (fun q => q).
Proof. split; [intros x y H; exact H|]. split; auto. Qed.
Lemma permutes_comp n s t : permutes n s -> permutes n t -> permutes n (fun q => t (s q)).
Proof.
  intros (I & L & G) (I' & L' & G'). split; [intros x y H; apply I, I', H|]. split; auto. intros q Q. rewrite G, G'; auto.
Qed.
Lemma permutes_lt n pi q : permutes n pi -> pi q < n -> q < n.
Proof. intros (_ & _ & G) H. destruct (Nat.lt_ge_cases q n) as [|Q]; auto. rewrite G in H; auto. Qed.
Lemma transpose_permutes n pi a b : permutes n pi -> a <> b -> pi a < n -> pi b < n -> permutes n (transpose pi a b).
Proof.
  intros P N A B. pose proof (permutes_lt _ _ _ P A). pose proof (permutes_lt _ _ _ P B). destruct P as (I & L & G).
  split; [apply transpose_inj; auto|]. unfold transpose. split; intros q Q.
  - destruct (Nat.eqb q a); auto. destruct (Nat.eqb q b); auto.
  - destruct (Nat.eqb_spec q a); [lia|]. destruct (Nat.eqb_spec q b); [lia|]. auto.
Qed.
Definition tau (x y : nat) : nat -> nat := transpose (fun q => q) x y.
Lemma tau_permutes n x y : x <> y -> x < n -> y < n -> permutes n (tau x y).
Proof. intros. apply transpose_permutes; auto. apply permutes_id. Qed.
Lemma tau_l x y : tau x y x = y. Proof. unfold tau, transpose. rewrite Nat.eqb_refl. auto. Qed.
Lemma tau_r x y : tau x y y = x. Proof. unfold tau, transpose. destruct (Nat.eqb_spec y x); auto. rewrite Nat.eqb_refl. auto. Qed.
Lemma tau_o x y z : z <> x -> z <> y -> tau x y z = z.
Proof. unfold tau, transpose. intros. destruct (Nat.eqb_spec z x); [lia|]. destruct (Nat.eqb_spec z y); [lia|]. auto. Qed.
Lemma move_move s t psi : move t (move s psi) = move (fun q => t (s q)) psi.
Proof. reflexivity. Qed.
Lemma move_id psi : move (fun q => q) psi = psi.
Proof. reflexivity. Qed.

Lemma swapM_act x y psi : x <> y -> capply [] swapM [x; y] psi = move (tau x y) psi.
Proof.
  intros N. apply functional_extensionality. intros b. rewrite capply_nil. unfold apply, move.
  assert (E : (fun q => b (tau x y q)) = setb (setb b y (b x)) x (b y)).
  { apply functional_extensionality. intros q. unfold setb, tau, transpose.
    destruct (Nat.eqb_spec q x) as [->|]; auto. destruct (Nat.eqb_spec q y); auto. }
  rewrite E. unfold csum. cbn [length allb map app fold_right setl].
  destruct (b x), (b y); unfold swapM; cbn [two_matrix]; cbv beta; cbn -[Cmul Cadd setb]; ring.
Qed.
Lemma swap_gate n x y : x <> y -> x < n -> y < n ->
  exists s, makeTwoQubitGateDD n (fun i1 i0 j1 j0 => swapM [i1; i0] [j1; j0]) [] x y = DOk s /\ mcanon n s /\
    forall psi, mact n s psi = move (tau x y) psi.
Proof.
  intros N X Y. destruct (C14_makeTwoQubitGateDD n n swapM [] x y) as (s & E & Ca & D); auto.
  - split; [constructor|]. split; [constructor|]. split; [repeat constructor; auto|]. intros t _ [].
  - exists s. split; [auto|]. split; [auto|]. intros psi. rewrite D. apply swapM_act; auto.
Qed.

(** ** changePermutation *)
Lemma pset_nodup p q r : NoDup (map fst p) -> NoDup (map fst (pset p q r)).
Proof.
  induction p as [|[a b] p IH]; intros N; cbn.
  - repeat constructor. intros [].
  - inversion N; subst. destruct (Nat.eqb_spec q a) as [->|NE]; cbn; [constructor; auto|]. constructor; auto.
    intros H. apply pset_keys in H. destruct H as [->|H]; [congruence|]. apply H1, H.
Qed.
Lemma find_val_In p goal k : In (k, goal) p -> In (find_val p goal, goal) p.
Proof.
  induction p as [|[a b] p IH]; cbn; [tauto|]. intros [E|H].
  - injection E as -> ->. rewrite Nat.eqb_refl. auto.
  - destruct (Nat.eqb_spec b goal) as [->|]; auto.
Qed.
(* what changePermutation expects: two partial injections, every qubit and every level of [to] occurs in [from] *)
Definition cp_ok (n : nat) (from to : perm) : Prop :=
  NoDup (map fst from) /\ linj from /\ (forall a v, plookup from a = Some v -> v < n) /\
  NoDup (map fst to) /\ NoDup (map snd to) /\
  (forall i g, In (i, g) to -> (exists v, plookup from i = Some v) /\ exists k, plookup from k = Some g).

Section Change.
Context {T : Type} (n : nat) (mul : medge -> T -> dres T) (Inv : T -> Prop) (R : (nat -> nat) -> T -> T -> Prop).
Hypothesis Hmul : forall s x y on, mcanon n s -> (forall psi, mact n s psi = move (tau x y) psi) -> x <> y -> Inv on ->
  exists on', mul s on = DOk on' /\ Inv on' /\ R (tau x y) on on'.
Hypothesis Rid : forall on, Inv on -> R (fun q => q) on on.
Hypothesis Rcomp : forall s t a b c, R s a b -> R t b c -> R (fun q => t (s q)) a c.

Lemma cp_loop_spec to : forall from on, cp_ok n from to -> Inv on ->
  exists sg from' on', cp_loop n mul to from on = DOk (from', on') /\ Inv on' /\ R sg on on' /\ permutes n sg /\
    NoDup (map fst from') /\
    (forall i, plookup from' i = option_map sg (plookup from i)) /\
    (forall i g, In (i, g) to -> plookup from' i = Some g) /\
    (forall i g, plookup from i = Some g -> ~ In i (map fst to) -> ~ In g (map snd to) -> plookup from' i = Some g).
Proof.
  induction to as [|[i goal] to IH]; intros from on (NF & LI & LT & NK & NV & HT) IO; cbn [cp_loop].
  - exists (fun q => q), from, on. split; [auto|]. split; [auto|]. split; [auto|]. split; [apply permutes_id|]. split; [auto|].
    split; [intros i; destruct (plookup from i); auto|]. split; [intros ? ? []|auto].
  - cbn in NK, NV. inversion NK as [|? ? NK1 NK2]; inversion NV as [|? ? NV1 NV2]; subst.
    destruct (HT i goal (or_introl eq_refl)) as ((current & Ei) & k & Ek). rewrite Ei.
    destruct (Nat.eqb_spec current goal) as [->|NE].
    + destruct (IH from on) as (sg & f' & on' & E & IO' & RR & PS & ND & HL & HG & HK); auto.
      { split; [auto|]. split; [auto|]. split; [auto|]. split; [auto|]. split; [auto|]. intros; apply HT; cbn; auto. }
      exists sg, f', on'. split; [auto|]. split; [auto|]. split; [auto|]. split; [auto|]. split; [auto|]. split; [auto|]. split.
      * intros i0 g [E0|H0]; [injection E0 as <- <-; apply HK; auto|auto].
      * intros i0 g H0 A B. apply HK; auto; intros X; [apply A|apply B]; cbn; auto.
    + assert (EJ : plookup from (find_val from goal) = Some goal).
      { apply plookup_complete; auto. apply (find_val_In from goal k). apply plookup_In; auto. }
      set (j := find_val from goal) in *. rewrite EJ.
      destruct (swap_gate n current goal NE (LT _ _ Ei) (LT _ _ EJ)) as (s & Es & Cs & Ds). rewrite Es. cbn [dbind].
      destruct (Hmul s current goal on Cs Ds NE IO) as (on1 & E1 & I1 & R1). rewrite E1. cbn [dbind].
      assert (NIJ : i <> j) by (intros ->; rewrite EJ in Ei; congruence).
      set (f1 := pset (pset from i goal) j current).
      assert (L1 : forall a, plookup f1 a = option_map (tau current goal) (plookup from a)).
      { intros a. unfold f1. rewrite !plookup_pset. destruct (Nat.eqb_spec a j) as [->|N1].
        - rewrite EJ. cbn. rewrite tau_r. auto.
        - destruct (Nat.eqb_spec a i) as [->|N2]; [rewrite Ei; cbn; rewrite tau_l; auto|].
          destruct (plookup from a) as [v|] eqn:Ea; auto. cbn. rewrite tau_o; auto; intros ->; [apply N2|apply N1]; eapply LI; eauto. }
      pose proof (tau_permutes n current goal NE (LT _ _ Ei) (LT _ _ EJ)) as TP.
      destruct (IH f1 on1) as (sg & f' & on' & E & IO' & RR & PS & ND & HL & HG & HK); auto.
      { split; [apply pset_nodup, pset_nodup; auto|].
        split; [intros a b v Ha Hb; rewrite L1 in Ha, Hb; destruct (plookup from a) as [u|] eqn:Ea, (plookup from b) as [w|] eqn:Eb; try discriminate;
                cbn in Ha, Hb; assert (u = w) by (destruct TP as (TI & _); apply TI; congruence); subst; eapply LI; eauto|].
        split; [intros a v Ha; rewrite L1 in Ha; destruct (plookup from a) as [u|] eqn:Ea; [|discriminate]; cbn in Ha; injection Ha as <-;
                destruct TP as (_ & TL & _); apply TL, (LT a); auto|].
        split; [auto|]. split; [auto|]. intros i0 g0 H0. destruct (HT i0 g0 (or_intror H0)) as ((v & Ev) & k0 & Ek0).
        split; [rewrite L1, Ev; cbn; eauto|].
        destruct (Nat.eq_dec g0 current) as [->|G1]; [exists j; rewrite L1, EJ; cbn; rewrite tau_r; auto|].
        destruct (Nat.eq_dec g0 goal) as [->|G2]; [exists i; rewrite L1, Ei; cbn; rewrite tau_l; auto|].
        exists k0. rewrite L1, Ek0. cbn. rewrite tau_o; auto. }
      exists (fun q => sg (tau current goal q)), f', on'. split; [auto|]. split; [auto|].
      split; [apply (Rcomp _ _ on on1); auto|]. split; [apply permutes_comp; auto|]. split; [auto|].
      split; [intros a; rewrite HL, L1; destruct (plookup from a); auto|]. split.
      * intros i0 g [E0|H0]; [|auto]. injection E0 as <- <-. apply HK; auto. rewrite L1, Ei. cbn. rewrite tau_l. auto.
      * intros i0 g H0 A B. cbn in A, B. apply HK; try tauto. rewrite L1, H0. cbn. rewrite tau_o; auto.
        intros ->. apply A. left. apply (LI _ _ current); auto.
Qed.
End Change.

Lemma scal_zero psi : sscal C0 psi = fun _ => C0.
Proof. apply functional_extensionality. intros b. unfold sscal. ring. Qed.
Lemma VT_dec (e : vedge) : (if match snd e with VT => ezero (fst e) | _ => false end then true else false) = true -> e = vzero.
Proof.
  destruct e as [w [|q ws s]]; cbn; [|discriminate]. unfold ezero. destruct (Ceq_dec w C0) as [->|]; [auto|discriminate].
Qed.

Definition moved_v (sg : nat -> nat) (a b : vedge) : Prop := veden b = move sg (veden a).
Definition moved_l (n : nat) (sg : nat -> nat) (a b : medge) : Prop := forall psi, mact n b psi = move sg (mact n a psi).
Definition moved_r (n : nat) (sg : nat -> nat) (a b : medge) : Prop := forall psi, mact n b (move sg psi) = mact n a psi.

Definition moves (sg : nat -> nat) (from from' to : perm) : Prop :=
  (forall i, plookup from' i = option_map sg (plookup from i)) /\ (forall i g, In (i, g) to -> plookup from' i = Some g).

Lemma cpV_spec n from to on : cp_ok n from to -> vcanon n on ->
  exists sg from' on', cp_loop n multiplyMV to from on = DOk (from', on') /\ vcanon n on' /\ moved_v sg on on' /\ permutes n sg /\
    NoDup (map fst from') /\ moves sg from from' to.
Proof.
  intros K V.
  destruct (cp_loop_spec n multiplyMV (vcanon n) moved_v) with (to := to) (from := from) (on := on) as (sg & f & o & H); auto.
  - intros s x y e Cs Ds N Ce. destruct (mv_spec n s e Cs Ce) as (r & E & Cr & D). exists r. split; [auto|]. split; [auto|].
    unfold moved_v. rewrite D. apply Ds.
  - intros e _. reflexivity.
  - intros s t a b c H1 H2. unfold moved_v in *. rewrite H2, H1. apply move_move.
  - exists sg, f, o. unfold moves. tauto.
Qed.
Lemma cpM_spec n from to on : cp_ok n from to -> mcanon n on ->
  exists sg from' on', cp_loop n multiplyMM to from on = DOk (from', on') /\ mcanon n on' /\ moved_l n sg on on' /\ permutes n sg /\
    NoDup (map fst from') /\ moves sg from from' to.
Proof.
  intros K V.
  destruct (cp_loop_spec n multiplyMM (mcanon n) (moved_l n)) with (to := to) (from := from) (on := on) as (sg & f & o & H); auto.
  - intros s x y e Cs Ds N Ce. destruct (mm_spec n s e Cs Ce) as (r & E & Cr & D). exists r. split; [auto|]. split; [auto|].
    intros psi. rewrite D. apply Ds.
  - intros e _ psi. reflexivity.
  - intros s t a b c H1 H2 psi. rewrite H2, H1. apply move_move.
  - exists sg, f, o. unfold moves. tauto.
Qed.
Lemma tau_invol x y q : tau x y (tau x y q) = q.
Proof.
  destruct (Nat.eq_dec q x) as [->|A]; [rewrite tau_l; apply tau_r|]. destruct (Nat.eq_dec q y) as [->|B]; [rewrite tau_r; apply tau_l|].
  rewrite !(tau_o x y q); auto.
Qed.
Lemma cpMr_spec n from to on : cp_ok n from to -> mcanon n on ->
  exists sg from' on', cp_loop n (fun s on => multiplyMM on s) to from on = DOk (from', on') /\ mcanon n on' /\ moved_r n sg on on' /\
    permutes n sg /\ NoDup (map fst from') /\ moves sg from from' to.
Proof.
  intros K V.
  destruct (cp_loop_spec n (fun s on => multiplyMM on s) (mcanon n) (moved_r n)) with (to := to) (from := from) (on := on) as (sg & f & o & H); auto.
  - intros s x y e Cs Ds N Ce. destruct (mm_spec n e s Ce Cs) as (r & E & Cr & D). exists r. split; [auto|]. split; [auto|].
    intros psi. rewrite D, Ds, move_move. f_equal. apply functional_extensionality. intros b. unfold move. f_equal.
    apply functional_extensionality. intros q. now rewrite tau_invol.
  - intros e _ psi. reflexivity.
  - intros s t a b c H1 H2 psi. change (move (fun q => t (s q)) psi) with (move t (move s psi)). rewrite H2. apply H1.
  - exists sg, f, o. unfold moves. tauto.
Qed.
