(* Diagrams of operations denote the operations; products of diagrams. *)
From Coq Require Import Reals Lra List Bool Arith Lia FunctionalExtensionality Sorting.Sorted.
From Verif Require Import Cplx Qsem GateModel GateSpec GateProofs OpProofs IRModel IRSpec IRProofs OptModel
  OptDagProofs OptElideProofs DDModel DDSpec DDProofs DDCanonProofs DDOpsProofs DDGateProofs DDProps SimModel.
Import ListNotations.
Local Open Scope nat_scope.

(** ** Sums *)
Lemma bsum_agree n f : forall b b', (forall q, n <= q -> b q = b' q) -> bsum n f b = bsum n f b'.
Proof.
  induction n as [|n IH]; intros b b' H; cbn.
  - f_equal. apply functional_extensionality. intros q. apply H. lia.
  - f_equal; apply IH; intros q Q; unfold setb; destruct (Nat.eqb_spec q n); auto; apply H; lia.
Qed.
Lemma bsum_ext_in n f g : forall b, (forall c, (forall q, n <= q -> c q = b q) -> f c = g c) -> bsum n f b = bsum n g b.
Proof.
  induction n as [|n IH]; intros b H; cbn.
  - apply H. auto.
  - f_equal; apply IH; intros c Q; apply H; intros q L; rewrite Q by lia; apply setb_other; lia.
Qed.
Lemma bsum_comm n m (f : bits -> bits -> C) b0 : forall b,
  bsum n (fun c => bsum m (fun d => f c d) b0) b = bsum m (fun d => bsum n (fun c => f c d) b) b0.
Proof. induction n as [|n IH]; intros b; cbn; auto. rewrite !IH, <- bsum_add. auto. Qed.

(** ** What products do to states *)
Lemma mact_MT n k psi : mact n (k, MT) psi = sscal k psi.
Proof.
  rewrite (cgate_act n (k, MT) [] [] (fun _ _ => k)).
  - apply functional_extensionality. intros b. unfold capply, apply, sscal, csum. cbn [sat forallb length allb map setl fold_right]. ring.
  - constructor.
  - intros t [].
  - intros r c. unfold meden, cgate, XM. cbn [fst snd sat forallb]. rewrite mden_MT. unfold delta. destruct (agree_off _ _ _ _); ring.
Qed.
Lemma sscal_1 psi : sscal C1 psi = psi.
Proof. apply functional_extensionality. intros b. unfold sscal. ring. Qed.
Lemma mact_mone n psi : mact n mone psi = psi.
Proof. unfold mone. rewrite mact_MT. apply sscal_1. Qed.
Lemma mone_canon n : mcanon n mone.
Proof. exact I. Qed.

Lemma mm_spec n x y : mcanon n x -> mcanon n y ->
  exists r, multiplyMM x y = DOk r /\ mcanon n r /\ forall psi, mact n r psi = mact n x (mact n y psi).
Proof.
  intros X Y. destruct (C15_multiply_matrices n x y X Y) as (r & E & Ca & D). exists r. split; [auto|]. split; [auto|].
  intros psi. apply functional_extensionality. intros b. unfold mact.
  rewrite (bsum_ext_in n _ (fun c => bsum n (fun k => (meden n x b k * (meden n y k c * psi c))%C) b)).
  2:{ intros c _. rewrite (D b c b). rewrite (bsum_ext n (fun k => (meden n x b k * (meden n y k c * psi c))%C) (fun k => (psi c * (meden n x b k * meden n y k c))%C)) by (intros; ring).
      rewrite bsum_scal. ring. }
  rewrite bsum_comm. apply bsum_ext_in. intros c A. rewrite bsum_scal. f_equal. apply bsum_agree. intros q Q. symmetry. auto.
Qed.
Lemma mv_spec n x y : mcanon n x -> vcanon n y ->
  exists r, multiplyMV x y = DOk r /\ vcanon n r /\ veden r = mact n x (veden y).
Proof.
  intros X Y. destruct (C15_multiply_matrix_vector n x y X Y) as (r & E & Ca & D). exists r. split; [auto|]. split; [auto|].
  apply functional_extensionality. intros b. apply (D b b).
Qed.
Lemma mact_inj n e e' : mcanon n e -> mcanon n e' -> (forall psi, mact n e psi = mact n e' psi) -> e = e'.
Proof.
  intros X Y H. apply (mcanon_unique n); auto. intros r c.
  assert (G : forall e, mact n e (fun k => mden n MT c k) r = meden n e r c).
  { intros x. unfold mact. rewrite (bsum_ext n _ (fun k => (mden n MT c k * meden n x r k)%C)) by (intros; ring).
    apply bsum_id. apply meden_local_r. }
  rewrite <- !G, H. auto.
Qed.

(** ** Operations *)
(* the operations that have a diagram: no measurement, reset or condition, controls as in a std::set on
   distinct qubits, and no controlled global phase *)
Fixpoint dd_ok (o : cop) : Prop :=
  match o with
  | OStd s => op_ok (OStd s) /\ ctl_ok s /\ csorted (o_ctl s) /\ (o_type s = gGPhase -> o_ctl s = [])
  | OMeas _ _ | OReset _ | OClass _ _ => False
  | OComp _ l => (fix go l := match l with [] => True | o :: l' => dd_ok o /\ go l' end) l
  end.
Lemma dd_ok_comp cu l : dd_ok (OComp cu l) <-> Forall dd_ok l.
Proof. simpl. induction l as [|o l IH]; split; intros H; auto; [destruct H; constructor; tauto|inversion H; tauto]. Qed.

Fixpoint uact (o : cop) (psi : state) : state :=
  match o with
  | OStd s => semf s psi
  | OComp _ l => (fix go l psi := match l with [] => psi | x :: r => go r (uact x psi) end) l psi
  | _ => psi
  end.
Definition uacts (l : list cop) (psi : state) : state := fold_left (fun p o => uact o p) l psi.
Lemma uact_comp cu l psi : uact (OComp cu l) psi = uacts l psi.
Proof. unfold uacts. cbn. revert psi. induction l as [|x l IH]; intros psi; cbn; auto. Qed.
Lemma run_uacts l : Forall (fun o => dd_ok o -> forall psi m, run_op o (psi, m) = [(uact o psi, m)]) l -> Forall dd_ok l ->
  forall psi m, run l (psi, m) = [(uacts l psi, m)].
Proof.
  intros H K. induction l as [|x l IH]; intros psi m; cbn; auto. inversion H; inversion K; subst.
  rewrite H2 by auto. cbn. rewrite app_nil_r. unfold uacts in *. cbn. auto.
Qed.
Lemma run_uact o : dd_ok o -> forall psi m, run_op o (psi, m) = [(uact o psi, m)].
Proof.
  induction o as [s|qs cs|qs|c o IH|cu l H] using cop_rect'; intros K psi m; try (destruct K; fail); auto.
  rewrite run_comp, uact_comp. apply dd_ok_comp in K. apply run_uacts; auto.
Qed.
Lemma run_uacts' l : Forall dd_ok l -> forall psi m, run l (psi, m) = [(uacts l psi, m)].
Proof. intros K. apply run_uacts; auto. apply Forall_forall. intros o _. apply run_uact. Qed.

Lemma csorted_strict cs : csorted cs -> NoDup (map fst cs) -> ctl_sorted cs.
Proof.
  induction cs as [|x cs IH]; intros H N; [constructor|]. destruct H as [H K]. inversion N; subst. constructor; [apply IH; auto|].
  apply Forall_forall. intros y Y. pose proof (H y Y) as L. apply ctl_ltb_spec in L. destruct L as [L|[L _]]; auto.
  exfalso. apply H2. rewrite L. apply in_map; auto.
Qed.
Lemma papply_controls_sorted p cs ds : csorted cs -> papply_controls p cs = Some ds -> csorted ds.
Proof.
  intros S H. unfold papply_controls in H. destruct p; [injection H as <-; auto|].
  destruct (map_opt _ cs); [|discriminate]. injection H as <-. apply (ctls_of_gen l []). exact I.
Qed.
(* the qubits of an operation have an image below n *)
Definition placed (n : nat) (p : perm) (pi : nat -> nat) (qs : list nat) : Prop :=
  forall q, In q qs -> papply p q = Some (pi q) /\ pi q < n.

Lemma placed_targets n p pi ts : placed n p pi ts -> papply_targets p ts = Some (map pi ts).
Proof.
  unfold papply_targets. induction ts as [|t ts IH]; intros H; cbn; auto.
  destruct (H t (or_introl eq_refl)) as [-> _]. rewrite IH; auto. intros q Q. apply H. cbn; auto.
Qed.
Lemma placed_controls n p pi cs : placed n p pi (map fst cs) -> exists ds, papply_controls p cs = Some ds.
Proof.
  intros H. unfold papply_controls. destruct p as [|x p]; [eauto|].
  destruct (map_opt_some (papply_ctl (x :: p)) cs) as (l & ->); [|eauto].
  intros c I. destruct (H (fst c) (in_map fst _ _ I)) as [E _]. unfold papply_ctl. rewrite E. eauto.
Qed.

Lemma NoDup_ctl_fst pi cs ds : inj pi -> NoDup (map fst cs) -> csorted ds ->
  (forall c, In c ds <-> In c (map (fun c : ctl => (pi (fst c), snd c)) cs)) -> NoDup (map fst ds).
Proof.
  intros I N S H.
  assert (U : forall c d, In c ds -> In d ds -> fst c = fst d -> c = d).
  { intros c d Hc Hd E. apply H in Hc, Hd. apply in_map_iff in Hc, Hd. destruct Hc as ([a u] & <- & Ha), Hd as ([b v] & <- & Hb).
    cbn in *. apply I in E. subst b. f_equal. apply (ctl_fun cs a); auto. }
  clear H N cs I. induction ds as [|x ds IH]; cbn; [constructor|]. destruct S as [S1 S2]. constructor.
  - intros Q. apply in_map_iff in Q. destruct Q as (y & E & Y). assert (x = y) by (apply U; cbn; auto). subst y.
    pose proof (S1 x Y) as L. rewrite ctl_ltb_irrefl in L. discriminate.
  - apply IH; auto. intros; apply U; cbn; auto.
Qed.

Lemma stdDD_single n t ps cs q U : is_single t = true -> single_matrix t ps = Some U -> ctls_ok n cs [q] ->
  exists e, stdDD n t ps cs [q] = DOk e /\ mcanon n e /\ forall psi, mact n e psi = capply cs U [q] psi.
Proof.
  intros S M K. unfold stdDD. rewrite S, M. apply C13_makeGateDD; auto.
Qed.
Lemma two_not_single t : is_two t = true -> is_single t = false.
Proof. destruct t; cbn; auto; discriminate. Qed.
Lemma stdDD_two n t ps cs q0 q1 U : is_two t = true -> two_matrix t ps = Some U -> q0 <> q1 -> ctls_ok n cs [q0; q1] ->
  exists e, stdDD n t ps cs [q0; q1] = DOk e /\ mcanon n e /\ forall psi, mact n e psi = capply cs U [q0; q1] psi.
Proof.
  intros S M N K. unfold stdDD. rewrite two_not_single, S, M by auto. apply C14_makeTwoQubitGateDD; auto.
Qed.

Fixpoint dd_fold (n : nat) (p : perm) (l : list cop) (e : medge) : dres medge :=
  match l with
  | [] => DOk e
  | x :: r => dbind (getDD n p x) (fun d => dbind (multiplyMM d e) (fun e' => dd_fold n p r e'))
  end.
Lemma getDD_comp n p cu l : getDD n p (OComp cu l) = dd_fold n p l mone.
Proof.
  cbn [getDD]. generalize mone. induction l as [|x l IH]; intros e; cbn; auto.
  destruct (getDD n p x); cbn; auto. destruct (multiplyMM _ _); cbn; auto.
Qed.

Definition dd_spec (n : nat) (p : perm) (pi : nat -> nat) (o : cop) : Prop :=
  dd_ok o -> placed n p pi (used o) ->
  exists e, getDD n p o = DOk e /\ mcanon n e /\ forall psi, mact n e (move pi psi) = move pi (uact o psi).

Lemma getDD_std n p pi s : agrees pi p -> inj pi -> dd_spec n p pi (OStd s).
Proof.
  intros A I ((W & f & F) & N & S & G) P. cbn [used] in P.
  assert (PT : placed n p pi (o_tgt s)) by (intros q Q; apply P; apply in_or_app; auto).
  assert (PC : placed n p pi (map fst (o_ctl s))) by (intros q Q; apply P; apply in_or_app; auto).
  cbn [uact]. unfold semf. rewrite F.
  pose proof (placed_targets _ _ _ _ PT) as ET. destruct (placed_controls _ _ _ _ PC) as (ds & EC).
  pose proof (papply_ctls _ _ _ _ A EC) as DC. pose proof (papply_controls_sorted _ _ _ S EC) as DS.
  assert (DN : NoDup (map fst ds)) by (apply (NoDup_ctl_fst pi (o_ctl s)); auto).
  assert (CO : ctls_ok n ds (map pi (o_tgt s))).
  { split; [apply csorted_strict; auto|]. split; [|split].
    - apply Forall_forall. intros c C. apply DC, in_map_iff in C. destruct C as (d & <- & D). cbn. apply PC, in_map; auto.
    - apply Forall_forall. intros t T. apply in_map_iff in T. destruct T as (u & <- & U). apply PT; auto.
    - intros t T C. apply in_map_iff in T, C. destruct T as (u & <- & U), C as (c & E & C).
      apply DC, in_map_iff in C. destruct C as (d & <- & D). cbn in E. apply I in E. destruct W as [_ W]. apply (W d D). rewrite E; auto. }
  cbn [getDD].
  destruct (sem_cases s f F) as [[B ->]|[(x & ps & GT & EP & T & ->)|[(M & t0 & EM & T & ->)|(M & t0 & t1 & EM & T & ->)]]].
  - rewrite B. exists mone. split; [auto|]. split; [exact Logic.I|]. intros psi. apply mact_mone.
  - rewrite GT, EP. eexists. split; [reflexivity|]. split; [exact Logic.I|]. intros psi. rewrite mact_MT, (G GT).
    apply functional_extensionality. intros b. unfold move, capply, apply, sscal, csum. cbn [sat forallb length allb map setl fold_right]. ring.
  - rewrite T in *. pose proof (single_none_two _ _ _ EM) as IS.
    destruct (stdDD_single n (o_type s) (o_par s) ds (pi t0) M IS EM CO) as (e & E & Ca & D).
    exists e. split; [|split; [auto|]].
    + destruct (o_type s); try discriminate IS; rewrite ET, EC; exact E.
    + intros psi. rewrite D. change [pi t0] with (map pi [t0]). apply capply_move; auto.
  - rewrite T in *. pose proof (two_is _ _ _ EM) as IS.
    assert (NE : pi t0 <> pi t1). { intros E. apply I in E. subst t1. destruct W as [W _]. rewrite T in W. inversion W. cbn in *. tauto. }
    destruct (stdDD_two n (o_type s) (o_par s) ds (pi t0) (pi t1) M IS EM NE CO) as (e & E & Ca & D).
    exists e. split; [|split; [auto|]].
    + destruct (o_type s); try discriminate IS; rewrite ET, EC; exact E.
    + intros psi. rewrite D. change [pi t0; pi t1] with (map pi [t0; t1]). apply capply_move; auto.
Qed.

Lemma dd_fold_spec n p pi l : Forall (dd_spec n p pi) l -> Forall dd_ok l -> placed n p pi (flat_map used l) ->
  forall e, mcanon n e -> exists e', dd_fold n p l e = DOk e' /\ mcanon n e' /\
    forall psi chi, mact n e psi = move pi chi -> mact n e' psi = move pi (uacts l chi).
Proof.
  induction l as [|x l IH]; intros H K P e Ce; cbn [dd_fold].
  - exists e. auto.
  - inversion H; inversion K; subst.
    destruct (H2 H6) as (d & Ed & Cd & Dd); [intros q Q; apply P; cbn; apply in_or_app; auto|]. rewrite Ed. cbn [dbind].
    destruct (mm_spec n d e Cd Ce) as (r & Er & Cr & Dr). rewrite Er. cbn [dbind].
    destruct (IH H3 H7) with (e := r) as (e' & E' & C' & D'); auto.
    { intros q Q; apply P; cbn; apply in_or_app; auto. }
    exists e'. split; [auto|]. split; [auto|]. intros psi chi X. unfold uacts. cbn [fold_left]. apply D'. rewrite Dr, X, Dd. auto.
Qed.

Theorem getDD_spec n p pi o : agrees pi p -> inj pi -> dd_spec n p pi o.
Proof.
  intros A I. induction o as [s|qs cs|qs|c o IH|cu l H] using cop_rect'; try (intros K; destruct K; fail).
  - apply getDD_std; auto.
  - intros K P. rewrite getDD_comp. apply dd_ok_comp in K. cbn [used] in P.
    destruct (dd_fold_spec n p pi l H K P mone (mone_canon n)) as (e & E & Ca & D). exists e. split; [auto|]. split; [auto|].
    intros psi. rewrite uact_comp. apply D. apply mact_mone.
Qed.

(** ** Layouts *)
Definition linj (p : perm) : Prop := forall a b v, plookup p a = Some v -> plookup p b = Some v -> a = b.
(* a layout: a std::map placing qubits on distinct levels below n *)
Definition pgood (n : nat) (p : perm) : Prop :=
  p <> [] /\ NoDup (map fst p) /\ linj p /\ forall a v, plookup p a = Some v -> v < n.
Lemma pgood_of n p : p <> [] -> perm_ok p -> Forall (fun x => snd x < n) p -> pgood n p.
Proof.
  intros NP P B. split; [auto|]. split; [apply P|]. split.
  - intros a b v A B'. pose proof (plookup_pinv _ _ _ P A). pose proof (plookup_pinv _ _ _ P B'). congruence.
  - intros a v A. apply plookup_In in A. rewrite Forall_forall in B. apply (B _ A).
Qed.
Lemma pgood_placed n p pi qs : pgood n p -> agrees pi p -> incl qs (keys p) -> placed n p pi qs.
Proof.
  intros (NP & _ & _ & B) A K q Q. destruct (papply_some p q (K q Q)) as (r & E). pose proof (A q r E) as ->. split; [auto|].
  rewrite papply_nonnil in E by auto. apply (B _ _ E).
Qed.
Lemma pgood_pi n p : pgood n p -> exists pi, agrees pi p /\ inj pi.
Proof.
  intros (NP & _ & LI & B). exists (fun q => match plookup p q with Some r => r | None => n + q end). split.
  - intros q r H. rewrite papply_nonnil in H by auto. now rewrite H.
  - intros x y. destruct (plookup p x) as [r|] eqn:EX, (plookup p y) as [s|] eqn:EY; intros H; subst.
    + eapply LI; eauto.
    + apply B in EX. lia.
    + apply B in EY. lia.
    + lia.
Qed.
