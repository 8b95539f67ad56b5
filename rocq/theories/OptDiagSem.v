(** Diagonal gates in front of measurements only change phases. *)
From Coq Require Import Reals Lra List Arith Bool Lia NArith FunctionalExtensionality.
From Verif Require Import Cplx Qsem GateModel GateSpec GateProofs OpProofs GraphModel IRModel IRSpec IRProofs OptModel OptSem
  OptMeasModel OutcomeSpec.
Import ListNotations.
Local Open Scope list_scope.

Definition diagonal (k : nat) (M : mat) : Prop := forall r c, length r = k -> length c = k -> r <> c -> M r c = C0.

Lemma diag_unit k M r : unitary k M -> diagonal k M -> length r = k -> Cnorm2 (M r r) = 1%R.
Proof.
  intros [U _] D L. specialize (U r r L L). unfold mmul, madj, mid in U. rewrite leqb_refl in U.
  rewrite (csum_single _ r) in U.
  - rewrite Cconj_norm2 in U. now inversion U.
  - apply allb_NoDup.
  - now apply allb_In.
  - intros v Hv N. apply allb_In in Hv. rewrite (D v r) by auto. ring.
Qed.

Lemma sem_diag s f : sem s = Some f -> is_diag (o_type s) = true ->
  f = (fun psi => psi) \/ exists k M, length (o_tgt s) = k /\ unitary k M /\ diagonal k M /\ f = capply (o_ctl s) M (o_tgt s).
Proof.
  unfold sem. destruct s as [t ps cs ts]. cbn [o_type o_par o_ctl o_tgt]. intros E D.
  destruct t; try discriminate D; try (inversion E; auto; fail); right;
    unfold gate_matrix in E; cbn [single_matrix two_matrix] in E; try (destruct ps as [|p0 ps]; [discriminate|]);
    destruct (Nat.eqb (length ts) _) eqn:L; try discriminate; apply Nat.eqb_eq in L; inversion E; subst; clear E.
  all: match goal with |- exists k M, _ /\ _ /\ _ /\ capply _ ?N _ = _ => exists (length ts), N end; rewrite L; split; auto; split;
    [first [eapply (single_unitary gI []); reflexivity
          | eapply (single_unitary gZ []); reflexivity | eapply (single_unitary gS []); reflexivity
          | eapply (single_unitary gSdg []); reflexivity | eapply (single_unitary gT []); reflexivity
          | eapply (single_unitary gTdg []); reflexivity | eapply (single_unitary gP [p0]); reflexivity
          | eapply (single_unitary gRZ [p0]); reflexivity | eapply (two_unitary gRZZ [p0]); reflexivity]
    |split; auto; intros r c Hr Hc N].
  all: first [split1 r Hr; split1 c Hc; allbools; try congruence; reflexivity
             |split2 r Hr; split2 c Hc; allbools; try congruence; reflexivity].
Qed.

(** Multiplication by a function of the basis state. *)
Definition times (f : bits -> C) (psi : state) : state := fun b => (f b * psi b)%C.
Definition unit_fun (f : bits -> C) : Prop := forall b, Cnorm2 (f b) = 1%R.
Definition dep (f : bits -> C) (S : nat -> Prop) : Prop := forall b b' : bits, (forall q, S q -> b q = b' q) -> f b = f b'.

Lemma diag_times s : op_ok (OStd s) -> is_diag (o_type s) = true ->
  exists f, unit_fun f /\ dep f (fun q => In q (used (OStd s))) /\ forall psi, semf s psi = times f psi.
Proof.
  intros [W [g G]] D. unfold semf. rewrite G. destruct (sem_diag _ _ G D) as [->|(k & M & L & U & DM & ->)].
  - exists (fun _ => C1). split; [intros b; apply Cnorm2_1|]. split; [intros b b' _; auto|].
    intros psi. apply functional_extensionality. intros b. unfold times. ring.
  - exists (fun b => if sat (o_ctl s) b then M (map b (o_tgt s)) (map b (o_tgt s)) else C1). split; [|split].
    + intros b. destruct (sat (o_ctl s) b); [|apply Cnorm2_1]. eapply diag_unit; eauto. now rewrite map_length.
    + intros b b' H. assert (E1 : sat (o_ctl s) b = sat (o_ctl s) b').
      { unfold sat. assert (X : forall cs, incl cs (o_ctl s) -> forallb (fun c => Bool.eqb (b (fst c)) (snd c)) cs =
          forallb (fun c => Bool.eqb (b' (fst c)) (snd c)) cs).
        { induction cs as [|c cs IH]; simpl; auto; intros I. rewrite (H (fst c)), IH; auto.
          - intros x J. apply I. simpl; auto.
          - apply In_ctl. apply I. simpl; auto. }
        apply X. apply incl_refl. }
      assert (E2 : map b (o_tgt s) = map b' (o_tgt s)). { apply map_ext_in. intros q I. apply H. now apply In_tgt. }
      now rewrite E1, E2.
    + intros psi. apply functional_extensionality. intros b. unfold capply, times. destruct (sat (o_ctl s) b); [|ring].
      unfold apply. rewrite (csum_single _ (map b (o_tgt s))).
      * now rewrite setl_id.
      * apply allb_NoDup.
      * apply allb_In. now rewrite map_length.
      * intros v Hv N. apply allb_In in Hv. rewrite DM; [ring|rewrite map_length; auto|congruence|congruence].
Qed.

(** ** Operators that act on the qubits in [Q] only *)
Definition lives_on (F : state -> state) (Q : nat -> Prop) : Prop :=
  (forall q v psi, ~ Q q -> project q v (F psi) = F (project q v psi)) /\
  (forall q psi, ~ Q q -> flip q (F psi) = F (flip q psi)) /\
  (forall s psi, (forall q, In q (used (OStd s)) -> ~ Q q) -> semf s (F psi) = F (semf s psi)).
Definition comm_op (F : state -> state) (o : cop) : Prop := forall b, run_op o (pushf F b) = map (pushf F) (run_op o b).

Lemma lives_measure F Q l : lives_on F Q -> (forall q, In q (map fst l) -> ~ Q q) -> forall b,
  measure_all l (pushf F b) = map (pushf F) (measure_all l b).
Proof.
  intros (P & _). induction l as [|[q c] l IH]; intros D b; simpl; auto.
  assert (N : ~ Q q) by (apply D; simpl; auto).
  rewrite !app_nil_r, !map_app, !P by auto.
  f_equal; apply (IH (fun x I => D x (or_intror I)) (_, _)).
Qed.
Lemma lives_reset F Q l : lives_on F Q -> (forall q, In q l -> ~ Q q) -> forall b,
  reset_all l (pushf F b) = map (pushf F) (reset_all l b).
Proof.
  intros (P & X & _). induction l as [|q l IH]; intros D b; simpl; auto.
  assert (N : ~ Q q) by (apply D; simpl; auto).
  rewrite !app_nil_r, !map_app, !P, X by auto.
  f_equal; apply (IH (fun x I => D x (or_intror I)) (_, _)).
Qed.
Lemma comm_ops F l : Forall (comm_op F) l -> forall b, run l (pushf F b) = map (pushf F) (run l b).
Proof.
  induction 1 as [|o l H Hl IH]; intros b; simpl; auto.
  rewrite H, flat_map_map, map_flat_map. apply flat_map_ext'. auto.
Qed.
Lemma lives_comm F Q o : lives_on F Q -> local o -> (forall q, In q (used o) -> ~ Q q) -> comm_op F o.
Proof.
  intros LO. induction o using cop_rect'; intros L D b.
  - simpl. unfold pushf. simpl. destruct LO as (_ & _ & X). rewrite X; auto.
  - simpl. apply (lives_measure F Q); auto. intros x I. apply D. simpl. eapply combine_fst; eauto.
  - simpl. apply (lives_reset F Q); auto.
  - simpl. destruct (cond_holds c (snd b)); auto.
    destruct o; try (apply IHo; [exact L|exact D]). destruct L.
  - rewrite !run_comp. apply comm_ops. apply local_comp in L.
    rewrite Forall_forall in *. intros x I. apply H; auto. intros q J. apply D. simpl. apply in_flat_map. eauto.
Qed.

Lemma times_lives f Q : dep f Q -> lives_on (times f) Q.
Proof.
  intros D. split; [|split].
  - intros q v psi _. apply functional_extensionality. intros b. unfold project, times. destruct (Bool.eqb _ _); auto. ring.
  - intros q psi N. apply functional_extensionality. intros b. unfold flip, times. f_equal. apply D.
    intros x Hx. apply setb_other. intros ->. contradiction.
  - intros s psi N. destruct (semf_split s) as [->|[M ->]]; auto.
    apply functional_extensionality. intros b. unfold capply, times, apply. destruct (sat (o_ctl s) b); auto.
    rewrite <- csum_scal. apply csum_ext. intros v _. rewrite (D _ b); [ring|].
    intros q Hq. apply setl_other. intros I. apply (N q); auto. now apply In_tgt.
Qed.

(** ** The simulation *)
Definition rel (Q : nat -> Prop) (x y : branch) : Prop :=
  exists f, unit_fun f /\ dep f Q /\ fst x = times f (fst y) /\ snd x = snd y.

Lemma rel_weaken (Q Q' : nat -> Prop) x y : (forall q, Q q -> Q' q) -> rel Q x y -> rel Q' x y.
Proof. intros H (f & U & D & E). exists f. split; auto. split; auto. intros b b' A. apply D. auto. Qed.

Lemma rel_measure1 Q q c x y : rel Q x y -> Forall2 (rel (fun r => Q r /\ r <> q)) (measure1 q c x) (measure1 q c y).
Proof.
  intros (f & U & D & E & S). unfold measure1. rewrite E, S.
  assert (G : forall v, rel (fun r => Q r /\ r <> q) (project q v (times f (fst y)), setb (snd y) c v) (project q v (fst y), setb (snd y) c v)).
  { intros v. exists (fun b => f (setb b q v)). split; [intros b; apply U|]. split; [|split; auto].
    - intros b b' H. apply D. intros r Hr. unfold setb. destruct (Nat.eqb_spec r q); auto.
    - cbn [fst]. apply functional_extensionality. intros b. unfold project, times. destruct (Bool.eqb (b q) v) eqn:B; [|ring].
      apply eqb_prop in B. rewrite <- B, setb_id. reflexivity. }
  constructor; auto.
Qed.
Lemma Forall2_flat {A B} (R1 : A -> A -> Prop) (R2 : B -> B -> Prop) f g l m :
  Forall2 R1 l m -> (forall x y, R1 x y -> Forall2 R2 (f x) (g y)) -> Forall2 R2 (flat_map f l) (flat_map g m).
Proof. intros H K. induction H; simpl; auto. apply Forall2_app; auto. Qed.
Lemma Forall2_imp {A B} (P Q : A -> B -> Prop) l m : (forall x y, P x y -> Q x y) -> Forall2 P l m -> Forall2 Q l m.
Proof. intros H. induction 1; auto. Qed.

Lemma rel_measure Q l : forall x y, rel Q x y -> Forall2 (rel (fun r => Q r /\ ~ In r (map fst l))) (measure_all l x) (measure_all l y).
Proof.
  revert Q. induction l as [|[q c] l IH]; intros Q x y H; cbn [measure_all map fst].
  - constructor; auto. eapply rel_weaken; [|exact H]. intros r Hr. split; auto.
  - eapply Forall2_flat; [apply rel_measure1; eauto|]. intros x' y' H'.
    eapply Forall2_imp; [|apply IH; exact H']. intros u v. apply rel_weaken. simpl. intuition.
Qed.

Lemma rel_op Q o x y : local o -> (forall q, In q (used o) -> ~ Q q) -> rel Q x y -> Forall2 (rel Q) (run_op o x) (run_op o y).
Proof.
  intros L N (f & U & D & E & S). assert (X : x = pushf (times f) y) by (destruct x; unfold pushf; simpl in *; congruence).
  rewrite X, (lives_comm (times f) Q o) by (auto using times_lives).
  induction (run_op o y) as [|z l IH]; simpl; constructor; auto. exists f. split; auto.
Qed.

(** Gates that the pass may remove: diagonal, on their own or under classical control. *)
Definition removable (o : cop) : Prop :=
  match o with
  | OStd s => is_diag (o_type s) = true
  | OClass _ (OStd s) => is_diag (o_type s) = true
  | _ => False
  end.
Definition killw (o : cop) : cop := match o with OClass c o' => OClass c (kill o') | _ => kill o end.

Lemma rel_removed Q o x y : op_ok o -> removable o -> rel Q x y ->
  exists x' y', run_op o x = [x'] /\ run_op (killw o) y = [y'] /\ rel (fun q => Q q \/ In q (used o)) x' y'.
Proof.
  intros OK R (f & U & D & E & S).
  assert (G : forall s, op_ok (OStd s) -> is_diag (o_type s) = true -> rel (fun q => Q q \/ In q (used (OStd s))) (semf s (fst x), snd x) y).
  { intros s OKs Ds. destruct (diag_times s OKs Ds) as (g & Ug & Dg & Eg). exists (fun b => (g b * f b)%C). split; [|split; [|split]].
    - intros b. rewrite Cnorm2_mul, Ug, U. lra.
    - intros b b' H. f_equal; [apply Dg|apply D]; auto.
    - cbn [fst]. rewrite E, Eg. apply functional_extensionality. intros b. unfold times. ring.
    - auto. }
  destruct o as [s| | |c o|]; try contradiction R.
  - exists (semf s (fst x), snd x), y. split; [reflexivity|]. split; [|apply G; auto].
    cbn [killw kill set_gate_I]. apply run_I. reflexivity.
  - destruct o as [s| | | |]; try contradiction R. cbn [run_op used killw kill set_gate_I]. rewrite S. destruct (cond_holds c (snd y)).
    + exists (semf s (fst x), snd x), y. split; [now rewrite S|]. split; [|apply (G s); auto].
      destruct y as [yp ym]. cbn [fst snd]. rewrite semf_I by reflexivity. reflexivity.
    + exists x, y. split; auto. split; auto. eapply rel_weaken; [|exists f; split; eauto]. intros q Hq. left. exact Hq.
Qed.

Lemma rel_none x y : rel (fun _ => False) x y -> phase_eq x y.
Proof.
  intros (f & U & D & E & S). exists (f (fun _ => false)). split; [apply U|]. split; auto. rewrite E.
  apply functional_extensionality. intros b. unfold times, sscal. f_equal. apply D. intros q [].
Qed.

(** ** Whole circuits *)
Fixpoint mapi_from {A B} (i : nat) (f : nat -> A -> B) (l : list A) : list B :=
  match l with [] => [] | x :: r => f i x :: mapi_from (S i) f r end.
Definition killed (R : nat -> bool) (l : list cop) : list cop := mapi_from 0 (fun p o => if R p then killw o else o) l.

Definition on (l : list cop) (q p : nat) : Prop := exists o, nth_error l p = Some o /\ In q (used o).
(** [pm] is the last operation on [q], a measurement. *)
Definition final_meas (l : list cop) (q pm : nat) : Prop :=
  on l q pm /\ (forall p, pm < p -> ~ on l q p) /\ exists qs cs, nth_error l pm = Some (OMeas qs cs).
Definition sound_removal (l : list cop) (R : nat -> bool) : Prop :=
  forall p, R p = true -> exists o, nth_error l p = Some o /\ removable o /\
    forall q, In q (used o) -> exists pm, p < pm /\ final_meas l q pm /\
      forall p', p < p' < pm -> on l q p' -> R p' = true.

Lemma final_meas_unique l q a b : final_meas l q a -> final_meas l q b -> a = b.
Proof.
  intros (A & B & _) (A' & B' & _). destruct (Nat.lt_trichotomy a b) as [H|[H|H]]; auto; exfalso; [eapply B|eapply B']; eauto.
Qed.

Section Whole.
Variables (l : list cop) (R : nat -> bool).
Hypothesis OK : ops_ok l.
Hypothesis LO : Forall local l.
Hypothesis SR : sound_removal l R.

(** Qubits on which a removed gate is waiting for its measurement. *)
Definition waiting (i q : nat) : Prop :=
  exists p, p < i /\ R p = true /\ on l q p /\ exists pm, i <= pm /\ final_meas l q pm.

Lemma removal_suffix rest : forall A x y, l = A ++ rest -> rel (waiting (length A)) x y ->
  Forall2 phase_eq (run rest x) (run (mapi_from (length A) (fun p o => if R p then killw o else o) rest) y).
Proof.
  induction rest as [|o rest IH]; intros A x y E H; simpl.
  - constructor; auto. apply rel_none. eapply rel_weaken; [|exact H]. intros q (p & _ & _ & _ & pm & L & (o & N & _) & _).
    rewrite E, app_nil_r in N. assert (nth_error A pm <> None) by congruence. apply nth_error_Some in H0. lia.
  - assert (Nth : nth_error l (length A) = Some o). { rewrite E, nth_error_app2, Nat.sub_diag by lia. auto. }
    assert (E' : l = (A ++ [o]) ++ rest) by (rewrite <- app_assoc; auto).
    assert (L' : length (A ++ [o]) = S (length A)) by (rewrite app_length; simpl; lia).
    assert (OKo : op_ok o). { unfold ops_ok in OK. rewrite Forall_forall in OK. apply OK. rewrite E. apply in_or_app. simpl; auto. }
    assert (LOo : local o). { rewrite Forall_forall in LO. apply LO. rewrite E. apply in_or_app. simpl; auto. }
    destruct (R (length A)) eqn:RA.
    + destruct (SR _ RA) as (o' & N' & Rm & Q). assert (o' = o) by congruence. subst o'.
      destruct (rel_removed _ o x y OKo Rm H) as (x' & y' & -> & -> & H'). cbn [flat_map]. rewrite !app_nil_r.
      rewrite <- L'. apply IH; auto. rewrite L'. eapply rel_weaken; [|exact H'].
      intros q [(p & Hp & Rp & Op & pm & Hpm & F)|U].
      * exists p. split; [lia|]. split; auto. split; auto. exists pm. split; auto.
        destruct (Nat.eq_dec pm (length A)) as [->|]; [|lia]. exfalso.
        destruct F as (_ & _ & qs & cs & X). rewrite Nth in X. inversion X; subst. destruct Rm.
      * exists (length A). split; [lia|]. split; auto. split; [exists o; auto|].
        destruct (Q q U) as (pm & L & F & _). exists pm. split; [lia|auto].
    + assert (K : forall q, In q (used o) -> waiting (length A) q -> final_meas l q (length A)).
      { intros q U (p & Hp & Rp & Op & pm & Hpm & F). destruct (SR _ Rp) as (o' & N' & _ & Q).
        destruct Op as (o2 & N2 & U2). assert (o2 = o') by congruence. subst o2.
        destruct (Q q U2) as (pm' & Lp & F' & B). assert (pm' = pm) by (eapply final_meas_unique; eauto). subst pm'.
        destruct (Nat.eq_dec pm (length A)) as [<-|]; auto. exfalso.
        rewrite (B (length A)) in RA; [discriminate|lia|exists o; auto]. }
      destruct o as [s|qs cs|qs|c o|cu m].
      2: { cbn [run_op]. eapply Forall2_flat; [apply rel_measure; exact H|]. intros x' y' H'. rewrite <- L'. apply IH; auto.
           rewrite L'. eapply rel_weaken; [|exact H']. intros q ((p & Hp & Rp & Op & pm & Hpm & F) & NI).
           exists p. split; [lia|]. split; auto. split; auto. exists pm. split; auto.
           destruct (Nat.eq_dec pm (length A)) as [->|]; [|lia]. exfalso. apply NI.
           destruct F as ((o' & N' & U) & _). rewrite Nth in N'. inversion N'; subst. simpl in U, OKo.
           clear - U OKo. revert cs OKo. induction qs as [|a qs IHq]; intros [|c cs] O; simpl in *; try tauto; try lia.
           destruct U; [left; auto|right; apply IHq; auto]. }
      all: eapply Forall2_flat; [apply rel_op; [exact LOo| |exact H]; intros q U W; destruct (K q U W) as (_ & _ & qs' & cs' & X); rewrite Nth in X; discriminate|];
        intros x' y' H'; rewrite <- L'; apply IH; auto; rewrite L'; eapply rel_weaken; [|exact H'];
        intros q (p & Hp & Rp & Op & pm & Hpm & F); exists p; split; [lia|]; split; auto; split; auto; exists pm; split; auto;
        (destruct (Nat.eq_dec pm (length A)) as [->|]; [|lia]); exfalso;
        destruct F as (_ & _ & qs' & cs' & X); rewrite Nth in X; discriminate.
Qed.

Lemma removal_sound b : Forall2 phase_eq (run l b) (run (killed R l) b).
Proof.
  apply (removal_suffix l []); auto. exists (fun _ => C1). split; [intros x; apply Cnorm2_1|]. split; [intros x y _; auto|].
  split; auto. apply functional_extensionality. intros x. unfold times. ring.
Qed.
End Whole.
