(** eliminateResets. *)
From Coq Require Import Reals Lra List Arith Bool Lia NArith Permutation FunctionalExtensionality.
From Verif Require Import Cplx Qsem GateModel GateSpec OpProofs GraphModel IRModel IRSpec IRProofs OptModel OptSem OptDagProofs
  OptMeasModel OutcomeSpec OptDiagSem OptDiagProofs OptFinalProofs OptElideProofs.
Import ListNotations.
Local Open Scope list_scope.

(** ** Reading a state through an embedding of the qubits *)
Definition pull (B : bits -> bits) (x : branch) : branch := (fun b => fst x (B b), snd x).
(** [B] stores qubit [q] at [pi q], for [q] in [Q]. *)
Definition embeds (B : bits -> bits) (pi : nat -> nat) (Q : nat -> Prop) : Prop :=
  (forall b q, Q q -> B b (pi q) = b q) /\
  (forall b q v, Q q -> B (setb b q v) = setb (B b) (pi q) v).

Section Pull.
Variables (B : bits -> bits) (pi : nat -> nat) (Q : nat -> Prop).
Hypothesis E : embeds B pi Q.
Let E1 := proj1 E.
Let E2 := proj2 E.

Lemma pull_sat cs b : (forall c, In c cs -> Q (fst c)) -> sat (map (fun c => (pi (fst c), snd c)) cs) (B b) = sat cs b.
Proof.
  unfold sat. induction cs as [|c cs IH]; simpl; auto. intros H. rewrite E1 by auto. f_equal. apply IH. auto.
Qed.
Lemma pull_setl b ts : forall v, (forall t, In t ts -> Q t) -> setl (B b) (map pi ts) v = B (setl b ts v).
Proof.
  induction ts as [|t ts IH]; intros [|v vs] H; simpl; auto. rewrite IH by (intros; apply H; simpl; auto).
  rewrite E2 by (apply H; simpl; auto). auto.
Qed.
Lemma pull_capply cs cs' M ts psi : (forall c, In c cs -> Q (fst c)) -> (forall t, In t ts -> Q t) ->
  (forall c, In c cs' <-> In c (map (fun c => (pi (fst c), snd c)) cs)) ->
  (fun b => capply cs' M (map pi ts) psi (B b)) = capply cs M ts (fun b => psi (B b)).
Proof.
  intros Hc Ht S. apply functional_extensionality. intros b. unfold capply.
  rewrite (sat_ext cs' (map (fun c => (pi (fst c), snd c)) cs) (B b) S), pull_sat by auto. destruct (sat cs b); auto.
  unfold apply. rewrite map_length, map_map. rewrite (map_ext_in _ b) by (intros; apply E1; auto).
  apply csum_ext. intros v _. rewrite pull_setl by auto. auto.
Qed.
Lemma pull_project q v psi : Q q -> (fun b => project (pi q) v psi (B b)) = project q v (fun b => psi (B b)).
Proof. intros H. apply functional_extensionality. intros b. unfold project. now rewrite E1. Qed.
Lemma pull_flip q psi : Q q -> (fun b => flip (pi q) psi (B b)) = flip q (fun b => psi (B b)).
Proof. intros H. apply functional_extensionality. intros b. unfold flip. now rewrite E1, E2. Qed.

Lemma pull_measure l : forall x, (forall q, In q (map fst l) -> Q q) ->
  measure_all l (pull B x) = map (pull B) (measure_all (map (fun y => (pi (fst y), snd y)) l) x).
Proof.
  induction l as [|[q c] l IH]; intros x H; simpl; auto. rewrite !app_nil_r, map_app.
  assert (Hq : Q q) by (apply H; simpl; auto). rewrite <- !IH by (intros; apply H; simpl; auto).
  unfold pull at 1 2. simpl. rewrite <- !pull_project by auto. reflexivity.
Qed.
Lemma pull_reset l : forall x, (forall q, In q l -> Q q) ->
  reset_all l (pull B x) = map (pull B) (reset_all (map pi l) x).
Proof.
  induction l as [|q l IH]; intros x H; simpl; auto. rewrite !app_nil_r, map_app.
  assert (Hq : Q q) by (apply H; simpl; auto). rewrite <- !IH by (intros; apply H; simpl; auto).
  unfold pull at 1 2. simpl. rewrite <- !pull_project, <- pull_flip by auto. reflexivity.
Qed.
End Pull.

(** Operations without compound parts. *)
Fixpoint simple_op (o : cop) : Prop :=
  match o with OComp _ _ => False | OClass _ o' => simple_op o' | _ => True end.
Lemma simple_local o : simple_op o -> local o.
Proof.
  induction o as [s|qs cs|qs|k o IHo|cu l H] using cop_rect'; simpl; auto; [|tauto]. intros S. specialize (IHo S).
  destruct o; simpl in *; auto.
Qed.
Lemma used_class c o : simple_op o -> used (OClass c o) = used o.
Proof. destruct o; simpl; tauto. Qed.

(** [o'] is [o] with the qubits renamed by [pi]. *)
Inductive renamed (pi : nat -> nat) : cop -> cop -> Prop :=
| rn_std s s' : o_type s' = o_type s -> o_par s' = o_par s -> o_tgt s' = map pi (o_tgt s) ->
    (forall c, In c (o_ctl s') <-> In c (map (fun c => (pi (fst c), snd c)) (o_ctl s))) -> renamed pi (OStd s) (OStd s')
| rn_meas qs cs : renamed pi (OMeas qs cs) (OMeas (map pi qs) cs)
| rn_reset qs : renamed pi (OReset qs) (OReset (map pi qs))
| rn_class c o o' : renamed pi o o' -> renamed pi (OClass c o) (OClass c o').

Lemma renamed_simple pi o o' : renamed pi o o' -> simple_op o /\ simple_op o'.
Proof. induction 1; simpl; auto. Qed.
Lemma renamed_used pi o o' : renamed pi o o' -> forall x, In x (used o') -> exists q, In q (used o) /\ x = pi q.
Proof.
  induction 1 as [s s' T P Tg Ct|qs cs|qs|c o o' R IH]; intros x I.
  - simpl in *. rewrite Tg in I. apply in_app_or in I. destruct I as [I|I].
    + apply in_map_iff in I. destruct I as (q & <- & I). exists q. split; auto. apply in_or_app; auto.
    + apply in_map_iff in I. destruct I as (c & <- & I). apply Ct in I. apply in_map_iff in I. destruct I as (d & <- & I).
      exists (fst d). split; auto. apply in_or_app. right. now apply in_map.
  - simpl in *. apply in_map_iff in I. destruct I as (q & <- & I). eauto.
  - simpl in *. apply in_map_iff in I. destruct I as (q & <- & I). eauto.
  - destruct (renamed_simple _ _ _ R). rewrite used_class in * by auto. auto.
Qed.

Lemma pull_op B pi Q o o' : embeds B pi Q -> renamed pi o o' -> (forall q, In q (used o) -> Q q) -> forall x,
  run_op o (pull B x) = map (pull B) (run_op o' x).
Proof.
  intros E R. induction R as [s s' T P Tg Ct|qs cs|qs|c o o' R IH]; intros U x.
  - simpl. unfold pull. cbn [fst snd map]. f_equal. f_equal. unfold semf, sem. rewrite T, P, Tg, map_length.
    assert (G : forall M, capply (o_ctl s) M (o_tgt s) (fun b => fst x (B b)) = (fun b => capply (o_ctl s') M (map pi (o_tgt s)) (fst x) (B b))).
    { intros M. symmetry. apply (pull_capply B pi Q E); auto.
      - intros c I. apply U. now apply In_ctl.
      - intros t I. apply U. now apply In_tgt. }
    assert (H : forall k M, match (if Nat.eqb (length (o_tgt s)) k then Some (capply (o_ctl s) M (o_tgt s)) else None) with
        Some f => f | None => fun psi => psi end (fun b => fst x (B b)) =
      (fun b => match (if Nat.eqb (length (o_tgt s)) k then Some (capply (o_ctl s') M (map pi (o_tgt s))) else None) with
        Some f => f | None => fun psi => psi end (fst x) (B b))).
    { intros k M. destruct (Nat.eqb (length (o_tgt s)) k); auto. }
    destruct (gate_matrix (o_type s) (o_par s)) as [[k M]|] eqn:GM.
    + specialize (H k M). destruct (o_type s); auto; rewrite GM; exact H.
    + destruct (o_type s); auto; rewrite GM; auto.
  - cbn [run_op]. rewrite combine_map. apply (pull_measure B pi Q); auto. intros q I. apply U. simpl. eapply combine_fst; eauto.
  - cbn [run_op]. apply (pull_reset B pi Q); auto.
  - cbn [run_op]. change (snd (pull B x)) with (snd x). destruct (cond_holds c (snd x)); auto.
    apply IH. intros q I. apply U. destruct (renamed_simple _ _ _ R). now rewrite used_class.
Qed.

(** ** Renaming by the replacement map *)
Lemma filter_In_ctl c cs d : In d (filter (fun d => ctl_ltb c d || ctl_ltb d c) cs) <-> In d cs /\ d <> c.
Proof.
  rewrite filter_In. split; intros [A H]; split; auto.
  - intros ->. now rewrite ctl_ltb_irrefl in H.
  - destruct (ctl_ltb c d) eqn:X; auto. destruct (ctl_ltb d c) eqn:Y; auto. exfalso. apply H. symmetry. now apply ctl_ltb_total.
Qed.
Lemma change_control_In cs from to d : NoDup (map fst cs) ->
  (In d (change_control cs from to) <-> In d (map (fun c => (if Nat.eqb (fst c) from then to else fst c, snd c)) cs)).
Proof.
  intros ND. unfold change_control. destruct (find _ cs) as [c|] eqn:F.
  - apply find_some in F. destruct F as [Ic Ec]. apply Nat.eqb_eq in Ec. rewrite ins_ctl_mem, filter_In_ctl, in_map_iff.
    assert (Un : forall e, In e cs -> fst e = from -> e = c).
    { intros e Ie Ee. clear d. induction cs as [|a cs IH]; [destruct Ie|]. simpl in ND. inversion ND; subst.
      destruct Ic as [->|Ic], Ie as [->|Ie]; auto.
      - exfalso. apply H1. rewrite <- Ee. now apply in_map.
      - exfalso. apply H1. rewrite Ee. now apply in_map. }
    split.
    + intros [->|[I N]].
      * exists c. rewrite Ec, Nat.eqb_refl. auto.
      * exists d. destruct (Nat.eqb_spec (fst d) from); [|destruct d; auto]. exfalso. apply N. apply Un; auto.
    + intros (e & <- & I). destruct (Nat.eqb_spec (fst e) from) as [X|X].
      * left. now rewrite (Un e I X).
      * right. split; [destruct e; auto|]. intros Z. apply X. rewrite <- Ec, <- Z. auto.
  - rewrite in_map_iff. assert (N : forall e, In e cs -> fst e <> from).
    { intros e I X. apply (find_none _ _ F) in I. apply Nat.eqb_neq in I. contradiction. }
    split.
    + intros I. exists d. specialize (N d I). apply Nat.eqb_neq in N. rewrite N. destruct d; auto.
    + intros (e & <- & I). specialize (N e I). apply Nat.eqb_neq in N. rewrite N. destruct e; auto.
Qed.

Definition step (ft : nat * nat) (q : nat) : nat := if Nat.eqb q (fst ft) then snd ft else q.
Definition steps (m : perm) (q : nat) : nat := fold_left (fun q ft => step ft q) m q.
Lemma steps_id m q : ~ In q (map fst m) -> steps m q = q.
Proof.
  unfold steps. revert q. induction m as [|[f t] m IH]; intros q N; auto. simpl in *. unfold step at 2. simpl.
  destruct (Nat.eqb_spec q f); [subst; tauto|]. apply IH. tauto.
Qed.
Lemma steps_target m q : NoDup (map fst m) -> (forall t, In t (map snd m) -> ~ In t (map fst m)) -> steps m q = change_target m q.
Proof.
  unfold change_target. revert q. induction m as [|[f t] m IH]; intros q ND D; auto. simpl in *. inversion ND; subst.
  unfold steps in *. simpl. unfold step at 2. simpl. destruct (Nat.eqb_spec q f) as [->|N].
  - apply steps_id. intros I. apply (D t); auto.
  - apply IH; auto. intros x I J. apply (D x); auto.
Qed.
Lemma change_controls_In m : forall cs d, NoDup (map fst cs) -> NoDup (map snd m) ->
  (forall t, In t (map snd m) -> ~ In t (map fst cs)) ->
  (In d (change_controls m cs) <-> In d (map (fun c => (steps m (fst c), snd c)) cs)).
Proof.
  unfold change_controls. induction m as [|[f t] m IH]; intros cs d ND NT D.
  - simpl. unfold steps. simpl. rewrite in_map_iff. split; [intros I; exists d; destruct d; auto|intros ([] & <- & I); auto].
  - simpl in *. inversion NT as [|? ? Nt NT']; subst.
    set (st := fun c : ctl => (step (f, t) (fst c), snd c)).
    assert (X : forall e, In e (change_control cs f t) <-> In e (map st cs)).
    { intros e. rewrite change_control_In by auto. reflexivity. }
    assert (Nd2 : NoDup (map fst (change_control cs f t))).
    { (* a set with distinct elements *)
      unfold change_control. destruct (find _ cs) as [c|] eqn:F; auto. apply find_some in F. destruct F as [Ic Ec].
      assert (G : NoDup (map fst (filter (fun d0 => ctl_ltb c d0 || ctl_ltb d0 c) cs))).
      { revert ND. clear. induction cs as [|a cs IH]; simpl; intros ND; auto. inversion ND; subst.
        destruct (ctl_ltb c a || ctl_ltb a c); simpl; auto. constructor; auto. rewrite in_map_iff in *. intros (x & E & I). apply H1.
        apply filter_In in I. exists x. tauto. }
      assert (Ht : ~ In t (map fst (filter (fun d0 => ctl_ltb c d0 || ctl_ltb d0 c) cs))).
      { rewrite in_map_iff. intros (x & E & I). apply filter_In in I. apply (D t); auto. rewrite <- E. apply in_map. tauto. }
      revert G Ht. generalize (filter (fun d0 => ctl_ltb c d0 || ctl_ltb d0 c) cs). generalize (snd c). clear.
      intros v l. induction l as [|a l IH]; intros G Ht.
      - simpl. constructor; [intros []|constructor].
      - cbn [ins_ctl]. inversion G; subst. simpl in Ht.
        destruct (ctl_ltb (t, v) a); [simpl; constructor; [simpl; tauto|auto]|].
        destruct (ctl_ltb a (t, v)); [|simpl; constructor; auto].
        simpl. constructor; [|apply IH; tauto]. rewrite in_map_iff. intros (x & E & I). apply ins_ctl_In in I. destruct I as [->|I].
        + simpl in E. apply Ht; left; now symmetry.
        + apply H1. rewrite <- E. now apply in_map. }
    rewrite (IH (change_control cs f t) d); auto.
    + rewrite !in_map_iff. unfold steps. simpl. split.
      * intros (e & <- & I). apply X in I. apply in_map_iff in I. destruct I as (c & <- & I). exists c. auto.
      * intros (c & <- & I). exists (st c). split; auto. apply X. now apply in_map.
    + intros u Iu J. apply in_map_iff in J. destruct J as (e & E & J). apply X in J. apply in_map_iff in J. destruct J as (c & <- & J).
      simpl in E. unfold step in E. simpl in E. destruct (Nat.eqb (fst c) f).
      * subst u. contradiction.
      * apply (D u); auto. rewrite <- E. now apply in_map.
Qed.

(** The replacement map: keys below [n], images fresh. *)
Definition mok (n cur : nat) (m : perm) : Prop :=
  Sorted.StronglySorted lt (map fst m) /\ NoDup (map snd m) /\ (forall k, In k (map fst m) -> k < n) /\
  (forall t, In t (map snd m) -> n <= t < cur).
Lemma sorted_nodup l : Sorted.StronglySorted lt l -> NoDup l.
Proof.
  induction 1; constructor; auto. intros I. rewrite Forall_forall in H0. specialize (H0 _ I). lia.
Qed.
Lemma mset_keys m q r x : In x (map fst (mset m q r)) <-> x = q \/ In x (map fst m).
Proof.
  induction m as [|[a b] m IH]; simpl; [intuition|]. destruct (Nat.eqb_spec q a) as [->|].
  - simpl. intuition.
  - destruct (Nat.ltb q a); simpl; [intuition|]. rewrite IH. intuition.
Qed.
Lemma mset_vals m q r x : In x (map snd (mset m q r)) -> x = r \/ In x (map snd m).
Proof.
  induction m as [|[a b] m IH]; simpl; [intuition|]. destruct (Nat.eqb_spec q a) as [->|].
  - simpl. intuition.
  - destruct (Nat.ltb q a); simpl; [intuition|]. intuition.
Qed.
Lemma mset_mok n cur m q : n <= cur -> q < n -> mok n cur m -> mok n (S cur) (mset m q cur).
Proof.
  intros L Q (S1 & ND & K & V). split; [|split; [|split]].
  - clear - S1. induction m as [|[a b] m IH]; simpl in *; [constructor; constructor|]. inversion S1; subst.
    destruct (Nat.eqb_spec q a) as [->|N]; [auto|]. destruct (Nat.ltb_spec q a).
    + simpl. constructor; auto. constructor; auto. rewrite Forall_forall in *. intros x I. specialize (H2 x I). lia.
    + simpl. constructor; auto. rewrite Forall_forall in *. intros x I. apply mset_keys in I. destruct I as [->|I]; auto. lia.
  - assert (N : ~ In cur (map snd m)) by (intros I; specialize (V _ I); lia). clear - ND N.
    induction m as [|[a b] m IH]; simpl in *; [constructor; auto|]. inversion ND; subst.
    destruct (Nat.eqb q a); [simpl; constructor; tauto|]. destruct (Nat.ltb q a); [simpl; constructor; simpl; tauto|].
    simpl. constructor; [|apply IH; tauto]. intros I. apply mset_vals in I. intuition.
  - intros k I. apply mset_keys in I. destruct I as [->|I]; auto.
  - intros t I. apply mset_vals in I. destruct I as [->|I]; [lia|]. specialize (V t I). lia.
Qed.
Lemma mset_lookup m q r x : Sorted.StronglySorted lt (map fst m) -> change_target (mset m q r) x = if Nat.eqb x q then r else change_target m x.
Proof.
  unfold change_target. induction m as [|[a b] m IH]; intros S1; simpl in *.
  - destruct (Nat.eqb x q); auto.
  - inversion S1; subst. destruct (Nat.eqb_spec q a) as [->|N]; simpl.
    + destruct (Nat.eqb x a); auto.
    + destruct (Nat.ltb_spec q a); simpl.
      * auto. destruct (Nat.eqb x q); auto.
      * destruct (Nat.eqb_spec x a) as [->|]; auto. destruct (Nat.eqb_spec a q); auto. congruence.
Qed.

(** Operations the theorem is about: no compound operations, qubits below [n],
    controls on distinct qubits. *)
Fixpoint ctl_ok (o : cop) : Prop :=
  match o with OStd s => NoDup (map fst (o_ctl s)) | OClass _ o' => ctl_ok o' | _ => True end.
Definition elim_op (n : nat) (o : cop) : Prop := simple_op o /\ ctl_ok o /\ forall q, In q (used o) -> q < n.

Lemma change_renamed n cur m o : mok n cur m -> elim_op n o -> renamed (change_target m) o (change_op m o).
Proof.
  intros (S1 & ND & K & V) (Si & Co & U). assert (NK := sorted_nodup _ S1).
  assert (D : forall t, In t (map snd m) -> ~ In t (map fst m)).
  { intros t I J. specialize (V _ I). specialize (K _ J). lia. }
  induction o as [s|qs cs|qs|k o IHo|cu l H] using cop_rect'; simpl in *; try (constructor; fail); [| |tauto].
  - constructor; auto. intros c. cbn [o_ctl]. rewrite change_controls_In; auto.
    + rewrite !in_map_iff. split; intros (d & <- & I); exists d; (split; auto); rewrite steps_target; auto.
    + intros t I J. assert (t < n) by (apply U; apply in_or_app; auto). specialize (V _ I). lia.
  - constructor. apply IHo; auto. intros q I. apply U. destruct o; simpl in *; tauto.
Qed.

(** ** The new circuit simulates the old one *)
Definition zeros : bits := fun _ => false.
Definition spread (n : nat) (pi : nat -> nat) (d b : bits) : bits := setl d (map pi (seq 0 n)) (map b (seq 0 n)).
Definition inj_below (n : nat) (pi : nat -> nat) : Prop := forall q r, q < n -> r < n -> pi q = pi r -> q = r.

Lemma setl_maps_at (pi : nat -> nat) d b : forall qs q, (forall r s, In r qs -> In s qs -> pi r = pi s -> r = s) -> In q qs ->
  setl d (map pi qs) (map b qs) (pi q) = b q.
Proof.
  induction qs as [|a qs IH]; intros q H I; [destruct I|]. simpl. destruct (Nat.eq_dec (pi q) (pi a)) as [e|N].
  - rewrite e, setb_same. f_equal. symmetry. apply H; simpl; auto.
  - rewrite setb_other by auto. apply IH; [intros; apply H; simpl; auto|]. destruct I as [->|I]; [congruence|auto].
Qed.
Lemma spread_at n pi d b q : inj_below n pi -> q < n -> spread n pi d b (pi q) = b q.
Proof.
  intros H Q. unfold spread. apply setl_maps_at; [|apply in_seq; lia].
  intros r s Ir Is. apply in_seq in Ir. apply in_seq in Is. apply H; lia.
Qed.
Lemma spread_out n pi d b x : (forall q, q < n -> x <> pi q) -> spread n pi d b x = d x.
Proof.
  intros H. unfold spread. apply setl_other. intros I. apply in_map_iff in I. destruct I as (q & <- & I). apply in_seq in I.
  apply (H q); auto. lia.
Qed.
Lemma range_dec n (pi : nat -> nat) (x : nat) : (exists q, q < n /\ x = pi q) \/ (forall q : nat, q < n -> x <> pi q).
Proof.
  induction n as [|n [[q [Q E]]|N]]; [right; intros; lia|left; exists q; auto|].
  destruct (Nat.eq_dec x (pi n)) as [->|Nx]; [left; exists n; auto|]. right. intros q Q. destruct (Nat.eq_dec q n) as [->|]; auto. apply N. lia.
Qed.
Lemma spread_embeds n pi d : inj_below n pi -> embeds (spread n pi d) pi (fun q => q < n).
Proof.
  intros H. split; [intros b q Q; now apply spread_at|]. intros b q v Q. apply functional_extensionality. intros x.
  destruct (range_dec n pi x) as [(r & R & ->)|N].
  - rewrite spread_at by auto. destruct (Nat.eq_dec r q) as [->|Nr]; [now rewrite !setb_same|].
    assert (Np : pi r <> pi q) by (intros e; apply Nr; now apply H). rewrite !setb_other by auto. now rewrite spread_at.
  - rewrite spread_out by auto. rewrite setb_other by auto. now rewrite spread_out.
Qed.

Definition expand (n : nat) (pi : nat -> nat) (D : list nat) (y : branch) : list branch :=
  map (fun v => pull (spread n pi (setl zeros D v)) y) (allb (length D)).

Record layout (n cur : nat) (pi : nat -> nat) (D : list nat) : Prop := {
  ly_inj : inj_below n pi;
  ly_nd : NoDup D;
  ly_pi : forall q, q < n -> pi q < cur;
  ly_D : forall x, In x D -> x < cur;
  ly_dis : forall x q, In x D -> q < n -> x <> pi q;
  ly_all : forall x, x < cur -> In x D \/ exists q, q < n /\ x = pi q }.

(** Qubits [cur .. N-1] are |0>. *)
Definition blank (cur N : nat) (y : branch) : Prop := forall x, cur <= x < N -> project x false (fst y) = fst y.

Lemma blank_op cur N o y : local o -> (forall q, In q (used o) -> q < cur) -> blank cur N y -> Forall (blank cur N) (run_op o y).
Proof.
  intros L U Bl. rewrite Forall_forall. intros z I x X.
  assert (C : comm_op (project x false) o).
  { apply (lives_comm _ (eq x)); auto using project_lives. intros q Iq <-. specialize (U _ Iq). lia. }
  assert (E : y = pushf (project x false) y). { destruct y as [s m]. unfold pushf. simpl. f_equal. symmetry. apply Bl; auto. }
  rewrite E, C in I. apply in_map_iff in I. destruct I as (w & <- & I). unfold pushf. simpl.
  apply functional_extensionality. intros b. unfold project. destruct (Bool.eqb (b x) false); auto.
Qed.

Section Perm.
Variables A B K : Type.
Lemma flat_map_perm (f g : A -> list B) l : (forall x, In x l -> Permutation (f x) (g x)) -> Permutation (flat_map f l) (flat_map g l).
Proof. induction l as [|a l IH]; simpl; intros H; auto. apply Permutation_app; auto. Qed.
Lemma flat_map_cons_perm (f : A -> B) (g : A -> list B) l : Permutation (flat_map (fun x => f x :: g x) l) (map f l ++ flat_map g l).
Proof.
  induction l as [|a l IH]; simpl; auto. apply Permutation_cons; auto.
  rewrite IH, !app_assoc. apply Permutation_app_tail. apply Permutation_app_comm.
Qed.
Lemma flat_map_nil_all (l : list A) : flat_map (fun _ => @nil B) l = [].
Proof. induction l; auto. Qed.
Lemma flat_map_sing (f : A -> B) l : flat_map (fun x => [f x]) l = map f l.
Proof. induction l as [|a l IH]; simpl; congruence. Qed.
Lemma swap_maps (f : A -> K -> B) l (k : list K) :
  Permutation (flat_map (fun x => map (f x) k) l) (flat_map (fun y => map (fun x => f x y) l) k).
Proof.
  revert l. induction k as [|y k IH]; intros l; simpl.
  - now rewrite flat_map_nil_all.
  - rewrite flat_map_cons_perm. apply Permutation_app_head. apply IH.
Qed.
End Perm.

Section Sim.
Variables n N : nat.
Definition sim (pi : nat -> nat) (D : list nat) (cur : nat) (L L' : list branch) : Prop :=
  Permutation L (flat_map (expand n pi D) L') /\ Forall (blank cur N) L'.

Lemma sim_op pi D cur L L' o o' : layout n cur pi D -> renamed pi o o' -> (forall q, In q (used o) -> q < n) ->
  sim pi D cur L L' -> sim pi D cur (flat_map (run_op o) L) (flat_map (run_op o') L').
Proof.
  intros Ly R U [P Bl]. destruct (renamed_simple _ _ _ R) as [Si Si']. split.
  - rewrite (Permutation_flat_map (run_op o) P). rewrite !flat_map_flat. apply flat_map_perm. intros y _.
    unfold expand. rewrite flat_map_map.
    rewrite (flat_map_ext' _ (fun v => map (pull (spread n pi (setl zeros D v))) (run_op o' y))).
    + apply (swap_maps _ _ _ (fun v z => pull (spread n pi (setl zeros D v)) z)).
    + intros v. apply (pull_op _ pi (fun q => q < n)); auto. apply spread_embeds. apply (ly_inj _ _ _ _ Ly).
  - rewrite Forall_forall in *. intros z I. apply in_flat_map in I. destruct I as (y & Iy & I).
    assert (F := blank_op cur N o' y (simple_local _ Si')). rewrite Forall_forall in F. apply F; auto.
    intros q Iq. destruct (renamed_used _ _ _ R _ Iq) as (r & Ir & ->). apply (ly_pi _ _ _ _ Ly). auto.
Qed.

Definition fresh (pi : nat -> nat) (q y : nat) : nat -> nat := fun x => if Nat.eqb x q then y else pi x.
Lemma layout_fresh pi D cur q : layout n cur pi D -> q < n -> layout n (S cur) (fresh pi q cur) (pi q :: D).
Proof.
  intros [H1 H2 H3 H4 H5 H6] Q. unfold fresh. split.
  - intros a b A B. destruct (Nat.eqb_spec a q), (Nat.eqb_spec b q); subst; auto.
    + intros E. specialize (H3 b B). lia.
    + intros E. specialize (H3 a A). lia.
  - constructor; auto. intros I. apply (H5 _ q I Q). auto.
  - intros a A. destruct (Nat.eqb a q); [lia|]. specialize (H3 a A). lia.
  - intros x [<-|I]; [specialize (H3 q Q)|specialize (H4 x I)]; lia.
  - intros x a [<-|I] A; destruct (Nat.eqb_spec a q) as [->|Ne].
    + specialize (H3 q Q). lia.
    + intros E. apply Ne. now apply H1.
    + specialize (H4 x I). lia.
    + apply H5; auto.
  - intros x X. destruct (Nat.eq_dec x cur) as [->|Nx]; [right; exists q; rewrite Nat.eqb_refl; auto|].
    destruct (H6 x ltac:(lia)) as [I|(a & A & ->)]; [left; simpl; auto|].
    destruct (Nat.eq_dec a q) as [->|Ne]; [left; simpl; auto|]. right. exists a. apply Nat.eqb_neq in Ne. rewrite Ne. auto.
Qed.

Lemma spread_fresh pi D cur q v w b : layout n cur pi D -> q < n -> b q = false ->
  spread n (fresh pi q cur) (setl zeros (pi q :: D) (w :: v)) b = spread n pi (setl zeros D v) (setb b q w).
Proof.
  intros Ly Q Bq. assert (Ly' := layout_fresh _ _ _ _ Ly Q). destruct Ly as [H1 H2 H3 H4 H5 H6].
  apply functional_extensionality. intros x.
  destruct (range_dec n pi x) as [(r & R & ->)|Nr].
  - rewrite (spread_at n pi) by auto. destruct (Nat.eq_dec r q) as [->|Ne].
    + rewrite setb_same, spread_out.
      * simpl. now rewrite setb_same.
      * intros r Rr. apply (ly_dis _ _ _ _ Ly'); simpl; auto.
    + rewrite setb_other by auto. assert (X : pi r = fresh pi q cur r). { unfold fresh. apply Nat.eqb_neq in Ne. now rewrite Ne. }
      rewrite X. apply spread_at; auto. apply (ly_inj _ _ _ _ Ly').
  - rewrite (spread_out n pi) by auto. destruct (Nat.eq_dec x cur) as [->|Nx].
    + assert (X : cur = fresh pi q cur q). { unfold fresh. now rewrite Nat.eqb_refl. }
      rewrite X at 2. rewrite spread_at; auto; [|apply (ly_inj _ _ _ _ Ly')].
      rewrite Bq, setl_other; auto. intros I. specialize (H4 _ I). lia.
    + rewrite spread_out.
      * simpl. rewrite setb_other; auto.
      * intros r Rr. unfold fresh. destruct (Nat.eqb r q); auto.
Qed.

Lemma expand_fresh pi D cur q y : layout n cur pi D -> q < n -> cur < N -> blank cur N y ->
  Permutation (flat_map (reset_all [q]) (expand n pi D y)) (expand n (fresh pi q cur) (pi q :: D) y).
Proof.
  intros Ly Q Cu Bl. unfold expand. rewrite flat_map_map. cbn [length allb]. rewrite map_app, !map_map.
  rewrite (flat_map_ext' _ (fun v => pull (spread n (fresh pi q cur) (setl zeros (pi q :: D) (false :: v))) y ::
     map (fun v => pull (spread n (fresh pi q cur) (setl zeros (pi q :: D) (true :: v))) y) [v])).
  - rewrite flat_map_cons_perm. apply Permutation_app_head. cbn [map]. rewrite flat_map_sing. auto.
  - intros v. unfold reset_all, reset1. cbn [flat_map map app]. unfold pull. cbn [fst snd].
    assert (Z : forall w b, b q = true -> fst y (spread n (fresh pi q cur) (setl zeros (pi q :: D) (w :: v)) b) = C0).
    { intros w b Bq. rewrite <- (Bl cur) by lia. unfold project.
      assert (X : spread n (fresh pi q cur) (setl zeros (pi q :: D) (w :: v)) b cur = true).
      { assert (X : fresh pi q cur q = cur) by (unfold fresh; now rewrite Nat.eqb_refl).
        assert (Y := spread_at n (fresh pi q cur) (setl zeros (pi q :: D) (w :: v)) b q
                       (ly_inj _ _ _ _ (layout_fresh _ _ _ _ Ly Q)) Q).
        rewrite X in Y. congruence. }
      rewrite X. auto. }
    f_equal; [|f_equal]; f_equal; apply functional_extensionality; intros b; unfold flip, project.
    + destruct (b q) eqn:Bq; cbn [Bool.eqb]; [symmetry; now apply Z|]. rewrite (spread_fresh _ _ _ _ _ _ _ Ly Q Bq). assert (X : setb b q false = b) by (rewrite <- Bq; apply setb_id). now rewrite X.
    + rewrite setb_same. destruct (b q) eqn:Bq; cbn [Bool.eqb]; [symmetry; now apply Z|]. now rewrite (spread_fresh _ _ _ _ _ _ _ Ly Q Bq).
Qed.

Lemma sim_fresh pi D cur q L L' : layout n cur pi D -> q < n -> cur < N -> sim pi D cur L L' ->
  sim (fresh pi q cur) (pi q :: D) (S cur) (flat_map (reset_all [q]) L) L'.
Proof.
  intros Ly Q Cu [P Bl]. split.
  - rewrite (Permutation_flat_map (reset_all [q]) P), flat_map_flat. apply flat_map_perm. intros y I.
    apply expand_fresh; auto. rewrite Forall_forall in Bl. auto.
  - eapply Forall_impl; [|exact Bl]. intros y H x X. apply H. lia.
Qed.
Lemma sim_ext pi pi' D cur L L' : (forall q, q < n -> pi q = pi' q) -> sim pi D cur L L' -> sim pi' D cur L L'.
Proof.
  intros E [P Bl]. split; auto. rewrite P. apply flat_map_perm. intros y _. unfold expand, spread.
  rewrite (map_ext_in pi pi'); auto. intros q I. apply in_seq in I. apply E. lia.
Qed.
Lemma layout_ext pi pi' D cur : (forall q, q < n -> pi q = pi' q) -> layout n cur pi D -> layout n cur pi' D.
Proof.
  intros E [H1 H2 H3 H4 H5 H6]. split; auto.
  - intros q r Q R. rewrite <- !E by auto. auto.
  - intros q Q. rewrite <- E; auto.
  - intros x q I Q. rewrite <- E; auto.
  - intros x X. destruct (H6 x X) as [I|(q & Q & ->)]; auto. right. exists q. rewrite E; auto.
Qed.

(** The state of the pass matches a layout. *)
Definition matches (st : nat * perm) (D : list nat) : Prop :=
  n <= fst st /\ mok n (fst st) (snd st) /\ layout n (fst st) (change_target (snd st)) D.

Lemma reset_all_cons q ts y : reset_all (q :: ts) y = flat_map (reset_all ts) (reset_all [q] y).
Proof. reflexivity. Qed.
Lemma fresh_all_sim ts : forall st st' D L L', fresh_all 0 ts st = Done st' -> (forall q, In q ts -> q < n) -> fst st' <= N ->
  matches st D -> sim (change_target (snd st)) D (fst st) L L' ->
  exists D', matches st' D' /\ sim (change_target (snd st')) D' (fst st') (flat_map (reset_all ts) L) L'.
Proof.
  induction ts as [|t ts IH]; intros st st' D L L' E T Le M Si; simpl in E.
  - injection E as <-. exists D. split; auto. simpl. rewrite flat_map_one. auto.
  - assert (Mono : forall ts st st', fresh_all 0 ts st = Done st' -> fst st <= fst st').
    { clear. induction ts as [|t ts IH]; simpl; intros st st' E; [injection E as <-; auto|]. apply IH in E. simpl in E. lia. }
    assert (Le1 := Mono _ _ _ E). simpl in Le1. destruct M as (M1 & M2 & M3). assert (Ht : t < n) by (apply T; simpl; auto).
    assert (Ex : forall q, q < n -> fresh (change_target (snd st)) t (fst st) q = change_target (mset (snd st) t (fst st)) q).
    { intros q Q. rewrite mset_lookup by apply M2. reflexivity. }
    destruct (IH _ _ (change_target (snd st) t :: D) (flat_map (reset_all [t]) L) L' E) as (D' & MD & SD); auto.
    + intros q I. apply T. simpl. auto.
    + split; [simpl; lia|]. split; [simpl; apply mset_mok; auto|]. simpl. apply (layout_ext _ _ _ _ Ex). now apply layout_fresh.
    + simpl. apply (sim_ext _ _ _ _ _ _ Ex). apply sim_fresh; auto. lia.
    + exists D'. split; auto. rewrite (flat_map_ext' _ _ L (reset_all_cons t ts)), <- flat_map_flat. auto.
Qed.

Lemma elim_resets_sim l : forall st st' l' D L L', elim_resets 0 st l = Done (st', l') -> Forall (elim_op n) l -> fst st' <= N ->
  matches st D -> sim (change_target (snd st)) D (fst st) L L' ->
  exists D', matches st' D' /\ sim (change_target (snd st')) D' (fst st') (flat_map (run l) L) (flat_map (run l') L').
Proof.
  assert (Mono : forall ts st st', fresh_all 0 ts st = Done st' -> fst st <= fst st').
  { induction ts as [|t ts IH]; simpl; intros st st' E; [injection E as <-; auto|]. apply IH in E. simpl in E. lia. }
  induction l as [|o l IH]; intros st st' l' D L L' E F Le M Si.
  - simpl in E. injection E as <- <-. exists D. split; auto. cbn [run]. rewrite !flat_map_one. auto.
  - inversion F as [|? ? Fo Fl]; subst.
    assert (Rn : forall o l M, flat_map (run (o :: l)) M = flat_map (run l) (flat_map (run_op o) M)).
    { intros. rewrite flat_map_flat. reflexivity. }
    assert (G : forall st1 r', elim_resets 0 st l = Done (st1, r') -> st1 = st' -> l' = change_op (snd st) o :: r' ->
       exists D', matches st' D' /\ sim (change_target (snd st')) D' (fst st') (flat_map (run (o :: l)) L) (flat_map (run l') L')).
    { intros st1 r' E1 -> ->. rewrite !Rn. eapply IH; eauto. destruct M as (M1 & M2 & M3). destruct Fo as (F1 & F2 & F3).
      apply sim_op; auto. apply (change_renamed n (fst st)); auto. split; auto. }
    destruct o as [s|qs cs|qs|c o|cu ps]; cbn [elim_resets] in E.
    + destruct (elim_resets 0 st l) as [[st1 r']| | |] eqn:E1; try discriminate. injection E as <- <-. eapply G; eauto.
    + destruct (elim_resets 0 st l) as [[st1 r']| | |] eqn:E1; try discriminate. injection E as <- <-. eapply G; eauto.
    + destruct (fresh_all 0 qs st) as [st1| | |] eqn:E1; try discriminate. cbn [bind] in E. rewrite Rn.
      assert (Le1 : fst st1 <= fst st').
      { clear - E Mono. revert st1 l' E. induction l as [|o l IH]; intros st1 l' E; simpl in E; [injection E as <- <-; auto|].
        assert (G : forall o', (do (st0, r') <- elim_resets 0 st1 l; Done (st0, o' :: r')) = Done (st', l') -> fst st1 <= fst st').
        { intros o' X. destruct (elim_resets 0 st1 l) as [[a b]| | |] eqn:E1; try discriminate. injection X as <- <-. eapply IH; eauto. }
        destruct o as [s|qs cs|qs|c o|cu ps]; try (eapply G; eauto; fail).
        - destruct (fresh_all 0 qs st1) as [st2| | |] eqn:E1; try discriminate. apply Mono in E1. apply IH in E. lia.
        - destruct (snd st1) eqn:Es; [eapply G; eauto|]. clear Es.
          destruct (elim_parts 0 st1 ps) as [[st2 ps']| | |] eqn:E2; try discriminate. cbn [bind] in E.
          destruct (elim_resets 0 st2 l) as [[a b]| | |] eqn:E1; try discriminate. injection E as <- <-.
          apply IH in E1. assert (P2 : fst st1 <= fst st2); [|lia].
          clear - E2 Mono. revert st1 ps' E2. induction ps as [|o ps IHp]; intros st1 ps' E; simpl in E; [injection E as <- <-; auto|].
          destruct o as [s|qs cs|qs|c o|cu qs];
            try (destruct (elim_parts 0 st1 ps) as [[st3 ps3]| | |] eqn:E3; try discriminate; injection E as <- <-; eapply IHp; eauto; fail).
          destruct (fresh_all 0 qs st1) as [st3| | |] eqn:E1; try discriminate. apply Mono in E1. apply IHp in E. lia. }
      destruct (fresh_all_sim qs st st1 D L L' E1) as (D' & MD & SD); auto; [|lia|].
      * destruct Fo as (_ & _ & F3). auto.
      * eapply IH; eauto.
    + destruct (elim_resets 0 st l) as [[st1 r']| | |] eqn:E1; try discriminate. injection E as <- <-. eapply G; eauto.
    + destruct Fo as ([] & _).
Qed.
End Sim.

(** ** Probabilities *)
Fixpoint sumq (qs : list nat) (f : bits -> R) (b : bits) : R :=
  match qs with [] => f b | q :: qs => (sumq qs f (setb b q false) + sumq qs f (setb b q true))%R end.
Lemma weight_sumq n psi b : weight_from n psi b = sumq (rev (seq 0 n)) (fun b => Cnorm2 (psi b)) b.
Proof.
  revert b. induction n as [|n IH]; intros b; auto. rewrite seq_S, rev_app_distr. simpl. now rewrite !IH.
Qed.
Lemma sumq_perm qs qs' f : Permutation qs qs' -> NoDup qs -> forall b, sumq qs f b = sumq qs' f b.
Proof.
  induction 1 as [|x l l' P IH|x y l|l1 l2 l3 P1 IH1 P2 IH2]; intros ND b; simpl; auto.
  - inversion ND; subst. now rewrite !IH.
  - assert (N : y <> x). { inversion ND; subst. intros ->. apply H1. simpl. auto. }
    rewrite !(setb_comm b y x) by auto. ring.
  - rewrite IH1 by auto. apply IH2. now apply (Permutation_NoDup P1).
Qed.
Lemma sumq_app qs qs' f b : sumq (qs ++ qs') f b = sumq qs (sumq qs' f) b.
Proof. revert b. induction qs as [|q qs IH]; intros b; simpl; auto. now rewrite !IH. Qed.
Lemma sumq_zero qs f x : ~ In x qs -> (forall b, b x = true -> f b = 0%R) -> forall b, b x = true -> sumq qs f b = 0%R.
Proof.
  intros N H. induction qs as [|q qs IH]; simpl in *; intros b Bx; auto.
  rewrite !IH by (try tauto; rewrite setb_other; auto; tauto). ring.
Qed.
Lemma sumq_unused us f : (forall x b, In x us -> b x = true -> f b = 0%R) -> NoDup us -> forall b,
  (forall x, In x us -> b x = false) -> sumq us f b = f b.
Proof.
  induction us as [|u us IH]; simpl; intros H ND b Hb; auto. inversion ND; subst.
  assert (X : setb b u false = b). { rewrite <- (Hb u (or_introl eq_refl)). apply setb_id. }
  rewrite X, IH; auto; [|intros; apply (H x); auto].
  rewrite (sumq_zero us f u); auto; [ring| |apply setb_same]. intros b0. apply H. auto.
Qed.
Definition rsum {A} (l : list A) (f : A -> R) : R := fold_right (fun x a => (f x + a)%R) 0%R l.
Lemma rsum_app {A} (l l' : list A) f : rsum (l ++ l') f = (rsum l f + rsum l' f)%R.
Proof. unfold rsum. induction l as [|a l IH]; simpl; [ring|]. rewrite IH. ring. Qed.
Lemma rsum_map {A B} (g : A -> B) l f : rsum (map g l) f = rsum l (fun x => f (g x)).
Proof. unfold rsum. induction l as [|a l IH]; simpl; auto. now rewrite IH. Qed.
Lemma rsum_ext {A} (l : list A) f g : (forall x, In x l -> f x = g x) -> rsum l f = rsum l g.
Proof. unfold rsum. induction l as [|a l IH]; simpl; intros H; auto. rewrite IH, H; auto. Qed.
Lemma sumq_setl D f : NoDup D -> forall b, sumq D f b = rsum (allb (length D)) (fun v => f (setl b D v)).
Proof.
  induction D as [|q D IH]; intros ND b; simpl; [unfold rsum; simpl; ring|]. inversion ND; subst.
  rewrite rsum_app, !rsum_map, !IH by auto. f_equal; apply rsum_ext; intros v _; now rewrite setl_setb_comm.
Qed.
Lemma sumq_move B (pi : nat -> nat) f qs : (forall b q v, In q qs -> B (setb b q v) = setb (B b) (pi q) v) -> forall b,
  sumq (map pi qs) f (B b) = sumq qs (fun b => f (B b)) b.
Proof.
  induction qs as [|q qs IH]; intros H b; simpl; auto. rewrite <- !H by (simpl; auto). rewrite !IH; auto; intros; apply H; simpl; auto.
Qed.

Lemma nodup_app2 (l l' : list nat) : NoDup l -> NoDup l' -> (forall x, In x l -> In x l' -> False) -> NoDup (l ++ l').
Proof.
  induction l as [|a l IH]; simpl; intros N N' D; auto. inversion N; subst. constructor; [|apply IH; auto; intros x I; apply D; auto].
  intros I. apply in_app_or in I. destruct I as [I|I]; [auto|apply (D a); auto].
Qed.
Lemma weight_expand n N pi D cur y : layout n cur pi D -> cur <= N -> blank cur N y ->
  rsum (expand n pi D y) (fun z => weight n (fst z)) = weight N (fst y).
Proof.
  intros Ly Le Bl. destruct Ly as [H1 H2 H3 H4 H5 H6]. unfold weight. rewrite weight_sumq.
  assert (Nd1 : NoDup (map pi (rev (seq 0 n)))).
  { assert (G : forall l, NoDup l -> (forall q, In q l -> q < n) -> NoDup (map pi l)).
    { induction l as [|a l IH]; simpl; intros ND L; [constructor|]. inversion ND; subst. constructor; auto.
      rewrite in_map_iff. intros (q & E & I). apply H1 in E; auto. subst. contradiction. }
    apply G; [apply NoDup_rev, seq_NoDup|]. intros q I. rewrite <- in_rev in I. apply in_seq in I. lia. }
  assert (P : Permutation (rev (seq 0 N)) (seq cur (N - cur) ++ D ++ map pi (rev (seq 0 n)))).
  { apply NoDup_Permutation.
    - apply NoDup_rev, seq_NoDup.
    - apply nodup_app2; [apply seq_NoDup|apply nodup_app2; auto|].
      + intros x I J. apply in_map_iff in J. destruct J as (q & E & J). rewrite <- in_rev in J. apply in_seq in J. apply (H5 x q); auto. lia.
      + intros x I J. apply in_seq in I. apply in_app_or in J. destruct J as [J|J]; [specialize (H4 _ J); lia|].
        apply in_map_iff in J. destruct J as (q & E & J). rewrite <- in_rev in J. apply in_seq in J. specialize (H3 q). lia.
    - intros x. rewrite <- in_rev, !in_app_iff, !in_seq, in_map_iff. split.
      + intros X. destruct (Nat.lt_ge_cases x cur) as [L|L]; [|left; lia]. right. destruct (H6 x L) as [I|(q & Q & ->)]; auto.
        right. exists q. rewrite <- in_rev, in_seq. split; auto. lia.
      + intros [X|[X|(q & E & I)]]; [lia|specialize (H4 _ X); lia|]. rewrite <- in_rev, in_seq in I. specialize (H3 q). lia. }
  assert (Nd : NoDup (rev (seq 0 N))) by apply NoDup_rev, seq_NoDup.
  rewrite (sumq_perm _ _ _ P Nd), sumq_app, sumq_unused; auto; [|intros x b I Bx|apply seq_NoDup].
  - rewrite sumq_app, sumq_setl by auto. unfold expand. rewrite rsum_map. apply rsum_ext. intros v _.
    rewrite weight_sumq. unfold pull. cbn [fst].
    assert (B0 : spread n pi (setl zeros D v) (fun _ => false) = setl (fun _ => false) D v).
    { apply functional_extensionality. intros x. destruct (range_dec n pi x) as [(q & Q & ->)|Nx].
      - rewrite spread_at by auto. rewrite setl_other; auto. intros I. apply (H5 _ q I Q). auto.
      - rewrite spread_out by auto. reflexivity. }
    rewrite <- B0, (sumq_move (spread n pi (setl zeros D v)) pi); auto.
    intros b q w I. rewrite <- in_rev, in_seq in I. apply (proj2 (spread_embeds n pi _ H1)). lia.
  - apply in_seq in I. revert b Bx. apply sumq_zero.
    + intros J. apply in_app_or in J. destruct J as [J|J]; [specialize (H4 _ J); lia|].
      apply in_map_iff in J. destruct J as (q & E & J). rewrite <- in_rev in J. apply in_seq in J. specialize (H3 q). lia.
    + intros b Bx. rewrite <- (Bl x) by lia. unfold project. rewrite Bx. simpl. unfold Cnorm2. simpl. ring.
Qed.

Lemma prob_rsum n k m l : prob n k m l = rsum l (fun x => if same_bits k (snd x) m then weight n (fst x) else 0%R).
Proof. reflexivity. Qed.
Lemma rsum_flat {A B} (g : A -> list B) l f : rsum (flat_map g l) f = rsum l (fun x => rsum (g x) f).
Proof. induction l as [|a l IH]; simpl; auto. rewrite rsum_app, IH. reflexivity. Qed.
Lemma prob_expand n N pi D cur k m L' : layout n cur pi D -> cur <= N -> Forall (blank cur N) L' ->
  prob n k m (flat_map (expand n pi D) L') = prob N k m L'.
Proof.
  intros Ly Le Bl. rewrite !prob_rsum, rsum_flat. apply rsum_ext. intros y I. rewrite Forall_forall in Bl.
  destruct (same_bits k (snd y) m) eqn:E.
  - rewrite <- (weight_expand n N pi D cur y) by auto. apply rsum_ext. intros z Iz. unfold expand in Iz. apply in_map_iff in Iz.
    destruct Iz as (v & <- & _). unfold pull. cbn [fst snd]. now rewrite E.
  - rewrite (rsum_ext _ _ (fun _ => 0%R)).
    + unfold rsum. induction (expand n pi D y) as [|z zs IH]; simpl; auto. rewrite IH. ring.
    + intros z Iz. unfold expand in Iz. apply in_map_iff in Iz. destruct Iz as (v & <- & _). unfold pull. cbn [fst snd]. now rewrite E.
Qed.

(** A state of [n] qubits; the same state with further qubits in |0>. *)
Definition on_qubits (n : nat) (psi : state) : Prop := forall b b', (forall q, q < n -> b q = b' q) -> psi b = psi b'.
Definition with_zeros (n N : nat) (psi : state) : state :=
  fun b => if forallb (fun x => negb (b x)) (seq n (N - n)) then psi b else C0.

Lemma fresh_all_total ts st : exists st', fresh_all 0 ts st = Done st' /\ fst st <= fst st'.
Proof.
  revert st. induction ts as [|t ts IH]; intros st; simpl; [eauto|].
  destruct (IH (S (fst st), mset (snd st) t (fst st))) as (s & E & L). exists s. split; auto. simpl in L. lia.
Qed.
Lemma elim_parts_total l : forall st, exists st' l', elim_parts 0 st l = Done (st', l') /\ fst st <= fst st'.
Proof.
  induction l as [|o l IH]; intros st; [simpl; eauto|].
  assert (G : exists st' l', (do (st', r') <- elim_parts 0 st l; Done (st', change_op (snd st) o :: r')) = Done (st', l') /\ fst st <= fst st').
  { destruct (IH st) as (s & l' & E & L). rewrite E. simpl. eauto. }
  destruct o as [s0|qs0 cs0|l0|c0 o0|c l0]; auto. simpl. destruct (fresh_all_total l0 st) as (s & E & L). rewrite E. simpl.
  destruct (IH s) as (s' & l' & E' & L'). exists s', l'. split; auto. lia.
Qed.
Lemma elim_resets_total l : forall st, exists st' l', elim_resets 0 st l = Done (st', l') /\ fst st <= fst st'.
Proof.
  induction l as [|o l IH]; intros st; [simpl; eauto|].
  assert (G : forall o', exists st' l', (do (st', r') <- elim_resets 0 st l; Done (st', o' :: r')) = Done (st', l') /\ fst st <= fst st').
  { intros o'. destruct (IH st) as (s & l' & E & L). rewrite E. simpl. eauto. }
  destruct o as [s0|qs0 cs0|l0|c0 o0|c l0]; cbn [elim_resets]; auto.
  - destruct (fresh_all_total l0 st) as (s & E & L). rewrite E. cbn [bind].
    destruct (IH s) as (s' & l' & E' & L'). exists s', l'. split; auto. lia.
  - destruct (snd st); auto. destruct (elim_parts_total l0 st) as (s & l' & E & L). rewrite E. cbn [bind].
    destruct (IH s) as (s' & l'' & E' & L'). rewrite E'. cbn [bind]. exists s', (OComp c l' :: l''). split; auto. lia.
Qed.

Theorem eliminate_resets_sound n l : Forall (elim_op n) l -> exists N l', eliminate_resets n 0 l = Done (N, l') /\ n <= N /\
  forall psi s k m, on_qubits n psi -> prob n k m (run l (psi, s)) = prob N k m (run l' (with_zeros n N psi, s)).
Proof.
  intros F. destruct (elim_resets_total l (n, [])) as (st & l' & E & Le). exists (fst st), l'. simpl in Le. split; [|split; auto].
  - unfold eliminate_resets. rewrite E. reflexivity.
  - intros psi s k m On. set (N := fst st) in *.
    assert (X : forall q, q < n -> change_target [] q = q) by auto.
    destruct (elim_resets_sim n N l (n, []) st l' [] [(psi, s)] [(with_zeros n N psi, s)] E F) as (D' & MD & [P Bl]); auto.
    + split; auto. split.
      * split; [constructor|split; [constructor|split; intros ? []]].
      * split; try (intros; contradiction); auto.
        -- intros q r _ _ e. exact e.
        -- constructor.
        -- intros x L. right. exists x. auto.
    + cbn [fst snd]. split.
      * simpl. unfold expand. simpl. unfold pull. cbn [fst snd]. rewrite (functional_extensionality
          (fun b => with_zeros n N psi (spread n (change_target []) zeros b)) psi); auto.
        intros b. unfold with_zeros.
        assert (Z : forallb (fun x => negb (spread n (change_target []) zeros b x)) (seq n (N - n)) = true).
        { apply forallb_forall. intros x I. apply in_seq in I. rewrite spread_out; auto. intros q Q. rewrite X by auto. lia. }
        rewrite Z. apply On. intros q Q. rewrite <- (X q Q) at 1. apply spread_at; auto. intros a c _ _ e. exact e.
      * constructor; [|constructor]. intros x Hx. cbn [fst]. apply functional_extensionality. intros b. unfold project.
        destruct (b x) eqn:Bx; cbn [Bool.eqb]; auto. unfold with_zeros. destruct (forallb _ _) eqn:Fb; auto.
        rewrite forallb_forall in Fb. specialize (Fb x). rewrite Bx in Fb. simpl in Fb. discriminate Fb. apply in_seq. lia.
    + cbn [flat_map] in P, Bl. repeat rewrite app_nil_r in P. repeat rewrite app_nil_r in Bl. destruct MD as (M1 & M2 & M3).
      rewrite (prob_perm _ _ _ _ _ P). apply (prob_expand n N (change_target (snd st)) D' (fst st)); auto.
Qed.
