(** Commutation check and equality of operations. *)
From Coq Require Import Reals Lra List Arith Bool Lia FunctionalExtensionality.
From Verif Require Import Cplx Qsem GateModel GateSpec GateProofs.
Import ListNotations.
Local Open Scope R_scope.
Local Open Scope list_scope.

Definition diag_mat (k : nat) (M : mat) : Prop :=
  forall r c, length r = k -> length c = k -> r <> c -> M r c = C0.

Lemma apply_diag M ts psi b : diag_mat (length ts) M ->
  apply M ts psi b = (M (map b ts) (map b ts) * psi b)%C.
Proof.
  intros D. unfold apply. rewrite (csum_single _ (map b ts)).
  - now rewrite setl_id.
  - apply allb_NoDup.
  - apply allb_In. now rewrite map_length.
  - intros v Hv N. apply allb_In in Hv. rewrite D; auto; [ring|now rewrite map_length].
Qed.

(** ** Commutation lemmas *)
Lemma capply_comm_disjoint cs1 M ts1 cs2 N ts2 psi :
  apart cs1 ts2 -> apart cs2 ts1 -> (forall x, In x ts1 -> ~ In x ts2) ->
  capply cs1 M ts1 (capply cs2 N ts2 psi) = capply cs2 N ts2 (capply cs1 M ts1 psi).
Proof.
  intros A1 A2 D. apply functional_extensionality. intros b.
  unfold capply at 1 3. destruct (sat cs1 b) eqn:S1, (sat cs2 b) eqn:S2.
  - rewrite (apply_restrict M ts1 _ (apply N ts2 psi)).
    + rewrite (apply_restrict N ts2 _ (apply M ts1 psi)).
      * now rewrite apply_comm.
      * intros v _. unfold capply. rewrite sat_setl by auto. now rewrite S1.
    + intros v _. unfold capply. rewrite sat_setl by auto. now rewrite S2.
  - unfold capply at 2. rewrite S1. apply apply_restrict. intros v _. unfold capply. rewrite sat_setl by auto. now rewrite S2.
  - unfold capply at 1. rewrite S2. symmetry. apply apply_restrict. intros v _. unfold capply. rewrite sat_setl by auto. now rewrite S1.
  - unfold capply. now rewrite S1, S2.
Qed.

Definition cdiag (cs : list ctl) (M : mat) (ts : list nat) (b : bits) : C :=
  if sat cs b then M (map b ts) (map b ts) else C1.

Lemma capply_diag cs M ts psi b : diag_mat (length ts) M -> capply cs M ts psi b = (cdiag cs M ts b * psi b)%C.
Proof.
  intros D. unfold capply, cdiag. destruct (sat cs b); [now apply apply_diag|ring].
Qed.

Lemma capply_comm_diag cs1 M ts1 cs2 N ts2 psi :
  diag_mat (length ts1) M -> diag_mat (length ts2) N ->
  capply cs1 M ts1 (capply cs2 N ts2 psi) = capply cs2 N ts2 (capply cs1 M ts1 psi).
Proof.
  intros D1 D2. apply functional_extensionality. intros b. rewrite !capply_diag by auto. ring.
Qed.

Lemma capply_comm_diag_ctl cs1 M ts1 cs2 N ts2 psi :
  diag_mat (length ts2) N -> apart cs2 ts1 -> (forall x, In x ts1 -> ~ In x ts2) ->
  capply cs1 M ts1 (capply cs2 N ts2 psi) = capply cs2 N ts2 (capply cs1 M ts1 psi).
Proof.
  intros D A X. apply functional_extensionality. intros b. rewrite (capply_diag cs2) by auto.
  unfold capply at 1 3. destruct (sat cs1 b); [|rewrite capply_diag by auto; ring].
  unfold apply at 1 2. rewrite <- csum_scal. apply csum_ext. intros v _.
  rewrite (capply_diag cs2) by auto.
  assert (E : cdiag cs2 N ts2 (setl b ts1 v) = cdiag cs2 N ts2 b).
  { unfold cdiag. rewrite sat_setl by auto. rewrite map_setl_other; auto. intros x Hx K. eapply X; eauto. }
  rewrite E. ring.
Qed.

Lemma capply_comm_same cs1 M cs2 N ts psi : NoDup ts -> apart cs1 ts -> apart cs2 ts ->
  meq (length ts) (mmul (length ts) M N) (mmul (length ts) N M) ->
  capply cs1 M ts (capply cs2 N ts psi) = capply cs2 N ts (capply cs1 M ts psi).
Proof.
  intros ND A1 A2 E. apply functional_extensionality. intros b.
  unfold capply at 1 3. destruct (sat cs1 b) eqn:S1, (sat cs2 b) eqn:S2.
  - rewrite (apply_restrict M ts _ (apply N ts psi)).
    + rewrite (apply_restrict N ts _ (apply M ts psi)).
      * rewrite !apply_mul by auto. now rewrite (apply_meq _ _ ts psi E).
      * intros v _. unfold capply. rewrite sat_setl by auto. now rewrite S1.
    + intros v _. unfold capply. rewrite sat_setl by auto. now rewrite S2.
  - unfold capply at 2. rewrite S1. apply apply_restrict. intros v _. unfold capply. rewrite sat_setl by auto. now rewrite S2.
  - unfold capply at 1. rewrite S2. symmetry. apply apply_restrict. intros v _. unfold capply. rewrite sat_setl by auto. now rewrite S1.
  - unfold capply. now rewrite S1, S2.
Qed.

(** ** Gate facts *)
Ltac diag1 := intros r c Hr Hc N; split1 r Hr; split1 c Hc; allbools; try congruence; reflexivity.
Ltac diag2 := intros r c Hr Hc N; split2 r Hr; split2 c Hc; allbools; try congruence; reflexivity.

Lemma gate_diag t ps k M : gate_matrix t ps = Some (k, M) -> is_diag t = true -> diag_mat k M.
Proof.
  destruct t; simpl; try discriminate; intros E _;
    try (destruct ps as [|p0 ps]; [discriminate|]);
    inversion E; subst; clear E; first [diag1|diag2].
Qed.

Lemma gate_commute t ps ps' k k' M N :
  gate_matrix t ps = Some (k, M) -> gate_matrix t ps' = Some (k', N) ->
  ((length ps <= 1)%nat \/ ps = ps') -> k = k' /\ meq k (mmul k M N) (mmul k N M).
Proof.
  intros E1 E2 H.
  destruct t; simpl in E1, E2; try discriminate;
    try (inversion E1; inversion E2; subst; split; [reflexivity|intros ? ? _ _; reflexivity]);
    destruct ps as [|p0 ps]; try discriminate; destruct ps' as [|p0' ps']; try discriminate;
    try (inversion E1; inversion E2; subst; split; [reflexivity|];
         first [entries1|entries2]).
  - destruct ps as [|p1 [|p2 ps]], ps' as [|p1' [|p2' ps']]; try discriminate.
    destruct H as [H|H]; [simpl in H; lia|]. inversion H; subst. inversion E1; inversion E2; subst.
    split; [reflexivity|intros ? ? _ _; reflexivity].
  - destruct ps as [|p1 ps], ps' as [|p1' ps']; try discriminate.
    destruct H as [H|H]; [simpl in H; lia|]. inversion H; subst. inversion E1; inversion E2; subst.
    split; [reflexivity|intros ? ? _ _; reflexivity].
  - destruct ps as [|p1 ps], ps' as [|p1' ps']; try discriminate.
    destruct H as [H|H]; [simpl in H; lia|]. inversion H; subst. inversion E1; inversion E2; subst.
    split; [reflexivity|intros ? ? _ _; reflexivity].
  - destruct ps as [|p1 ps], ps' as [|p1' ps']; try discriminate.
    destruct H as [H|H]; [simpl in H; lia|]. inversion H; subst. inversion E1; inversion E2; subst.
    split; [reflexivity|intros ? ? _ _; reflexivity].
Qed.

(** ** Boolean tests *)
Lemma memn_In q l : memn q l = true <-> In q l.
Proof.
  unfold memn. rewrite existsb_exists. split.
  - intros (x & H & E). apply Nat.eqb_eq in E. now subst.
  - intros H. exists q. split; auto. apply Nat.eqb_refl.
Qed.
Lemma has_ctl_In q cs : has_ctl q cs = true <-> exists c, In c cs /\ fst c = q.
Proof.
  unfold has_ctl. rewrite existsb_exists. split; intros (x & H & E); exists x; split; auto.
  - apply Nat.eqb_eq in E. auto.
  - subst. apply Nat.eqb_refl.
Qed.
Lemma optype_eqb_eq a b : optype_eqb a b = true <-> a = b.
Proof. unfold optype_eqb. destruct (optype_eq_dec a b); split; congruence. Qed.
Lemma nats_eqb_eq l m : nats_eqb l m = true <-> l = m.
Proof.
  revert m. induction l as [|x l IH]; intros [|y m]; simpl; split; try congruence.
  - rewrite andb_true_iff, Nat.eqb_eq, IH. intros [-> ->]. auto.
  - intros E. inversion E; subst. rewrite Nat.eqb_refl. apply IH. auto.
Qed.
Lemma Req_b_eq x y : Req_b x y = true <-> x = y.
Proof. unfold Req_b. destruct (Req_EM_T x y); split; congruence. Qed.
Lemma pars_eqb_eq l m : pars_eqb l m = true <-> l = m.
Proof.
  revert m. induction l as [|x l IH]; intros [|y m]; simpl; split; try congruence.
  - rewrite andb_true_iff, Req_b_eq, IH. intros [-> ->]. auto.
  - intros E. inversion E; subst. rewrite andb_true_iff, Req_b_eq, IH. auto.
Qed.
Lemma ctls_eqb_eq l m : ctls_eqb l m = true <-> l = m.
Proof.
  revert m. induction l as [|x l IH]; intros [|y m]; simpl; split; try congruence.
  - rewrite !andb_true_iff, Nat.eqb_eq, eqb_true_iff, IH. intros [[A B] ->]. destruct x, y; simpl in *; subst; auto.
  - intros E. inversion E; subst. rewrite !andb_true_iff, Nat.eqb_eq, eqb_true_iff, IH. auto.
Qed.

(** ** Soundness of commutesAtQubit *)
Lemma sem_split o f : sem o = Some f ->
  f = (fun psi => psi) \/
  exists k M, gate_matrix (o_type o) (o_par o) = Some (k, M) /\ length (o_tgt o) = k /\ f = capply (o_ctl o) M (o_tgt o).
Proof.
  intros H. destruct (sem_cases o f H) as [[B ->]|[(p & ps & G & EP & ET & ->)|[(M & t0 & EM & ET & ->)|(M & t0 & t1 & EM & ET & ->)]]].
  - now left.
  - right. exists 0%nat, (fun _ _ => Cexp p). rewrite G, EP, ET. auto.
  - right. exists 1%nat, M. rewrite ET. split; [now apply single_gate_matrix|auto].
  - right. exists 2%nat, M. rewrite ET. split; [now apply two_gate_matrix|auto].
Qed.

Lemma commutes_at_inv o other q : commutes_at o other q = true -> acts_on o q = true -> acts_on other q = true ->
  (has_ctl q (o_ctl o) = true /\ has_ctl q (o_ctl other) = true) \/
  (has_ctl q (o_ctl o) = true /\ is_diag (o_type other) = true) \/
  (has_ctl q (o_ctl other) = true /\ is_diag (o_type o) = true) \/
  (is_diag (o_type o) = true /\ is_diag (o_type other) = true) \/
  (o_type o = o_type other /\ o_tgt o = o_tgt other /\ ((length (o_par o) <= 1)%nat \/ o_par o = o_par other)).
Proof.
  intros H A1 A2. unfold commutes_at in H. rewrite A1, A2 in H. simpl in H.
  destruct (has_ctl q (o_ctl o)), (has_ctl q (o_ctl other)); auto.
  destruct (is_diag (o_type o) && is_diag (o_type other)) eqn:D.
  - apply andb_true_iff in D. tauto.
  - do 4 right. destruct (Nat.leb_spec (length (o_par o)) 1).
    + apply andb_true_iff in H. rewrite optype_eqb_eq, nats_eqb_eq in H. tauto.
    + rewrite !andb_true_iff, optype_eqb_eq, nats_eqb_eq, pars_eqb_eq in H. tauto.
Qed.

Lemma commutes_sound o1 o2 f g : wf_op o1 -> wf_op o2 -> sem o1 = Some f -> sem o2 = Some g ->
  (forall q, acts_on o1 q = true -> acts_on o2 q = true -> commutes_at o1 o2 q = true) ->
  forall psi, f (g psi) = g (f psi).
Proof.
  intros [ND1 AP1] [ND2 AP2] S1 S2 H psi.
  destruct (sem_split o1 f S1) as [->|(k1 & M & G1 & L1 & ->)]; auto.
  destruct (sem_split o2 g S2) as [->|(k2 & N & G2 & L2 & ->)]; auto.
  assert (NT1 : forall q, In q (o_tgt o1) -> has_ctl q (o_ctl o1) = false).
  { intros q Hq. destruct (has_ctl q (o_ctl o1)) eqn:E; auto. apply has_ctl_In in E.
    destruct E as (c & Hc & <-). exfalso. eapply AP1; eauto. }
  assert (NT2 : forall q, In q (o_tgt o2) -> has_ctl q (o_ctl o2) = false).
  { intros q Hq. destruct (has_ctl q (o_ctl o2)) eqn:E; auto. apply has_ctl_In in E.
    destruct E as (c & Hc & <-). exfalso. eapply AP2; eauto. }
  assert (AT1 : forall q, In q (o_tgt o1) -> acts_on o1 q = true).
  { intros q Hq. unfold acts_on. apply memn_In in Hq. now rewrite Hq. }
  assert (AT2 : forall q, In q (o_tgt o2) -> acts_on o2 q = true).
  { intros q Hq. unfold acts_on. apply memn_In in Hq. now rewrite Hq. }
  assert (AC1 : forall c, In c (o_ctl o1) -> has_ctl (fst c) (o_ctl o1) = true) by (intros c Hc; apply has_ctl_In; eauto).
  assert (AC2 : forall c, In c (o_ctl o2) -> has_ctl (fst c) (o_ctl o2) = true) by (intros c Hc; apply has_ctl_In; eauto).
  assert (BC1 : forall c, In c (o_ctl o1) -> acts_on o1 (fst c) = true) by (intros c Hc; unfold acts_on; rewrite AC1; auto; apply orb_true_r).
  assert (BC2 : forall c, In c (o_ctl o2) -> acts_on o2 (fst c) = true) by (intros c Hc; unfold acts_on; rewrite AC2; auto; apply orb_true_r).
  destruct (existsb (fun q => memn q (o_tgt o2)) (o_tgt o1)) eqn:SH.
  - (* a shared target *)
    apply existsb_exists in SH. destruct SH as (q & Q1 & Q2). apply memn_In in Q2.
    destruct (commutes_at_inv _ _ _ (H q (AT1 q Q1) (AT2 q Q2)) (AT1 q Q1) (AT2 q Q2)) as [[A B]|[[A B]|[[A B]|[[A B]|(A & B & E)]]]];
      try (rewrite NT1 in A by auto; discriminate); try (rewrite NT2 in A by auto; discriminate).
    + apply capply_comm_diag; [rewrite L1; eapply gate_diag; eauto|rewrite L2; eapply gate_diag; eauto].
    + rewrite <- A in G2. destruct (gate_commute _ _ _ _ _ _ _ G1 G2 E) as [-> K].
      rewrite <- B in *. apply capply_comm_same; auto. now rewrite L1.
  - assert (X12 : forall x, In x (o_tgt o1) -> ~ In x (o_tgt o2)).
    { intros x H1 H2. assert (existsb (fun q => memn q (o_tgt o2)) (o_tgt o1) = true) by (apply existsb_exists; exists x; split; auto; now apply memn_In). congruence. }
    assert (X21 : forall x, In x (o_tgt o2) -> ~ In x (o_tgt o1)) by (intros x H1 H2; eapply X12; eauto).
    assert (P12 : is_diag (o_type o1) = false -> apart (o_ctl o2) (o_tgt o1)).
    { intros D c Hc Ht. pose proof (AT1 _ Ht) as T1. pose proof (BC2 _ Hc) as T2.
      destruct (commutes_at_inv _ _ _ (H _ T1 T2) T1 T2) as [[A B]|[[A B]|[[A B]|[[A B]|(A & B & E)]]]]; try congruence;
        try (rewrite NT1 in A by auto; discriminate).
      rewrite B in Ht. eapply AP2; eauto. }
    assert (P21 : is_diag (o_type o2) = false -> apart (o_ctl o1) (o_tgt o2)).
    { intros D c Hc Ht. pose proof (AT2 _ Ht) as T2. pose proof (BC1 _ Hc) as T1.
      destruct (commutes_at_inv _ _ _ (H _ T1 T2) T1 T2) as [[A B]|[[A B]|[[A B]|[[A B]|(A & B & E)]]]]; try congruence;
        try (rewrite NT2 in A by auto; discriminate); try (rewrite NT2 in B by auto; discriminate).
      rewrite <- B in Ht. eapply AP1; eauto. }
    destruct (is_diag (o_type o1)) eqn:D1, (is_diag (o_type o2)) eqn:D2.
    + apply capply_comm_diag; [rewrite L1; eapply gate_diag; eauto|rewrite L2; eapply gate_diag; eauto].
    + symmetry. apply capply_comm_diag_ctl; auto. rewrite L1; eapply gate_diag; eauto.
    + apply capply_comm_diag_ctl; auto. rewrite L2; eapply gate_diag; eauto.
    + apply capply_comm_disjoint; auto.
Qed.

(** ** Equality *)
Lemma ins_nat_In x y l : In y (ins_nat x l) <-> y = x \/ In y l.
Proof.
  induction l as [|z l IH]; simpl; [intuition|].
  destruct (Nat.ltb x z); [simpl; intuition|].
  destruct (Nat.eqb_spec x z); [subst; simpl; intuition|]. simpl. rewrite IH. intuition.
Qed.
Lemma set_of_In y l : In y (set_of l) <-> In y l.
Proof.
  unfold set_of. assert (G : forall s, In y (fold_left (fun s x => ins_nat x s) l s) <-> In y s \/ In y l).
  { induction l as [|x l IH]; simpl; intros s; [tauto|]. rewrite IH, ins_nat_In. intuition. }
  rewrite G. simpl. tauto.
Qed.
Lemma ctl_ltb_total c d : ctl_ltb c d = false -> ctl_ltb d c = false -> c = d.
Proof.
  unfold ctl_ltb. destruct c as [x a], d as [y b]; simpl.
  destruct (Nat.ltb_spec x y), (Nat.ltb_spec y x); simpl; try discriminate.
  assert (x = y) by lia. subst. rewrite Nat.eqb_refl. destruct a, b; simpl; try discriminate; auto.
Qed.
Lemma ins_ctl_In x y l : In y (ins_ctl x l) <-> y = x \/ In y l.
Proof.
  induction l as [|z l IH]; simpl; [intuition|].
  destruct (ctl_ltb x z) eqn:E1; [simpl; intuition|].
  destruct (ctl_ltb z x) eqn:E2; [simpl; rewrite IH; intuition|].
  pose proof (ctl_ltb_total _ _ E1 E2). subst. simpl. intuition.
Qed.
Lemma ctls_of_In y l : In y (ctls_of l) <-> In y l.
Proof.
  unfold ctls_of. assert (G : forall s, In y (fold_left (fun s x => ins_ctl x s) l s) <-> In y s \/ In y l).
  { induction l as [|x l IH]; simpl; intros s; [tauto|]. rewrite IH, ins_ctl_In. intuition. }
  rewrite G. simpl. tauto.
Qed.

Lemma sat_iff cs b : sat cs b = true <-> forall c, In c cs -> b (fst c) = snd c.
Proof.
  unfold sat. rewrite forallb_forall. split; intros H c Hc; specialize (H c Hc); now apply eqb_true_iff.
Qed.
Lemma sat_ext cs1 cs2 b : (forall c, In c cs1 <-> In c cs2) -> sat cs1 b = sat cs2 b.
Proof.
  intros H. destruct (sat cs1 b) eqn:E1, (sat cs2 b) eqn:E2; auto.
  - assert (sat cs2 b = true) by (apply sat_iff; intros c Hc; eapply sat_iff; eauto; now apply H). congruence.
  - assert (sat cs1 b = true) by (apply sat_iff; intros c Hc; eapply sat_iff; eauto; now apply H). congruence.
Qed.

(** Phase gates: diag(1, d). *)
Definition phase_of (t : optype) (ps : list R) : option C :=
  match t, ps with
  | gI, _ => Some C1 | gZ, _ => Some (RtoC (-1)) | gS, _ => Some (0, 1) | gSdg, _ => Some (0, -1)
  | gT, _ => Some (sq2, sq2) | gTdg, _ => Some (sq2, - sq2)
  | gP, l :: _ => Some (cos l, sin l)
  | _, _ => None
  end.

Lemma phase_capply cs d t psi b :
  capply cs (m2 C1 C0 C0 d) [t] psi b = if sat ((t, true) :: cs) b then (d * psi b)%C else psi b.
Proof.
  rewrite capply_diag.
  2:{ intros r c Hr Hc N. split1 r Hr. split1 c Hc. allbools; try congruence; reflexivity. }
  unfold cdiag. simpl. destruct (b t), (sat cs b); cbn; ring.
Qed.

Lemma phase_sem o d : phase_of (o_type o) (o_par o) = Some d -> forall f, sem o = Some f ->
  exists t, o_tgt o = [t] /\ forall psi b, f psi b = if sat ((t, true) :: o_ctl o) b then (d * psi b)%C else psi b.
Proof.
  intros P f H. destruct (sem_cases o f H) as [[B ->]|[(p & ps & G & EP & ET & ->)|[(M & t0 & EM & ET & ->)|(M & t0 & t1 & EM & ET & ->)]]].
  - rewrite B in P. discriminate.
  - rewrite G in P. discriminate.
  - exists t0. split; auto. intros psi b. rewrite <- phase_capply.
    destruct (o_type o), (o_par o); try discriminate; simpl in *; inversion EM; inversion P; subst; reflexivity.
  - destruct (o_type o), (o_par o); discriminate.
Qed.

Definition ctl_ok (o : stdop) : Prop := NoDup (map fst (o_ctl o)).

Lemma ctl_fun (cs : list ctl) q a b : NoDup (map fst cs) -> In (q, a) cs -> In (q, b) cs -> a = b.
Proof.
  induction cs as [|[x c] cs IH]; simpl; [tauto|]. intros N. inversion N; subst.
  intros [E1|H1'] [E2|H2']; try congruence.
  - inversion E1; subst. exfalso. apply H1. apply in_map_iff. exists (q, b). auto.
  - inversion E2; subst. exfalso. apply H1. apply in_map_iff. exists (q, a). auto.
  - eauto.
Qed.

Definition inj (p : nat -> nat) : Prop := forall x y, p x = p y -> x = y.

Lemma NoDup_map_inj (p : nat -> nat) l : inj p -> NoDup l -> NoDup (map p l).
Proof.
  intros I. induction l as [|x l IH]; simpl; intros N; [constructor|]. inversion N; subst. constructor; auto.
  intros H. apply in_map_iff in H. destruct H as (y & E & Hy). apply I in E. now subst.
Qed.

Lemma rename_wf p o : inj p -> wf_op o -> wf_op (rename_op p o).
Proof.
  intros I [N A]. split; simpl.
  - now apply NoDup_map_inj.
  - intros c Hc Ht. apply in_map_iff in Hc. destruct Hc as (c' & <- & Hc'). apply in_map_iff in Ht.
    destruct Ht as (t & E & Ht). simpl in E. apply I in E. subst. eapply A; eauto.
Qed.
Lemma rename_ctl_ok p o : inj p -> ctl_ok o -> ctl_ok (rename_op p o).
Proof.
  intros I N. unfold ctl_ok in *. simpl. rewrite map_map. simpl.
  rewrite <- (map_map fst p). now apply NoDup_map_inj.
Qed.

(** Membership in a phase gate's conditions, from used qubits and negative controls. *)
Lemma phase_conditions o t c : o_tgt o = [t] -> wf_op o -> ctl_ok o ->
  In c ((t, true) :: o_ctl o) <->
  (if snd c then In (fst c) (used_qubits (fun q => q) o) /\ ~ In (fst c) (neg_ctls (fun q => q) o)
   else In (fst c) (neg_ctls (fun q => q) o)).
Proof.
  intros ET [N A] K. unfold used_qubits, neg_ctls.
  destruct c as [q []]; cbn [fst snd]; rewrite !set_of_In, ?in_app_iff, ?map_id, ?ET, !in_map_iff; cbn [In].
  - split.
    + intros [E|H].
      * inversion E; subst. split; [auto|]. intros ((x & v) & Ex & Hx). simpl in Ex; subst. apply filter_In in Hx.
        apply (A (q, v)); [tauto|]. rewrite ET. left; auto.
      * split; [right; exists (q, true); auto|]. intros ((x & v) & Ex & Hx). simpl in Ex; subst. apply filter_In in Hx.
        destruct Hx as [Hx Hv]. pose proof (ctl_fun _ _ _ _ K H Hx). subst. discriminate.
    + intros [[[->|[]]|((x & v) & Ex & Hx)] NN]; [auto|]. simpl in Ex; subst. right.
      destruct v; auto. exfalso. apply NN. exists (q, false). split; auto. apply filter_In. auto.
  - split.
    + intros [E|H]; [discriminate|]. exists (q, false). split; auto. apply filter_In. auto.
    + intros ((x & v) & Ex & Hx). simpl in Ex; subst. apply filter_In in Hx. destruct Hx as [Hx Hv]. destruct v; [discriminate|auto].
Qed.

Lemma used_rename p o : used_qubits (fun q => q) (rename_op p o) = used_qubits p o.
Proof. unfold used_qubits. simpl. now rewrite map_id, map_map. Qed.
Lemma neg_rename p o : neg_ctls (fun q => q) (rename_op p o) = neg_ctls p o.
Proof.
  unfold neg_ctls. f_equal. simpl. induction (o_ctl o) as [|[q []] l IH]; simpl; auto. f_equal. auto.
Qed.

Lemma gate_matrix_pars t ps : o_type {| o_type := t; o_par := ps; o_ctl := []; o_tgt := [] |} = t.
Proof. reflexivity. Qed.

Lemma rzz_sym ps M : two_matrix gRZZ ps = Some M -> meq 2 (fun r c => M (rev r) (rev c)) M.
Proof.
  intros E. destruct ps as [|p ps]; [discriminate|]. inversion E; subst.
  intros r c Hr Hc. split2 r Hr. split2 c Hc. allbools; reflexivity.
Qed.

Lemma equals_sound p1 p2 o1 o2 f g :
  inj p1 -> inj p2 -> wf_op o1 -> wf_op o2 -> ctl_ok o1 -> ctl_ok o2 ->
  ((o_type o1 = gRZ \/ o_type o1 = gRZZ) -> o_ctl o1 = []) ->
  equals_std p1 p2 o1 o2 = true ->
  sem (rename_op p1 o1) = Some f -> sem (rename_op p2 o2) = Some g -> f = g.
Proof.
  intros I1 I2 W1 W2 K1 K2 RZ E F G. unfold equals_std in E.
  destruct (optype_eqb (o_type o1) (o_type o2)) eqn:ET; [|discriminate]. apply optype_eqb_eq in ET. simpl in E.
  destruct (Nat.eqb_spec (length (o_ctl o1)) (length (o_ctl o2))) as [EN|]; [|discriminate]. simpl in E.
  destruct (pars_eqb (o_par o1) (o_par o2)) eqn:EP; [|discriminate]. apply pars_eqb_eq in EP. simpl in E.
  destruct (is_diag (o_type o1)) eqn:D.
  - destruct (nats_eqb (used_qubits p1 o1) (used_qubits p2 o2)) eqn:EU; [|discriminate]. apply nats_eqb_eq in EU. simpl in E.
    apply nats_eqb_eq in E.
    pose proof (rename_wf p1 o1 I1 W1) as RW1. pose proof (rename_wf p2 o2 I2 W2) as RW2.
    pose proof (rename_ctl_ok p1 o1 I1 K1) as RK1. pose proof (rename_ctl_ok p2 o2 I2 K2) as RK2.
    rewrite <- (used_rename p1 o1), <- (used_rename p2 o2) in EU. rewrite <- (neg_rename p1 o1), <- (neg_rename p2 o2) in E.
    assert (T1 : o_type (rename_op p1 o1) = o_type o1) by reflexivity.
    assert (T2 : o_type (rename_op p2 o2) = o_type o1) by (simpl; congruence).
    assert (P1 : o_par (rename_op p1 o1) = o_par o1) by reflexivity.
    assert (P2 : o_par (rename_op p2 o2) = o_par o1) by (simpl; congruence).
    assert (CN : length (o_ctl (rename_op p1 o1)) = length (o_ctl (rename_op p2 o2))) by (simpl; rewrite !map_length; auto).
    assert (RZ' : (o_type o1 = gRZ \/ o_type o1 = gRZZ) -> o_ctl (rename_op p1 o1) = []) by (intros H; simpl; now rewrite (RZ H)).
    revert F G T1 T2 P1 P2 RW1 RW2 RK1 RK2 E EU CN RZ'.
    generalize (rename_op p1 o1) (rename_op p2 o2). intros r1 r2 F G T1 T2 P1 P2 RW1 RW2 RK1 RK2 E EU CN RZ'.
    destruct (phase_of (o_type o1) (o_par o1)) as [d|] eqn:PH.
    + destruct (phase_sem r1 d ltac:(congruence) f F) as (t1 & ET1 & F1).
      destruct (phase_sem r2 d ltac:(congruence) g G) as (t2 & ET2 & G1).
      apply functional_extensionality. intros psi. apply functional_extensionality. intros b.
      rewrite F1, G1. rewrite (sat_ext ((t1, true) :: o_ctl r1) ((t2, true) :: o_ctl r2)); auto.
      intros c. rewrite (phase_conditions r1 t1 c) by auto. rewrite (phase_conditions r2 t2 c) by auto.
      now rewrite E, EU.
    + assert (CS : o_type o1 = gBarrier \/ (o_type o1 = gRZ \/ o_type o1 = gRZZ)).
      { unfold sem in F. rewrite T1, P1 in F.
        destruct (o_type o1); try discriminate; auto. destruct (o_par o1); discriminate. }
      destruct CS as [B|CS].
      * unfold sem in F, G. rewrite T1, B in F. rewrite T2, B in G. congruence.
      * specialize (RZ' CS). rewrite RZ' in CN. simpl in CN.
        assert (C2 : o_ctl r2 = []) by (destruct (o_ctl r2); [auto|discriminate]).
        assert (M12 : forall x, In x (o_tgt r1) <-> In x (o_tgt r2)).
        { intros x. assert (U : In x (used_qubits (fun q => q) r1) <-> In x (used_qubits (fun q => q) r2)) by now rewrite EU.
          unfold used_qubits in U. rewrite RZ', C2 in U. simpl in U. rewrite !set_of_In, !app_nil_r, !map_id in U. exact U. }
        destruct (sem_cases r1 f F) as [[B ->]|[(p & ps & G' & EP' & ET' & ->)|[(M & t0 & EM & ET' & ->)|(M & t0 & t1 & EM & ET' & ->)]]];
          [destruct CS; congruence|destruct CS; congruence| |].
        -- destruct (sem_cases r2 g G) as [[B ->]|[(p & ps & G' & EP' & ET'' & ->)|[(M2 & t0' & EM' & ET'' & ->)|(M2 & t0' & t1' & EM' & ET'' & ->)]]];
             [destruct CS; congruence|destruct CS; congruence| |].
           ++ rewrite RZ', C2. rewrite T1, P1 in EM. rewrite T2, P2 in EM'. rewrite EM in EM'. inversion EM'; subst M2.
              rewrite ET', ET'' in M12. specialize (M12 t0). simpl in M12.
              assert (t0' = t0) by tauto. now subst.
           ++ exfalso. rewrite T1, P1 in EM. rewrite T2, P2 in EM'. apply single_none_two in EM. apply two_is in EM'.
              destruct (o_type o1); discriminate.
        -- destruct (sem_cases r2 g G) as [[B ->]|[(p & ps & G' & EP' & ET'' & ->)|[(M2 & t0' & EM' & ET'' & ->)|(M2 & t0' & t1' & EM' & ET'' & ->)]]];
             [destruct CS; congruence|destruct CS; congruence| |].
           ++ exfalso. rewrite T1, P1 in EM. rewrite T2, P2 in EM'. apply single_none_two in EM'. apply two_is in EM.
              destruct (o_type o1); discriminate.
           ++ rewrite RZ', C2. rewrite T1, P1 in EM. rewrite T2, P2 in EM'. rewrite EM in EM'. inversion EM'; subst M2.
              destruct RW1 as [N1 _], RW2 as [N2 _]. rewrite ET' in N1. rewrite ET'' in N2.
              rewrite ET', ET'' in M12. inversion N1 as [|? ? N1' _]; subst. inversion N2 as [|? ? N2' _]; subst.
              assert (D1 : t0 <> t1) by (intros ->; apply N1'; left; auto).
              assert (D2 : t0' <> t1') by (intros ->; apply N2'; left; auto).
              pose proof (M12 t0) as Q0. pose proof (M12 t1) as Q1. simpl in Q0, Q1.
              assert (CC : (t0' = t0 /\ t1' = t1) \/ (t0' = t1 /\ t1' = t0)).
              { destruct Q0 as [Q0 _], Q1 as [Q1 _]. destruct Q0 as [|[|[]]]; auto; destruct Q1 as [|[|[]]]; auto; subst; congruence. }
              destruct CC as [[-> ->]|[-> ->]]; auto.
              apply functional_extensionality. intros psi. symmetry. rewrite capply_swap_targets by auto.
              destruct CS as [CS|CS]; rewrite CS in EM; [discriminate|].
              apply capply_meq. simpl. eapply rzz_sym; eauto.
  - assert (EC : forall c, In c (o_ctl (rename_op p1 o1)) <-> In c (o_ctl (rename_op p2 o2))).
    { destruct (Nat.eqb_spec (length (o_ctl o1)) 0) as [Z|Z].
      - assert (o_ctl o1 = []) by (destruct (o_ctl o1); [auto|discriminate]).
        assert (o_ctl o2 = []) by (destruct (o_ctl o2); [auto|simpl in *; lia]).
        simpl. rewrite H, H0. tauto.
      - destruct (ctls_eqb (perm_ctls p1 (o_ctl o1)) (perm_ctls p2 (o_ctl o2))) eqn:EC; [|simpl in E; discriminate].
        apply ctls_eqb_eq in EC. intros c. unfold perm_ctls in EC. simpl.
        pose proof (ctls_of_In c (map (fun c => (p1 (fst c), snd c)) (o_ctl o1))) as A1.
        pose proof (ctls_of_In c (map (fun c => (p2 (fst c), snd c)) (o_ctl o2))) as A2.
        rewrite EC in A1. tauto. }
    assert (ETG : map p1 (o_tgt o1) = map p2 (o_tgt o2)).
    { apply nats_eqb_eq. match goal with [ H : (if ?x then false else _) = true |- _ ] => destruct x; [discriminate|exact H] end. }
    unfold sem in F, G. cbn [rename_op o_type o_par o_tgt] in F, G. rewrite <- ET, <- EP, <- ETG in G.
    assert (CAP : forall M, capply (o_ctl (rename_op p1 o1)) M (map p1 (o_tgt o1)) = capply (o_ctl (rename_op p2 o2)) M (map p1 (o_tgt o1))).
    { intros M. apply functional_extensionality. intros psi. apply functional_extensionality. intros b. unfold capply.
      now rewrite (sat_ext _ _ b EC). }
    destruct (o_type o1); try discriminate D;
      (destruct (gate_matrix _ (o_par o1)) as [[k M]|]; [|discriminate];
       destruct (Nat.eqb (length (map p1 (o_tgt o1))) k); [|discriminate];
       rewrite CAP in F; congruence).
Qed.
