(** reorderOperations. *)
From Coq Require Import Reals List Arith Bool Lia NArith Permutation.
From Verif Require Import Cplx Qsem GateModel GateSpec OpProofs GraphModel GraphProofs IRModel IRSpec IRProofs OptModel OptSem OptDagProofs
  OptFuseProofs OptFinalProofs ReorderModel ReorderSpec.
Import ListNotations.
Local Open Scope list_scope.

(** ** Exchanging operations *)
Lemma disjoint_sym a b : disjoint a b -> disjoint b a.
Proof. intros H q I J. exact (H q J I). Qed.
Lemma swaps_sym l m : swaps l m -> swaps m l.
Proof. induction 1; eauto using sw_refl, sw_trans. apply sw_swap. now apply disjoint_sym. Qed.
Lemma swaps_app_l A l m : swaps l m -> swaps (A ++ l) (A ++ m).
Proof. induction 1; eauto using sw_refl, sw_trans. rewrite !app_assoc. now apply sw_swap. Qed.
Lemma swaps_app_r B l m : swaps l m -> swaps (l ++ B) (m ++ B).
Proof. induction 1; eauto using sw_refl, sw_trans. rewrite <- !app_assoc. now apply sw_swap. Qed.
Lemma swaps_front A o B : Forall (fun x => disjoint x o) A -> swaps (A ++ o :: B) (o :: A ++ B).
Proof.
  induction 1 as [|x A H _ IH]; simpl; [apply sw_refl|].
  eapply sw_trans; [apply (swaps_app_l [x]); exact IH|]. simpl. now apply (sw_swap []).
Qed.
Lemma swaps_perm l m : swaps l m -> Permutation l m.
Proof. induction 1; eauto using perm_trans. apply Permutation_app_head. constructor. Qed.
Lemma swaps_on q l m : swaps l m -> on_qubit q l = on_qubit q m.
Proof.
  induction 1 as [|A a b B H|]; try congruence. unfold on_qubit. rewrite !filter_app. cbn [filter]. f_equal.
  destruct (existsb (Nat.eqb q) (used a)) eqn:EA, (existsb (Nat.eqb q) (used b)) eqn:EB; auto.
  exfalso. apply existsb_exists in EA, EB. destruct EA as (x & I & X), EB as (y & J & Y).
  apply Nat.eqb_eq in X, Y. subst x y. exact (H q I J).
Qed.

(** ** The algorithm on the list of remaining operations *)
Definition disjb (a b : cop) : bool := negb (existsb (fun q => memn q (used a)) (used b)).
Lemma disjb_ok a b : disjb a b = true <-> disjoint a b.
Proof.
  unfold disjb. rewrite negb_true_iff. split.
  - intros H q I J. assert (X : existsb (fun q => memn q (used a)) (used b) = true); [|congruence].
    apply existsb_exists. exists q. split; auto. now apply memn_In.
  - intros H. apply not_true_is_false. intros X. apply existsb_exists in X. destruct X as (q & I & M). apply memn_In in M.
    exact (H q M I).
Qed.
Inductive pres := PIdle | PBlocked | PEmit (o : cop) (R : list cop).
Fixpoint pfind (q : nat) (A R : list cop) : pres :=
  match R with
  | [] => PIdle
  | o :: R' =>
      if memn q (used o) then if forallb (fun x => disjb x o) A then PEmit o (A ++ R') else PBlocked
      else pfind q (A ++ [o]) R'
  end.
Definition pvisit (q : nat) (R : list cop) : pres := pfind q [] R.

Definition ready (q : nat) (R : list cop) (o : cop) (R' : list cop) : Prop :=
  exists A B, R = A ++ o :: B /\ R' = A ++ B /\ In q (used o) /\ Forall (fun x => disjoint x o) A.

Lemma forallb_disj A o : forallb (fun x => disjb x o) A = true <-> Forall (fun x => disjoint x o) A.
Proof. rewrite forallb_forall, Forall_forall. split; intros H x I; apply disjb_ok; auto. Qed.

Lemma pfind_spec q R : forall A, Forall (fun x => ~ In q (used x)) A ->
  match pfind q A R with
  | PIdle => Forall (fun x => ~ In q (used x)) (A ++ R)
  | PEmit o R' => ready q (A ++ R) o R'
  | PBlocked => exists A' o B, A ++ R = A' ++ o :: B /\ In q (used o) /\ Forall (fun x => ~ In q (used x)) A' /\
                 ~ Forall (fun x => disjoint x o) A'
  end.
Proof.
  induction R as [|o R IH]; intros A HA; cbn [pfind].
  - now rewrite app_nil_r.
  - destruct (memn q (used o)) eqn:M.
    + apply memn_In in M. destruct (forallb _ A) eqn:D.
      * exists A, R. repeat split; auto. now apply forallb_disj.
      * exists A, o, R. repeat split; auto. intros X. apply forallb_disj in X. congruence.
    + specialize (IH (A ++ [o])). rewrite <- app_assoc in IH. apply IH. apply Forall_app. split; auto. constructor; auto.
      intros X. apply memn_In in X. congruence.
Qed.
(** The first operation on [q] is determined. *)
Lemma first_unique q A o B A' o' B' : A ++ o :: B = A' ++ o' :: B' -> In q (used o) -> In q (used o') ->
  Forall (fun x => ~ In q (used x)) A -> Forall (fun x => ~ In q (used x)) A' -> A = A' /\ o = o' /\ B = B'.
Proof.
  revert A'. induction A as [|x A IH]; intros [|y A'] E I I' H H'; simpl in E; inversion E; subst; auto.
  - inversion H'; tauto.
  - inversion H; tauto.
  - inversion H; inversion H'; subst. destruct (IH A') as (-> & -> & ->); auto.
Qed.
Lemma disjoint_first q o A : In q (used o) -> Forall (fun x => disjoint x o) A -> Forall (fun x => ~ In q (used x)) A.
Proof. intros I. apply Forall_impl. intros x D J. exact (D q J I). Qed.

Lemma pvisit_ready q R o R' : pvisit q R = PEmit o R' <-> ready q R o R'.
Proof.
  pose proof (pfind_spec q R [] (Forall_nil _)) as H. unfold pvisit. simpl in H. split.
  - intros E. now rewrite E in H.
  - intros (A & B & E & E' & I & D). destruct (pfind q [] R) as [| |o2 R2].
    + subst R. apply Forall_app in H. destruct H as [_ H]. inversion H; tauto.
    + destruct H as (A2 & o2 & B2 & E2 & I2 & N2 & ND). rewrite E in E2.
      destruct (first_unique q _ _ _ _ _ _ E2) as (-> & -> & ->); eauto using disjoint_first. tauto.
    + destruct H as (A2 & B2 & E2 & -> & I2 & D2). rewrite E in E2.
      destruct (first_unique q _ _ _ _ _ _ E2) as (-> & -> & ->); eauto using disjoint_first. now subst.
Qed.
Lemma pvisit_idle q R : pvisit q R = PIdle <-> Forall (fun x => ~ In q (used x)) R.
Proof.
  pose proof (pfind_spec q R [] (Forall_nil _)) as H. unfold pvisit. simpl in H. split.
  - intros E. now rewrite E in H.
  - intros F. destruct (pfind q [] R) as [| |o2 R2]; auto.
    + destruct H as (A2 & o2 & B2 & -> & I2 & _). apply Forall_app in F. destruct F as [_ F]. inversion F; tauto.
    + destruct H as (A2 & B2 & -> & -> & I2 & D2). apply Forall_app in F. destruct F as [_ F]. inversion F; tauto.
Qed.
Lemma ready_swaps q R o R' : ready q R o R' -> swaps R (o :: R').
Proof. intros (A & B & -> & -> & _ & D). now apply swaps_front. Qed.

(** ** It only depends on the order of operations with common qubits *)
Lemma ready_swap1 q X a b Y o R' : disjoint a b -> ready q (X ++ a :: b :: Y) o R' ->
  exists S', ready q (X ++ b :: a :: Y) o S' /\ swaps R' S'.
Proof.
  intros D (A & B & E & -> & I & F). apply app_eq_app in E. destruct E as (l & [[E1 E2]|[E1 E2]]).
  - subst X. destruct l as [|x l]; simpl in E2.
    + inversion E2; subst o B. exists (A ++ b :: Y). split; [|apply sw_refl].
      exists (A ++ [b]), Y. rewrite app_nil_r, <- !app_assoc. repeat split; auto. apply Forall_app. split; auto.
      constructor; auto. now apply disjoint_sym.
    + inversion E2; subst x B. exists (A ++ l ++ b :: a :: Y). split.
      * exists A, (l ++ b :: a :: Y). rewrite <- !app_assoc. repeat split; auto.
      * rewrite !app_assoc. now apply sw_swap.
  - subst A. destruct l as [|x l]; simpl in E2.
    + inversion E2; subst o B. rewrite app_nil_r in *. exists (X ++ b :: Y). split; [|apply sw_refl].
      exists (X ++ [b]), Y. rewrite <- !app_assoc. repeat split; auto. apply Forall_app. split; auto.
      constructor; auto. now apply disjoint_sym.
    + inversion E2; subst x. destruct l as [|y l]; simpl in *.
      * inversion H1; subst o B. exists (X ++ a :: Y). rewrite <- app_assoc. split; [|apply sw_refl].
        exists X, (a :: Y). apply Forall_app in F. repeat split; auto. tauto.
      * inversion H1; subst y Y. exists (X ++ b :: a :: l ++ B). split.
        -- exists (X ++ b :: a :: l), B. rewrite <- !app_assoc. simpl. repeat split; auto.
           apply Forall_app in F. destruct F as [F1 F2]. apply Forall_app. split; auto.
           inversion F2 as [|? ? F3 F4]; inversion F4; subst; auto.
        -- rewrite <- app_assoc. simpl. now apply sw_swap.
Qed.
Lemma ready_swap q R S o R' : swaps R S -> ready q R o R' -> exists S', ready q S o S' /\ swaps R' S'.
Proof.
  intros H. revert R'. induction H as [l|A a b B D|l m n H1 IH1 H2 IH2]; intros R' E.
  - exists R'. split; auto. apply sw_refl.
  - eapply ready_swap1; eauto.
  - destruct (IH1 _ E) as (S' & E' & K). destruct (IH2 _ E') as (T' & E2 & K2). exists T'. split; auto. eapply sw_trans; eauto.
Qed.
Lemma pvisit_swap q R S : swaps R S ->
  match pvisit q R with
  | PIdle => pvisit q S = PIdle
  | PBlocked => pvisit q S = PBlocked
  | PEmit o R' => exists S', pvisit q S = PEmit o S' /\ swaps R' S'
  end.
Proof.
  intros H. destruct (pvisit q R) as [| |o R'] eqn:E.
  - apply pvisit_idle. apply pvisit_idle in E. eapply Permutation_Forall; [apply swaps_perm; eauto|]. auto.
  - destruct (pvisit q S) as [| |o S'] eqn:E'; auto.
    + apply pvisit_idle in E'. assert (X : pvisit q R = PIdle); [|congruence].
      apply pvisit_idle. eapply Permutation_Forall; [apply swaps_perm; apply swaps_sym; eauto|]. auto.
    + apply pvisit_ready in E'. destruct (ready_swap _ _ _ _ _ (swaps_sym _ _ H) E') as (R2 & E2 & _).
      apply pvisit_ready in E2. congruence.
  - apply pvisit_ready in E. destruct (ready_swap _ _ _ _ _ H E) as (S' & E' & K). exists S'. split; auto.
    now apply pvisit_ready.
Qed.

Fixpoint pvisits (qs : list nat) (R out : list cop) (busy : bool) : list cop * list cop * bool :=
  match qs with
  | [] => (R, out, busy)
  | q :: r =>
      match pvisit q R with
      | PIdle => pvisits r R out (busy || false)
      | PBlocked => pvisits r R out (busy || true)
      | PEmit o R' => pvisits r R' (out ++ [o]) (busy || true)
      end
  end.
Fixpoint ploop (n fuel : nat) (R out : list cop) : rout (list cop) :=
  match fuel with
  | 0 => RFuel
  | S f =>
      match pvisits (rev (seq 0 n)) R out false with
      | (R', out', true) => ploop n f R' out'
      | (_, out', false) => RDone out'
      end
  end.
Lemma pvisits_swap qs : forall R S out busy, swaps R S ->
  exists R' S' out' b, pvisits qs R out busy = (R', out', b) /\ pvisits qs S out busy = (S', out', b) /\ swaps R' S'.
Proof.
  induction qs as [|q qs IH]; intros R S out busy H; cbn [pvisits].
  - do 4 eexists. eauto.
  - pose proof (pvisit_swap q R S H) as K. destruct (pvisit q R) as [| |o R'].
    + rewrite K. apply IH. auto.
    + rewrite K. apply IH. auto.
    + destruct K as (S' & -> & K). apply IH. auto.
Qed.
Lemma ploop_swap n fuel : forall R S out, swaps R S -> ploop n fuel R out = ploop n fuel S out.
Proof.
  induction fuel as [|f IH]; intros R S out H; cbn [ploop]; auto.
  destruct (pvisits_swap (rev (seq 0 n)) R S out false H) as (R' & S' & out' & b & -> & -> & K). destruct b; auto.
Qed.

(** ** Every round schedules the first remaining operation *)
Lemma pvisits_swaps qs : forall R out busy R' out' b, pvisits qs R out busy = (R', out', b) -> swaps (out ++ R) (out' ++ R').
Proof.
  induction qs as [|q qs IH]; intros R out busy R' out' b E; cbn [pvisits] in E.
  - inversion E; subst. apply sw_refl.
  - destruct (pvisit q R) as [| |o R2] eqn:V.
    + eapply IH; eauto.
    + eapply IH; eauto.
    + apply pvisit_ready, ready_swaps in V. eapply sw_trans; [apply swaps_app_l; exact V|].
      replace (out ++ o :: R2) with ((out ++ [o]) ++ R2) by now rewrite <- app_assoc. eapply IH; eauto.
Qed.
Lemma pvisits_len qs : forall R out busy R' out' b, pvisits qs R out busy = (R', out', b) -> length R' <= length R.
Proof.
  induction qs as [|q qs IH]; intros R out busy R' out' b E; cbn [pvisits] in E.
  - inversion E; subst. auto.
  - destruct (pvisit q R) as [| |o R2] eqn:V; try (eapply IH; eauto; fail).
    apply pvisit_ready in V. destruct V as (A & B & -> & -> & _). apply IH in E. rewrite app_length in *. simpl. lia.
Qed.
Lemma pvisits_busy qs : forall R out R' out' b, pvisits qs R out true = (R', out', b) -> b = true.
Proof.
  induction qs as [|q qs IH]; intros R out R' out' b E; cbn [pvisits] in E.
  - now inversion E.
  - destruct (pvisit q R); eapply IH; eauto.
Qed.
Lemma pvisits_progress qs : forall o R out busy R' out' b, (exists q, In q qs /\ In q (used o)) ->
  pvisits qs (o :: R) out busy = (R', out', b) -> b = true /\ length R' < S (length R).
Proof.
  induction qs as [|q qs IH]; intros o R out busy R' out' b (r & I & U) E; [destruct I|]. cbn [pvisits] in E.
  destruct (memn q (used o)) eqn:M.
  - assert (V : pvisit q (o :: R) = PEmit o R) by (unfold pvisit; cbn [pfind]; rewrite M; reflexivity).
    rewrite V in E. rewrite orb_true_r in E. split; [eapply pvisits_busy; eauto|]. apply pvisits_len in E. lia.
  - assert (NM : ~ In q (used o)) by (intros X; apply memn_In in X; congruence).
    destruct I as [->|I]; [tauto|].
    destruct (pvisit q (o :: R)) as [| |o2 R2] eqn:V; try (eapply IH; eauto; fail).
    apply pvisit_ready in V. destruct V as (A & B & E1 & -> & U2 & _). destruct A as [|x A]; simpl in E1; inversion E1; subst; [tauto|].
    simpl in E. eapply IH in E; eauto. destruct E as [-> L]. split; auto. rewrite app_length in *. simpl. lia.
Qed.
Definition all_touch (n : nat) (R : list cop) : Prop := Forall (fun o => exists q, q < n /\ In q (used o)) R.
Lemma in_rev_seq q n : q < n -> In q (rev (seq 0 n)).
Proof. intros H. apply in_rev. rewrite rev_involutive. apply in_seq. lia. Qed.
Lemma pvisits_nil qs out busy : pvisits qs [] out busy = ([], out, busy).
Proof. induction qs as [|q qs IH]; cbn [pvisits pvisit pfind]; auto. now rewrite orb_false_r. Qed.
Lemma ploop_done n fuel : forall R out, all_touch n R -> length R < fuel -> exists out', ploop n fuel R out = RDone out' /\ swaps (out ++ R) out'.
Proof.
  induction fuel as [|f IH]; intros R out T L; [lia|]. cbn [ploop].
  destruct R as [|o R].
  - rewrite pvisits_nil. exists out. split; auto. rewrite app_nil_r. apply sw_refl.
  - destruct (pvisits _ (o :: R) out false) as [[R' out'] b] eqn:E.
    assert (W := pvisits_swaps _ _ _ _ _ _ _ E).
    assert (T' : all_touch n R').
    { pose proof (swaps_perm _ _ W) as P.
      (* every remaining operation was there before *)
      assert (G : forall qs R out busy R' out' b, pvisits qs R out busy = (R', out', b) -> incl R' R).
      { clear. induction qs as [|q qs IH]; intros R out busy R' out' b E; cbn [pvisits] in E.
        - inversion E. apply incl_refl.
        - destruct (pvisit q R) as [| |o R2] eqn:V; try (eapply IH; eauto; fail).
          apply IH in E. apply pvisit_ready in V. destruct V as (A & B & -> & -> & _).
          intros x I. apply E, in_app_iff in I. apply in_app_iff. simpl. tauto. }
      apply G in E. unfold all_touch in *. rewrite Forall_forall in *. auto. }
    pose proof T as T0. inversion T0 as [|? ? (q & Q & U) _]; subst.
    destruct (pvisits_progress _ _ _ _ _ _ _ _ (ex_intro _ q (conj (in_rev_seq q n Q) U)) E) as [-> LT].
    simpl in L. destruct (IH R' out' T' ltac:(lia)) as (out2 & -> & W2). exists out2. split; auto. eapply sw_trans; eauto.
Qed.

(** ** The queues *)
Definition agree (o : cop) : Prop := forall q, cacts o q = true <-> In q (used o).
Lemma local_agree o : local o -> agree o.
Proof. intros L q. now apply cacts_used. Qed.
Definition usesb (q : nat) (x : nat * cop) : bool := memn q (used (snd x)).
Definition queue (R : list (nat * cop)) (q : nat) : list nat := map fst (filter (usesb q) R).

Record rinv (n : nat) (slots : list (option cop)) (d : dag) (R : list (nat * cop)) : Prop := {
  r_nodup : NoDup (map fst R);
  r_slot : forall p o, In (p, o) R -> nth_error slots p = Some (Some o);
  r_queue : forall q, d q = queue R q;
  r_in : forall p o q, In (p, o) R -> In q (used o) -> q < n;
  r_agree : forall p o, In (p, o) R -> agree o
}.

Lemma queue_split A p o B q : In q (used o) -> Forall (fun x => ~ In q (used (snd x))) A -> exists r, queue (A ++ (p, o) :: B) q = p :: r.
Proof.
  intros I F. unfold queue. rewrite filter_app, map_app.
  assert (E : filter (usesb q) A = []).
  { induction F as [|x A H _ IH]; simpl; auto. unfold usesb at 1. destruct (memn q (used (snd x))) eqn:M; auto.
    apply memn_In in M. tauto. }
  rewrite E. simpl. unfold usesb at 1. simpl. replace (memn q (used o)) with true by (symmetry; now apply memn_In). simpl. eauto.
Qed.
Lemma queue_head A p o B q p' r : NoDup (map fst (A ++ (p, o) :: B)) -> In q (used o) -> queue (A ++ (p, o) :: B) q = p' :: r ->
  (p' = p <-> Forall (fun x => ~ In q (used (snd x))) A).
Proof.
  intros ND I E. split.
  - intros ->. rewrite map_app in ND. simpl in ND. apply NoDup_remove_2 in ND.
    unfold queue in E. rewrite filter_app, map_app in E.
    destruct (filter (usesb q) A) as [|x A'] eqn:F.
    + apply Forall_forall. intros x J K. assert (X : In x (filter (usesb q) A)).
      { apply filter_In. split; auto. unfold usesb. now apply memn_In. }
      rewrite F in X. destruct X.
    + exfalso. simpl in E. inversion E. apply ND. apply in_app_iff. left.
      assert (X : In x (filter (usesb q) A)) by (rewrite F; simpl; auto). apply filter_In in X.
      apply in_map_iff. exists x. tauto.
  - intros F. destruct (queue_split A p o B q I F) as [r' E']. congruence.
Qed.
Lemma queue_nonempty R p o q : In (p, o) R -> In q (used o) -> queue R q <> [].
Proof.
  intros I U E. assert (X : In p (queue R q)); [|rewrite E in X; destruct X].
  unfold queue. apply in_map_iff. exists (p, o). split; auto. apply filter_In. split; auto. now apply memn_In.
Qed.

Lemma executable_ok n slots d A p o B q qbs : rinv n slots d (A ++ (p, o) :: B) -> exists b,
  executable d o q p qbs = Some b /\
  (b = true <-> forall r, In r qbs -> r <> q -> In r (used o) -> Forall (fun x => ~ In r (used (snd x))) A).
Proof.
  intros RI. assert (IN : In (p, o) (A ++ (p, o) :: B)) by (apply in_elt). pose proof (r_agree _ _ _ _ RI _ _ IN) as AG.
  induction qbs as [|qb r IH]; cbn [executable].
  - exists true. split; auto. split; auto. intros _ ? [].
  - destruct IH as (b & E & H). destruct (Nat.eqb_spec qb q) as [->|NE]; cbn [negb andb].
    + exists b. split; auto. rewrite H. split; intros K x I N U; [destruct I; [congruence|eauto]|apply K; simpl; auto].
    + destruct (cacts o qb) eqn:CA.
      * apply AG in CA. rewrite (r_queue _ _ _ _ RI). destruct (queue _ qb) as [|p' t] eqn:Q.
        { exfalso. eapply queue_nonempty; eauto. }
        pose proof (queue_head A p o B qb p' t (r_nodup _ _ _ _ RI) CA Q) as HD.
        destruct (Nat.eqb_spec p' p) as [->|NP].
        -- exists b. split; auto. rewrite H. split; intros K x I N U.
           ++ destruct I as [<-|I]; [now apply HD|eauto].
           ++ apply K; simpl; auto.
        -- exists false. split; auto. split; [discriminate|]. intros K. exfalso. apply NP, HD. apply K; simpl; auto.
      * exists b. split; auto. rewrite H. split; intros K x I N U.
        -- destruct I as [<-|I]; [|eauto]. apply AG in U. congruence.
        -- apply K; simpl; auto.
Qed.

Lemma filter_nil_forall {A} (f : A -> bool) l : filter f l = [] -> Forall (fun x => f x = false) l.
Proof. induction l as [|x l IH]; simpl; auto. destruct (f x) eqn:E; [discriminate|]. auto. Qed.
Lemma queue_first R q p r : queue R q = p :: r -> exists A o B, R = A ++ (p, o) :: B /\ In q (used o) /\ Forall (fun x => ~ In q (used (snd x))) A.
Proof.
  induction R as [|[x o] R IH]; unfold queue; simpl; [discriminate|]. unfold usesb at 1. simpl.
  destruct (memn q (used o)) eqn:M; simpl.
  - intros E. inversion E; subst. exists [], o, R. split; auto. split; auto. now apply memn_In.
  - intros E. destruct (IH E) as (A & o' & B & -> & I & F). exists ((x, o) :: A), o', B. split; auto. split; auto.
    constructor; auto. simpl. intros X. apply memn_In in X. congruence.
Qed.

Lemma visit_ok n slots d out R q : q < n -> rinv n slots d R ->
  match pvisit q (map snd R) with
  | PIdle => visit n q (slots, d, out) = Some ((slots, d, out), false)
  | PBlocked => visit n q (slots, d, out) = Some ((slots, d, out), true)
  | PEmit o R' => exists slots' d' S, visit n q (slots, d, out) = Some ((slots', d', out ++ [o]), true) /\
      map snd S = R' /\ rinv n slots' d' S
  end.
Proof.
  intros QN RI. unfold visit. destruct (d q) as [|p t] eqn:Q; rewrite (r_queue _ _ _ _ RI) in Q.
  - assert (E : pvisit q (map snd R) = PIdle).
    { apply pvisit_idle. apply Forall_map. unfold queue in Q. apply map_eq_nil, filter_nil_forall in Q.
      revert Q. apply Forall_impl. intros x X I. unfold usesb in X. apply memn_In in I. congruence. }
    now rewrite E.
  - destruct (queue_first _ _ _ _ Q) as (A & o & B & -> & I & F).
    rewrite (r_slot _ _ _ _ RI p o) by apply in_elt.
    destruct (executable_ok n slots d A p o B q (rev (seq 0 n)) RI) as (b & -> & H).
    assert (H' : b = true <-> Forall (fun x => disjoint x o) (map snd A)).
    { rewrite H, Forall_map. split.
      - intros K. apply Forall_forall. intros x J r R1 R2.
        destruct (Nat.eq_dec r q) as [->|NE].
        + rewrite Forall_forall in F. exact (F x J R1).
        + assert (RN : r < n) by (eapply (r_in _ _ _ _ RI p o); eauto; apply in_elt).
          specialize (K r (in_rev_seq _ _ RN) NE R2). rewrite Forall_forall in K. exact (K x J R1).
      - intros K r _ _ R2. apply Forall_forall. intros x J R1. rewrite Forall_forall in K. exact (K x J r R1 R2). }
    rewrite map_app. simpl. destruct b.
    + assert (E : pvisit q (map snd A ++ o :: map snd B) = PEmit o (map snd A ++ map snd B)).
      { apply pvisit_ready. exists (map snd A), (map snd B). repeat split; auto. now apply H'. }
      rewrite E. do 2 eexists. exists (A ++ B). split; [reflexivity|]. split; [apply map_app|].
      assert (ND := r_nodup _ _ _ _ RI). rewrite map_app in ND. simpl in ND.
      split.
      * rewrite map_app. eapply NoDup_remove_1; eauto.
      * intros p' o' J.
        assert (LP : p < length slots).
        { apply nth_error_Some. rewrite (r_slot _ _ _ _ RI p o) by apply in_elt. discriminate. }
        rewrite nth_error_upd by auto.
        assert (NE : p' <> p).
        { intros ->. apply NoDup_remove_2 in ND. apply ND. rewrite <- map_app. apply in_map_iff. exists (p, o'). auto. }
        assert (X : nth_error slots p' = Some (Some o')).
        { eapply (r_slot _ _ _ _ RI). apply in_app_iff in J. apply in_app_iff. simpl. tauto. }
        destruct (Nat.eqb_spec p' p); [tauto|]. auto.
      * intros r. unfold advance. rewrite (r_queue _ _ _ _ RI).
        assert (AG := r_agree _ _ _ _ RI p o (in_elt _ _ _)).
        destruct (memn r (used o)) eqn:M.
        -- apply memn_In in M. replace (Nat.ltb r n) with true by (symmetry; apply Nat.ltb_lt; eapply (r_in _ _ _ _ RI p o); eauto; apply in_elt).
           apply AG in M. rewrite M, orb_true_r. simpl. apply AG in M.
           assert (F2 : filter (usesb r) A = []).
           { assert (G : Forall (fun x => disjoint x o) (map snd A)) by now apply H'. rewrite Forall_map in G.
             clear - G M. induction G as [|x A D _ IH]; simpl; auto. unfold usesb at 1. destruct (memn r (used (snd x))) eqn:X; auto.
             apply memn_In in X. destruct (D r X M). }
           unfold queue. rewrite !filter_app, F2. simpl. unfold usesb at 1. simpl.
           replace (memn r (used o)) with true by (symmetry; now apply memn_In). reflexivity.
        -- assert (CA : cacts o r = false). { apply not_true_is_false. intros X. apply AG, memn_In in X. congruence. }
           assert (NR : Nat.eqb r q = false). { apply Nat.eqb_neq. intros ->. apply memn_In in I. congruence. }
           rewrite CA, NR, andb_false_r. unfold queue. rewrite !filter_app. simpl. unfold usesb at 2. simpl. now rewrite M.
      * intros p' o' r J. apply (r_in _ _ _ _ RI p' o'). apply in_app_iff in J. apply in_app_iff. simpl. tauto.
      * intros p' o' J. apply (r_agree _ _ _ _ RI p' o'). apply in_app_iff in J. apply in_app_iff. simpl. tauto.
    + destruct (pvisit q (map snd A ++ o :: map snd B)) as [| |o2 R2] eqn:E; auto.
      * apply pvisit_idle in E. apply Forall_app in E. destruct E as [_ E]. inversion E; tauto.
      * exfalso. apply pvisit_ready in E. destruct E as (A2 & B2 & E & -> & I2 & D2).
        destruct (first_unique q _ _ _ _ _ _ E I I2) as (X1 & X2 & X3); [now apply Forall_map|eauto using disjoint_first|].
        rewrite <- X1, <- X2 in D2. apply H' in D2. discriminate.
Qed.
Lemma visits_ok n qs : Forall (fun q => q < n) qs -> forall slots d out R busy, rinv n slots d R ->
  exists slots' d' S out' b, visits n qs (slots, d, out) busy = Some ((slots', d', out'), b) /\
    pvisits qs (map snd R) out busy = (map snd S, out', b) /\ rinv n slots' d' S.
Proof.
  induction 1 as [|q qs Hq _ IH]; intros slots d out R busy RI; cbn [visits pvisits].
  - do 5 eexists. eauto.
  - pose proof (visit_ok n slots d out R q Hq RI) as V. destruct (pvisit q (map snd R)) as [| |o R'].
    + rewrite V. apply IH. auto.
    + rewrite V. apply IH. auto.
    + destruct V as (s' & d' & T & -> & <- & RI'). apply IH. auto.
Qed.
Lemma rloop_ok n fuel : forall slots d out R, rinv n slots d R -> rloop n fuel (slots, d, out) = ploop n fuel (map snd R) out.
Proof.
  induction fuel as [|f IH]; intros slots d out R RI; cbn [rloop ploop]; auto.
  assert (F : Forall (fun q => q < n) (rev (seq 0 n))).
  { apply Forall_forall. intros q I. apply in_rev, in_seq in I. lia. }
  destruct (visits_ok n _ F slots d out R false RI) as (s' & d' & T & out' & b & -> & -> & RI'). destruct b; auto.
Qed.

(** ** Building the queues *)
Lemma qadd_fold n p l : NoDup l -> forall d, (forall q, In q l -> q < n) -> exists d',
  fold_left (fun d q => match d with Some d => if Nat.ltb q n then Some (qpush d q p) else None | None => None end) l (Some d) = Some d' /\
  forall q, d' q = if memn q l then d q ++ [p] else d q.
Proof.
  induction l as [|x l IH]; intros ND d W; cbn [fold_left].
  - exists d. auto.
  - inversion ND; subst. replace (Nat.ltb x n) with true by (symmetry; apply Nat.ltb_lt; apply W; simpl; auto).
    destruct (IH H2 (qpush d x p)) as (d' & -> & H); [intros q I; apply W; simpl; auto|]. exists d'. split; auto.
    intros q. rewrite H. unfold qpush. change (memn q (x :: l)) with (Nat.eqb q x || memn q l).
    destruct (Nat.eqb_spec q x); subst; cbn [orb]; auto. destruct (memn x l) eqn:M; auto. apply memn_In in M. tauto.
Qed.
Lemma qadd_none n p l : fold_left (fun d q => match d with Some d => if Nat.ltb q n then Some (qpush d q p) else None | None => None end) l None = None.
Proof. induction l; simpl; auto. Qed.
Lemma qadd_throw n p l q : In q l -> n <= q -> forall d,
  fold_left (fun d q => match d with Some d => if Nat.ltb q n then Some (qpush d q p) else None | None => None end) l d = None.
Proof.
  intros I L. induction l as [|x l IH]; intros d; [destruct I|]. cbn [fold_left]. destruct I as [->|I].
  - replace (Nat.ltb q n) with false by (symmetry; apply Nat.ltb_ge; auto). destruct d; apply qadd_none.
  - now apply IH.
Qed.
Lemma qbuild_none n l : forall p, qbuild n None p l = None.
Proof. induction l as [|o l IH]; intros p; cbn [qbuild]; auto. unfold qadd. rewrite qadd_none. auto. Qed.
Lemma qbuild_throw n l o q : In o l -> In q (used o) -> n <= q -> forall p d, qbuild n d p l = None.
Proof.
  intros I U L. induction l as [|x l IH]; intros p d; [destruct I|]. cbn [qbuild]. destruct I as [->|I].
  - unfold qadd. rewrite (qadd_throw n p _ q); auto using qbuild_none. now apply set_of_In.
  - now apply IH.
Qed.
Lemma qbuild_ok n l : within n l -> forall p d, exists d', qbuild n (Some d) p l = Some d' /\
  forall q, d' q = d q ++ queue (combine (seq p (length l)) l) q.
Proof.
  induction l as [|o l IH]; intros W p d; cbn [qbuild].
  - exists d. split; auto. intros q. unfold queue. simpl. now rewrite app_nil_r.
  - unfold qadd. destruct (qadd_fold n p _ (set_of_NoDup (used o)) d) as (d1 & -> & H1).
    { intros q I. rewrite set_of_In in I. apply (W o q); simpl; auto. }
    destruct (IH (fun x q I => W x q (or_intror I)) (S p) d1) as (d' & -> & H). exists d'. split; auto.
    intros q. rewrite H, H1. assert (E : memn q (set_of (used o)) = memn q (used o)).
    { apply eq_true_iff_eq. rewrite !memn_In. apply set_of_In. }
    rewrite E. cbn [length seq combine]. unfold queue. cbn [filter]. unfold usesb at 2. cbn [snd].
    destruct (memn q (used o)); cbn [map fst]; [now rewrite <- app_assoc|auto].
Qed.

Definition touchb (o : cop) : bool := match used o with [] => false | _ => true end.
Lemma touching_eq l : touching l = filter touchb l. Proof. reflexivity. Qed.
Lemma filter_combine_snd {A} (f : A -> bool) (l : list A) : forall p,
  map snd (filter (fun x => f (snd x)) (combine (seq p (length l)) l)) = filter f l.
Proof. induction l as [|x l IH]; intros p; simpl; auto. destruct (f x); simpl; rewrite IH; auto. Qed.
Lemma combine_seq_nth {A} (l : list A) : forall p i x, In (i, x) (combine (seq p (length l)) l) -> p <= i /\ nth_error l (i - p) = Some x.
Proof.
  induction l as [|y l IH]; intros p i x; simpl; [tauto|]. intros [E|I].
  - inversion E; subst. rewrite Nat.sub_diag. auto.
  - apply IH in I. destruct I as [L I]. split; [lia|]. replace (i - p) with (S (i - S p)) by lia. auto.
Qed.
Lemma filter_twice {A} (f g : A -> bool) l : (forall x, f x = true -> g x = true) -> filter f (filter g l) = filter f l.
Proof.
  intros H. induction l as [|x l IH]; simpl; auto. destruct (g x) eqn:G; simpl; rewrite ?IH; auto.
  destruct (f x) eqn:F; auto. apply H in F. congruence.
Qed.
Lemma map_fst_combine_seq {A} (l : list A) p : map fst (combine (seq p (length l)) l) = seq p (length l).
Proof. revert p. induction l as [|x l IH]; intros p; simpl; auto. now rewrite IH. Qed.
Lemma NoDup_map_filter {A B} (g : A -> B) (f : A -> bool) l : NoDup (map g l) -> NoDup (map g (filter f l)).
Proof.
  induction l as [|x l IH]; simpl; auto. intros H. inversion H; subst. destruct (f x); simpl; auto. constructor; auto.
  intros I. apply in_map_iff in I. destruct I as (y & E & I). apply filter_In in I. apply H2. apply in_map_iff. exists y. tauto.
Qed.

Lemma reorder_pure n fuel l : within n l -> Forall agree (touching l) -> reorder n fuel l = ploop n fuel (touching l) [].
Proof.
  intros W AG. unfold reorder. destruct (qbuild_ok n l W 0 (fun _ => [])) as (d & E0 & H). unfold dag in E0. rewrite E0.
  set (P := combine (seq 0 (length l)) l) in *.
  assert (E : touching l = map snd (filter (fun x => touchb (snd x)) P)) by (symmetry; apply filter_combine_snd).
  rewrite E. apply rloop_ok. split.
  - apply NoDup_map_filter. unfold P. rewrite map_fst_combine_seq. apply seq_NoDup.
  - intros p o I. apply filter_In in I. destruct I as [I _]. apply combine_seq_nth in I. rewrite Nat.sub_0_r in I.
    apply map_nth_error. tauto.
  - intros q. rewrite H. cbn [app]. unfold queue. rewrite filter_twice; auto. intros x X. unfold usesb in X. unfold touchb.
    destruct (used (snd x)); auto.
  - intros p o q I U. apply filter_In in I. destruct I as [I _]. unfold P in I. apply in_combine_r in I. eauto.
  - intros p o I. rewrite Forall_forall in AG. apply AG. rewrite E. apply in_map_iff. exists (p, o). auto.
Qed.
Lemma touching_len l : length (touching l) <= length l.
Proof. unfold touching. induction l as [|o l IH]; simpl; auto. destruct (used o); simpl; lia. Qed.
Lemma touching_all n l : within n l -> all_touch n (touching l).
Proof.
  intros W. apply Forall_forall. intros o I. apply filter_In in I. destruct I as [I U].
  destruct (used o) as [|q r] eqn:E; [discriminate|]. exists q. split; simpl; auto. apply (W o q); auto. rewrite E. simpl. auto.
Qed.
Lemma reorder_done n fuel l : within n l -> Forall agree (touching l) -> length l < fuel -> exists l', reorder n fuel l = RDone l' /\ swaps (touching l) l'.
Proof.
  intros W AG L. rewrite reorder_pure by auto. apply (ploop_done n fuel (touching l) []).
  - now apply touching_all.
  - pose proof (touching_len l). lia.
Qed.
Lemma swaps_touching l m : swaps l m -> swaps (touching l) (touching m).
Proof.
  induction 1 as [|A a b B D|]; eauto using sw_refl, sw_trans. unfold touching. rewrite !filter_app. cbn [filter].
  destruct (used a) eqn:EA, (used b) eqn:EB; try apply sw_refl. now apply sw_swap.
Qed.
Lemma reorder_canonical n fuel l m : within n l -> Forall agree (touching l) -> swaps l m -> reorder n fuel l = reorder n fuel m.
Proof.
  intros W AG H. pose proof (swaps_perm _ _ H) as P. rewrite !reorder_pure; auto.
  - apply ploop_swap. now apply swaps_touching.
  - intros o q I. apply (W o q). eapply Permutation_in; [apply Permutation_sym; eauto|]. auto.
  - eapply Permutation_Forall; [apply swaps_perm, swaps_touching; eauto|]. auto.
Qed.
