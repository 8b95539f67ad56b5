(** States of arbitrarily many qubits and the action of (controlled) gates on
    them. This is the reference semantics for circuits; it does not depend on
    the modelled code.

    A basis state assigns a bit to every qubit index; a state assigns an
    amplitude to every basis state. Gates act on finitely many qubits, so no
    bound on the number of qubits is needed. *)
From Coq Require Import List Arith Bool Lia FinFun FunctionalExtensionality.
From Verif Require Import Cplx.
Import ListNotations.

Definition bits := nat -> bool.
Definition state := bits -> C.

Definition setb (b : bits) (q : nat) (v : bool) : bits :=
  fun x => if Nat.eqb x q then v else b x.

Fixpoint setl (b : bits) (ts : list nat) (vs : list bool) : bits :=
  match ts, vs with
  | t :: ts', v :: vs' => setb (setl b ts' vs') t v
  | _, _ => b
  end.

(** All bit strings of length [k]. *)
Fixpoint allb (k : nat) : list (list bool) :=
  match k with
  | 0 => [[]]
  | S k' => map (cons false) (allb k') ++ map (cons true) (allb k')
  end.

(** Matrices indexed by bit strings (row, column), most significant bit first. *)
Definition mat := list bool -> list bool -> C.

(** [apply M ts psi]: the matrix [M] on the qubits [ts]. *)
Definition apply (M : mat) (ts : list nat) (psi : state) : state :=
  fun b => csum (allb (length ts)) (fun v => M (map b ts) v * psi (setl b ts v))%C.

(** Controls: qubit and polarity. *)
Definition ctl := (nat * bool)%type.

Definition sat (cs : list ctl) (b : bits) : bool :=
  forallb (fun c => Bool.eqb (b (fst c)) (snd c)) cs.

(** The controlled gate. *)
Definition capply (cs : list ctl) (M : mat) (ts : list nat) (psi : state) : state :=
  fun b => if sat cs b then apply M ts psi b else psi b.

Definition leqb (u v : list bool) : bool := if list_eq_dec Bool.bool_dec u v then true else false.

(** Matrix operations for [k] qubits. *)
Definition mid : mat := fun r c => if leqb r c then C1 else C0.
Definition mmul (k : nat) (M N : mat) : mat :=
  fun r c => csum (allb k) (fun v => M r v * N v c)%C.
Definition madj (M : mat) : mat := fun r c => Cconj (M c r).
(** Equality on bit strings of length [k]. *)
Definition meq (k : nat) (M N : mat) : Prop :=
  forall r c, length r = k -> length c = k -> M r c = N r c.
Definition unitary (k : nat) (M : mat) : Prop :=
  meq k (mmul k (madj M) M) mid /\ meq k (mmul k M (madj M)) mid.

(** ** Bit strings *)
Lemma leqb_eq u v : leqb u v = true <-> u = v.
Proof. unfold leqb. destruct (list_eq_dec _ u v); split; congruence. Qed.
Lemma leqb_refl u : leqb u u = true.
Proof. now apply leqb_eq. Qed.

Lemma allb_In k v : In v (allb k) <-> length v = k.
Proof.
  revert v. induction k as [|k IH]; intros v; simpl.
  - split; [intros [<-|[]]; auto|]. destruct v; [auto|discriminate].
  - rewrite in_app_iff, !in_map_iff. split.
    + intros [(x & <- & H)|(x & <- & H)]; apply IH in H; simpl; auto.
    + destruct v as [|[] v]; [discriminate| |]; simpl; intros H.
      * right. exists v. split; auto. apply IH. lia.
      * left. exists v. split; auto. apply IH. lia.
Qed.

Lemma allb_NoDup k : NoDup (allb k).
Proof.
  induction k as [|k IH]; simpl; [constructor; auto; constructor|].
  assert (M : forall x, NoDup (map (cons x) (allb k))).
  { intros x. apply Injective_map_NoDup; auto. intros a b H. now inversion H. }
  assert (A : forall l m : list (list bool), NoDup l -> NoDup m -> (forall x, In x l -> ~ In x m) -> NoDup (l ++ m)).
  { induction l as [|a l IHl]; simpl; intros m Hl Hm D; auto. inversion Hl; subst. constructor.
    - rewrite in_app_iff. intros [H|H]; [contradiction|]. eapply D; eauto.
    - apply IHl; auto. }
  apply A; auto. intros x H1 H2. apply in_map_iff in H1. apply in_map_iff in H2.
  destruct H1 as (a & <- & _), H2 as (b & E & _). discriminate.
Qed.

Lemma setb_same b q v : setb b q v q = v.
Proof. unfold setb. now rewrite Nat.eqb_refl. Qed.
Lemma setb_other b q v x : x <> q -> setb b q v x = b x.
Proof. unfold setb. intros H. apply Nat.eqb_neq in H. now rewrite H. Qed.
Lemma setb_id b q : setb b q (b q) = b.
Proof.
  apply functional_extensionality. intros x. unfold setb.
  destruct (Nat.eqb_spec x q); congruence.
Qed.
Lemma setb_setb b q v w : setb (setb b q v) q w = setb b q w.
Proof.
  apply functional_extensionality. intros x. unfold setb. now destruct (Nat.eqb x q).
Qed.
Lemma setb_comm b p q v w : p <> q -> setb (setb b p v) q w = setb (setb b q w) p v.
Proof.
  intros N. apply functional_extensionality. intros x. unfold setb.
  destruct (Nat.eqb_spec x q), (Nat.eqb_spec x p); auto. congruence.
Qed.

Lemma setl_other b ts vs x : ~ In x ts -> setl b ts vs x = b x.
Proof.
  revert vs. induction ts as [|t ts IH]; intros vs H; destruct vs as [|v vs]; simpl; auto.
  simpl in H. rewrite setb_other by (intros ->; tauto). apply IH. tauto.
Qed.

Lemma setl_setb_comm b ts vs q v : ~ In q ts -> setl (setb b q v) ts vs = setb (setl b ts vs) q v.
Proof.
  revert vs. induction ts as [|t ts IH]; intros vs H; destruct vs as [|w vs]; simpl; auto.
  simpl in H. rewrite IH by tauto. apply setb_comm. intros ->; tauto.
Qed.

Lemma setl_map b ts vs : NoDup ts -> length vs = length ts -> map (setl b ts vs) ts = vs.
Proof.
  revert vs. induction ts as [|t ts IH]; intros vs N L; destruct vs as [|v vs]; simpl in *; auto; try lia.
  inversion N; subst. f_equal; [apply setb_same|].
  rewrite <- (IH vs) at 2 by (auto; lia).
  apply map_ext_in. intros x Hx. rewrite setb_other; auto. intros ->. contradiction.
Qed.

Lemma setl_id b ts : setl b ts (map b ts) = b.
Proof.
  induction ts as [|t ts IH]; simpl; auto. rewrite IH. apply setb_id.
Qed.

Lemma setl_setl b ts vs ws : NoDup ts -> length vs = length ts -> length ws = length ts ->
  setl (setl b ts vs) ts ws = setl b ts ws.
Proof.
  revert vs ws. induction ts as [|t ts IH]; intros vs ws N L M; destruct vs as [|v vs], ws as [|w ws];
    simpl in *; auto; try lia.
  inversion N; subst. rewrite setl_setb_comm by auto. rewrite IH by (auto; lia).
  apply setb_setb.
Qed.

Lemma setl_comm b ts vs us ws : (forall x, In x ts -> ~ In x us) ->
  setl (setl b ts vs) us ws = setl (setl b us ws) ts vs.
Proof.
  revert vs. induction ts as [|t ts IH]; intros vs H; destruct vs as [|v vs]; simpl; auto.
  rewrite setl_setb_comm by (apply H; left; auto). rewrite IH; auto.
  intros x Hx. apply H. right; auto.
Qed.

Lemma map_setl_other b ts vs us : (forall x, In x us -> ~ In x ts) -> map (setl b ts vs) us = map b us.
Proof. intros H. apply map_ext_in. intros x Hx. apply setl_other. auto. Qed.

Lemma sat_setl cs b ts vs : (forall c, In c cs -> ~ In (fst c) ts) -> sat cs (setl b ts vs) = sat cs b.
Proof.
  unfold sat. induction cs as [|c cs IH]; simpl; intros H; auto.
  rewrite setl_other by (apply H; auto). f_equal. apply IH. auto.
Qed.

(** ** Gates *)
Lemma apply_meq M N ts psi : meq (length ts) M N -> apply M ts psi = apply N ts psi.
Proof.
  intros H. apply functional_extensionality. intros b. unfold apply.
  apply csum_ext. intros v Hv. apply allb_In in Hv. rewrite H; auto. now rewrite map_length.
Qed.

Lemma apply_id ts psi : apply mid ts psi = psi.
Proof.
  apply functional_extensionality. intros b. unfold apply.
  rewrite (csum_single _ (map b ts)).
  - unfold mid. rewrite leqb_refl, setl_id. ring.
  - apply allb_NoDup.
  - apply allb_In. now rewrite map_length.
  - intros v _ N. unfold mid. destruct (leqb (map b ts) v) eqn:E; [|ring].
    apply leqb_eq in E. congruence.
Qed.

Lemma apply_mul M N ts psi : NoDup ts ->
  apply M ts (apply N ts psi) = apply (mmul (length ts) M N) ts psi.
Proof.
  intros ND. apply functional_extensionality. intros b. unfold apply, mmul.
  rewrite (csum_ext _ _ (fun v => csum (allb (length ts))
     (fun w => (M (map b ts) v * N v w) * psi (setl b ts w))%C)).
  - rewrite csum_swap. apply csum_ext. intros w Hw.
    rewrite csum_scal_r. reflexivity.
  - intros v Hv. apply allb_In in Hv. rewrite <- csum_scal. apply csum_ext. intros w Hw.
    apply allb_In in Hw. rewrite setl_map, setl_setl by auto. ring.
Qed.

Lemma apply_comm M N ts us psi : (forall x, In x ts -> ~ In x us) ->
  apply M ts (apply N us psi) = apply N us (apply M ts psi).
Proof.
  intros D. assert (D' : forall x, In x us -> ~ In x ts) by (intros x A B; eapply D; eauto).
  apply functional_extensionality. intros b. unfold apply.
  rewrite (csum_ext _ _ (fun v => csum (allb (length us))
     (fun w => M (map b ts) v * N (map b us) w * psi (setl (setl b ts v) us w))%C)).
  - rewrite csum_swap. apply csum_ext. intros w Hw. rewrite <- csum_scal.
    apply csum_ext. intros v Hv. rewrite (map_setl_other b us w ts) by auto.
    rewrite (setl_comm b ts v us w) by auto. ring.
  - intros v Hv. rewrite <- csum_scal. apply csum_ext. intros w Hw.
    rewrite (map_setl_other b ts v us) by auto. ring.
Qed.

Lemma capply_nil M ts psi : capply [] M ts psi = apply M ts psi.
Proof. reflexivity. Qed.

Lemma capply_id cs ts psi : capply cs mid ts psi = psi.
Proof.
  apply functional_extensionality. intros b. unfold capply. rewrite apply_id.
  now destruct (sat cs b).
Qed.

Lemma capply_meq cs M N ts psi : meq (length ts) M N -> capply cs M ts psi = capply cs N ts psi.
Proof. intros H. unfold capply. now rewrite (apply_meq M N). Qed.

Definition apart (cs : list ctl) (ts : list nat) : Prop := forall c, In c cs -> ~ In (fst c) ts.

Lemma apply_restrict M ts psi phi b :
  (forall v, length v = length ts -> psi (setl b ts v) = phi (setl b ts v)) ->
  apply M ts psi b = apply M ts phi b.
Proof.
  intros H. unfold apply. apply csum_ext. intros v Hv. apply allb_In in Hv. now rewrite H.
Qed.

Lemma capply_mul cs M N ts psi : NoDup ts -> apart cs ts ->
  capply cs M ts (capply cs N ts psi) = capply cs (mmul (length ts) M N) ts psi.
Proof.
  intros ND A. apply functional_extensionality. intros b. unfold capply at 1 3.
  destruct (sat cs b) eqn:S.
  - rewrite <- apply_mul by auto. apply apply_restrict.
    intros v _. unfold capply. rewrite sat_setl by auto. now rewrite S.
  - unfold capply. now rewrite S.
Qed.

(** A controlled gate followed by its inverse does nothing. *)
Lemma capply_inverse cs M N ts psi : NoDup ts -> apart cs ts ->
  meq (length ts) (mmul (length ts) M N) mid ->
  capply cs M ts (capply cs N ts psi) = psi.
Proof.
  intros ND A H. rewrite capply_mul by auto. rewrite (capply_meq _ _ mid) by auto. apply capply_id.
Qed.

(** ** Linearity *)
Definition sadd (psi phi : state) : state := fun b => (psi b + phi b)%C.
Definition sscal (c : C) (psi : state) : state := fun b => (c * psi b)%C.

Lemma apply_add M ts psi phi : apply M ts (sadd psi phi) = sadd (apply M ts psi) (apply M ts phi).
Proof.
  apply functional_extensionality. intros b. unfold apply, sadd. rewrite <- csum_add.
  apply csum_ext. intros; ring.
Qed.
Lemma apply_scal M ts c psi : apply M ts (sscal c psi) = sscal c (apply M ts psi).
Proof.
  apply functional_extensionality. intros b. unfold apply, sscal. rewrite <- csum_scal.
  apply csum_ext. intros; ring.
Qed.
Lemma capply_add cs M ts psi phi :
  capply cs M ts (sadd psi phi) = sadd (capply cs M ts psi) (capply cs M ts phi).
Proof.
  apply functional_extensionality. intros b. unfold capply. rewrite apply_add. unfold sadd.
  now destruct (sat cs b).
Qed.
Lemma capply_scal cs M ts c psi : capply cs M ts (sscal c psi) = sscal c (capply cs M ts psi).
Proof.
  apply functional_extensionality. intros b. unfold capply. rewrite apply_scal. unfold sscal.
  now destruct (sat cs b).
Qed.
