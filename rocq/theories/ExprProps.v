(** C30: arithmetic on symbolic expressions. *)
From Coq Require Import Reals List Arith Bool Lra Lia ZArith.
From Verif Require Import ExprModel ExprProofs.
Import ListNotations.
Local Open Scope R_scope.

Section Statements.
(** The value of a variable under a partial assignment, 0 when unassigned; and
    the total magnitude of the variables occurring in an expression. Terms
    whose coefficient falls below [tol] are dropped by the code, so sums are
    exact up to [tol] times that magnitude. *)
Definition magnitude (a : nat -> option R) (e : expr) : R := absum (tot a) (e_terms e).

(** Sums and differences. *)
Theorem C30_sum_partial (tol : R) (a : nat -> option R) (e f : expr) (x y : R) :
  0 < tol -> evaluate a e = Some x -> evaluate a f = Some y ->
  exists z, evaluate a (op_expr_plus_expr tol e f) = Some z /\ Rabs (z - (x + y)) <= tol * magnitude a f.
Proof. intros P E F. exact (add_expr_value tol P a e f x y E F). Qed.
Print Assumptions C30_sum_partial.

Theorem C30_difference_partial (tol : R) (a : nat -> option R) (e f : expr) (x y : R) :
  0 < tol -> evaluate a e = Some x -> evaluate a f = Some y ->
  exists z, evaluate a (op_expr_minus_expr tol e f) = Some z /\ Rabs (z - (x - y)) <= tol * magnitude a f.
Proof. intros P E F. exact (sub_expr_value tol P a e f x y E F). Qed.
Print Assumptions C30_difference_partial.

(** Nothing is dropped, and the sum is exact, when no coefficient cancels to a
    small nonzero number. *)
Definition coeff (l : list term) (v : nat) : R := fold_right (fun t s => if Nat.eqb (fst t) v then snd t + s else s) 0 l.
Definition no_near_cancellation (tol : R) (e f : expr) : Prop :=
  forall v, Rabs (coeff (e_terms e) v + coeff (e_terms f) v) < tol -> coeff (e_terms e) v + coeff (e_terms f) v = 0.

Lemma coeff_notin l v : (forall u, In u l -> fst u <> v) -> coeff l v = 0.
Proof.
  induction l as [|t l IH]; simpl; auto. intros H. destruct (Nat.eqb_spec (fst t) v) as [E|]; [exfalso; apply (H t); auto|].
  apply IH. intros u I. apply H. auto.
Qed.

Lemma add_term_exact tol f t : forall l, sorted l ->
  (Rabs (coeff l (fst t) + snd t) < tol -> coeff l (fst t) + snd t = 0) ->
  tsum f (add_term tol l t) = tsum f l + snd t * f (fst t).
Proof.
  induction l as [|u l IH]; intros S H; simpl; [lra|]. destruct S as [S1 S2]. simpl in H.
  destruct (Nat.ltb_spec (fst u) (fst t)); simpl.
  - destruct (Nat.eqb_spec (fst u) (fst t)); [lia|]. rewrite IH; auto. lra.
  - destruct (Nat.eqb_spec (fst u) (fst t)) as [E|]; simpl; [|lra].
    rewrite (coeff_notin l) in H by (intros w I; specialize (S1 w I); lia). rewrite Rplus_0_r in H.
    unfold small. destruct (Rlt_dec (Rabs (snd u + snd t)) tol) as [L|]; simpl; rewrite E; [|lra].
    specialize (H L). replace (snd t) with (- snd u) by lra. lra.
Qed.
Lemma add_term_coeff tol t v : forall l, sorted l -> v <> fst t -> coeff (add_term tol l t) v = coeff l v.
Proof.
  induction l as [|u l IH]; intros S N; simpl.
  - destruct (Nat.eqb_spec (fst t) v); [congruence|auto].
  - destruct S as [S1 S2]. destruct (Nat.ltb_spec (fst u) (fst t)); simpl.
    + rewrite IH; auto.
    + destruct (Nat.eqb_spec (fst u) (fst t)) as [E|]; simpl.
      * destruct (small _ _); simpl; destruct (Nat.eqb_spec (fst u) v); congruence || auto.
      * destruct (Nat.eqb_spec (fst t) v); [congruence|auto].
Qed.
Lemma add_terms_exact tol f : forall m l, sorted l -> sorted m ->
  (forall v, Rabs (coeff l v + coeff m v) < tol -> coeff l v + coeff m v = 0) ->
  tsum f (fold_left (add_term tol) m l) = tsum f l + tsum f m.
Proof.
  induction m as [|t m IH]; intros l S M H; simpl; [lra|]. destruct M as [M1 M2].
  assert (N : coeff m (fst t) = 0) by (apply coeff_notin; intros u I; specialize (M1 u I); lia).
  rewrite IH; auto.
  - rewrite add_term_exact; auto; [lra|]. specialize (H (fst t)). simpl in H. rewrite Nat.eqb_refl, N, Rplus_0_r in H. auto.
  - apply add_term_sorted; auto.
  - intros v. destruct (Nat.eq_dec v (fst t)) as [->|NE].
    + rewrite N, Rplus_0_r. intros L. 
      specialize (H (fst t)). simpl in H. rewrite Nat.eqb_refl, N, Rplus_0_r in H. revert L H S.
      clear. intros L H S. 
      assert (K : coeff (add_term tol l t) (fst t) = coeff l (fst t) + snd t \/ coeff (add_term tol l t) (fst t) = 0 ).
      { clear L H. induction l as [|u l IH]; simpl; [rewrite Nat.eqb_refl; left; lra|]. destruct S as [S1 S2].
        destruct (Nat.ltb_spec (fst u) (fst t)); simpl.
        - destruct (Nat.eqb_spec (fst u) (fst t)); [lia|]. auto.
        - destruct (Nat.eqb_spec (fst u) (fst t)) as [E|]; simpl.
          + rewrite (coeff_notin l) by (intros w I; specialize (S1 w I); lia).
            destruct (small _ _); simpl.
            * right. apply coeff_notin. intros w I; specialize (S1 w I); lia.
            * rewrite E, Nat.eqb_refl. left. rewrite (coeff_notin l) by (intros w I; specialize (S1 w I); lia). lra.
          + rewrite Nat.eqb_refl. destruct (Nat.eqb_spec (fst u) (fst t)); [lia|]. left. lra. }
      destruct K as [K|K]; rewrite K in *; auto.
    + rewrite add_term_coeff by auto. specialize (H v). simpl in H. destruct (Nat.eqb_spec (fst t) v); [congruence|]. auto.
Qed.

(** Exact sums: the terms of both operands are sorted by variable, as every
    constructor and operator leaves them. *)
Theorem C30_sum_exact (tol : R) (a : nat -> option R) (e f : expr) (x y : R) :
  0 < tol -> sorted (e_terms e) -> sorted (e_terms f) -> no_near_cancellation tol e f ->
  evaluate a e = Some x -> evaluate a f = Some y ->
  evaluate a (op_expr_plus_expr tol e f) = Some (x + y).
Proof.
  intros P SE SF N E F. pose proof E as E'. pose proof F as F'. apply evaluate_spec in E, F. destruct E as [AE ->], F as [AF ->].
  destruct (add_expr_value tol P a e f _ _ E' F') as (z & Z & _). unfold op_expr_plus_expr. rewrite Z. f_equal. apply evaluate_spec in Z. destruct Z as [_ ->].
  unfold add_expr. destruct (is_zero e) eqn:ZE; [|destruct (is_zero f) eqn:ZF].
  - apply is_zero_spec in ZE. destruct ZE as [-> ->]. simpl. lra.
  - apply is_zero_spec in ZF. destruct ZF as [-> ->]. simpl. lra.
  - simpl. rewrite add_terms_exact; auto. lra.
Qed.
Print Assumptions C30_sum_exact.

Theorem C30_sorted_kept (tol : R) (e f : expr) (l : list term) :
  sorted (e_terms (mk_expr tol l)) /\
  (sorted (e_terms e) -> sorted (e_terms f) -> sorted (e_terms (add_expr tol e f)) /\ sorted (e_terms (sub_expr tol e f))).
Proof.
  split; [apply mk_expr_sorted|]. intros A B. split; [now apply add_expr_sorted|].
  unfold sub_expr. apply add_expr_sorted; auto. now apply neg_sorted.
Qed.
Print Assumptions C30_sorted_kept.

(** Construction from a list of terms. *)
Theorem C30_construct_partial (tol : R) (a : nat -> option R) (l : list term) :
  0 < tol -> (forall t, In t l -> a (fst t) <> None) ->
  exists z, evaluate a (mk_expr tol l) = Some z /\ Rabs (z - tsum (tot a) l) <= tol * absum (tot a) l.
Proof. intros P A. exact (mk_expr_value tol P a l A). Qed.
Print Assumptions C30_construct_partial.

(** Negation, constants, products and quotients are exact. *)
Theorem C30_scalar (tol : R) (a : nat -> option R) (e : expr) (x c k : R) (n : Z) :
  evaluate a e = Some x ->
  evaluate a (neg_expr e) = Some (- x) /\
  evaluate a (op_const_plus_expr c e) = Some (x + c) /\
  evaluate a (sub_const e c) = Some (x - c) /\
  (tol <= Rabs k -> evaluate a (mul_expr tol e k) = Some (x * k)) /\
  (Rabs k < tol -> evaluate a (mul_expr tol e k) = Some 0) /\
  (tol <= Rabs k -> exists q, div_expr tol e k = Some q /\ evaluate a q = Some (x / k)) /\
  (div_expr tol e k = None <-> Rabs k < tol) /\
  (n <> 0%Z -> exists q, div_int e n = Some q /\ evaluate a q = Some (x / IZR n)).
Proof.
  intros E. assert (S : forall b, small tol k = b <-> if b then Rabs k < tol else tol <= Rabs k).
  { intros b. unfold small. destruct (Rlt_dec (Rabs k) tol); destruct b; split; intros; auto; try discriminate; lra. }
  split; [now apply neg_expr_value|]. split; [now apply add_const_value|]. split; [apply (add_const_value a e (- c) x E)|].
  split; [intros K; apply mul_expr_value; auto; now apply (S false)|].
  split; [intros K; apply mul_expr_small; now apply (S true)|].
  split; [intros K; apply div_expr_value; auto; now apply (S false)|].
  split; [|intros N; now apply div_int_value].
  unfold div_expr. specialize (S (small tol k)). destruct S as [S _]. specialize (S eq_refl).
  destruct (small tol k); split; intros K; auto; try discriminate. lra.
Qed.
Print Assumptions C30_scalar.
End Statements.

Definition tol9 : R := / 1000000000.
Definition asg (x : nat) : option R := if Nat.ltb x 3 then Some (INR x + 1) else None.
Definition X : expr := {| e_terms := [(0%nat, 2)]; e_const := 1 |}.    (* 2x + 1 *)
Definition Y : expr := {| e_terms := [(1%nat, 3)]; e_const := 0 |}.    (* 3y *)

Example X_plus_Y : evaluate asg (op_expr_plus_expr tol9 X Y) = Some 9.
Proof.
  replace 9 with (3 + 6) by lra. apply C30_sum_exact; try (simpl; tauto); try (simpl; split; auto; intros u []).
  - unfold tol9. lra.
  - intros v. simpl. destruct v as [|[|v]]; simpl; intros K; try lra; unfold tol9 in K; exfalso; revert K; unfold Rabs; destruct (Rcase_abs _); lra.
  - unfold evaluate, eval_term, asg; simpl. f_equal. lra.
  - unfold evaluate, eval_term, asg; simpl. f_equal. lra.
Qed.

(** [term - expression] and [constant - expression] have the wrong sign:
    lines 721-730. *)
Theorem C30_term_minus_refuted : exists (t : term) (e : expr) (a : nat -> option R) (x v z : R),
  eval_term a t = Some v /\ evaluate a e = Some x /\
  evaluate a (op_term_minus_expr tol9 t e) = Some z /\ z = x - v /\ z <> v - x.
Proof.
  exists (1%nat, 3), X, asg, 3, 6, (3 - 6).
  assert (E : evaluate asg X = Some 3) by (unfold evaluate, eval_term, asg; simpl; f_equal; lra).
  split; [unfold eval_term, asg; simpl; f_equal; lra|]. split; auto. split; [|lra].
  unfold op_term_minus_expr, sub_one, add_one, mk_expr, neg_term, sort_terms. simpl.
  unfold small. destruct (Rlt_dec (Rabs (-(3))) tol9) as [L|N].
  - exfalso. unfold tol9 in L. revert L. unfold Rabs. destruct (Rcase_abs _); lra.
  - unfold add_expr, is_zero, X. simpl. unfold evaluate, eval_term, asg. simpl. f_equal. lra.
Qed.
Print Assumptions C30_term_minus_refuted.

Theorem C30_constant_minus_refuted : exists (c : R) (e : expr) (a : nat -> option R) (x z : R),
  evaluate a e = Some x /\ evaluate a (op_const_minus_expr c e) = Some z /\ z <> c - x.
Proof.
  exists 0, X, asg, 3, (3 - 0).
  assert (E : evaluate asg X = Some 3) by (unfold evaluate, eval_term, asg; simpl; f_equal; lra).
  split; auto. split; [apply (add_const_value _ _ (-0) _ E)|lra].
Qed.
Print Assumptions C30_constant_minus_refuted.

(** [coefficient + expression] doubles the expression: lines 704-709. *)
Theorem C30_coefficient_plus_refuted : exists (c : R) (e : expr) (a : nat -> option R) (x z : R),
  evaluate a e = Some x /\ evaluate a (op_coeff_plus_expr tol9 c e) = Some z /\ z <> c + x.
Proof.
  exists 0, X, asg, 3, (3 + 3).
  assert (E : evaluate asg X = Some 3) by (unfold evaluate, eval_term, asg; simpl; f_equal; lra).
  split; auto. split; [|lra]. apply C30_sum_exact; try (simpl; tauto); auto; try (simpl; split; auto; intros u []).
  - unfold tol9. lra.
  - intros v. simpl. destruct v as [|v]; simpl; intros K; try lra; unfold tol9 in K; exfalso; revert K; unfold Rabs; destruct (Rcase_abs _); lra.
Qed.
Print Assumptions C30_coefficient_plus_refuted.

(** [constant / term] divides the term by the constant: lines 258-262. *)
Theorem C30_constant_div_term_refuted : exists (c : R) (t : term) (a : nat -> option R) (v z : R),
  eval_term a t = Some v /\ v <> 0 /\ eval_term a (op_const_div_term c t) = Some z /\ z <> c / v.
Proof.
  exists 1, (1%nat, 3), asg, 6, 6. unfold eval_term, op_const_div_term, asg; simpl.
  split; [f_equal; lra|]. split; [lra|]. split; [f_equal; lra|lra].
Qed.
Print Assumptions C30_constant_div_term_refuted.

(** Expressions in different variables compare equal: lines 789-802. *)
Theorem C30_equality_refuted : exists (e f : expr) (a : nat -> option R) (x y : R),
  expr_eqb tol9 e f = true /\ evaluate a e = Some x /\ evaluate a f = Some y /\ x <> y.
Proof.
  exists {| e_terms := [(0%nat, 1)]; e_const := 0 |}, {| e_terms := [(1%nat, 1)]; e_const := 0 |}, asg, 1, 2.
  split; [|unfold evaluate, eval_term, asg; simpl; split; [f_equal; lra|split; [f_equal; lra|lra]]].
  unfold expr_eqb, iszero_b, terms_eqb, small. simpl.
  destruct (Req_EM_T (0 - 0) 0); [|lra]. destruct (Rlt_dec (Rabs (1 - 1)) tol9) as [|N]; auto.
  exfalso. apply N. replace (1 - 1) with 0 by lra. rewrite Rabs_R0. unfold tol9. lra.
Qed.
Print Assumptions C30_equality_refuted.
