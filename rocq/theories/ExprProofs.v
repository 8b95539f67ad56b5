From Coq Require Import Reals List Arith Bool Lra Lia.
From Verif Require Import ExprModel.
Import ListNotations.
Local Open Scope R_scope.

(** Value of a list of terms under a total assignment. *)
Fixpoint tsum (f : nat -> R) (l : list term) : R :=
  match l with [] => 0 | t :: r => snd t * f (fst t) + tsum f r end.
(** Sum of the magnitudes assigned to the variables of a list of terms. *)
Fixpoint absum (f : nat -> R) (l : list term) : R :=
  match l with [] => 0 | t :: r => Rabs (f (fst t)) + absum f r end.
Definition tot (a : nat -> option R) (x : nat) : R := match a x with Some v => v | None => 0 end.
Definition assigned (a : nat -> option R) (l : list term) : Prop := forall t, In t l -> a (fst t) <> None.

Lemma tsum_app f l m : tsum f (l ++ m) = tsum f l + tsum f m.
Proof. induction l; simpl; lra. Qed.
Lemma absum_pos f l : 0 <= absum f l.
Proof. induction l; simpl; [lra|]. pose proof (Rabs_pos (f (fst a))). lra. Qed.

Lemma evaluate_spec a e z : evaluate a e = Some z <-> assigned a (e_terms e) /\ z = e_const e + tsum (tot a) (e_terms e).
Proof.
  unfold evaluate. destruct e as [l c]; simpl. revert c. induction l as [|t l IH]; intros c; simpl.
  - split; [intros H; inversion H; subst; split; [intros t []|lra]|intros [_ ->]; f_equal; lra].
  - unfold eval_term at 2. destruct (a (fst t)) as [v|] eqn:E.
    + rewrite IH. unfold assigned. split.
      * intros [A ->]. split; [intros u [<-|I]; [congruence|auto]|]. unfold tot at 2. rewrite E. lra.
      * intros [A ->]. split; [intros u I; apply A; now right|]. unfold tot at 1. rewrite E. lra.
    + split.
      * intros H. exfalso. clear - H. revert H.
        assert (N : fold_left (fun (s : option R) (t0 : term) =>
          match s with Some s0 => match eval_term a t0 with Some v => Some (v + s0) | None => None end | None => None end) l None = None).
        { induction l; simpl; auto. }
        rewrite N. discriminate.
      * intros [A _]. exfalso. apply (A t); simpl; auto.
Qed.

Section Tol.
Variable tol : R.
Hypothesis tol_pos : 0 < tol.

Lemma small_lt x : small tol x = true -> Rabs x < tol.
Proof. unfold small. destruct (Rlt_dec (Rabs x) tol); auto; discriminate. Qed.

Lemma drop_bound (f : nat -> R) (x : nat) (c : R) : small tol c = true -> Rabs (c * f x) <= tol * Rabs (f x).
Proof.
  intros H. apply small_lt in H. rewrite Rabs_mult. apply Rmult_le_compat_r; [apply Rabs_pos|lra].
Qed.

Lemma add_term_value f l t : Rabs (tsum f (add_term tol l t) - (tsum f l + snd t * f (fst t))) <= tol * Rabs (f (fst t)).
Proof.
  pose proof (Rabs_pos (f (fst t))) as P. assert (0 <= tol * Rabs (f (fst t))) by (apply Rmult_le_pos; lra).
  induction l as [|u l IH]; simpl.
  - replace (_ - _) with 0 by lra. rewrite Rabs_R0. auto.
  - destruct (Nat.ltb_spec (fst u) (fst t)); simpl.
    + replace (_ - _) with (tsum f (add_term tol l t) - (tsum f l + snd t * f (fst t))) by lra. auto.
    + destruct (Nat.eqb_spec (fst u) (fst t)) as [E|]; simpl.
      * destruct (small tol (snd u + snd t)) eqn:S; simpl.
        -- rewrite E. replace (_ - _) with (- ((snd u + snd t) * f (fst t))) by lra. rewrite Rabs_Ropp. now apply drop_bound.
        -- rewrite E. replace (_ - _) with 0 by lra. rewrite Rabs_R0. auto.
      * replace (_ - _) with 0 by lra. rewrite Rabs_R0. auto.
Qed.

Lemma add_term_vars l t x : In x (add_term tol l t) -> fst x = fst t \/ exists u, In u l /\ fst u = fst x.
Proof.
  induction l as [|u l IH]; simpl.
  - intros [<-|[]]. auto.
  - destruct (Nat.ltb (fst u) (fst t)); simpl.
    + intros [<-|I]; [right; eauto|]. destruct (IH I) as [|(w & A & B)]; auto. right; eauto.
    + destruct (Nat.eqb_spec (fst u) (fst t)); simpl.
      * destruct (small _ _); simpl; [intros I; right; eauto|]. intros [<-|I]; [right; exists u; simpl; auto|right; eauto].
      * intros [<-|I]; auto. right. exists x. auto.
Qed.

Lemma add_terms_value f m : forall l, Rabs (tsum f (fold_left (add_term tol) m l) - (tsum f l + tsum f m)) <= tol * absum f m.
Proof.
  induction m as [|t m IH]; intros l; simpl.
  - replace (_ - _) with 0 by lra. rewrite Rabs_R0. lra.
  - specialize (IH (add_term tol l t)). pose proof (add_term_value f l t) as A.
    replace (_ - _) with ((tsum f (fold_left (add_term tol) m (add_term tol l t)) - (tsum f (add_term tol l t) + tsum f m)) +
      (tsum f (add_term tol l t) - (tsum f l + snd t * f (fst t)))) by lra.
    eapply Rle_trans; [apply Rabs_triang|]. lra.
Qed.

Lemma add_terms_vars m : forall l x, In x (fold_left (add_term tol) m l) ->
  (exists u, In u l /\ fst u = fst x) \/ exists u, In u m /\ fst u = fst x.
Proof.
  induction m as [|t m IH]; intros l x I; simpl in I; [left; eauto|].
  destruct (IH _ _ I) as [(u & A & B)|(u & A & B)]; [|right; simpl; eauto].
  destruct (add_term_vars _ _ _ A) as [E|(w & C & D)]; [right; exists t; simpl; split; auto; congruence|].
  left. exists w. split; auto. congruence.
Qed.

Lemma is_zero_spec e : is_zero e = true -> e_terms e = [] /\ e_const e = 0.
Proof.
  unfold is_zero, iszero_b. destruct (e_terms e); [|discriminate]. destruct (Req_EM_T (e_const e) 0); [auto|discriminate].
Qed.

Lemma add_expr_value a e f x y : evaluate a e = Some x -> evaluate a f = Some y ->
  exists z, evaluate a (add_expr tol e f) = Some z /\ Rabs (z - (x + y)) <= tol * absum (tot a) (e_terms f).
Proof.
  intros E F. apply evaluate_spec in E, F. destruct E as [AE ->], F as [AF ->].
  pose proof (absum_pos (tot a) (e_terms f)). assert (0 <= tol * absum (tot a) (e_terms f)) by (apply Rmult_le_pos; lra).
  unfold add_expr. destruct (is_zero e) eqn:ZE.
  - apply is_zero_spec in ZE. destruct ZE as [T C]. exists (e_const f + tsum (tot a) (e_terms f)).
    split; [apply evaluate_spec; auto|]. rewrite T, C. simpl. replace (_ - _) with 0 by lra. rewrite Rabs_R0. auto.
  - destruct (is_zero f) eqn:ZF.
    + apply is_zero_spec in ZF. destruct ZF as [T C]. exists (e_const e + tsum (tot a) (e_terms e)).
      split; [apply evaluate_spec; auto|]. rewrite T, C in *. simpl in *. replace (_ - _) with 0 by lra. rewrite Rabs_R0. auto.
    + eexists. split; [apply evaluate_spec; split; [|reflexivity]|].
      * intros t I. simpl in I. apply add_terms_vars in I. destruct I as [(u & I & <-)|(u & I & <-)]; auto.
      * simpl. pose proof (add_terms_value (tot a) (e_terms f) (e_terms e)) as A.
        match goal with |- Rabs ?t <= _ => replace t with (tsum (tot a) (fold_left (add_term tol) (e_terms f) (e_terms e)) -
          (tsum (tot a) (e_terms e) + tsum (tot a) (e_terms f))) by lra end. auto.
Qed.

Lemma neg_terms_value f l : tsum f (map neg_term l) = - tsum f l.
Proof. induction l; simpl; lra. Qed.
Lemma neg_absum f l : absum f (map neg_term l) = absum f l.
Proof. induction l; simpl; lra. Qed.

Lemma neg_expr_value a e x : evaluate a e = Some x -> evaluate a (neg_expr e) = Some (- x).
Proof.
  intros E. apply evaluate_spec in E. destruct E as [A ->]. apply evaluate_spec. simpl. split.
  - intros t I. apply in_map_iff in I. destruct I as (u & <- & I). simpl. auto.
  - rewrite neg_terms_value. lra.
Qed.

Lemma sub_expr_value a e f x y : evaluate a e = Some x -> evaluate a f = Some y ->
  exists z, evaluate a (sub_expr tol e f) = Some z /\ Rabs (z - (x - y)) <= tol * absum (tot a) (e_terms f).
Proof.
  intros E F. apply neg_expr_value in F. destruct (add_expr_value _ _ _ _ _ E F) as (z & Z & B).
  exists z. split; auto. simpl in B. rewrite neg_absum in B. replace (z - (x - y)) with (z - (x + - y)) by lra. auto.
Qed.

Lemma add_const_value a e c x : evaluate a e = Some x -> evaluate a (add_const e c) = Some (x + c).
Proof.
  intros E. apply evaluate_spec in E. destruct E as [A ->]. apply evaluate_spec. simpl. split; auto. lra.
Qed.

Lemma scale_terms f g l : tsum f (map (fun t : term => (fst t, snd t * g)) l) = tsum f l * g.
Proof. induction l; simpl; lra. Qed.

Lemma mul_expr_value a e k x : evaluate a e = Some x -> small tol k = false -> evaluate a (mul_expr tol e k) = Some (x * k).
Proof.
  intros E S. apply evaluate_spec in E. destruct E as [A ->]. apply evaluate_spec. unfold mul_expr. rewrite S. simpl. split.
  - intros t I. apply in_map_iff in I. destruct I as (u & <- & I). simpl. auto.
  - rewrite scale_terms. lra.
Qed.
Lemma mul_expr_small a e k : small tol k = true -> evaluate a (mul_expr tol e k) = Some 0.
Proof. intros S. unfold mul_expr. rewrite S. reflexivity. Qed.

Lemma div_expr_value a e k x : evaluate a e = Some x -> small tol k = false ->
  exists e', div_expr tol e k = Some e' /\ evaluate a e' = Some (x / k).
Proof.
  intros E S. unfold div_expr. rewrite S. eexists. split; [reflexivity|].
  apply evaluate_spec in E. destruct E as [A ->]. apply evaluate_spec. simpl. split.
  - intros t I. apply in_map_iff in I. destruct I as (u & <- & I). simpl. auto.
  - unfold Rdiv. rewrite scale_terms. lra.
Qed.
Lemma div_int_value a e k x : evaluate a e = Some x -> k <> 0%Z ->
  exists e', div_int e k = Some e' /\ evaluate a e' = Some (x / IZR k).
Proof.
  intros E S. unfold div_int. destruct (Z.eqb_spec k 0); [tauto|]. eexists. split; [reflexivity|].
  apply evaluate_spec in E. destruct E as [A ->]. apply evaluate_spec. simpl. split.
  - intros t I. apply in_map_iff in I. destruct I as (u & <- & I). simpl. auto.
  - unfold Rdiv. rewrite scale_terms. lra.
Qed.

(** Constructor. *)
Lemma ins_term_value f t l : tsum f (ins_term t l) = snd t * f (fst t) + tsum f l.
Proof. induction l as [|u l IH]; simpl; [lra|]. destruct (Nat.ltb (fst u) (fst t)); simpl; [rewrite IH|]; lra. Qed.
Lemma sort_value f l : tsum f (sort_terms l) = tsum f l.
Proof. induction l as [|t l IH]; simpl; [lra|]. rewrite ins_term_value. unfold sort_terms in *. lra. Qed.
Lemma ins_term_absum f t l : absum f (ins_term t l) = Rabs (f (fst t)) + absum f l.
Proof. induction l as [|u l IH]; simpl; [lra|]. destruct (Nat.ltb (fst u) (fst t)); simpl; [rewrite IH|]; lra. Qed.
Lemma sort_absum f l : absum f (sort_terms l) = absum f l.
Proof. induction l as [|t l IH]; simpl; [lra|]. rewrite ins_term_absum. unfold sort_terms in *. lra. Qed.
Lemma ins_term_In t l x : In x (ins_term t l) -> x = t \/ In x l.
Proof.
  induction l as [|u l IH]; simpl; [intuition|]. destruct (Nat.ltb (fst u) (fst t)); simpl; [|intuition].
  intros [<-|I]; auto. destruct (IH I); auto.
Qed.
Lemma sort_In l x : In x (sort_terms l) -> In x l.
Proof. induction l; simpl; auto. intros I. apply ins_term_In in I. destruct I as [->|I]; auto. Qed.

Lemma aggregate_value f l : forall t, Rabs (tsum f (aggregate_from tol t l) - (snd t * f (fst t) + tsum f l)) <=
  tol * (Rabs (f (fst t)) + absum f l).
Proof.
  induction l as [|u l IH]; intros t; simpl.
  - pose proof (Rabs_pos (f (fst t))). assert (0 <= tol * Rabs (f (fst t))) by (apply Rmult_le_pos; lra).
    destruct (small tol (snd t)) eqn:S; simpl.
    + replace (_ - _) with (- (snd t * f (fst t))) by lra. rewrite Rabs_Ropp. pose proof (drop_bound f (fst t) _ S). lra.
    + replace (_ - _) with 0 by lra. rewrite Rabs_R0. lra.
  - pose proof (Rabs_pos (f (fst t))). assert (0 <= tol * Rabs (f (fst t))) by (apply Rmult_le_pos; lra).
    destruct (Nat.eqb_spec (fst t) (fst u)) as [E|NE].
    + specialize (IH (fst t, snd t + snd u)). simpl in IH. rewrite <- E.
      match type of IH with Rabs ?x <= _ => match goal with |- Rabs ?y <= _ => replace y with x by lra end end. lra.
    + specialize (IH u). destruct (small tol (snd t)) eqn:S; simpl.
      * replace (_ - _) with ((tsum f (aggregate_from tol u l) - (snd u * f (fst u) + tsum f l)) + - (snd t * f (fst t))) by lra.
        eapply Rle_trans; [apply Rabs_triang|]. rewrite Rabs_Ropp. pose proof (drop_bound f (fst t) _ S). lra.
      * match type of IH with Rabs ?x <= _ => match goal with |- Rabs ?y <= _ => replace y with x by lra end end. lra.
Qed.
Lemma aggregate_In l : forall t x, In x (aggregate_from tol t l) -> exists u, (u = t \/ In u l) /\ fst u = fst x.
Proof.
  induction l as [|u l IH]; intros t x; simpl.
  - destruct (small tol (snd t)); simpl; [tauto|]. intros [<-|[]]. eauto.
  - destruct (Nat.eqb_spec (fst t) (fst u)) as [E|NE].
    + intros I. apply IH in I. destruct I as (w & [->|I] & EQ); [exists t; auto|exists w; auto].
    + destruct (small tol (snd t)); [|intros [<-|I]; [eauto|]]; [intros I|]; apply IH in I; destruct I as (w & [->|I] & EQ); eauto.
Qed.

Lemma mk_expr_value a l : assigned a l -> exists z, evaluate a (mk_expr tol l) = Some z /\
  Rabs (z - tsum (tot a) l) <= tol * absum (tot a) l.
Proof.
  intros A. eexists. split; [apply evaluate_spec; split; [|reflexivity]|].
  - unfold mk_expr. simpl. unfold aggregate. intros t I. destruct (sort_terms l) eqn:E; [destruct I|].
    apply aggregate_In in I. destruct I as (u & I & <-). apply A. apply sort_In. rewrite E. destruct I as [->|]; simpl; auto.
  - unfold mk_expr. simpl. rewrite <- (sort_value _ l), <- (sort_absum _ l). unfold aggregate. destruct (sort_terms l).
    + simpl. replace (_ - _) with 0 by lra. rewrite Rabs_R0. lra.
    + pose proof (aggregate_value (tot a) l0 t) as B. simpl. 
      match type of B with Rabs ?x <= _ => match goal with |- Rabs ?y <= _ => replace y with x by lra end end. auto.
Qed.

(** Sortedness is kept. *)
Fixpoint sorted (l : list term) : Prop :=
  match l with [] => True | t :: r => (forall u, In u r -> (fst t < fst u)%nat) /\ sorted r end.

Lemma add_term_sorted l t : sorted l -> sorted (add_term tol l t).
Proof.
  induction l as [|u l IH]; simpl; [intuition|]. intros [A B].
  destruct (Nat.ltb_spec (fst u) (fst t)); simpl.
  - split; auto. intros w I. apply add_term_vars in I. destruct I as [->|(v & I & E)]; auto. rewrite <- E. auto.
  - destruct (Nat.eqb_spec (fst u) (fst t)); simpl.
    + destruct (small _ _); simpl; auto.
    + split; [|simpl; auto]. intros w [<-|I]; [lia|]. specialize (A _ I). lia.
Qed.
Lemma add_expr_sorted e f : sorted (e_terms e) -> sorted (e_terms f) -> sorted (e_terms (add_expr tol e f)).
Proof.
  intros A B. unfold add_expr. destruct (is_zero e); auto. destruct (is_zero f); auto. simpl. clear B.
  revert A. generalize (e_terms e). induction (e_terms f); intros l0 S; simpl; auto. apply IHl. now apply add_term_sorted.
Qed.
Lemma neg_sorted l : sorted l -> sorted (map neg_term l).
Proof.
  induction l; simpl; auto. intros [A B]. split; auto. intros u I. apply in_map_iff in I. destruct I as (w & <- & I). simpl. auto.
Qed.

(** weakly sorted, as produced by [sort_terms] *)
Fixpoint wsorted (l : list term) : Prop :=
  match l with [] => True | t :: r => (forall u, In u r -> (fst t <= fst u)%nat) /\ wsorted r end.
Lemma ins_term_ws t l : wsorted l -> wsorted (ins_term t l).
Proof.
  induction l as [|u l IH]; simpl; [intuition|]. intros [A B]. destruct (Nat.ltb_spec (fst u) (fst t)); simpl.
  - split; auto. intros w I. apply ins_term_In in I. destruct I as [->|I]; [lia|auto].
  - split; auto. intros w [<-|I]; auto. specialize (A _ I). lia.
Qed.
Lemma sort_ws l : wsorted (sort_terms l).
Proof. induction l; simpl; auto. now apply ins_term_ws. Qed.
Lemma aggregate_sorted l : forall t, wsorted (t :: l) -> sorted (aggregate_from tol t l).
Proof.
  induction l as [|u l IH]; intros t [A B]; simpl.
  - destruct (small tol (snd t)); simpl; auto. split; auto. intros u [].
  - destruct (Nat.eqb_spec (fst t) (fst u)) as [E|NE].
    + apply IH. destruct B as [B1 B2]. split; auto. intros w I. simpl. rewrite E. auto.
    + assert (sorted (aggregate_from tol u l)) by (apply IH; exact B).
      destruct (small tol (snd t)); simpl; auto. split; auto. intros w I. apply aggregate_In in I. destruct I as (v & I & <-).
      assert (fst u <= fst v)%nat by (destruct I as [->|I]; [lia|apply B; auto]).
      assert (fst t <= fst u)%nat by (apply A; simpl; auto). lia.
Qed.
Lemma mk_expr_sorted l : sorted (e_terms (mk_expr tol l)).
Proof.
  unfold mk_expr, aggregate. simpl. pose proof (sort_ws l) as W. destruct (sort_terms l); simpl; auto. now apply aggregate_sorted.
Qed.
End Tol.
