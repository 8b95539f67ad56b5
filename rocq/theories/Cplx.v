(** Complex numbers over Coq's real numbers. *)
From Coq Require Import Reals Lra List Bool Ring Field Psatz.
Import ListNotations.
Local Open Scope R_scope.

Definition C : Type := (R * R)%type.

Declare Scope C_scope.
Delimit Scope C_scope with C.
Bind Scope C_scope with C.

Definition RtoC (x : R) : C := (x, 0).
Definition C0 : C := (0, 0).
Definition C1 : C := (1, 0).
Definition Ci : C := (0, 1).
Definition Cadd (x y : C) : C := (fst x + fst y, snd x + snd y).
Definition Copp (x : C) : C := (- fst x, - snd x).
Definition Csub (x y : C) : C := Cadd x (Copp y).
Definition Cmul (x y : C) : C :=
  (fst x * fst y - snd x * snd y, fst x * snd y + snd x * fst y).
Definition Cconj (x : C) : C := (fst x, - snd x).
(** Squared magnitude. *)
Definition Cnorm2 (x : C) : R := fst x * fst x + snd x * snd x.
Definition Cmod (x : C) : R := sqrt (Cnorm2 x).
Definition Cinv (x : C) : C := (fst x / Cnorm2 x, - snd x / Cnorm2 x).
Definition Cdiv (x y : C) : C := Cmul x (Cinv y).
(** e^{i t} *)
Definition Cexp (t : R) : C := (cos t, sin t).

Infix "+" := Cadd : C_scope.
Infix "-" := Csub : C_scope.
Notation "- x" := (Copp x) : C_scope.
Infix "*" := Cmul : C_scope.
Notation "/ x" := (Cinv x) : C_scope.
Infix "/" := Cdiv : C_scope.

Lemma Ceq (x y : C) : fst x = fst y -> snd x = snd y -> x = y.
Proof. destruct x, y; simpl; intros; now subst. Qed.

Lemma C_ring : ring_theory C0 C1 Cadd Cmul Csub Copp eq.
Proof.
  constructor; intros; apply Ceq; unfold C0, C1, Cadd, Cmul, Csub, Copp; simpl; ring.
Qed.

Lemma Cnorm2_pos x : 0 <= Cnorm2 x.
Proof. unfold Cnorm2. nra. Qed.

Lemma Cnorm2_zero x : Cnorm2 x = 0 <-> x = C0.
Proof.
  unfold Cnorm2, C0. destruct x as [a b]; simpl. split.
  - intros H. assert (a * a = 0) by nra. assert (b * b = 0) by nra.
    apply Rmult_integral in H0. apply Rmult_integral in H1. f_equal; tauto.
  - intros H; inversion H. ring.
Qed.

Lemma Cnorm2_neq x : x <> C0 -> Cnorm2 x <> 0.
Proof. intros H E. apply H. now apply Cnorm2_zero. Qed.

Lemma C1_neq_C0 : C1 <> C0.
Proof. unfold C1, C0. intros H; inversion H. lra. Qed.

Lemma C_field : field_theory C0 C1 Cadd Cmul Csub Copp Cdiv Cinv eq.
Proof.
  constructor.
  - exact C_ring.
  - exact C1_neq_C0.
  - reflexivity.
  - intros p H. apply Cnorm2_neq in H. unfold Cinv, Cnorm2, C1, Cmul in *.
    apply Ceq; simpl; field; exact H.
Qed.

Add Field CField : C_field.

Lemma Ceq_dec (x y : C) : {x = y} + {x <> y}.
Proof.
  destruct x as [a b], y as [c d].
  destruct (Req_EM_T a c); [|right; congruence].
  destruct (Req_EM_T b d); [left; congruence|right; congruence].
Defined.

Definition Ceqb (x y : C) : bool := if Ceq_dec x y then true else false.

Lemma Ceqb_eq x y : Ceqb x y = true <-> x = y.
Proof. unfold Ceqb. destruct (Ceq_dec x y); split; congruence. Qed.

Lemma Ceqb_refl x : Ceqb x x = true.
Proof. now apply Ceqb_eq. Qed.

Lemma Ceqb_neq x y : Ceqb x y = false <-> x <> y.
Proof. unfold Ceqb. destruct (Ceq_dec x y); split; congruence. Qed.

Lemma Cmul_zero x y : (x * y)%C = C0 -> x = C0 \/ y = C0.
Proof.
  intros H. destruct (Ceq_dec x C0); auto. right.
  replace y with (/ x * (x * y))%C by (field; auto). rewrite H. ring.
Qed.

Lemma Cmul_neq0 x y : x <> C0 -> y <> C0 -> (x * y)%C <> C0.
Proof. intros H K E. apply Cmul_zero in E. tauto. Qed.

Lemma Cinv_neq0 x : x <> C0 -> (/ x)%C <> C0.
Proof.
  intros H E. assert (x * / x = C1)%C by (field; auto). rewrite E in H0.
  apply C1_neq_C0. rewrite <- H0. ring.
Qed.

Lemma Cmul_cancel_l a x y : a <> C0 -> (a * x = a * y)%C -> x = y.
Proof.
  intros H E. replace x with (/ a * (a * x))%C by (field; auto). rewrite E. field; auto.
Qed.

(** ** Conjugation and magnitude *)
Lemma Cconj_conj x : Cconj (Cconj x) = x.
Proof. apply Ceq; unfold Cconj; simpl; ring. Qed.
Lemma Cconj_add x y : Cconj (x + y) = (Cconj x + Cconj y)%C.
Proof. apply Ceq; unfold Cconj, Cadd; simpl; ring. Qed.
Lemma Cconj_mul x y : Cconj (x * y) = (Cconj x * Cconj y)%C.
Proof. apply Ceq; unfold Cconj, Cmul; simpl; ring. Qed.
Lemma Cconj_opp x : Cconj (- x) = (- Cconj x)%C.
Proof. apply Ceq; unfold Cconj, Copp; simpl; ring. Qed.
Lemma Cconj_0 : Cconj C0 = C0.
Proof. apply Ceq; unfold Cconj, C0; simpl; ring. Qed.
Lemma Cconj_1 : Cconj C1 = C1.
Proof. apply Ceq; unfold Cconj, C1; simpl; ring. Qed.
Lemma Cconj_norm2 x : (Cconj x * x)%C = RtoC (Cnorm2 x).
Proof. apply Ceq; unfold Cconj, Cmul, Cnorm2, RtoC; simpl; ring. Qed.

Lemma Cnorm2_mul x y : Cnorm2 (x * y) = Cnorm2 x * Cnorm2 y.
Proof. unfold Cnorm2, Cmul; simpl; ring. Qed.
Lemma Cnorm2_conj x : Cnorm2 (Cconj x) = Cnorm2 x.
Proof. unfold Cnorm2, Cconj; simpl; ring. Qed.
Lemma Cnorm2_RtoC x : Cnorm2 (RtoC x) = x * x.
Proof. unfold Cnorm2, RtoC; simpl; ring. Qed.
Lemma Cnorm2_0 : Cnorm2 C0 = 0.
Proof. unfold Cnorm2, C0; simpl; ring. Qed.
Lemma Cnorm2_1 : Cnorm2 C1 = 1.
Proof. unfold Cnorm2, C1; simpl; ring. Qed.

Lemma Cmod_pos x : 0 <= Cmod x.
Proof. apply sqrt_pos. Qed.
Lemma Cmod_sq x : Cmod x * Cmod x = Cnorm2 x.
Proof. apply sqrt_sqrt, Cnorm2_pos. Qed.
Lemma Cmod_zero x : Cmod x = 0 <-> x = C0.
Proof.
  rewrite <- Cnorm2_zero. unfold Cmod. split.
  - intros H. apply sqrt_eq_0 in H; auto. apply Cnorm2_pos.
  - intros ->. apply sqrt_0.
Qed.
Lemma Cmod_mul x y : Cmod (x * y) = Cmod x * Cmod y.
Proof. unfold Cmod. rewrite Cnorm2_mul. apply sqrt_mult; apply Cnorm2_pos. Qed.

(** ** Reals as complex numbers *)
Lemma RtoC_add x y : RtoC (x + y) = (RtoC x + RtoC y)%C.
Proof. apply Ceq; unfold RtoC, Cadd; simpl; ring. Qed.
Lemma RtoC_mul x y : RtoC (x * y) = (RtoC x * RtoC y)%C.
Proof. apply Ceq; unfold RtoC, Cmul; simpl; ring. Qed.
Lemma RtoC_opp x : RtoC (- x) = (- RtoC x)%C.
Proof. apply Ceq; unfold RtoC, Copp; simpl; ring. Qed.
Lemma RtoC_0 : RtoC 0 = C0. Proof. reflexivity. Qed.
Lemma RtoC_1 : RtoC 1 = C1. Proof. reflexivity. Qed.
Lemma RtoC_inj x y : RtoC x = RtoC y -> x = y.
Proof. unfold RtoC. intros H; now inversion H. Qed.
Lemma RtoC_neq0 x : x <> 0 -> RtoC x <> C0.
Proof. intros H E. apply H. now apply RtoC_inj. Qed.
Lemma RtoC_conj x : Cconj (RtoC x) = RtoC x.
Proof. apply Ceq; unfold RtoC, Cconj; simpl; ring. Qed.

(** ** Exponentials *)
Lemma Cexp_add x y : Cexp (x + y) = (Cexp x * Cexp y)%C.
Proof. apply Ceq; unfold Cexp, Cmul; simpl; [apply cos_plus|rewrite sin_plus; ring]. Qed.
Lemma Cexp_0 : Cexp 0 = C1.
Proof. apply Ceq; unfold Cexp, C1; simpl; [apply cos_0|apply sin_0]. Qed.
Lemma Cexp_conj x : Cconj (Cexp x) = Cexp (- x).
Proof. apply Ceq; unfold Cexp, Cconj; simpl; [now rewrite cos_neg|now rewrite sin_neg]. Qed.
Lemma Cexp_opp x : (Cexp (- x) * Cexp x)%C = C1.
Proof. rewrite <- Cexp_add. replace (- x + x) with 0 by ring. apply Cexp_0. Qed.
Lemma Cexp_neq0 x : Cexp x <> C0.
Proof.
  intros H. pose proof (Cexp_opp x) as E. rewrite H in E. apply C1_neq_C0.
  rewrite <- E. ring.
Qed.
Lemma Cexp_norm2 x : Cnorm2 (Cexp x) = 1.
Proof. unfold Cnorm2, Cexp; simpl. pose proof (sin2_cos2 x). unfold Rsqr in H. lra. Qed.
Lemma Cexp_PI : Cexp PI = (- C1)%C.
Proof. apply Ceq; unfold Cexp, Copp, C1; simpl; [rewrite cos_PI; ring|rewrite sin_PI; ring]. Qed.
Lemma Cexp_2PI x : Cexp (x + 2 * PI) = Cexp x.
Proof.
  replace (x + 2 * PI) with (x + 2 * INR 1 * PI) by (simpl; ring).
  unfold Cexp. now rewrite cos_period, sin_period.
Qed.

(** ** Sums over lists *)
Fixpoint csum {A} (l : list A) (f : A -> C) : C :=
  match l with
  | [] => C0
  | a :: r => (f a + csum r f)%C
  end.

Lemma csum_ext {A} (l : list A) f g :
  (forall a, In a l -> f a = g a) -> csum l f = csum l g.
Proof.
  induction l as [|a l IH]; simpl; intros H; auto.
  rewrite (H a) by auto. f_equal. apply IH. auto.
Qed.
Lemma csum_app {A} (l m : list A) f : csum (l ++ m) f = (csum l f + csum m f)%C.
Proof. induction l; simpl; [ring|]. rewrite IHl. ring. Qed.
Lemma csum_map {A B} (g : A -> B) (l : list A) f : csum (map g l) f = csum l (fun a => f (g a)).
Proof. induction l; simpl; auto. now rewrite IHl. Qed.
Lemma csum_add {A} (l : list A) f g : csum l (fun a => f a + g a)%C = (csum l f + csum l g)%C.
Proof. induction l; simpl; [ring|]. rewrite IHl. ring. Qed.
Lemma csum_scal {A} (l : list A) c f : csum l (fun a => c * f a)%C = (c * csum l f)%C.
Proof. induction l; simpl; [ring|]. rewrite IHl. ring. Qed.
Lemma csum_scal_r {A} (l : list A) c f : csum l (fun a => f a * c)%C = (csum l f * c)%C.
Proof. induction l; simpl; [ring|]. rewrite IHl. ring. Qed.
Lemma csum_zero {A} (l : list A) : csum l (fun _ => C0) = C0.
Proof. induction l; simpl; auto. rewrite IHl. ring. Qed.
Lemma csum_swap {A B} (l : list A) (m : list B) f :
  csum l (fun a => csum m (fun b => f a b)) = csum m (fun b => csum l (fun a => f a b)).
Proof.
  induction l as [|a l IH]; simpl.
  - now rewrite csum_zero.
  - rewrite IH. now rewrite <- csum_add.
Qed.
Lemma csum_conj {A} (l : list A) f : Cconj (csum l f) = csum l (fun a => Cconj (f a)).
Proof. induction l; simpl; [apply Cconj_0|]. now rewrite Cconj_add, IHl. Qed.

(** A sum with a single non-zero term. *)
Lemma csum_single {A} (l : list A) (x : A) f :
  NoDup l -> In x l -> (forall a, In a l -> a <> x -> f a = C0) -> csum l f = f x.
Proof.
  induction l as [|a l IH]; simpl; intros N I H; [tauto|].
  inversion N; subst. destruct I as [->|I].
  - rewrite (csum_ext l f (fun _ => C0)).
    + rewrite csum_zero. ring.
    + intros b Hb. apply H; auto. intros ->. contradiction.
  - rewrite (H a) by (auto; intros ->; contradiction).
    rewrite IH by auto. ring.
Qed.
