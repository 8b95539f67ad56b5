(** Distribution of the classical outcomes of a run. *)
From Coq Require Import Reals List Arith Bool Permutation.
From Verif Require Import Cplx Qsem IRModel IRSpec.
Import ListNotations.

(** Squared norm of a state of the qubits [0 .. n-1], all others being 0. *)
Fixpoint weight_from (n : nat) (psi : state) (b : bits) : R :=
  match n with
  | 0 => Cnorm2 (psi b)
  | S n => (weight_from n psi (setb b n false) + weight_from n psi (setb b n true))%R
  end.
Definition weight (n : nat) (psi : state) : R := weight_from n psi (fun _ => false).

(** The classical bits [0 .. k-1] agree. *)
Fixpoint same_bits (k : nat) (m m' : store) : bool :=
  match k with 0 => true | S k => Bool.eqb (m k) (m' k) && same_bits k m m' end.

(** Probability (up to the norm of the initial state) that the run ends with the
    first [k] classical bits as in [m]. *)
Definition prob (n k : nat) (m : store) (l : list branch) : R :=
  fold_right (fun x a => ((if same_bits k (snd x) m then weight n (fst x) else 0) + a)%R) 0%R l.

(** Equal up to a phase factor. *)
Definition phase_eq (x y : branch) : Prop :=
  exists c, Cnorm2 c = 1%R /\ fst x = sscal c (fst y) /\ snd x = snd y.

Lemma prob_app n k m l l' : prob n k m (l ++ l') = (prob n k m l + prob n k m l')%R.
Proof. unfold prob. induction l as [|x l IH]; simpl; [ring|]. rewrite IH. ring. Qed.
Lemma prob_perm n k m l l' : Permutation l l' -> prob n k m l = prob n k m l'.
Proof.
  induction 1; simpl; unfold prob in *; simpl; auto; try congruence. ring.
Qed.
Lemma weight_scal n c psi : Cnorm2 c = 1%R -> weight n (sscal c psi) = weight n psi.
Proof.
  intros H. unfold weight. generalize (fun _ : nat => false). induction n as [|n IH]; intros b; simpl.
  - unfold sscal. rewrite Cnorm2_mul, H. ring.
  - now rewrite !IH.
Qed.
Lemma prob_phase n k m l l' : Forall2 phase_eq l l' -> prob n k m l = prob n k m l'.
Proof.
  induction 1 as [|x y l l' (c & N & E & S) H IH]; auto. unfold prob in *. simpl. rewrite IH, E, S, weight_scal by auto. auto.
Qed.
