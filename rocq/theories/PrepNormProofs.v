(** Euclidean distance of states. *)
From Coq Require Import Reals Lra Lia List Arith Bool FunctionalExtensionality.
From Verif Require Import Cplx Qsem IRModel IRSpec OutcomeSpec AlgoSpec PrepSpec.
Import ListNotations.
Local Open Scope R_scope.

(** Sum over the bits [0 .. n-1]. *)
Fixpoint sumw (n : nat) (g : bits -> R) (b : bits) : R :=
  match n with
  | O => g b
  | S n => sumw n g (setb b n false) + sumw n g (setb b n true)
  end.
Lemma weight_sumw n psi b : weight_from n psi b = sumw n (fun x => Cnorm2 (psi x)) b.
Proof. revert b. induction n as [|n IH]; intros b; cbn; auto. now rewrite !IH. Qed.
Lemma sumw_ext n g h : (forall x, g x = h x) -> forall b, sumw n g b = sumw n h b.
Proof. intros H. induction n as [|n IH]; intros b; cbn; auto. now rewrite !IH. Qed.
Lemma sumw_le n g h : (forall x, g x <= h x) -> forall b, sumw n g b <= sumw n h b.
Proof. intros H. induction n as [|n IH]; intros b; cbn; auto. apply Rplus_le_compat; auto. Qed.
Lemma sumw_pos n g : (forall x, 0 <= g x) -> forall b, 0 <= sumw n g b.
Proof. intros H. induction n as [|n IH]; intros b; cbn; auto. apply Rplus_le_le_0_compat; auto. Qed.
Lemma sumw_scal n c g : forall b, sumw n (fun x => c * g x) b = c * sumw n g b.
Proof. induction n as [|n IH]; intros b; cbn; auto. rewrite !IH. ring. Qed.
Lemma sumw_set n g q v : (n <= q)%nat -> forall b, sumw n (fun x => g (setb x q v)) b = sumw n g (setb b q v).
Proof.
  induction n as [|n IH]; intros L b; cbn; auto. rewrite !IH by lia.
  now rewrite !(setb_comm b n q) by lia.
Qed.
Lemma sumw_add n g h : forall b, sumw n (fun x => g x + h x) b = sumw n g b + sumw n h b.
Proof. induction n as [|n IH]; intros b; cbn; auto. rewrite !IH. ring. Qed.
(** Grouping the basis states in pairs that differ in qubit [q]. *)
Definition pairsum (q : nat) (g : bits -> R) (x : bits) : R := g (setb x q false) + g (setb x q true).
Lemma sumw_pair n q g : (q < n)%nat -> forall b, sumw n g b = / 2 * sumw n (pairsum q g) b.
Proof.
  induction n as [|n IH]; intros L b; [lia|]. cbn [sumw]. destruct (Nat.eq_dec q n) as [->|N].
  - unfold pairsum. rewrite !sumw_add, !(sumw_set n g n) by lia. rewrite !setb_setb. field.
  - rewrite !IH by lia. ring.
Qed.
(** The first [i] bits are zero. *)
Definition low0 (i : nat) (x : bits) : bool := forallb (fun q => negb (x q)) (seq 0 i).
Lemma low0_spec i x : low0 i x = true <-> forall q, (q < i)%nat -> x q = false.
Proof.
  unfold low0. rewrite forallb_forall. split; intros H q Q.
  - specialize (H q). rewrite in_seq in H. destruct (x q); auto. specialize (H ltac:(lia)). discriminate.
  - apply in_seq in Q. rewrite H by lia. auto.
Qed.
Lemma low0_S i x : low0 (S i) x = low0 i x && negb (x i).
Proof. unfold low0. rewrite seq_S, forallb_app. cbn. now rewrite andb_true_r. Qed.
Lemma low0_set i x q v : (i <= q)%nat -> low0 i (setb x q v) = low0 i x.
Proof.
  intros L. apply eq_true_iff_eq. rewrite !low0_spec. split; intros H p P; specialize (H p P).
  - rewrite setb_other in H by lia. auto.
  - rewrite setb_other by lia. auto.
Qed.
Lemma count_low n i : (i <= n)%nat -> forall b, sumw n (fun x => if low0 i x then 1 else 0) b = 2 ^ (n - i).
Proof.
  revert i. induction n as [|n IH]; intros i L b.
  - replace i with O by lia. cbn. reflexivity.
  - destruct (Nat.eq_dec i (S n)) as [->|N].
    + replace (S n - S n)%nat with O by lia. cbn [sumw]. change (2 ^ 0) with 1.
      transitivity (sumw n (fun x => if low0 n x then 1 else 0) b + 0); [|rewrite IH by lia; replace (n - n)%nat with O by lia; cbn; ring]. f_equal.
      * rewrite <- sumw_set by lia. apply sumw_ext. intros x. rewrite low0_S, setb_same, low0_set by lia. now rewrite andb_true_r.
      * rewrite <- sumw_set by lia. transitivity (sumw n (fun _ => 0 * 0) b); [|rewrite sumw_scal; ring].
        apply sumw_ext. intros x. rewrite low0_S, setb_same. cbn. rewrite andb_false_r. ring.
    + cbn [sumw]. rewrite !IH by lia. replace (S n - i)%nat with (S (n - i)) by lia. cbn. ring.
Qed.

(** ** The triangle inequality *)
Lemma sqrt_sq_le a b : 0 <= b -> a <= b * b -> sqrt a <= b.
Proof. intros B H. rewrite <- (sqrt_square b B). apply sqrt_le_1_alt. lra. Qed.
Lemma mink p0 p1 q0 q1 : 0 <= p0 -> 0 <= p1 -> 0 <= q0 -> 0 <= q1 ->
  sqrt ((p0 + q0) * (p0 + q0) + (p1 + q1) * (p1 + q1)) <= sqrt (p0 * p0 + p1 * p1) + sqrt (q0 * q0 + q1 * q1).
Proof.
  intros A B D E. apply sqrt_sq_le. { apply Rplus_le_le_0_compat; apply sqrt_pos. }
  assert (X := sqrt_cauchy p0 p1 q0 q1). unfold Rsqr in X.
  assert (Y : 0 <= p0 * p0 + p1 * p1) by nra. assert (Z : 0 <= q0 * q0 + q1 * q1) by nra.
  assert (SY := sqrt_sqrt _ Y). assert (SZ := sqrt_sqrt _ Z). nra.
Qed.
Lemma Cmod_triangle x y : Cmod (x + y)%C <= Cmod x + Cmod y.
Proof.
  destruct x as [a b], y as [c d]. unfold Cmod, Cnorm2. cbn.
  apply sqrt_sq_le. { apply Rplus_le_le_0_compat; apply sqrt_pos. }
  assert (X := sqrt_cauchy a b c d). unfold Rsqr in X.
  assert (Y : 0 <= a * a + b * b) by nra. assert (Z : 0 <= c * c + d * d) by nra.
  assert (SY := sqrt_sqrt _ Y). assert (SZ := sqrt_sqrt _ Z). nra.
Qed.
Definition nrm (n : nat) (psi : state) (b : bits) : R := sqrt (sumw n (fun x => Cnorm2 (psi x)) b).
Lemma nrm_triangle n psi phi : forall b, nrm n (fun x => psi x + phi x)%C b <= nrm n psi b + nrm n phi b.
Proof.
  induction n as [|n IH]; intros b.
  - apply Cmod_triangle.
  - unfold nrm in *. cbn [sumw].
    assert (P : forall f x, 0 <= sumw n (fun x => Cnorm2 (f x)) x) by (intros f x; apply sumw_pos; intros; apply Cnorm2_pos).
    set (b0 := setb b n false). set (b1 := setb b n true).
    assert (Q : forall f x, sumw n (fun x => Cnorm2 (f x)) x = sqrt (sumw n (fun x => Cnorm2 (f x)) x) * sqrt (sumw n (fun x => Cnorm2 (f x)) x))
      by (intros; symmetry; apply sqrt_sqrt; auto).
    eapply Rle_trans; [|rewrite (Q psi b0), (Q psi b1), (Q phi b0), (Q phi b1); apply mink; apply sqrt_pos].
    apply sqrt_le_1_alt. rewrite (Q (fun x => psi x + phi x)%C b0), (Q (fun x => psi x + phi x)%C b1).
    apply Rplus_le_compat; apply Rmult_le_compat; try apply sqrt_pos; apply IH.
Qed.
Lemma distance_triangle n psi phi chi : distance n psi chi <= distance n psi phi + distance n phi chi.
Proof.
  unfold distance, weight. rewrite !weight_sumw. eapply Rle_trans; [|apply (nrm_triangle n (fun b => psi b - phi b)%C (fun b => phi b - chi b)%C)].
  right. unfold nrm. f_equal. apply sumw_ext. intros x. f_equal. ring.
Qed.
Lemma distance_le n psi phi d : 0 <= d -> weight n (fun b => psi b - phi b)%C <= d * d -> distance n psi phi <= d.
Proof. intros. unfold distance. now apply sqrt_sq_le. Qed.
Lemma distance_refl n psi : distance n psi psi = 0.
Proof.
  unfold distance, weight. rewrite weight_sumw. rewrite <- sqrt_0. f_equal.
  transitivity (sumw n (fun _ => 0 * 0) (fun _ => false)); [|rewrite sumw_scal; ring].
  apply sumw_ext. intros x. replace (psi x - psi x)%C with C0 by ring. rewrite Cnorm2_0. ring.
Qed.
Lemma distance_pos n psi phi : 0 <= distance n psi phi. Proof. apply sqrt_pos. Qed.
