From Coq Require Import QArith Qabs ZArith Bool List Arith Lia Lqa.
From Verif Require Import PiModel ZXModel CliffModel.
Import ListNotations.
Open Scope Q_scope.

Lemma close_iff : forall q x t, isCloseDivPi q x t = true <-> Qabs (q - x) < t.
Proof.
  intros. unfold isCloseDivPi. rewrite negb_true_iff. split; intros H.
  - apply Qnot_le_lt. intros L. apply Qle_bool_iff in L. congruence.
  - destruct (Qle_bool t (Qabs (q - x))) eqn:E; [|reflexivity]. apply Qle_bool_iff in E. lra.
Qed.
Lemma modPi_small : modPi 0 == 0 /\ modPi (1 # 2) == 1 # 2 /\ modPi (- (1 # 2)) == - (1 # 2) /\ modPi 1 == 1.
Proof. repeat split. Qed.
(** The possible results *)
Lemma round_cases : forall p t, snd p = [] ->
  exists c, In c [0; 1 # 2; - (1 # 2); 1] /\ Qabs (fst p - c) < t /\ fst (roundToClifford p t) == c /\ snd (roundToClifford p t) = []
  \/ roundToClifford p t = p /\ forall c, In c [0; 1 # 2; - (1 # 2); 1] -> ~ Qabs (fst p - c) < t.
Proof.
  intros [q s] t E. simpl in E. subst s. unfold roundToClifford, p_isConstant. cbn [fst snd negb].
  destruct modPi_small as (M0 & M1 & M2 & M3).
  destruct (isCloseDivPi q 0 t) eqn:E0; [apply close_iff in E0; exists 0; left; cbn [fst snd]; repeat split; auto; left; reflexivity|].
  destruct (isCloseDivPi q (1 # 2) t) eqn:E1; [apply close_iff in E1; exists (1 # 2); left; cbn [fst snd]; repeat split; auto; right; left; reflexivity|].
  destruct (isCloseDivPi q (- (1 # 2)) t) eqn:E2; [apply close_iff in E2; exists (- (1 # 2)); left; cbn [fst snd]; repeat split; auto; right; right; left; reflexivity|].
  destruct (isCloseDivPi q 1 t) eqn:E3; [apply close_iff in E3; exists 1; left; cbn [fst snd]; repeat split; auto; right; right; right; left; reflexivity|].
  exists 0. right. split; [reflexivity|]. intros c [<-|[<-|[<-|[<-|[]]]]] H; apply close_iff in H; congruence.
Qed.
Lemma den_half : forall q, Qden (Qred q) = 2%positive <-> exists k : Z, q == inject_Z (2 * k + 1) * (1 # 2).
Proof.
  intros q. split.
  - intros H. pose proof (Qred_correct q) as C. remember (Qred q) as r eqn:R. destruct r as [n d]. simpl in H. subst d.
    assert (Hodd : Z.odd n = true).
    { destruct (Z.odd n) eqn:O; [reflexivity|]. exfalso. rewrite <- Z.negb_even in O. apply negb_false_iff, Z.even_spec in O. destruct O as [m ->].
      assert (E : Qred q = Qred (inject_Z m)) by (apply Qred_complete; rewrite <- C; unfold Qeq, inject_Z, Qmult; cbn [Qnum Qden]; lia).
      rewrite <- R in E. assert (Z1 : Qred (inject_Z m) = inject_Z m).
      { unfold inject_Z, Qred. pose proof (Z.ggcd_gcd m 1) as G. pose proof (Z.ggcd_correct_divisors m 1) as D.
        destruct (Z.ggcd m 1) as [g [a b]]. simpl in *. destruct D as [D1 D2]. rewrite Z.gcd_1_r in G. subst g. rewrite Z.mul_1_l in *. subst. reflexivity. }
      rewrite Z1 in E. discriminate E. }
    apply Z.odd_spec in Hodd. destruct Hodd as [k ->]. exists k. rewrite <- C. unfold Qeq, inject_Z, Qmult; cbn [Qnum Qden]; lia.
  - intros [k E]. assert (R : Qred q = Qred ((2 * k + 1) # 2)) by (apply Qred_complete; rewrite E; unfold Qeq, inject_Z, Qmult; cbn [Qnum Qden]; lia).
    rewrite R. unfold Qred. pose proof (Z.ggcd_gcd (2 * k + 1) 2) as G. pose proof (Z.ggcd_correct_divisors (2 * k + 1) 2) as D.
    assert (G1 : Z.gcd (2 * k + 1) 2 = 1%Z). { rewrite Z.gcd_comm. replace (2 * k + 1)%Z with (1 + k * 2)%Z by lia. rewrite Z.gcd_add_mult_diag_r. reflexivity. }
    destruct (Z.ggcd (2 * k + 1) 2) as [g [a b]]. simpl in *. destruct D as [D1 D2]. rewrite G1 in G. subst g. rewrite Z.mul_1_l in *. subst. reflexivity.
Qed.
Lemma den_one : forall q, Qden (Qred q) = 1%positive <-> exists k : Z, q == inject_Z k.
Proof.
  intros q. split.
  - intros H. exists (Qnum (Qred q)). rewrite <- (Qred_correct q) at 1. destruct (Qred q) as [n d]. simpl in *. subst d. reflexivity.
  - intros [k E]. rewrite (Qred_complete _ _ E). unfold inject_Z, Qred. pose proof (Z.ggcd_gcd k 1) as G. pose proof (Z.ggcd_correct_divisors k 1) as D.
    destruct (Z.ggcd k 1) as [g [a b]]. simpl in *. destruct D as [D1 D2]. rewrite Z.gcd_1_r in G. subst g. rewrite Z.mul_1_l in *. subst. reflexivity.
Qed.
