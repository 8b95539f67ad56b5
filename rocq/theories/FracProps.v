(** C108: fractions for printing. *)
From Coq Require Import ZArith QArith Qabs Bool Lia Lqa.
From Verif Require Import FracModel FracSpec FracProofs.
Local Open Scope Z_scope.

(** The search ends within [rounds x maxDen] rounds with a fraction in lowest terms whose denominator is at most maxDen
    and which is close to x. If some fraction with such a denominator is at most eps away from x, then the result also
    is, and no such fraction has a smaller denominator or a smaller numerator. *)
Theorem C108_fraction : forall eps x maxDen fuel,
  (0 <= eps < x)%Q -> 1 <= maxDen -> fits x maxDen -> (rounds x maxDen <= fuel)%nat ->
  exists p q, getLowestFraction fuel eps x maxDen = Some (p, q) /\
    Z.gcd p q = 1 /\ 0 <= p /\ 1 <= q <= maxDen /\
    near (1 / (inject_Z q * inject_Z (maxDen + 1)) + eps) x p q /\
    forall P Q, 1 <= Q <= maxDen -> near eps x P Q -> near eps x p q /\ q <= Q /\ p <= P.
Proof.
  intros eps x M fuel [He Hx] HM HF Hf.
  destruct (search_ok eps x M He ltac:(lra) HM HF fuel 0 1 1 0) as (p & q & E & O & B).
  - apply inv0. lra.
  - lia.
  - unfold left, rounds in *. cbn [Z.eqb]. now rewrite Z.sub_0_r.
  - exists p, q. split; [exact E|]. pose proof (ok_dist eps x M p q HM O) as N. destruct O as (A & C & G & _ & _).
    split; [exact G|split; [exact A|split; [exact C|split; [exact N|]]]].
    intros P Q HQ HN. apply (B P Q HQ HN). pose proof (near_pos eps x P Q Hx ltac:(lia) HN). split; lia.
Qed.
Print Assumptions C108_fraction.

(** Numbers that count as zero give 0/1. *)
Theorem C108_zero : forall eps x maxDen fuel,
  (0 <= x <= eps)%Q -> 1 <= maxDen -> (2 * eps * inject_Z (maxDen + 1) < 1)%Q -> 2 * maxDen < 2 ^ 64 ->
  (rounds x maxDen <= fuel)%nat -> getLowestFraction fuel eps x maxDen = Some (0, 1).
Proof.
  intros eps x M fuel [H1 H2] HM He Hw Hf. apply (search_zero eps x M); try assumption; try lia.
  assert (0 <= Qnum x / Zpos (Qden x)) by (apply (floor_le x 0); exact H1). unfold rounds in Hf. lia.
Qed.
Print Assumptions C108_zero.

(** A fraction in lowest terms is found again from any number at most eps away from it. *)
Theorem C108_recovers : forall eps x maxDen P Q fuel,
  (0 <= eps)%Q -> (0 <= x)%Q -> 1 <= maxDen -> (2 * eps * inject_Z ((maxDen + 1) * (maxDen + 1)) < 1)%Q -> fits x maxDen ->
  0 <= P -> 1 <= Q <= maxDen -> Z.gcd P Q = 1 -> near eps x P Q -> (rounds x maxDen <= fuel)%nat ->
  getLowestFraction fuel eps x maxDen = Some (P, Q).
Proof.
  intros eps x M P Q fuel He Hx HM Hs HF HP HQ HG HN Hf.
  assert (Hs1 : (2 * eps * inject_Z (M * M) < 1)%Q).
  { pose proof (iZ_le (M * M) ((M + 1) * (M + 1)) ltac:(nia)). nra. }
  assert (Hs2 : (2 * eps * inject_Z (M + 1) < 1)%Q).
  { pose proof (iZ_le (M + 1) ((M + 1) * (M + 1)) ltac:(nia)). nra. }
  destruct (Qlt_le_dec eps x) as [L|L].
  - destruct (C108_fraction eps x M fuel (conj He L) HM HF Hf) as (p & q & E & G & A & B & _ & Best).
    destruct (Best P Q HQ HN) as [N _]. pose proof (near_unique eps x M p q P Q Hs1 B HQ N HN) as K.
    destruct (coprime_eq p q P Q A HP (proj1 B) (proj1 HQ) G HG K) as [-> ->]. exact E.
  - rewrite (C108_zero eps x M fuel (conj Hx L) HM Hs2 (proj2 HF) Hf).
    assert (N : near eps x 0 1).
    { apply (near_mul eps x 0 1 ltac:(lia)). change (inject_Z 1) with 1%Q. change (inject_Z 0) with 0%Q. split; lra. }
    pose proof (near_unique eps x M 0 1 P Q Hs1 ltac:(lia) HQ N HN) as K.
    destruct (coprime_eq 0 1 P Q ltac:(lia) HP ltac:(lia) (proj1 HQ) eq_refl HG K) as [<- <-]. reflexivity.
Qed.
Print Assumptions C108_recovers.

(** "The closest fraction" (ComplexValue.hpp:103): another fraction can be closer. *)
Definition defaultEps : Q := (1 # 2 ^ 42)%Q.
Theorem C108_closest_refuted : exists x maxDen fuel p q P Q,
  getLowestFraction fuel defaultEps x maxDen = Some (p, q) /\ 1 <= Q <= maxDen /\
  (Qabs (x - inject_Z P / inject_Z Q) < Qabs (x - inject_Z p / inject_Z q))%Q.
Proof. exists (3 # 10)%Q, 2, 10%nat, 0, 1, 1, 2. split; [reflexivity|split; [lia|reflexivity]]. Qed.
Print Assumptions C108_closest_refuted.
(** The search never ends for large numbers. *)
Theorem C108_forever_refuted : forall eps x maxDen, (0 <= eps)%Q -> (inject_Z (2 ^ 64) + eps <= x)%Q -> 1 <= maxDen ->
  forall p q, ~ finds eps x maxDen p q.
Proof.
  intros eps x M He Hx HM p q [fuel E]. unfold getLowestFraction in E. rewrite (search_forever eps x M He Hx HM fuel 0 ltac:(lia)) in E. discriminate.
Qed.
Print Assumptions C108_forever_refuted.
(** Without a denominator to choose from, the result is 1/0. *)
Theorem C108_den_refuted : forall eps x, finds eps x 0 1 0.
Proof. intros eps x. exists O. reflexivity. Qed.
Print Assumptions C108_den_refuted.
(** The bound on eps in C108_zero is needed: 0/1 is close enough and 1/2 is returned, which is not. *)
Theorem C108_coarse_refuted : exists eps x maxDen p q,
  near eps x 0 1 /\ finds eps x maxDen p q /\ ~ near eps x p q.
Proof.
  exists (1 # 5)%Q, (3 # 20)%Q, 2, 1, 2. split; [|split; [exists 10%nat; reflexivity|]].
  - apply Qle_bool_iff. reflexivity.
  - intros H. apply Qle_bool_iff in H. discriminate.
Qed.
Print Assumptions C108_coarse_refuted.

(** 0.375 with the default tolerance, and a number close to 2/3 *)
Example C108_ex : getLowestFraction 2100 defaultEps (3 # 8) 1024 = Some (3, 8).
Proof.
  apply C108_recovers; try (vm_compute; intuition (congruence || discriminate)).
  apply Nat.leb_le. vm_compute. reflexivity.
Qed.
Example C108_ex2 : getLowestFraction 10 defaultEps (666666666666667 # 1000000000000000) 1024 = Some (2, 3).
Proof. vm_compute. reflexivity. Qed.
Example C108_ex3 : getLowestFraction 10 defaultEps (5 # 1) 1024 = Some (5, 1).
Proof. vm_compute. reflexivity. Qed.
