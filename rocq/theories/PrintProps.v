(** C109: printed numbers. *)
From Coq Require Import ZArith QArith Qabs List Bool Lia Lqa.
From Verif Require Import FracModel FracSpec FracProofs FracProps PrintModel PrintSpec PrintProofs.
Import ListNotations.
Local Open Scope Q_scope.

(** Constants as in the program, to 15 places *)
Definition SQRT2_2 : Q := 707106781186548 # 1000000000000000.
Definition PI : Q := 3141592653589793 # 1000000000000000.

(** A printed part of a number can be read and is at most eps * PI away from the number. *)
Theorem C109_print : forall eps s2 pi fuel num im out,
  0 <= eps -> 0 < s2 <= 1 -> 1 <= pi -> printFormatted eps s2 pi fuel num im = Some out ->
  exists v, reads (1 / s2) pi out = Some v /\ kclose (eps * pi) v (if im then (0, num) else (num, 0)).
Proof.
  intros eps s2 pi fuel num im out He Hs Hp P.
  destruct (formatted_reads eps s2 pi fuel He Hs Hp num im out P) as (ng & w & dv & W & W' & W0 & W1).
  apply (abs_le) in W1 as [W1 W2]. assert (0 <= eps * pi) by nra. destruct im; cbv [other part] in W0, W1, W2.
  - destruct (W' eq_refl) as [F _]. eexists. split; [apply (reads_one _ _ _ _ _ _ _ F)|].
    unfold kclose. rewrite !abs_le. revert W0 W1 W2. destruct ng; cbn; intros; lra.
  - eexists. split; [apply (reads_one _ _ _ _ _ _ _ (W eq_refl))|].
    unfold kclose. rewrite !abs_le. revert W0 W1 W2. destruct ng; cbn; intros; lra.
Qed.
Print Assumptions C109_print.

(** Printing ends for numbers below about 2^52. *)
Theorem C109_ends : forall eps s2 pi fuel num im,
  0 <= eps -> 0 < s2 <= 1 -> 1 <= pi -> 2 * eps * inject_Z 1025 < 1 ->
  fits (Qabs num / s2) 1024 -> (rounds (Qabs num / s2) 1024 <= fuel)%nat ->
  exists out, printFormatted eps s2 pi fuel num im = Some out.
Proof. intros. now apply formatted_ends. Qed.
Print Assumptions C109_ends.

(** The text of a complex number stands for that number, up to the tolerance. *)
Theorem C109_text_partial : forall eps s2 pi fuel real imag out,
  0 <= eps -> 0 < s2 <= 1 -> 1 <= pi ->
  eps < Qabs real \/ real == 0 \/ Qabs imag <= eps \/ 2 * eps < Qabs imag ->
  toString eps s2 pi fuel real imag true = Some out ->
  exists v, reads (1 / s2) pi out = Some v /\ kclose (eps * pi + eps) v (real, imag).
Proof. intros eps s2 pi fuel real imag out He Hs Hp G P. exact (text_reads eps s2 pi fuel He Hs Hp real imag out G P). Qed.
Print Assumptions C109_text_partial.
Theorem C109_plain : forall eps s2 pi fuel real imag out,
  0 <= eps -> toString eps s2 pi fuel real imag false = Some out ->
  exists v, reads (1 / s2) pi out = Some v /\ kclose eps v (real, imag).
Proof. intros eps s2 pi fuel real imag out He P. exact (plain_reads eps s2 pi fuel He real imag out P). Qed.
Print Assumptions C109_plain.

(** Very small numbers: 0.7 eps + 1.2 eps i is printed as (1+i). *)
Theorem C109_tiny_refuted : exists real imag fuel out v,
  toString defaultEps SQRT2_2 PI fuel real imag true = Some out /\ reads (1 / SQRT2_2) PI out = Some v /\
  Qabs real <= 2 * defaultEps /\ Qabs imag <= 2 * defaultEps /\ ~ kclose (1 # 2) v (real, imag).
Proof.
  exists ((7 # 10) * defaultEps), ((12 # 10) * defaultEps), 10%nat. do 2 eexists.
  split; [vm_compute; reflexivity|]. split; [vm_compute; reflexivity|].
  split; [apply Qle_bool_iff; reflexivity|]. split; [apply Qle_bool_iff; reflexivity|].
  intros [H _]. apply Qle_bool_iff in H. vm_compute in H. discriminate.
Qed.
Print Assumptions C109_tiny_refuted.
(** A number that does not count as zero is printed as zero times pi. *)
Theorem C109_zero_refuted : exists num fuel,
  approximatelyZero defaultEps num = false /\ printFormatted defaultEps SQRT2_2 PI fuel num false = Some [TNum 0; TPi].
Proof. exists (2 * defaultEps), 1100%nat. split; vm_compute; reflexivity. Qed.
Print Assumptions C109_zero_refuted.
(** Large numbers: the text is never finished. *)
Theorem C109_forever_refuted : forall eps s2 pi fuel num im,
  0 <= eps -> inject_Z (2 ^ 64) + eps <= num -> printFormatted eps s2 pi fuel num im = None.
Proof.
  intros eps s2 pi fuel num im He H. assert (P : 0 < inject_Z (2 ^ 64)) by reflexivity.
  unfold printFormatted. destruct (negative_cases num) as [[_ L]|[-> L]]; [lra|].
  unfold printBody. assert (A : Qabs num == num) by now apply Qabs_pos.
  rewrite (proj2 (az_false eps num)) by (rewrite A; lra). unfold attempt, getLowestFraction.
  rewrite (search_forever eps (Qabs num) 1024 He); [reflexivity|rewrite A; exact H|lia|lia].
Qed.
Print Assumptions C109_forever_refuted.

(** 0.75 - i/sqrt(2) is printed as 3/4-i/sqrt(2), and 0.5+0.5i as 1/2(1+i). *)
Example C109_ex : toString defaultEps SQRT2_2 PI 5000 (3 # 4) (- SQRT2_2) true =
  Some [TNum 3; TSlash; TNum 4; TMinus; TI; TSlash; TSqrt2].
Proof. vm_compute. reflexivity. Qed.
Example C109_ex2 : toString defaultEps SQRT2_2 PI 5000 (1 # 2) (1 # 2) true =
  Some [TNum 1; TSlash; TNum 2; TOpen; TNum 1; TPlus; TI; TClose].
Proof. vm_compute. reflexivity. Qed.
Example C109_ex3 : match reads 2 3 [TNum 1; TSlash; TOpen; TNum 4; TSqrt2; TClose; TOpen; TNum 1; TMinus; TI; TClose] with
  | Some v => Qred (fst v) = (1 # 8) /\ Qred (snd v) = (- 1 # 8) | None => False end.
Proof. vm_compute. split; reflexivity. Qed.
(** Texts that are not numbers are not read. *)
Example C109_ex4 : reads 2 3 [TNum 3; TNum 4] = None /\ reads 2 3 [TNum 3; TSlash] = None /\ reads 2 3 [TPlus; TMinus; TI] = None /\
  reads 2 3 [TNum 3; TSlash; TNum 4; TI] = None.
Proof. repeat split. Qed.
