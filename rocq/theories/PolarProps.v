(** C112: polar labels of edges. *)
From Coq Require Import ZArith QArith Qabs List Bool Lia Lqa.
From Verif Require Import FracModel FracSpec FracProofs FracProps PrintModel PrintSpec PrintProofs PrintProps PolarModel PolarSpec PolarProofs.
Import ListNotations.
Local Open Scope Q_scope.

(** The angle a is the angle b up to delta and whole turns *)
Definition same_angle (pi delta a b : Q) : Prop := exists k : Z, Qabs (a + 2 * inject_Z k * pi - b) <= delta.
Lemma same_direct pi delta a b : Qabs (a - b) <= delta -> same_angle pi delta a b.
Proof. intros H. exists 0%Z. change (inject_Z 0) with 0. apply abs_le in H. apply abs_le. split; lra. Qed.

Lemma split_P l : split (map P l) = None.
Proof. rewrite <- (app_nil_r (map P l)), split_map. reflexivity. Qed.
Lemma readPolar_P root pi l : readPolar root pi (map P l) = readAxis root pi (map P l).
Proof. unfold readPolar. now rewrite split_P. Qed.
Lemma readPolar_both root pi l r m a b : readAxis root pi (map P l) = Some (m, b) -> angle root pi r = Some a ->
  readPolar root pi (map P l ++ Space :: Exp :: r) = Some (m, b + a).
Proof.
  intros M A. unfold readPolar. rewrite split_map. cbn [split].
  replace (match map P l ++ [Space] with [] => match angle root pi r with Some a => Some (1, a) | None => None end | _ :: _ => _ end) with
    (match rev (map P l ++ [Space]) with Space :: m' => match readAxis root pi (rev m'), angle root pi r with Some (x, b), Some a => Some (x, b + a) | _, _ => None end | _ => None end)
    by (destruct l; reflexivity).
  rewrite rev_app_distr. cbn [rev app]. rewrite rev_involutive, M, A. reflexivity.
Qed.

(** C112: the label of a number stands for its magnitude, up to the tolerance times pi, and, unless the magnitude is read as
    zero, for its phase, up to the tolerance times pi squared and whole turns. *)
Theorem C112_polar : forall eps s2 pi fuel mag phase out,
  0 <= eps -> 0 < s2 <= 1 -> 1 <= pi -> 0 <= mag ->
  conditionalFormat eps s2 pi fuel mag phase = Some out ->
  exists m a, readPolar (1 / s2) pi out = Some (m, a) /\ 0 <= m /\ Qabs (m - mag) <= eps * pi /\
    (m == 0 \/ same_angle pi (eps * pi * pi) a phase).
Proof.
  intros eps s2 pi fuel mag phase out He Hs Hp Hm. unfold conditionalFormat.
  assert (E1 : eps <= eps * pi) by nra. assert (E2 : eps * pi <= eps * pi * pi) by nra.
  destruct (approximatelyZero eps mag) eqn:Z0.
  { intros [= <-]. apply az_true in Z0. exists (0 + 0), 0. split; [reflexivity|]. split; [lra|]. split; [apply abs_le; lra|left; ring]. }
  destruct (approximatelyEquals eps mag 1) eqn:Z1.
  { unfold approximatelyEquals in Z1. apply Qle_bool_iff, abs_le in Z1.
    assert (One : forall m a b, m == 1 -> a == b -> approximatelyEquals eps phase b = true ->
      0 <= m /\ Qabs (m - mag) <= eps * pi /\ (m == 0 \/ same_angle pi (eps * pi * pi) a phase)).
    { intros m a b M A T. unfold approximatelyEquals in T. apply Qle_bool_iff, abs_le in T. split; [lra|]. split; [apply abs_le; lra|].
      right. apply same_direct, abs_le. lra. }
    destruct (approximatelyZero eps phase) eqn:P0.
    { intros [= <-]. exists (0 + 1), 0. split; [reflexivity|]. apply (One _ _ 0); [ring|reflexivity|]. unfold approximatelyEquals. apply az_true in P0.
      apply Qle_bool_iff, abs_le. lra. }
    destruct (approximatelyEquals eps phase (pi / 2)) eqn:P1.
    { intros [= <-]. exists (0 + 1), (pi / 2). split; [reflexivity|]. apply (One _ _ (pi / 2)); [ring|reflexivity|exact P1]. }
    destruct (approximatelyEquals eps phase (- (pi / 2))) eqn:P2.
    { intros [= <-]. exists (- (0 + - (1))), (- (pi / 2)). split; [reflexivity|]. apply (One _ _ (- (pi / 2))); [ring|reflexivity|exact P2]. }
    destruct (approximatelyEquals eps phase pi) eqn:P3.
    { intros [= <-]. exists (- (0 + - (1))), pi. split; [reflexivity|]. apply (One _ _ pi); [ring|reflexivity|exact P3]. }
    intros E. destruct (phase_reads eps s2 pi fuel He Hs Hp phase out E) as (r & a & -> & A & D).
    exists 1, a. split; [unfold readPolar; cbn [split]; now rewrite A|]. split; [lra|]. split; [apply abs_le; lra|]. right. now apply same_direct. }
  destruct (printFormatted eps s2 pi fuel mag false) as [o|] eqn:M.
  2: { destruct (approximatelyEquals eps (Qabs phase) pi), (approximatelyZero eps phase); discriminate. }
  destruct (mag_reads eps s2 pi fuel He Hs Hp mag o Hm M) as (m & Rm & Pm & Dm & m' & b & Rn & Em & Bn).
  destruct (approximatelyEquals eps (Qabs phase) pi) eqn:P1.
  { intros [= <-]. exists m', b. split; [change (P TMinus :: map P o) with (map P (TMinus :: o)); now rewrite readPolar_P|].
    rewrite Em. split; [exact Pm|]. split; [exact Dm|]. destruct Bn as [Bn|Bn]; [left; now rewrite <- Em|right]. rewrite Bn.
    unfold approximatelyEquals in P1. apply Qle_bool_iff, abs_le in P1. destruct (abs_tri phase) as [[Q1 Q2]|[Q1 Q2]]; rewrite Q2 in P1.
    - apply same_direct, abs_le. lra.
    - exists (-1)%Z. change (inject_Z (-1)) with (- (1)). apply abs_le. lra. }
  destruct (approximatelyZero eps phase) eqn:P0.
  { intros [= <-]. exists m, 0. rewrite readPolar_P. split; [exact Rm|]. split; [exact Pm|]. split; [exact Dm|]. right. apply az_true in P0. apply same_direct, abs_le. lra. }
  destruct (printPhaseFormatted eps s2 pi fuel phase) as [o'|] eqn:E; [|discriminate]. intros [= <-].
  destruct (phase_reads eps s2 pi fuel He Hs Hp phase o' E) as (r & a & -> & A & D).
  exists m, (0 + a). split; [now apply readPolar_both|]. split; [exact Pm|]. split; [exact Dm|]. right. apply same_direct. apply abs_le in D. apply abs_le. lra.
Qed.
Print Assumptions C112_polar.

(** C112: printing ends for every phase between minus pi and pi and every magnitude below about 2^52. *)
Theorem C112_ends : forall eps s2 pi fuel mag phase,
  0 <= eps -> 0 < s2 <= 1 -> 1 <= pi -> 2 * eps * inject_Z 1025 < 1 -> 0 <= mag -> Qabs phase <= pi ->
  fits (mag / s2) 1024 -> (rounds (mag / s2) 1024 <= fuel)%nat -> fits (1 / s2) 1024 -> (rounds (1 / s2) 1024 <= fuel)%nat ->
  exists out, conditionalFormat eps s2 pi fuel mag phase = Some out.
Proof.
  intros eps s2 pi fuel mag phase He Hs Hp Hb Hm Hph F1 R1 F2 R2. unfold conditionalFormat.
  assert (Pp : exists out, printPhaseFormatted eps s2 pi fuel phase = Some out).
  { unfold printPhaseFormatted. set (r := phase / pi). assert (E : phase == r * pi) by (unfold r; field; lra).
    assert (Ha : Qabs r <= 1).
    { apply abs_le in Hph. apply abs_le. split; apply Qnot_lt_le; intros J; nra. }
    pose proof (Qabs_nonneg r) as Hn. set (x := Qabs r) in *. clearbody x.
    assert (K : forall y, 0 <= y -> y <= 1 / s2 -> exists n d, getLowestFraction fuel eps y 1024 = Some (n, d)).
    { intros y H0 H1. apply search_ends; try assumption; [now apply (fits_le _ (1 / s2))|]. pose proof (rounds_le _ _ 1024 H1). lia. }
    assert (L : 1 <= 1 / s2) by (apply Qle_shift_div_l; lra).
    assert (Y : 0 <= x / s2 /\ x / s2 <= 1 / s2).
    { split; [apply Qle_shift_div_l; lra|]. unfold Qdiv. apply Qmult_le_compat_r; [exact Ha|]. apply Qinv_le_0_compat. lra. }
    assert (Z : 0 <= x / pi /\ x / pi <= 1) by (split; [apply Qle_shift_div_l; lra|apply Qle_shift_div_r; lra]).
    unfold phaseAttempt.
    destruct (K x) as (n1 & d1 & ->); [lra|lra|]. destruct (negb _); [now eexists|].
    destruct (K (x / s2)) as (n2 & d2 & ->); [lra|lra|]. destruct (negb _); [now eexists|].
    destruct (K (x / pi)) as (n3 & d3 & ->); [lra|lra|]. destruct (negb _); now eexists. }
  destruct Pp as [op Pp].
  assert (A : Qabs mag == mag) by now apply Qabs_pos.
  assert (L : Qabs mag / s2 <= mag / s2) by (rewrite A; apply Qle_refl).
  destruct (formatted_ends eps s2 pi fuel He Hs Hp mag false Hb) as [om Om]; [now apply (fits_le _ (mag / s2))|pose proof (rounds_le _ _ 1024 L); lia|].
  rewrite Om, Pp. repeat (match goal with |- context [if ?c then _ else _] => destruct c end); now eexists.
Qed.
Print Assumptions C112_ends.

(** ** Examples *)
(** 1/sqrt(2) at three quarters of pi, one at minus two thirds, a half at minus pi, and 1 at minus pi *)
Example C112_ex : conditionalFormat defaultEps SQRT2_2 PI 5000 SQRT2_2 ((3 # 4) * PI) =
    Some [P (TNum 1); P TSlash; P TSqrt2; Space; Exp; P TI; P TPi; Space; P (TNum 3); P TSlash; P (TNum 4); P TClose] /\
  conditionalFormat defaultEps SQRT2_2 PI 5000 1 (- (2 # 3) * PI) =
    Some [Exp; P TMinus; P TI; P TPi; Space; P (TNum 2); P TSlash; P (TNum 3); P TClose] /\
  conditionalFormat defaultEps SQRT2_2 PI 5000 (1 # 2) (- PI) = Some [P TMinus; P (TNum 1); P TSlash; P (TNum 2)] /\
  conditionalFormat defaultEps SQRT2_2 PI 5000 1 (- PI) = Some [Exp; P TMinus; P TI; P TPi; P TClose].
Proof. repeat split; vm_compute; reflexivity. Qed.
(** Reading, with 2 for the root and 3 for pi *)
Example C112_ex2 :
  match readPolar 2 3 [P (TNum 1); P TSlash; P TSqrt2; Space; Exp; P TI; P TPi; Space; P (TNum 3); P TSlash; P (TNum 4); P TClose] with
  | Some (m, a) => Qred m = (1 # 2) /\ Qred a = (9 # 4) | None => False end /\
  match readPolar 2 3 [P TMinus; P (TNum 1); P TSlash; P (TNum 2)] with Some (m, a) => Qred m = (1 # 2) /\ a = 3 | None => False end /\
  match readPolar 2 3 [Exp; P TI; P TPi; P TSlash; P TOpen; P (TNum 4); P TSqrt2; P TClose; P TClose] with Some (m, a) => m = 1 /\ Qred a = (3 # 8) | None => False end /\
  readPolar 2 3 [Exp; P TPi; P TClose] = None /\ readPolar 2 3 [Exp; P TI; P TPi] = None /\ readPolar 2 3 [P (TNum 1); Exp; P TI; P TPi; P TClose] = None /\
  readPolar 2 3 [Exp; P TI; P TPi; P (TNum 2); P TClose] = None.
Proof. vm_compute. repeat split. Qed.
