From Coq Require Import ZArith QArith Qabs Qfield List Bool Lia Lqa.
From Verif Require Import FracModel FracSpec FracProofs FracProps PrintModel PrintSpec PrintProofs PolarModel PolarSpec.
Import ListNotations.
Local Open Scope Z_scope.

(** Numerators are not negative *)
Lemma search_num eps x M : forall fuel a b c d p q, 0 <= a -> 0 <= c -> search fuel eps x M (a, b) (c, d) = Some (p, q) -> 0 <= p.
Proof.
  induction fuel as [|fuel IH]; intros a b c d p q A C; cbn [search fst snd].
  all: destruct (Z.leb_spec b M); destruct (Z.leb_spec d M); cbn [andb].
  all: try (destruct (Z.ltb_spec M b); intros [= <- <-]; lia); try discriminate.
  assert (W : 0 <= word (a + c)) by (apply Z.mod_pos_bound; lia).
  destruct (Qle_bool _ eps).
  - destruct (Z.leb_spec (word (b + d)) M); [intros [= <- <-]; lia|]. destruct (Z.ltb_spec b d); intros [= <- <-]; lia.
  - destruct (negb _); intros E; apply IH in E; assumption.
Qed.
Lemma fraction_num eps x fuel p q : getLowestFraction fuel eps x 1024 = Some (p, q) -> 0 <= p.
Proof. intros E. apply search_num in E; lia. Qed.

Local Open Scope Q_scope.
Lemma ratio_pos n d : (0 <= n)%Z -> (1 <= d)%Z -> 0 <= ratio n d.
Proof.
  intros Hn Hd. unfold ratio. apply iZ_le in Hn, Hd. change (inject_Z 0) with 0 in Hn. change (inject_Z 1) with 1 in Hd.
  apply Qle_shift_div_l; lra.
Qed.

Section Reading.
Variables (eps s2 PI : Q) (fuel : nat).
Hypotheses (He : 0 <= eps) (Hs : 0 < s2 <= 1) (Hp : 1 <= PI).
Let root := 1 / s2.

Lemma product_fun out w w' : is_product s2 PI out w -> is_product s2 PI out w' -> w = w'.
Proof. intros [d H] [d' H']. specialize (H (0, 0) true false []). rewrite (H' (0, 0) true false []) in H. congruence. Qed.
Lemma body_pos num out w : 0 <= num -> printBody eps s2 PI fuel num false = Some out -> is_product s2 PI out w -> 0 <= fst w.
Proof.
  intros Hn. unfold printBody. destruct (approximatelyZero eps num).
  { intros [= <-] W. apply (product_fun _ w (0, 0)) in W; [subst; cbn; lra|]. eexists. intros. reflexivity. }
  unfold attempt. destruct (getLowestFraction fuel eps (Qabs num) 1024) as [[n d]|] eqn:F; [|discriminate].
  assert (K : forall x n d, getLowestFraction fuel eps x 1024 = Some (n, d) -> 0 <= ratio n d).
  { intros x n' d' E. apply ratio_pos; [exact (fraction_num _ _ _ _ _ E)|exact (fraction_den _ _ _ _ _ E)]. }
  destruct (approximatelyZero eps _).
  { intros [= <-] W. destruct (fraction_reads s2 PI false n d (fraction_den _ _ _ _ _ F)) as (w' & W' & _ & V).
    rewrite (product_fun _ _ _ W W'). cbn [part] in V. rewrite V. eauto. }
  clear n d F. destruct (getLowestFraction fuel eps (Qabs num / s2) 1024) as [[n d]|] eqn:F; [|discriminate]. destruct (approximatelyZero eps _).
  { intros [= <-] W. destruct (sqrt_reads s2 PI Hs false n d (fraction_den _ _ _ _ _ F)) as (w' & W' & _ & V).
    rewrite (product_fun _ _ _ W W'). cbn [part] in V. rewrite V. apply K in F. nra. }
  clear n d F. destruct (getLowestFraction fuel eps (Qabs num / PI) 1024) as [[n d]|] eqn:F; [|discriminate]. destruct (approximatelyZero eps _).
  { intros [= <-] W. destruct (pi_reads s2 PI false n d (fraction_den _ _ _ _ _ F)) as (w' & W' & _ & V).
    rewrite (product_fun _ _ _ W W'). cbn [part] in V. rewrite V. apply K in F. nra. }
  rewrite (dec_nonneg _ Hn). intros [= <-] W. apply (product_fun _ w (num, 0)) in W; [subst; exact Hn|]. eexists. intros. reflexivity.
Qed.

(** Magnitudes *)
Lemma plain_map l : plain (map P l) = Some l.
Proof. induction l as [|t l IH]; cbn; [reflexivity|]. now rewrite IH. Qed.
Lemma split_map l r : split (map P l ++ r) = match split r with Some (a, b) => Some (map P l ++ a, b) | None => None end.
Proof. induction l as [|t l IH]; cbn; [now destruct (split r) as [[]|]|]. rewrite IH. now destruct (split r) as [[]|]. Qed.
Lemma axis_real v : snd v == 0 -> 0 <= fst v -> axis PI v = Some (fst v, 0).
Proof. intros H0 H1. unfold axis. apply Qeq_bool_iff in H0. apply Qle_bool_iff in H1. now rewrite H0, H1. Qed.
Lemma mag_reads mag out : 0 <= mag -> printFormatted eps s2 PI fuel mag false = Some out ->
  exists m, readAxis root PI (map P out) = Some (m, 0) /\ 0 <= m /\ Qabs (m - mag) <= eps * PI /\
    exists m' a, readAxis root PI (map P (TMinus :: out)) = Some (m', a) /\ m' == m /\ (m' == 0 \/ a = PI).
Proof.
  intros Hm. unfold printFormatted. destruct (negative_cases mag) as [[_ L]|[-> _]]; [lra|].
  destruct (printBody eps s2 PI fuel mag false) as [o|] eqn:B; [|discriminate]. cbn [app]. intros [= <-].
  destruct (body_reads eps s2 PI fuel He Hs Hp mag false o Hm B) as (w & W & W0 & W1). pose proof (body_pos mag o w Hm B W) as Pw.
  destruct W as [dv W]. cbn [part other] in W0, W1. exists (fst (kadd (0, 0) w)).
  split; [|split; [|split]].
  - unfold readAxis. rewrite plain_map. unfold reads, start. fold root in W. rewrite W. cbn [total prod slash sum neg]. apply axis_real; cbn; lra.
  - cbn. lra.
  - cbv [kadd fst]. apply abs_le in W1. apply abs_le. destruct w as [x y]. cbn [fst snd] in *. split; lra.
  - unfold readAxis. rewrite plain_map. unfold reads. cbn [feeds feed start sign prod fresh lift sum]. fold root in W. rewrite W.
    cbn [total prod slash sum neg]. unfold axis. assert (Z : snd (kadd (0, 0) (kneg w)) == 0) by (cbn; lra). apply Qeq_bool_iff in Z. rewrite Z.
    destruct (Qle_bool 0 (fst (kadd (0, 0) (kneg w)))) eqn:E; (do 2 eexists; split; [reflexivity|]).
    + apply Qle_bool_iff in E. cbn in E |- *. split; [lra|left; lra].
    + cbn. split; [lra|now right].
Qed.

(** Angles *)
Definition turns (out : list token) (t : Q) : Prop :=
  exists w, (forall ng S stk, exponent root PI (St S false ng (Some (kmul (0, 1) (PI, 0))) false false, stk) (out ++ [P TClose]) =
    match feed root PI (St S false ng (Some w) false false, stk) TClose with Some c => exponent root PI c [] | None => None end) /\
  fst w == 0 /\ snd w == PI * t.

Ltac parts := cbv [fst snd kmul kdiv kadd kneg sum prod neg slash fresh divided start].
Ltac turn n d := 
  destruct (Z.eqb_spec n 1) as [->|?]; destruct (Z.eqb_spec d 1) as [->|?]; cbn [andb app];
  unfold turns; eexists; (split; [intros ng S stk; destruct stk; reflexivity|split; parts; unfold root, ratio; change (inject_Z 1) with 1]);
  try solve [reflexivity | ring | field; repeat split; try assumption; try lra].

Lemma turn_fraction n d : (1 <= d)%Z -> turns (phaseFraction n d) (ratio n d).
Proof. intros Hd. pose proof (den_nz d Hd) as Nd. unfold phaseFraction. turn n d. Qed.
Lemma turn_sqrt n d : (1 <= d)%Z -> turns (phaseSqrt n d) (ratio n d * s2).
Proof. intros Hd. pose proof (den_nz d Hd) as Nd. unfold phaseSqrt. turn n d. Qed.
Lemma turn_pi n d : (1 <= d)%Z -> turns (phasePi n d) (ratio n d * PI).
Proof. intros Hd. pose proof (den_nz d Hd) as Nd. unfold phasePi. turn n d. Qed.
Lemma turn_dec q : turns [Space; P (TDec q)] q.
Proof. unfold turns. eexists. split; [intros ng S stk; destruct stk; reflexivity|]. split; parts; ring. Qed.

Lemma strict x n d : negb (Qle_bool eps (Qabs (x - ratio n d))) = true -> approximatelyZero eps (x - ratio n d) = true.
Proof.
  intros H. apply negb_true_iff in H. apply Qle_bool_iff. apply Qlt_le_weak, Qnot_le_lt. intros J. apply Qle_bool_iff in J. congruence.
Qed.
Lemma phase_turns absr out : 0 <= absr ->
  phaseAttempt eps fuel absr phaseFraction (phaseAttempt eps fuel (absr / s2) phaseSqrt (phaseAttempt eps fuel (absr / PI) phasePi (Some [Space; P (TDec absr)]))) = Some out ->
  exists t, turns out t /\ Qabs (t - absr) <= eps * PI.
Proof.
  intros Ha. unfold phaseAttempt.
  destruct (getLowestFraction fuel eps absr 1024) as [[n d]|] eqn:F; [|discriminate]. destruct (negb _) eqn:T.
  { intros [= <-]. exists (ratio n d). split; [exact (turn_fraction n d (fraction_den _ _ _ _ _ F))|].
    apply strict, Qle_bool_iff, abs_le in T. apply abs_le. nra. }
  clear n d F T. destruct (getLowestFraction fuel eps (absr / s2) 1024) as [[n d]|] eqn:F; [|discriminate]. destruct (negb _) eqn:T.
  { intros [= <-]. exists (ratio n d * s2). split; [exact (turn_sqrt n d (fraction_den _ _ _ _ _ F))|].
    apply strict, (scaled eps absr s2) in T; [|lra]. eapply Qle_trans; [exact T|]. nra. }
  clear n d F T. destruct (getLowestFraction fuel eps (absr / PI) 1024) as [[n d]|] eqn:F; [|discriminate]. destruct (negb _) eqn:T.
  { intros [= <-]. exists (ratio n d * PI). split; [exact (turn_pi n d (fraction_den _ _ _ _ _ F))|].
    apply strict, (scaled eps absr PI) in T; [|lra]. exact T. }
  intros [= <-]. exists absr. split; [apply turn_dec|]. apply abs_le. nra.
Qed.
Lemma phase_reads phase out : printPhaseFormatted eps s2 PI fuel phase = Some out ->
  exists r a, out = Exp :: r /\ angle root PI r = Some a /\ Qabs (a - phase) <= eps * PI * PI.
Proof.
  unfold printPhaseFormatted. set (r := phase / PI). assert (E : phase == r * PI) by (unfold r; field; lra).
  destruct (phaseAttempt _ _ (Qabs r) _ _) as [o|] eqn:A; [|discriminate]. intros [= <-].
  destruct (phase_turns (Qabs r) o (Qabs_nonneg r) A) as (t & (w & W & W0 & W1) & T). apply abs_le in T.
  destruct w as [x y]. cbn [fst snd] in W0, W1. eexists. exists (0 + (0 + (if negative r then - y else y))). split; [reflexivity|].
  destruct (negative_cases r) as [[-> L]|[-> L]].
  - split.
    + unfold angle. cbn [app exponent feed start sign prod fresh lift sum letter divided factor slash neg]. rewrite W.
      cbn [feed total prod slash sum neg lift factor start exponent kadd kneg fst snd].
      assert (Z : 0 + (0 + - x) == 0) by lra. apply Qeq_bool_iff in Z. rewrite Z. reflexivity.
    + rewrite (Qabs_neg r) in T by lra. apply abs_le. nra.
  - split.
    + unfold angle. cbn [app exponent feed start sign prod fresh lift sum letter divided factor slash neg]. rewrite W.
      cbn [feed total prod slash sum neg lift factor start exponent kadd kneg fst snd].
      assert (Z : 0 + (0 + x) == 0) by lra. apply Qeq_bool_iff in Z. rewrite Z. reflexivity.
    + rewrite (Qabs_pos r) in T by lra. apply abs_le. nra.
Qed.
End Reading.
