From Coq Require Import ZArith QArith Qabs Qfield List Bool Lia Lqa.
From Verif Require Import FracModel FracSpec FracProofs FracProps PrintModel PrintSpec.
Import ListNotations.
Local Open Scope Z_scope.

(** Denominators are positive *)
Lemma search_den eps x M : 1 <= M -> 2 * M < 2 ^ 64 ->
  forall fuel a b c d p q, 1 <= b -> 0 <= d -> (d = 0 -> b = 1) -> search fuel eps x M (a, b) (c, d) = Some (p, q) -> 1 <= q.
Proof.
  intros HM HW. induction fuel as [|fuel IH]; intros a b c d p q B D I; cbn [search fst snd].
  all: destruct (Z.leb_spec b M); destruct (Z.leb_spec d M); cbn [andb].
  all: try (destruct (Z.ltb_spec M b); intros [= <- <-]; (destruct (Z.eq_dec d 0) as [e|]; [specialize (I e)|]); lia).
  - replace (word (b + d)) with (b + d) by (symmetry; apply Z.mod_small; lia).
    destruct (Qle_bool _ eps).
    + destruct (Z.leb_spec (b + d) M); [intros [= <- <-]; lia|].
      destruct (Z.ltb_spec b d); intros [= <- <-]; lia.
    + destruct (negb _); intros E; apply IH in E; try assumption; lia.
Qed.
Lemma fraction_den eps x fuel p q : getLowestFraction fuel eps x 1024 = Some (p, q) -> 1 <= q.
Proof. intros E. apply search_den in E; lia. Qed.

Local Open Scope Q_scope.

Section Reading.
Variables (eps s2 PI : Q) (fuel : nat).
Hypotheses (He : 0 <= eps) (Hs : 0 < s2 <= 1) (Hp : 1 <= PI).
Let root := 1 / s2.

(** The pieces [out] are one product of the value w *)
Definition is_product (out : list piece) (w : K) : Prop :=
  exists dv, forall S fr ng stk, feeds root PI (St S fr ng None false false, stk) out = Some (St S false ng (Some w) false dv, stk).
Definition part (im : bool) (w : K) : Q := if im then snd w else fst w.
Definition other (im : bool) (w : K) : Q := if im then fst w else snd w.

Ltac parts := cbv [part other fst snd kmul kdiv kadd kneg sum prod neg slash fresh divided start].

Lemma root_inv : ~ s2 == 0.
Proof. lra. Qed.
Lemma den_nz d : (1 <= d)%Z -> ~ inject_Z d == 0.
Proof. intros H E. apply iZ_le in H. change (inject_Z 1) with 1 in H. lra. Qed.

Lemma fraction_reads im n d : (1 <= d)%Z -> exists w, is_product (printFraction im n d) w /\ other im w == 0 /\ part im w == ratio n d.
Proof.
  intros Hd. pose proof (den_nz d Hd) as Nd. unfold printFraction.
  destruct (Z.eqb_spec n 1) as [->|Hn]; destruct (Z.eqb_spec d 1) as [->|Hd1]; cbn [andb]; destruct im; cbn [unit app].
  all: unfold is_product; eexists; (split; [eexists; intros; reflexivity|split; parts; unfold root, ratio; change (inject_Z 1) with 1]).
  all: try solve [reflexivity | ring | field; repeat split; try apply root_inv; try assumption; try lra].
Qed.
Lemma sqrt_reads im n d : (1 <= d)%Z -> exists w, is_product (printSqrt im n d) w /\ other im w == 0 /\ part im w == ratio n d * s2.
Proof.
  intros Hd. pose proof (den_nz d Hd) as Nd. unfold printSqrt.
  destruct (Z.eqb_spec n 1) as [->|Hn]; destruct (Z.eqb_spec d 1) as [->|Hd1]; cbn [andb]; destruct im; cbn [unit app].
  all: unfold is_product; eexists; (split; [eexists; intros; reflexivity|split; parts; unfold root, ratio; change (inject_Z 1) with 1]).
  all: try solve [reflexivity | ring | field; repeat split; try apply root_inv; try assumption; try lra].
Qed.
Lemma pi_reads im n d : (1 <= d)%Z -> exists w, is_product (printPi im n d) w /\ other im w == 0 /\ part im w == ratio n d * PI.
Proof.
  intros Hd. pose proof (den_nz d Hd) as Nd. unfold printPi.
  destruct (Z.eqb_spec n 1) as [->|Hn]; destruct (Z.eqb_spec d 1) as [->|Hd1]; cbn [andb]; destruct im; cbn [unit app].
  all: unfold is_product; eexists; (split; [eexists; intros; reflexivity|split; parts; unfold root, ratio; change (inject_Z 1) with 1]).
  all: try solve [reflexivity | ring | field; repeat split; try apply root_inv; try assumption; try lra].
Qed.

Lemma abs_le u v : Qabs u <= v <-> - v <= u /\ u <= v.
Proof. apply Qabs_Qle_condition. Qed.

(** The test of an attempt *)
Lemma scaled x k n d : 0 < k -> approximatelyZero eps (x / k - ratio n d) = true -> Qabs (ratio n d * k - x) <= eps * k.
Proof.
  intros Hk T. apply Qle_bool_iff, abs_le in T as [T1 T2]. set (r := ratio n d) in *. clearbody r.
  assert (E : x == x / k * k) by (field; lra). set (y := x / k) in *. clearbody y. rewrite abs_le, E. split; nra.
Qed.
Lemma dec_nonneg num : 0 <= num -> printDec num = [TDec num].
Proof. intros H. unfold printDec, negative. apply Qle_bool_iff in H. now rewrite H. Qed.

Lemma body_reads num im out : 0 <= num -> printBody eps s2 PI fuel num im = Some out ->
  exists w, is_product out w /\ other im w == 0 /\ Qabs (part im w - num) <= eps * PI.
Proof.
  intros Hn. unfold printBody. destruct (approximatelyZero eps num) eqn:Z0.
  { intros [= <-]. apply Qle_bool_iff, abs_le in Z0. exists (if im then kmul (0, 0) (0, 1) else (0, 0)).
    destruct im; cbn [unit]; (split; [eexists; intros S fr ng stk; reflexivity|]); parts; (split; [ring|rewrite abs_le; split; nra]). }
  assert (A : Qabs num == num) by (now apply Qabs_pos).
  unfold attempt. destruct (getLowestFraction fuel eps (Qabs num) 1024) as [[n d]|] eqn:F1; [|discriminate].
  destruct (approximatelyZero eps (Qabs num - ratio n d)) eqn:T1.
  { intros [= <-]. destruct (fraction_reads im n d (fraction_den _ _ _ _ _ F1)) as (w & W & W0 & W1).
    exists w. split; [exact W|split; [exact W0|]]. apply Qle_bool_iff, abs_le in T1. rewrite W1, abs_le.
    set (r := ratio n d) in *. clearbody r. rewrite A in T1. split; nra. }
  clear n d F1 T1.
  destruct (getLowestFraction fuel eps (Qabs num / s2) 1024) as [[n d]|] eqn:F1; [|discriminate].
  destruct (approximatelyZero eps (Qabs num / s2 - ratio n d)) eqn:T1.
  { intros [= <-]. destruct (sqrt_reads im n d (fraction_den _ _ _ _ _ F1)) as (w & W & W0 & W1).
    exists w. split; [exact W|split; [exact W0|]]. apply scaled in T1; [|lra]. rewrite W1.
    rewrite A in T1. eapply Qle_trans; [exact T1|]. nra. }
  clear n d F1 T1.
  destruct (getLowestFraction fuel eps (Qabs num / PI) 1024) as [[n d]|] eqn:F1; [|discriminate].
  destruct (approximatelyZero eps (Qabs num / PI - ratio n d)) eqn:T1.
  { intros [= <-]. destruct (pi_reads im n d (fraction_den _ _ _ _ _ F1)) as (w & W & W0 & W1).
    exists w. split; [exact W|split; [exact W0|]]. apply scaled in T1; [|lra]. rewrite W1.
    rewrite A in T1. exact T1. }
  intros [= <-]. rewrite (dec_nonneg _ Hn). exists (if im then kmul (num, 0) (0, 1) else (num, 0)).
  destruct im; cbn [unit app]; (split; [eexists; intros S fr ng stk; reflexivity|]); parts; (split; [ring|rewrite abs_le; split; nra]).
Qed.

(** A signed product, behind another one or at the start *)
Lemma negative_cases num : (negative num = true /\ num < 0) \/ (negative num = false /\ 0 <= num).
Proof.
  unfold negative. destruct (Qle_bool 0 num) eqn:E; cbn [negb].
  - right. split; [reflexivity|now apply Qle_bool_iff].
  - left. split; [reflexivity|]. apply Qnot_le_lt. intros H. apply Qle_bool_iff in H. congruence.
Qed.
Lemma formatted_reads num im out : printFormatted eps s2 PI fuel num im = Some out ->
  exists ng w dv, (im = false -> feeds root PI (start, []) out = Some (St (0, 0) false ng (Some w) false dv, [])) /\
    (im = true -> feeds root PI (start, []) out = Some (St (0, 0) false ng (Some w) false dv, []) /\
       forall S fr ng0 v dv0, feeds root PI (St S fr ng0 (Some v) false dv0, []) out =
         Some (St (kadd S (if ng0 then kneg v else v)) false ng (Some w) false dv, [])) /\
    other im w == 0 /\ Qabs ((if ng then - part im w else part im w) - num) <= eps * PI.
Proof.
  unfold printFormatted. intros E. destruct (negative_cases num) as [[N L]|[N L]]; rewrite N in E.
  - destruct (printBody eps s2 PI fuel (- num) im) as [o|] eqn:B; [|discriminate]. injection E as <-.
    destruct (body_reads (- num) im o ltac:(lra) B) as (w & [dv W] & W0 & W1). exists true, w, dv.
    split; [|split; [|split; [exact W0|]]].
    + intros _. cbn [app feeds feed start sign prod fresh lift sum]. apply W.
    + intros _. split; [cbn [app feeds feed start sign prod fresh lift sum]; apply W|].
      intros S fr ng0 v dv0. cbn [app feeds feed sign prod total slash sum neg lift]. apply W.
    + cbv beta iota. apply abs_le in W1 as [W1 W2]. apply abs_le. split; lra.
  - destruct (printBody eps s2 PI fuel num im) as [o|] eqn:B; [|discriminate]. injection E as <-.
    destruct (body_reads _ _ _ L B) as (w & [dv W] & W0 & W1). exists false, w, dv.
    split; [|split; [|split; [exact W0|exact W1]]].
    + intros ->. cbn [app]. apply W.
    + intros ->. split; [cbn [app feeds feed start sign prod fresh lift sum]; apply W|].
      intros S fr ng0 v dv0. cbn [app feeds feed sign prod total slash sum neg lift]. apply W.
Qed.
Lemma feeds_app c l1 l2 : feeds root PI c (l1 ++ l2) = match feeds root PI c l1 with Some c' => feeds root PI c' l2 | None => None end.
Proof. revert c. induction l1 as [|t l IH]; intros c; cbn; [reflexivity|]. destruct (feed root PI c t); [apply IH|reflexivity]. Qed.
Lemma dec_reads q : exists ng w, feeds root PI (start, []) (printDec q) = Some (St (0, 0) false ng (Some w) false false, []) /\
  snd w == 0 /\ (if ng then - fst w else fst w) == q.
Proof.
  unfold printDec. destruct (negative_cases q) as [[-> L]|[-> L]].
  - exists true, (- q, 0). split; [reflexivity|]. cbn. split; ring.
  - exists false, (q, 0). split; [reflexivity|]. cbn. split; ring.
Qed.

(** Whole texts *)
Lemma reads_one out S ng w dv : feeds root PI (start, []) out = Some (St S false ng (Some w) false dv, []) ->
  reads root PI out = Some (kadd S (if ng then kneg w else w)).
Proof. intros E. unfold reads. rewrite E. reflexivity. Qed.

Definition guarded (real imag : Q) : Prop := eps < Qabs real \/ real == 0 \/ Qabs imag <= eps \/ 2 * eps < Qabs imag.

Lemma az_false q : approximatelyZero eps q = false <-> eps < Qabs q.
Proof.
  unfold approximatelyZero. split.
  - intros E. apply Qnot_le_lt. intros H. apply Qle_bool_iff in H. congruence.
  - intros H. destruct (Qle_bool (Qabs q) eps) eqn:E; [|reflexivity]. apply Qle_bool_iff in E. lra.
Qed.
Lemma az_true q : approximatelyZero eps q = true <-> - eps <= q /\ q <= eps.
Proof. unfold approximatelyZero. now rewrite Qle_bool_iff, abs_le. Qed.
Lemma abs_tri u : (0 <= u /\ Qabs u == u) \/ (u <= 0 /\ Qabs u == - u).
Proof. destruct (Qlt_le_dec u 0) as [H|H]; [right; split; [lra|]; apply Qabs_neg; lra|left; split; [exact H|now apply Qabs_pos]]. Qed.

Lemma text_reads real imag out : guarded real imag -> toString eps s2 PI fuel real imag true = Some out ->
  exists v, reads root PI out = Some v /\ kclose (eps * PI + eps) v (real, imag).
Proof.
  intros G. unfold toString.
  assert (EP : eps <= eps * PI) by nra.
  destruct (approximatelyZero eps real) eqn:ZR; destruct (approximatelyZero eps imag) eqn:ZI; cbn [andb negb].
  - intros [= <-]. exists (kadd (0, 0) (0, 0)). split; [reflexivity|]. apply az_true in ZR, ZI. unfold kclose. rewrite !abs_le. cbn. lra.
  - apply az_true in ZR. apply az_false in ZI.
    assert (D : forall b, 2 * eps < Qabs imag \/ real == 0 -> b == imag \/ b == - imag -> approximatelyEquals eps real b = false).
    { intros b Hg Hb. unfold approximatelyEquals. apply (proj2 (az_false (real - b))). destruct (abs_tri imag) as [[? E]|[? E]]; rewrite E in *;
      destruct (abs_tri (real - b)) as [[? E2]|[? E2]]; rewrite E2; destruct Hb as [Hb|Hb]; rewrite Hb in *; destruct Hg as [Hg|Hg]; try rewrite Hg in *; lra. }
    assert (G' : 2 * eps < Qabs imag \/ real == 0).
    { destruct G as [G|[G|[G|G]]]; auto; [|lra]. destruct (abs_tri real) as [[? E]|[? E]]; rewrite E in *; lra. }
    rewrite (D imag G') by (left; reflexivity). rewrite (D (- imag) G') by (right; reflexivity).
    destruct (printFormatted eps s2 PI fuel imag true) as [o|] eqn:P; [|discriminate]. cbn [app]. intros [= <-].
    destruct (formatted_reads _ _ _ P) as (ng & w & dv & _ & W & W0 & W1). destruct (W eq_refl) as [W' _].
    eexists. split; [apply (reads_one _ _ _ _ _ W')|]. unfold kclose. rewrite !abs_le. apply abs_le in W1 as [W1 W2].
    revert W0 W1 W2. unfold other, part. destruct ng; cbn; change (inject_Z 1) with 1; intros; lra.
  - apply az_true in ZI. destruct (printFormatted eps s2 PI fuel real false) as [o|] eqn:P; [|discriminate]. intros [= <-].
    destruct (formatted_reads _ _ _ P) as (ng & w & dv & W & _ & W0 & W1).
    eexists. split; [apply (reads_one _ _ _ _ _ (W eq_refl))|]. unfold kclose. rewrite !abs_le. apply abs_le in W1 as [W1 W2].
    revert W0 W1 W2. unfold other, part. destruct ng; cbn; change (inject_Z 1) with 1; intros; lra.
  - destruct (printFormatted eps s2 PI fuel real false) as [o|] eqn:P; [|discriminate].
    destruct (formatted_reads _ _ _ P) as (ng & w & dv & W & _ & W0 & W1). specialize (W eq_refl).
    apply abs_le in W1 as [W1 W2]. unfold other, part in *.
    destruct (approximatelyEquals eps real imag) eqn:Q1.
    { intros [= <-]. unfold reads. rewrite feeds_app, W. eexists. split; [reflexivity|].
      apply Qle_bool_iff, abs_le in Q1. unfold kclose. rewrite !abs_le. revert W0 W1 W2. destruct w as [a b]. destruct ng; cbn; change (inject_Z 1) with 1; intros; lra. }
    destruct (approximatelyEquals eps real (- imag)) eqn:Q2.
    { intros [= <-]. unfold reads. rewrite feeds_app, W. eexists. split; [reflexivity|].
      apply Qle_bool_iff, abs_le in Q2. unfold kclose. rewrite !abs_le. revert W0 W1 W2. destruct w as [a b]. destruct ng; cbn; change (inject_Z 1) with 1; intros; lra. }
    destruct (printFormatted eps s2 PI fuel imag true) as [o'|] eqn:P'; [|discriminate]. intros [= <-].
    destruct (formatted_reads _ _ _ P') as (ng' & w' & dv' & _ & W' & W0' & W1'). destruct (W' eq_refl) as [_ W''].
    unfold reads. rewrite feeds_app, W, W''. eexists. split; [reflexivity|].
    apply abs_le in W1' as [W1' W2']. unfold kclose. rewrite !abs_le.
    revert W0 W1 W2 W0' W1' W2'. unfold other, part. destruct w as [a b], w' as [a' b']. destruct ng, ng'; cbn; change (inject_Z 1) with 1; intros; lra.
Qed.

Lemma plain_reads real imag out : toString eps s2 PI fuel real imag false = Some out ->
  exists v, reads root PI out = Some v /\ kclose eps v (real, imag).
Proof.
  unfold toString.
  destruct (approximatelyZero eps real) eqn:ZR; destruct (approximatelyZero eps imag) eqn:ZI; cbn [andb negb]; intros [= <-].
  - exists (kadd (0, 0) (0, 0)). split; [reflexivity|]. apply az_true in ZR, ZI. unfold kclose. rewrite !abs_le. cbn. lra.
  - apply az_true in ZR. cbn [app]. destruct (dec_reads imag) as (ng & w & W & W0 & W1). unfold reads. rewrite feeds_app, W.
    eexists. split; [reflexivity|]. unfold kclose. rewrite !abs_le. revert W0 W1. destruct w. destruct ng; cbn; change (inject_Z 1) with 1; intros; lra.
  - apply az_true in ZI. destruct (dec_reads real) as (ng & w & W & W0 & W1). unfold reads. rewrite W.
    eexists. split; [reflexivity|]. unfold kclose. rewrite !abs_le. revert W0 W1. destruct w. destruct ng; cbn; change (inject_Z 1) with 1; intros; lra.
  - destruct (dec_reads real) as (ng & w & W & W0 & W1). unfold reads. rewrite feeds_app, W. clear W.
    apply az_false in ZI. assert (NZ : ~ imag == 0).
    { intros H. rewrite H in ZI. cbn in ZI. change (Qabs 0) with 0 in ZI. lra. }
    unfold printDec. destruct (negative_cases imag) as [[-> L]|[-> L]].
    + assert (F : Qle_bool imag 0 = true) by (apply Qle_bool_iff; lra). rewrite F. cbn [negb app].
      eexists. split; [reflexivity|]. unfold kclose. rewrite !abs_le. revert W0 W1. destruct w. destruct ng; cbn; change (inject_Z 1) with 1; intros; lra.
    + assert (F : Qle_bool imag 0 = false).
      { destruct (Qle_bool imag 0) eqn:F; [|reflexivity]. apply Qle_bool_iff in F. exfalso. apply NZ. lra. }
      rewrite F. cbn [negb app].
      eexists. split; [reflexivity|]. unfold kclose. rewrite !abs_le. revert W0 W1. destruct w. destruct ng; cbn; change (inject_Z 1) with 1; intros; lra.
Qed.

(** The searches end *)
Lemma fits_le x y M : (0 <= M)%Z -> x <= y -> fits y M -> fits x M.
Proof.
  intros HM H [A B]. split; [|exact B]. eapply Qle_lt_trans; [|exact A]. apply iZ_le in HM. change (inject_Z 0) with 0 in HM. nra.
Qed.
Lemma floor_mono x y : x <= y -> (Qnum x / Zpos (Qden x) <= Qnum y / Zpos (Qden y))%Z.
Proof.
  intros H. apply floor_le. eapply Qle_trans; [|exact H]. unfold Qle. cbn.
  pose proof (Z.mul_div_le (Qnum x) (Zpos (Qden x)) ltac:(lia)). lia.
Qed.
Lemma rounds_le x y M : x <= y -> (rounds x M <= rounds y M)%nat.
Proof. intros H. pose proof (floor_mono x y H). unfold rounds. lia. Qed.
Lemma search_ends x : 0 <= x -> 2 * eps * inject_Z 1025 < 1 -> fits x 1024 -> (rounds x 1024 <= fuel)%nat ->
  exists n d, getLowestFraction fuel eps x 1024 = Some (n, d).
Proof.
  intros Hx Hb HF Hf. destruct (Qlt_le_dec eps x) as [L|L].
  - destruct (C108_fraction eps x 1024 fuel (conj He L) ltac:(lia) HF Hf) as (p & q & E & _). now exists p, q.
  - exists 0%Z, 1%Z. apply C108_zero; try assumption; try lia; try (split; assumption).
Qed.
Lemma body_ends num im : 0 <= num -> 2 * eps * inject_Z 1025 < 1 -> fits (num / s2) 1024 -> (rounds (num / s2) 1024 <= fuel)%nat ->
  exists out, printBody eps s2 PI fuel num im = Some out.
Proof.
  intros Hn Hb HF Hf. unfold printBody. destruct (approximatelyZero eps num); [now eexists|].
  assert (E1 : num == num / s2 * s2) by (field; lra). assert (E2 : num == num / PI * PI) by (field; lra).
  set (y := num / s2) in *. set (z := num / PI) in *.
  assert (0 <= y) by (apply Qnot_lt_le; intros J; nra). assert (0 <= z) by (apply Qnot_lt_le; intros J; nra).
  assert (num <= y) by nra. assert (z <= y) by nra.
  assert (K : forall x, 0 <= x -> x <= y -> exists n d, getLowestFraction fuel eps x 1024 = Some (n, d)).
  { intros x H4 H5. apply search_ends; try assumption; [now apply (fits_le x y)|]. pose proof (rounds_le x y 1024 H5). lia. }
  assert (A : Qabs num == num) by (now apply Qabs_pos).
  unfold attempt.
  destruct (K (Qabs num)) as (n1 & d1 & ->); [lra|lra|]. destruct (approximatelyZero eps _); [now eexists|].
  assert (A2 : Qabs num / s2 == y) by (unfold y; now rewrite A). assert (A3 : Qabs num / PI == z) by (unfold z; now rewrite A).
  destruct (K (Qabs num / s2)) as (n2 & d2 & ->); [lra|lra|]. destruct (approximatelyZero eps _); [now eexists|].
  destruct (K (Qabs num / PI)) as (n3 & d3 & ->); [lra|lra|]. destruct (approximatelyZero eps _); now eexists.
Qed.
Lemma formatted_ends num im : 2 * eps * inject_Z 1025 < 1 -> fits (Qabs num / s2) 1024 -> (rounds (Qabs num / s2) 1024 <= fuel)%nat ->
  exists out, printFormatted eps s2 PI fuel num im = Some out.
Proof.
  intros Hb HF Hf. unfold printFormatted.
  assert (K : forall u, 0 <= u -> u == Qabs num -> exists out, printBody eps s2 PI fuel u im = Some out).
  { intros u Hu E. assert (L : u / s2 <= Qabs num / s2) by (rewrite E; apply Qle_refl).
    apply body_ends; try assumption; [now apply (fits_le _ (Qabs num / s2))|]. pose proof (rounds_le _ _ 1024 L). lia. }
  destruct (negative_cases num) as [[-> L]|[-> L]].
  - destruct (K (- num)) as [o ->]; [lra|symmetry; apply Qabs_neg; lra|now eexists].
  - destruct (K num) as [o ->]; [lra|symmetry; now apply Qabs_pos|now eexists].
Qed.
End Reading.
