From Coq Require Import ZArith QArith Qabs Qfield Znumtheory List Bool Lia Lqa.
From Verif Require Import FracModel FracSpec.
Local Open Scope Z_scope.

Local Notation "[ z ]" := (inject_Z z) (at level 0, z at level 99).

Lemma iZ_le a b : a <= b -> ([a] <= [b])%Q.
Proof. now rewrite <- Zle_Qle. Qed.
Lemma iZ_lt a b : a < b -> ([a] < [b])%Q.
Proof. now rewrite <- Zlt_Qlt. Qed.
Lemma iZ_lt' a b : ([a] < [b])%Q -> a < b.
Proof. now rewrite <- Zlt_Qlt. Qed.
Lemma iZ_eq a b : a = b -> ([a] == [b])%Q.
Proof. now intros ->. Qed.
Lemma iZ_add a b : ([a + b] == [a] + [b])%Q.
Proof. now rewrite inject_Z_plus. Qed.
Lemma iZ_mul a b : ([a * b] == [a] * [b])%Q.
Proof. now rewrite inject_Z_mult. Qed.

Lemma ratio_mul n d : 0 < d -> (ratio n d * [d] == [n])%Q.
Proof.
  intros H. unfold ratio. assert (~ [d] == 0)%Q.
  { intros E. apply iZ_lt in H. rewrite E in H. revert H. apply Qlt_irrefl. }
  field. assumption.
Qed.
(** Distances without division *)
Lemma near_mul eps x n d : 0 < d ->
  ((Qabs (x - ratio n d) <= eps)%Q <-> (x * [d] - [n] <= eps * [d])%Q /\ ([n] - x * [d] <= eps * [d])%Q).
Proof.
  intros H. pose proof (ratio_mul n d H) as E. apply iZ_lt in H. change [0] with 0%Q in H.
  rewrite Qabs_Qle_condition. set (r := ratio n d) in *. clearbody r. rewrite <- E. split.
  - intros [A B]. split; nra.
  - intros [A B]. split.
    + assert (~ (x - r < - eps))%Q; [intros K; nra | now apply Qnot_lt_le].
    + assert (~ (eps < x - r))%Q; [intros K; nra | now apply Qnot_lt_le].
Qed.
Lemma le_ratio x n d : 0 < d -> ((x <= ratio n d)%Q <-> (x * [d] <= [n])%Q).
Proof.
  intros H. pose proof (ratio_mul n d H) as E. apply iZ_lt in H. change [0] with 0%Q in H.
  set (r := ratio n d) in *. clearbody r. rewrite <- E. split; intros A; [nra|].
  apply Qnot_lt_le. intros K. nra.
Qed.

Section Search.
Variables (eps x : Q) (M : Z).
Hypotheses (Heps : (0 <= eps)%Q) (Hx : (0 <= x)%Q) (HM : 1 <= M) (Hfit : fits x M).

Record inv (a b c d : Z) : Prop := {
  i_a : 0 <= a; i_b : 1 <= b; i_c : 1 <= c; i_d : 0 <= d;
  i_det : c * b - a * d = 1;
  i_lo : ([a] <= x * [b])%Q;
  i_hi : (x * [d] <= [c])%Q;
  i_inf : d = 0 -> b = 1 }.

Lemma inv0 : inv 0 1 1 0.
Proof.
  split; try lia; change [0] with 0%Q; change [1] with 1%Q; lra.
Qed.

(** Nothing wraps around *)
Lemma inv_num a b c d : inv a b c d -> b <= M -> d <= M -> a + c < 2 ^ 64.
Proof.
  intros [A B C D E L H I] Hb Hd. apply iZ_lt'. destruct Hfit as [F _].
  eapply Qle_lt_trans; [|exact F]. rewrite iZ_add.
  pose proof (iZ_le _ _ A). pose proof (iZ_le _ _ B) as B'. pose proof (iZ_le _ _ D).
  pose proof (iZ_le _ _ Hb). pose proof (iZ_le _ _ Hd). pose proof (iZ_le _ _ C) as C'.
  change [0] with 0%Q in *. change [1] with 1%Q in *.
  assert (E' : ([c] * [b] == [a] * [d] + 1)%Q).
  { rewrite <- !iZ_mul. change 1%Q with [1]. rewrite <- iZ_add. apply iZ_eq. lia. }
  assert ([a] <= [M] * x)%Q by nra.
  assert ([c] <= x * [d] + 1)%Q.
  { apply Qnot_lt_le. intros K. assert (([c] * [b] <= x * [b] * [d] + 1))%Q by nra. nra. }
  nra.
Qed.
Lemma inv_den a b c d : inv a b c d -> b <= M -> d <= M -> b + d < 2 ^ 64.
Proof. intros _ Hb Hd. destruct Hfit as [_ F]. lia. Qed.

(** The two ways on *)
Lemma inv_lower a b c d : inv a b c d -> ([a + c] <= x * [b + d])%Q -> inv (a + c) (b + d) c d.
Proof.
  intros [A B C D E L H I] K. split; try lia; try assumption; try nia.
Qed.
Lemma inv_upper a b c d : inv a b c d -> (x * [b + d] <= [a + c])%Q -> inv a b (a + c) (b + d).
Proof.
  intros [A B C D E L H I] K. split; try lia; try assumption; try nia.
Qed.
Lemma gcd_bezout u v p q : u * p + v * q = 1 -> Z.gcd p q = 1.
Proof. intros H. apply Zgcd_1_rel_prime. apply bezout_rel_prime. now apply (Bezout_intro p q 1 u v). Qed.

(** What is returned *)
Definition ok (p q : Z) : Prop :=
  0 <= p /\ 1 <= q <= M /\ Z.gcd p q = 1 /\
  ((x * [q] - [p]) * [M + 1] <= 1 + eps * [q] * [M + 1])%Q /\ (([p] - x * [q]) * [M + 1] <= 1 + eps * [q] * [M + 1])%Q.

Lemma det_Q a b c d : c * b - a * d = 1 -> ([c] * [b] == [a] * [d] + 1)%Q.
Proof. intros E. rewrite <- !iZ_mul. change 1%Q with [1]. rewrite <- iZ_add. apply iZ_eq. lia. Qed.
Lemma prod_nonneg (u v : Q) : (0 <= u)%Q -> (0 <= v)%Q -> (0 <= u * v)%Q.
Proof. intros. nra. Qed.

Ltac zs := repeat match goal with
  | H : ?a <= ?b |- _ => lazymatch goal with K : ([a] <= [b])%Q |- _ => fail | _ => pose proof (iZ_le a b H) end end.

Lemma ok_upper a b c d N : inv a b c d -> 1 <= d <= M -> M + 1 <= N ->
  (([c] - x * [d]) * [N] <= 1 + eps * [d] * [N])%Q -> ok c d.
Proof.
  intros [A B C D E L H I] Hd HN K. split; [lia|split; [lia|split; [apply (gcd_bezout b (- a)); lia|]]].
  pose proof (iZ_le _ _ HN) as HN'. pose proof (iZ_le 1 d ltac:(lia)) as D1. pose proof (iZ_le 2 (M + 1) ltac:(lia)) as M2.
  change [1] with 1%Q in D1. change [2] with 2%Q in M2. set (m := [M + 1]) in *. set (n := [N]) in *. clearbody m n.
  pose proof (prod_nonneg eps [d] Heps ltac:(lra)). split; [nra|].
  apply Qnot_lt_le. intros G.
  assert (G' : (1 < ([c] - x * [d] - eps * [d]) * m)%Q) by lra.
  assert (K' : (([c] - x * [d] - eps * [d]) * n <= 1)%Q) by lra.
  set (w := ([c] - x * [d] - eps * [d])%Q) in *. clearbody w. clear K G.
  assert (0 < w)%Q by (apply Qnot_le_lt; intros J; nra). nra.
Qed.
Lemma ok_lower a b c d N : inv a b c d -> b <= M -> M + 1 <= N ->
  ((x * [b] - [a]) * [N] <= 1 + eps * [b] * [N])%Q -> ok a b.
Proof.
  intros [A B C D E L H I] Hd HN K. split; [lia|split; [lia|split; [apply (gcd_bezout (- d) c); lia|]]].
  pose proof (iZ_le _ _ HN) as HN'. pose proof (iZ_le 1 b ltac:(lia)) as D1. pose proof (iZ_le 2 (M + 1) ltac:(lia)) as M2.
  change [1] with 1%Q in D1. change [2] with 2%Q in M2. set (m := [M + 1]) in *. set (n := [N]) in *. clearbody m n.
  pose proof (prod_nonneg eps [b] Heps ltac:(lra)). split; [|nra].
  apply Qnot_lt_le. intros G.
  assert (G' : (1 < (x * [b] - [a] - eps * [b]) * m)%Q) by lra.
  assert (K' : ((x * [b] - [a] - eps * [b]) * n <= 1)%Q) by lra.
  set (w := (x * [b] - [a] - eps * [b])%Q) in *. clearbody w. clear K G.
  assert (0 < w)%Q by (apply Qnot_le_lt; intros J; nra). nra.
Qed.

Lemma exit_upper a b c d : inv a b c d -> M < b -> d <= M -> ok c d.
Proof.
  intros V Hb Hd. pose proof V as [A B C D E L H I]. assert (1 <= d) by (destruct (Z.eq_dec d 0); lia).
  apply (ok_upper a b c d b V); try lia. pose proof (det_Q _ _ _ _ E) as E'.
  pose proof (iZ_le 0 d ltac:(lia)) as D'. pose proof (iZ_le 0 b ltac:(lia)) as B'. change [0] with 0%Q in *.
  pose proof (prod_nonneg (eps * [d]) [b] (prod_nonneg _ _ Heps D') B') as N1.
  pose proof (prod_nonneg (x * [b] - [a]) [d] ltac:(lra) D') as N2. clear - E' N1 N2. lra.
Qed.
Lemma exit_lower a b c d : inv a b c d -> b <= M -> M < d -> ok a b.
Proof.
  intros V Hb Hd. pose proof V as [A B C D E L H I].
  apply (ok_lower a b c d d V); try lia. pose proof (det_Q _ _ _ _ E) as E'.
  pose proof (iZ_le 0 d ltac:(lia)) as D'. pose proof (iZ_le 0 b ltac:(lia)) as B'. change [0] with 0%Q in *.
  pose proof (prod_nonneg (eps * [b]) [d] (prod_nonneg _ _ Heps B') D') as N1.
  pose proof (prod_nonneg ([c] - x * [d]) [b] ltac:(lra) B') as N2. clear - E' N1 N2. lra.
Qed.

Definition left (a b d : Z) : nat :=
  Z.to_nat (if d =? 0 then Qnum x / Zpos (Qden x) - a + 2 * M + 2 else 2 * M + 1 - (b + d)).

Lemma floor_le a : ([a] <= x)%Q -> a <= Qnum x / Zpos (Qden x).
Proof.
  intros H. apply Z.div_le_lower_bound; [lia|]. unfold Qle in H. cbn in H. lia.
Qed.

(** A fraction strictly between the bounds *)
Definition inside (a b c d P Q : Z) : Prop := a * Q < P * b /\ P * d < c * Q.
Lemma inside_big a b c d P Q : inv a b c d -> inside a b c d P Q -> b + d <= Q /\ a + c <= P.
Proof.
  intros [A B C D E L H I] [K1 K2].
  assert (Q = b * (c * Q - P * d) + d * (P * b - a * Q)).
  { replace (b * (c * Q - P * d) + d * (P * b - a * Q)) with (Q * (c * b - a * d)) by ring. rewrite E. lia. }
  assert (P = a * (c * Q - P * d) + c * (P * b - a * Q)).
  { replace (a * (c * Q - P * d) + c * (P * b - a * Q)) with (P * (c * b - a * d)) by ring. rewrite E. lia. }
  nia.
Qed.

Lemma search_ok fuel : forall a b c d, inv a b c d -> b <= M \/ d <= M -> (left a b d <= fuel)%nat ->
  exists p q, search fuel eps x M (a, b) (c, d) = Some (p, q) /\ ok p q /\
    forall P Q, 1 <= Q <= M -> near eps x P Q -> inside a b c d P Q -> near eps x p q /\ q <= Q /\ p <= P.
Proof.
  induction fuel as [|fuel IH]; intros a b c d V Hor Hm; pose proof V as [A B C D E L H I]; cbn [search fst snd].
  all: destruct (Z.leb_spec b M) as [Hb|Hb]; destruct (Z.leb_spec d M) as [Hd|Hd]; cbn [andb]; try lia.
  (* the loop is over *)
  all: try (destruct (Z.ltb_spec M b) as [Hb'|Hb']; try lia;
    first
    [ (exists c, d; split; [reflexivity|]; split; [ now apply (exit_upper a b c d)
       | intros P Q HQ HN HI; destruct (inside_big _ _ _ _ _ _ V HI); lia ])
    | (exists a, b; split; [reflexivity|]; split; [ now apply (exit_lower a b c d)
       | intros P Q HQ HN HI; destruct (inside_big _ _ _ _ _ _ V HI); lia ]) ]).
  - exfalso. unfold left in Hm. destruct (Z.eqb_spec d 0) as [d0|]; [|lia].
    pose proof (floor_le a) as F. subst d. rewrite (I eq_refl) in L. change [1] with 1%Q in L. specialize (F ltac:(lra)). lia.
  - assert (Wn : word (a + c) = a + c) by (apply Z.mod_small; split; [lia|now apply (inv_num a b c d)]).
    assert (Wd : word (b + d) = b + d) by (apply Z.mod_small; split; [lia|now apply (inv_den a b c d)]).
    rewrite Wn, Wd. assert (Dp : 0 < b + d) by lia.
    destruct (Qle_bool _ eps) eqn:T.
    + apply Qle_bool_iff in T. pose proof T as T'. apply (near_mul eps x _ _ Dp) in T as [T1 T2].
      destruct (Z.leb_spec (b + d) M) as [S1|S1].
      * exists (a + c), (b + d). split; [reflexivity|]. split.
        -- split; [lia|split; [lia|split; [apply (gcd_bezout (- d) c); lia|]]].
           pose proof (iZ_le 0 (M + 1) ltac:(lia)). change [0] with 0%Q in *. split; nra.
        -- intros P Q HQ HN HI. destruct (inside_big _ _ _ _ _ _ V HI). repeat split; try assumption; lia.
      * pose proof (det_Q _ _ _ _ E) as E'. rewrite !iZ_add in T1, T2.
        pose proof (iZ_le _ _ D) as Dq; pose proof (iZ_le _ _ B) as Bq; change [0] with 0%Q in *; change [1] with 1%Q in *.
        destruct (Z.ltb_spec b d) as [S2|S2].
        -- exists c, d. split; [reflexivity|]. split.
           ++ apply (ok_upper a b c d (b + d) V); try lia. rewrite !iZ_add. nra.
           ++ intros P Q HQ HN HI; destruct (inside_big _ _ _ _ _ _ V HI); lia.
        -- exists a, b. split; [reflexivity|]. split.
           ++ apply (ok_lower a b c d (b + d) V); try lia. rewrite !iZ_add. nra.
           ++ intros P Q HQ HN HI; destruct (inside_big _ _ _ _ _ _ V HI); lia.
    + assert (T' : ~ (Qabs (x - ratio (a + c) (b + d)) <= eps)%Q).
      { intros T'. apply Qle_bool_iff in T'. congruence. }
      rewrite (near_mul eps x _ _ Dp) in T'. clear T.
      assert (Dq : (0 < [b + d])%Q) by (change 0%Q with [0]; now apply iZ_lt).
      pose proof (prod_nonneg eps [b + d] Heps ltac:(lra)) as Eq.
      destruct (Qle_bool x _) eqn:T2; cbn [negb].
      * apply Qle_bool_iff in T2. apply (le_ratio x _ _ Dp) in T2.
        assert (T3 : (eps * [b + d] < [a + c] - x * [b + d])%Q).
        { apply Qnot_le_lt. intros J. apply T'. split; lra. }
        destruct (IH a b (a + c) (b + d)) as (p & q & Eq' & O & Best); [now apply inv_upper|now left| |].
        { unfold left in *. destruct (Z.eqb_spec (b + d) 0); [lia|]. destruct (Z.eqb_spec d 0) as [d0|]; [|lia].
          pose proof (floor_le a) as F. subst d. rewrite (I eq_refl) in L. change [1] with 1%Q in L. specialize (F ltac:(lra)). lia. }
        exists p, q. split; [exact Eq'|split; [exact O|]]. intros P Q HQ HN HI.
        apply (Best P Q HQ HN). destruct HI as [H1 H2]. split; [exact H1|].
        apply (near_mul eps x P Q ltac:(lia)) in HN as [N1 N2]. pose proof (iZ_lt 0 Q ltac:(lia)) as Qp. change [0] with 0%Q in Qp.
        apply iZ_lt'. rewrite !iZ_mul. set (n := [a + c]) in *. set (m := [b + d]) in *. nra.
      * assert (T3 : (x * [b + d] > [a + c])%Q).
        { apply Qnot_le_lt. intros J. apply (le_ratio x _ _ Dp) in J. apply Qle_bool_iff in J. congruence. }
        assert (T4 : (eps * [b + d] < x * [b + d] - [a + c])%Q).
        { apply Qnot_le_lt. intros J. apply T'. split; lra. }
        destruct (IH (a + c) (b + d) c d) as (p & q & Eq' & O & Best); [apply inv_lower; [exact V|lra]|now right| |].
        { unfold left in *. destruct (Z.eqb_spec d 0) as [d0|]; [|lia].
          pose proof (floor_le (a + c)) as F. subst d. rewrite (I eq_refl) in *. change [1 + 0] with 1%Q in T3. specialize (F ltac:(lra)). lia. }
        exists p, q. split; [exact Eq'|split; [exact O|]]. intros P Q HQ HN HI.
        apply (Best P Q HQ HN). destruct HI as [H1 H2]. split; [|exact H2].
        apply (near_mul eps x P Q ltac:(lia)) in HN as [N1 N2]. pose proof (iZ_lt 0 Q ltac:(lia)) as Qp. change [0] with 0%Q in Qp.
        apply iZ_lt'. rewrite !iZ_mul. set (n := [a + c]) in *. set (m := [b + d]) in *. nra.
Qed.
End Search.

Lemma near_pos eps x P Q : (eps < x)%Q -> 1 <= Q -> near eps x P Q -> 0 < P.
Proof.
  intros He HQ HN. apply (near_mul eps x P Q ltac:(lia)) in HN as [N _].
  pose proof (iZ_le _ _ HQ) as Qp. change [1] with 1%Q in Qp. apply iZ_lt'. change [0] with 0%Q. nra.
Qed.
(** The bound on the distance with division *)
Lemma ok_dist eps x M p q : 1 <= M -> ok eps x M p q -> near (1 / ([q] * [M + 1]) + eps) x p q.
Proof.
  intros HM (P & Q & _ & K1 & K2). apply (near_mul _ x p q ltac:(lia)).
  pose proof (iZ_le 1 q ltac:(lia)) as q1. pose proof (iZ_le 1 (M + 1) ltac:(lia)) as m1. change [1] with 1%Q in *.
  set (m := [M + 1]) in *. clearbody m.
  assert (E : ((1 / ([q] * m) + eps) * [q] == 1 / m + eps * [q])%Q) by (field; split; lra).
  assert (F : (1 / m * m == 1)%Q) by (field; lra).
  rewrite E. set (u := (1 / m)%Q) in *. clearbody u. clear E.
  split; apply Qnot_lt_le; intros J; nra.
Qed.

(** Zero *)
Lemma search_zero eps x M : (0 <= x)%Q -> (x <= eps)%Q -> 1 <= M -> (2 * eps * [M + 1] < 1)%Q -> 2 * M < 2 ^ 64 ->
  forall fuel d, 0 <= d -> (Z.to_nat (M + 1 - d) <= fuel)%nat -> search fuel eps x M (0, 1) (1, d) = Some (0, 1).
Proof.
  intros Hx He HM Hs Hw. induction fuel as [|fuel IH]; intros d Hd Hf; cbn [search fst snd].
  all: destruct (Z.leb_spec 1 M); [|lia]; destruct (Z.leb_spec d M) as [HdM|HdM]; cbn [andb].
  all: try (destruct (Z.ltb_spec M 1); [lia|reflexivity]).
  - lia.
  - replace (word (0 + 1)) with 1 by reflexivity.
    replace (word (1 + d)) with (1 + d) by (symmetry; apply Z.mod_small; lia).
    pose proof (iZ_le (1 + d) (M + 1) ltac:(lia)) as D1. pose proof (iZ_le 1 (1 + d) ltac:(lia)) as D2. change [1] with 1%Q in D2.
    destruct (Qle_bool _ eps) eqn:T.
    { exfalso. apply Qle_bool_iff in T. apply (near_mul eps x 1 (1 + d) ltac:(lia)) in T as [_ T]. change [1] with 1%Q in T.
      set (k := [1 + d]) in *. set (m := [M + 1]) in *. clearbody k m.
      assert (x * k <= eps * k)%Q by nra. assert (eps * k <= eps * m)%Q by nra. lra. }
    destruct (Qle_bool x _) eqn:T2; cbn [negb].
    + apply IH; lia.
    + exfalso. assert (x <= ratio 1 (1 + d))%Q; [|apply Qle_bool_iff in H0; congruence].
      apply (le_ratio x 1 (1 + d) ltac:(lia)). change [1] with 1%Q.
      set (k := [1 + d]) in *. set (m := [M + 1]) in *. clearbody k m.
      assert (x * k <= eps * k)%Q by nra. assert (eps * k <= eps * m)%Q by nra. assert (0 <= eps * m)%Q by nra. lra.
Qed.

(** Too large *)
Lemma search_forever eps x M : (0 <= eps)%Q -> ([2 ^ 64] + eps <= x)%Q -> 1 <= M ->
  forall fuel n, 0 <= n < 2 ^ 64 -> search fuel eps x M (n, 1) (1, 0) = None.
Proof.
  intros E Hx HM. induction fuel as [|fuel IH]; intros n Hn; cbn [search fst snd].
  all: destruct (Z.leb_spec 1 M); [|lia]; destruct (Z.leb_spec 0 M); [|lia]; cbn [andb].
  { reflexivity. }
  change (word (1 + 0)) with 1. pose proof (Z.mod_pos_bound (n + 1) (2 ^ 64) ltac:(lia)) as B. fold (word (n + 1)) in B.
  set (k := word (n + 1)) in *. clearbody k. pose proof (iZ_lt _ _ (proj2 B)) as B'.
  destruct (Qle_bool _ eps) eqn:T.
  { exfalso. apply Qle_bool_iff in T. apply (near_mul eps x k 1 ltac:(lia)) in T as [T _]. change [1] with 1%Q in T. lra. }
  destruct (Qle_bool x _) eqn:T2; cbn [negb]; [|now apply IH].
  exfalso. apply Qle_bool_iff in T2. apply (le_ratio x k 1 ltac:(lia)) in T2. change [1] with 1%Q in T2.
  lra.
Qed.

(** Fractions that are both close to x are equal *)
Lemma near_unique eps x M p q P Q : (2 * eps * [M * M] < 1)%Q -> 1 <= q <= M -> 1 <= Q <= M ->
  near eps x p q -> near eps x P Q -> p * Q = P * q.
Proof.
  intros He Hq HQ N1 N2. apply (near_mul eps x p q ltac:(lia)) in N1 as [A1 A2]. apply (near_mul eps x P Q ltac:(lia)) in N2 as [B1 B2].
  assert (K : q * Q <= M * M) by nia. apply iZ_le in K. rewrite !iZ_mul in K. rewrite iZ_mul in He.
  pose proof (iZ_le 1 q ltac:(lia)) as q1. pose proof (iZ_le 1 Q ltac:(lia)) as Q1. change [1] with 1%Q in *.
  assert (0 <= eps)%Q. { assert (0 <= 2 * (eps * [q]))%Q by lra. apply Qnot_lt_le. intros J. nra. }
  assert (e1 : (eps * ([q] * [Q]) <= eps * ([M] * [M]))%Q) by nra.
  assert (U1 : ([p * Q - P * q] < [1])%Q).
  { unfold Z.sub. rewrite iZ_add, inject_Z_opp, !iZ_mul. change [1] with 1%Q. nra. }
  assert (U2 : ([P * q - p * Q] < [1])%Q).
  { unfold Z.sub. rewrite iZ_add, inject_Z_opp, !iZ_mul. change [1] with 1%Q. nra. }
  apply iZ_lt' in U1, U2. lia.
Qed.
Lemma coprime_eq p q P Q : 0 <= p -> 0 <= P -> 1 <= q -> 1 <= Q -> Z.gcd p q = 1 -> Z.gcd P Q = 1 -> p * Q = P * q -> p = P /\ q = Q.
Proof.
  intros Hp HP Hq HQ G1 G2 E.
  assert (D1 : (q | Q)).
  { apply (Z.gauss q p Q); [exists P; lia|]. now rewrite Z.gcd_comm. }
  assert (D2 : (Q | q)).
  { apply (Z.gauss Q P q); [exists p; lia|]. now rewrite Z.gcd_comm. }
  assert (q = Q) by (apply Z.divide_antisym_nonneg; lia || assumption). subst. split; [nia|reflexivity].
Qed.
