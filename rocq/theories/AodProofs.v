From Coq Require Import ZArith QArith Qabs Qpower Qround List Bool String Arith Lia Lqa.
From Verif Require Import GateModel OpNameModel AodModel AodSpec.
Import ListNotations.
Open Scope Q_scope.

Lemma ten_nz : ~ ten == 0. Proof. discriminate. Qed.
Lemma pow_pos : forall k, 0 < Qpower ten k.
Proof.
  intros k. assert (H : 0 <= Qpower ten k) by (apply Qpower_pos; discriminate).
  destruct (Qle_lt_or_eq _ _ H) as [|E]; [assumption|]. symmetry in E. exfalso.
  destruct (Z.eq_dec k 0) as [->|N]; [discriminate E|].
  assert (P : Qpower ten (k + - k) == Qpower ten k * Qpower ten (- k)) by (apply Qpower_plus; apply ten_nz).
  rewrite E, Z.add_opp_diag_r in P. setoid_replace (0 * ten ^ (- k)) with 0 in P by ring. discriminate P.
Qed.
Lemma pow_plus : forall a b, Qpower ten (a + b) == Qpower ten a * Qpower ten b.
Proof. intros. apply Qpower_plus, ten_nz. Qed.
Lemma pow_cancel : forall k, Qpower ten k * Qpower ten (- k) == 1.
Proof. intros. rewrite <- pow_plus, Z.add_opp_diag_r. reflexivity. Qed.
Lemma pow_int : forall k, (0 <= k)%Z -> Qpower ten k == inject_Z (10 ^ k).
Proof. intros k H. unfold ten. change (10#1) with (inject_Z 10). symmetry. apply Zpower_Qpower, H. Qed.
Lemma abs_scaled : forall q k, Qabs (scaled q k) == Qabs q * Qpower ten k.
Proof. intros. unfold scaled. rewrite Qabs_Qmult. rewrite (Qabs_pos (Qpower ten k)); [reflexivity | apply Qlt_le_weak, pow_pos]. Qed.

Lemma shrink_low : forall fuel q k, 100000 <= Qabs (scaled q k) -> 100000 <= Qabs (scaled q (shrink fuel q k)).
Proof.
  induction fuel as [|f IH]; intros q k H; cbn [shrink]; [assumption|].
  destruct (Qle_bool 1000000 (Qabs (scaled q k))) eqn:E; [|assumption].
  apply IH. apply Qle_bool_iff in E. rewrite abs_scaled in *.
  assert (P : Qpower ten k == Qpower ten (k - 1) * ten).
  { replace k with ((k - 1) + 1)%Z at 1 by lia. rewrite pow_plus. reflexivity. }
  rewrite P in E. rewrite Qmult_assoc in E. unfold ten at 2 in E. lra.
Qed.

Lemma pos_size_le : forall p, (Zpos p <= 10 ^ Zpos (Pos.size p))%Z.
Proof.
  intros p. pose proof (Pos.size_gt p) as H.
  assert (A : (Zpos p < 2 ^ Zpos (Pos.size p))%Z) by (rewrite <- Pos2Z.inj_pow; apply Pos2Z.pos_lt_pos; exact H).
  assert (B : (2 ^ Zpos (Pos.size p) <= 10 ^ Zpos (Pos.size p))%Z) by (apply Z.pow_le_mono_l; lia). lia.
Qed.
Lemma start_low : forall q, ~ q == 0 -> 100000 <= Qabs (scaled q (5 + Zpos (Pos.size (Qden q)))).
Proof.
  intros [n d] N. simpl Qden. rewrite abs_scaled, pow_plus.
  rewrite (pow_int (Zpos (Pos.size d))) by lia. pose proof (pos_size_le d) as H.
  assert (A : 1 <= Qabs (n # d) * inject_Z (10 ^ Zpos (Pos.size d))).
  { unfold Qabs, Qle, Qmult, inject_Z; simpl Qnum; simpl Qden.
    assert (n <> 0)%Z by (intros ->; apply N; reflexivity). assert (1 <= Z.abs n)%Z by lia.
    rewrite Pos.mul_1_r. nia. }
  change (Qpower ten 5) with (100000#1). lra.
Qed.
Lemma digits_low : forall q, ~ q == 0 -> 100000 <= Qabs (scaled q (digits q)).
Proof. intros. apply shrink_low, start_low; assumption. Qed.

Lemma round_int : forall q z, q == inject_Z z -> roundEven q = z.
Proof.
  intros q z E. unfold roundEven.
  assert (F : Qfloor q = z) by (rewrite (Qfloor_comp _ _ E); apply Qfloor_Z). rewrite F.
  assert (L : q - inject_Z z < 1 # 2) by (rewrite E; lra). pose proof (proj1 (Qlt_alt _ _) L) as L2. unfold Qcompare in *. rewrite L2. reflexivity.
Qed.
Lemma sig6_exact : forall q, short q -> sig6 q == q.
Proof.
  intros q (m & j & Hm & E). unfold sig6. set (k := digits q).
  destruct (Qeq_dec q 0) as [Z0|N].
  - rewrite (round_int _ 0%Z); [|unfold scaled; rewrite Z0; ring]. rewrite Z0. unfold scaled. change (inject_Z 0) with 0. ring.
  - pose proof (digits_low q N) as L. fold k in L. change (10#1) with ten in E.
    assert (S0 : scaled q k == inject_Z m * Qpower ten (j + k)) by (unfold scaled; rewrite E, pow_plus; ring).
    destruct (Z_lt_le_dec (j + k) 0) as [Neg|Pos].
    + exfalso. rewrite S0, Qabs_Qmult, (Qabs_pos (Qpower ten _)) in L by (apply Qlt_le_weak, pow_pos).
      assert (M : Qabs (inject_Z m) <= 999999) by (unfold Qabs, inject_Z, Qle; simpl; lia).
      assert (P : Qpower ten (j + k) * ten <= 1).
      { set (r := (- (j + k) - 1)%Z). assert (R : (0 <= r)%Z) by (unfold r; lia).
        assert (A : Qpower ten (j + k) * ten * Qpower ten r == 1).
        { change (Qpower ten (j + k) * ten) with (Qpower ten (j + k) * Qpower ten 1). rewrite <- !pow_plus.
          replace (j + k + 1 + r)%Z with 0%Z by (unfold r; lia). reflexivity. }
        assert (B : 1 <= Qpower ten r).
        { rewrite pow_int by assumption. change 1 with (inject_Z 1). rewrite <- Zle_Qle. assert (0 < 10 ^ r)%Z by (apply Z.pow_pos_nonneg; lia). lia. }
        pose proof (pow_pos (j + k)). unfold ten at 2. unfold ten at 2 in A. nra. }
      pose proof (pow_pos (j + k)) as PP. unfold ten at 2 in P.
      assert (Q1 : Qabs (inject_Z m) * ten ^ (j + k) <= 999999 * ten ^ (j + k)) by (apply Qmult_le_compat_r; [assumption | lra]). lra.
    + rewrite (round_int _ (m * 10 ^ (j + k))%Z).
      * unfold scaled. rewrite inject_Z_mult, <- pow_int by assumption. rewrite E, pow_plus.
        rewrite <- !Qmult_assoc, pow_cancel. ring.
      * rewrite S0, inject_Z_mult, pow_int by assumption. reflexivity.
Qed.

Definition shown (op : single) : dimension * Q * Q := (dir op, sig6 (from op), sig6 (to op)).
Lemma removelast_ops : forall ops, ops <> [] -> forall pre, removelast (pre ++ flat_map printSingle ops) = pre ++ removelast (flat_map printSingle ops).
Proof. intros ops N pre. apply removelast_app. destruct ops; [contradiction | discriminate]. Qed.
Lemma readOps_print : forall ops rest, ops <> [] -> readOps (removelast (flat_map printSingle ops) ++ TClose :: rest) = Some (map shown ops, rest).
Proof.
  induction ops as [|o ops IH]; intros rest N; [contradiction|].
  destruct ops as [|o' ops]; [reflexivity|].
  change (flat_map printSingle (o :: o' :: ops)) with (printSingle o ++ flat_map printSingle (o' :: ops)).
  rewrite removelast_ops by discriminate. rewrite <- app_assoc.
  specialize (IH rest ltac:(discriminate)).
  remember (removelast (flat_map printSingle (o' :: ops)) ++ TClose :: rest) as t.
  unfold printSingle. simpl app. simpl readOps. rewrite IH. reflexivity.
Qed.
Definition regToks (f : nat -> string) (q : nat) : list tok := [TSp; TReg (f q); TComma].
Lemma readRegs_print : forall f ts, ts <> [] -> readRegs (removelast (flat_map (regToks f) ts) ++ [TSemi; TNl]) = Some (map f ts).
Proof.
  intros f. induction ts as [|t ts IH]; intros N; [contradiction|].
  destruct ts as [|t' ts]; [reflexivity|].
  change (flat_map (regToks f) (t :: t' :: ts)) with (regToks f t ++ flat_map (regToks f) (t' :: ts)).
  rewrite removelast_app by discriminate. rewrite <- app_assoc.
  specialize (IH ltac:(discriminate)).
  remember (removelast (flat_map (regToks f) (t' :: ts)) ++ [TSemi; TNl]) as u.
  unfold regToks. simpl app. simpl readRegs. rewrite IH. reflexivity.
Qed.
Lemma readText_spaces : forall n l, readText (repeat TSp n ++ l) = readText l.
Proof. induction n; intros; [reflexivity | apply IHn]. Qed.
Lemma readText_dump : forall a f n, operations a <> [] -> targets a <> [] ->
  readText (dumpOpenQASM a f n) = Some (name a, map shown (operations a), map f (targets a)).
Proof.
  intros a f n H1 H2. unfold dumpOpenQASM, overwrite.
  rewrite (app_assoc (repeat TSp n)). rewrite removelast_ops by assumption.
  rewrite (removelast_app _ (l' := flat_map _ (targets a))); [|destruct (targets a); [contradiction | discriminate]].
  rewrite <- !app_assoc. rewrite readText_spaces. cbn [app readText].
  rewrite readOps_print by assumption. change (fun q : nat => [TSp; TReg (f q); TComma]) with (regToks f).
  rewrite readRegs_print by assumption. reflexivity.
Qed.

Lemma max_element_ge : forall l x, x <= max_element x l /\ (forall y, In y l -> y <= max_element x l) /\ (max_element x l = x \/ In (max_element x l) l).
Proof.
  induction l as [|z l IH]; intros x; simpl; [split; [lra | split; [tauto | tauto]]|].
  unfold max_element in *. simpl. destruct (Qle_bool z x) eqn:E.
  - apply Qle_bool_iff in E. destruct (IH x) as (A & B & C). split; [assumption|]. split; [intros y [<-|I]; [lra | auto] | tauto].
  - assert (x < z) by (apply Qnot_le_lt; intros H; apply Qle_bool_iff in H; congruence).
    destruct (IH z) as (A & B & C). split; [lra|]. split; [intros y [<-|I]; auto |]. right. destruct C as [->|C]; auto.
Qed.
Lemma max_largest : forall a d, largest (getMaxDistance a d) (getDistances a d).
Proof.
  intros a d. unfold getMaxDistance, largest. destruct (getDistances a d) as [|x l]; [split; [intros x [] | right; split; reflexivity]|].
  destruct (max_element_ge l x) as (A & B & C). split; [intros y [<-|I]; auto | left; destruct C as [->|C]; simpl; auto].
Qed.
Lemma invert_involutive : forall a, invert (invert a) = a.
Proof.
  intros [t n q ops]. destruct t; try reflexivity. cbn. f_equal. rewrite map_map. rewrite <- (map_id ops) at 2. apply map_ext. intros []; reflexivity.
Qed.
Lemma round_near : forall q, Qabs (inject_Z (roundEven q) - q) <= 1 # 2.
Proof.
  intros q. pose proof (Qfloor_le q) as A. pose proof (Qlt_floor q) as B. rewrite inject_Z_plus in B. change (inject_Z 1) with 1 in B.
  unfold roundEven. pose proof (Qcompare_spec (q - inject_Z (Qfloor q)) (1 # 2)) as C.
  apply Qabs_case; intros _; destruct C as [C|C|C]; try (destruct (Z.even (Qfloor q))); rewrite ?inject_Z_plus; change (inject_Z 1) with 1; lra.
Qed.
Lemma sig6_close : forall q, Qabs (sig6 q - q) <= Qabs q * (1 # 200000).
Proof.
  intros q. destruct (Qeq_dec q 0) as [Z0|N].
  - assert (H : sig6 q == 0).
    { rewrite <- Z0. apply sig6_exact. exists 0%Z, 0%Z. split; [lia | rewrite Z0; reflexivity]. }
    rewrite H, Z0. discriminate.
  - pose proof (digits_low q N) as L. unfold sig6. set (k := digits q) in *.
    pose proof (round_near (scaled q k)) as R. rewrite abs_scaled in L.
    assert (E : scaled (inject_Z (roundEven (scaled q k))) (- k) - q == (inject_Z (roundEven (scaled q k)) - scaled q k) * Qpower ten (- k)).
    { set (r := inject_Z (roundEven (scaled q k))). unfold scaled.
      transitivity (r * ten ^ (- k) - q * (ten ^ k * ten ^ (- k))); [rewrite pow_cancel; ring | ring]. }
    rewrite E, Qabs_Qmult, (Qabs_pos (Qpower ten _)) by (apply Qlt_le_weak, pow_pos).
    pose proof (pow_pos (- k)) as P. pose proof (pow_cancel k) as PC.
    assert (A : Qabs (inject_Z (roundEven (scaled q k)) - scaled q k) * ten ^ (- k) <= (1 # 2) * ten ^ (- k)) by (apply Qmult_le_compat_r; lra).
    assert (B : 100000 * ten ^ (- k) <= Qabs q * ten ^ k * ten ^ (- k)) by (apply Qmult_le_compat_r; lra).
    rewrite <- Qmult_assoc, PC in B. lra.
Qed.
Fixpoint inverts (n : nat) (a : aod) : aod := match n with O => a | S n => invert (inverts n a) end.
Lemma inverts_kept : forall n a, name (inverts n a) = name a /\ targets (inverts n a) = targets a /\ List.length (operations (inverts n a)) = List.length (operations a).
Proof.
  induction n as [|n IH]; intros a; [repeat split|]. destruct (IH a) as (A & B & C). simpl. unfold invert.
  destruct (atype (inverts n a)); simpl; rewrite ?map_length; auto.
Qed.
Lemma inverts_even : forall n a, Nat.even n = true -> inverts n a = a.
Proof.
  intros n a H. apply Nat.even_spec in H. destruct H as [m ->]. induction m as [|m IH]; [reflexivity|].
  replace (2 * S m)%nat with (S (S (2 * m))) by lia. cbn [inverts]. rewrite invert_involutive. exact IH.
Qed.
Lemma inverts_move : forall n a, atype a = gAodMove -> atype (inverts n a) = gAodMove.
Proof. induction n; intros a H; [assumption|]. simpl. unfold invert. rewrite (IHn a H). reflexivity. Qed.
Lemma distances_invert : forall a d, Forall2 Qeq (getDistances (invert a) d) (getDistances a d).
Proof.
  intros [t n q ops] d. assert (R : forall l : list Q, Forall2 Qeq l l) by (induction l; constructor; [reflexivity | assumption]).
  destruct t; try apply R. unfold getDistances, invert; cbn [map filter operations atype name targets dir from to].
  induction ops as [|[e s f] ops IH]; cbn [map filter operations atype name targets dir from to]; [constructor|]. unfold inDir in *. cbn [map filter operations atype name targets dir from to].
  destruct (dim_eqb e d); cbn [map filter operations atype name targets dir from to]; [constructor; [rewrite Qabs_Qminus; reflexivity | exact IH] | exact IH].
Qed.
Lemma starts_invert : forall a d, atype a = gAodMove -> getStarts (invert a) d = getEnds a d /\ getEnds (invert a) d = getStarts a d.
Proof.
  intros [t n q ops] d H. simpl in H. subst t. unfold getStarts, getEnds, invert; simpl.
  induction ops as [|[e s f] ops [I1 I2]]; simpl; [split; reflexivity|]. unfold inDir in *. simpl.
  destruct (dim_eqb e d); simpl; rewrite ?I1, ?I2; split; reflexivity.
Qed.
Lemma shrink_high : forall fuel q k, Qabs (scaled q (k - Z.of_nat fuel)) < 1000000 -> Qabs (scaled q (shrink fuel q k)) < 1000000.
Proof.
  induction fuel as [|f IH]; intros q k H; cbn [shrink].
  - replace (k - Z.of_nat 0)%Z with k in H by lia. exact H.
  - destruct (Qle_bool 1000000 (Qabs (scaled q k))) eqn:E.
    + apply IH. replace (k - 1 - Z.of_nat f)%Z with (k - Z.of_nat (S f))%Z by lia. exact H.
    + apply Qnot_le_lt. intros L. apply Qle_bool_iff in L. congruence.
Qed.
Lemma digits_high : forall q, Qabs (scaled q (digits q)) < 1000000.
Proof.
  intros [n d]. unfold digits. apply shrink_high. cbn [Qnum Qden].
  set (l := Z.log2 (Z.abs n)). assert (Hl : (0 <= l)%Z) by apply Z.log2_nonneg.
  replace (5 + Zpos (Pos.size d) - Z.of_nat (Pos.to_nat (Pos.size d) + Z.to_nat l + 6))%Z with (- (l + 1))%Z by lia.
  rewrite abs_scaled.
  assert (A : Qabs (n # d) <= inject_Z (Z.abs n)) by (unfold Qabs, Qle, inject_Z; simpl; nia).
  assert (B : (Z.abs n <= 10 ^ (l + 1))%Z).
  { assert (2 ^ (l + 1) <= 10 ^ (l + 1))%Z by (apply Z.pow_le_mono_l; lia).
    destruct (Z.eq_dec (Z.abs n) 0) as [->|N]; [apply Z.pow_nonneg; lia|].
    pose proof (Z.log2_spec (Z.abs n) ltac:(lia)) as [_ L]. fold l in L. replace (Z.succ l) with (l + 1)%Z in L by lia. lia. }
  rewrite Zle_Qle, <- pow_int in B by lia. pose proof (pow_cancel (l + 1)) as C. pose proof (pow_pos (- (l + 1))) as P.
  assert (D : Qabs (n # d) * ten ^ (- (l + 1)) <= ten ^ (l + 1) * ten ^ (- (l + 1))) by (apply Qmult_le_compat_r; lra). lra.
Qed.
Lemma sig6_short : forall q, short (sig6 q).
Proof.
  intros q. unfold sig6. set (k := digits q). pose proof (digits_high q) as H. fold k in H.
  pose proof (round_near (scaled q k)) as R. set (m := roundEven (scaled q k)) in *.
  assert (A : (Z.abs m <= 1000000)%Z).
  { assert (T : Qabs (inject_Z m) <= Qabs (inject_Z m - scaled q k) + Qabs (scaled q k)).
    { eapply Qle_trans; [|apply Qabs_triangle]. apply Qle_lteq. right. apply Qabs_wd. ring. }
    assert (Qabs (inject_Z m) < 1000001) as L by lra. unfold Qabs, inject_Z, Qlt in L. simpl in L. lia. }
  destruct (Z_lt_le_dec (Z.abs m) 1000000) as [L|G].
  - exists m, (- k)%Z. split; [exact L | reflexivity].
  - exists (Z.sgn m), (6 - k)%Z. split; [lia|]. unfold scaled. replace (6 - k)%Z with (6 + - k)%Z by lia. change (10 # 1) with ten. rewrite pow_plus.
    rewrite Qmult_assoc. apply Qmult_comp; [|reflexivity]. change (ten ^ 6) with (inject_Z 1000000). rewrite <- inject_Z_mult.
    replace (Z.sgn m * 1000000)%Z with m by lia. reflexivity.
Qed.
Lemma code_inj : forall a b, code a = code b -> a = b.
Proof. intros a b H. destruct a, b; try reflexivity; discriminate H. Qed.
Lemma equals_iff : forall a b, equals a b = true <-> atype a = atype b /\ targets a = targets b.
Proof.
  intros a b. unfold equals. rewrite andb_true_iff, N.eqb_eq.
  destruct (list_eq_dec Nat.eq_dec (targets a) (targets b)); split; intros [H1 H2]; try discriminate; try contradiction; split; auto using code_inj.
  rewrite H1. reflexivity.
Qed.
Lemma type_invert : forall a, atype (invert a) = undone (atype a) /\ targets (invert a) = targets a.
Proof. intros [t n q o]. destruct t; split; reflexivity. Qed.
