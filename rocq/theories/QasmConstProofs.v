(* Constant evaluation against exact arithmetic. *)
From Coq Require Import ZArith QArith Bool Lia List String.
From Verif Require Import QasmScanModel QasmEnvModel QasmConstModel QasmConstSpec.
Import ListNotations.
Local Close Scope Q_scope.
Local Open Scope Z_scope.

Lemma s64_wrap z : s64 z = wrap true z.
Proof.
  unfold s64, wrap. pose proof (Z.mod_pos_bound z (2 ^ 64) ltac:(lia)). rewrite Z.add_mod by lia. rewrite (Z.mod_small (2 ^ 63) (2 ^ 64)) by lia.
  destruct (Z.ltb_spec (z mod 2 ^ 64) (2 ^ 63)).
  - rewrite Z.mod_small by lia. lia.
  - replace (z mod 2 ^ 64 + 2 ^ 63) with (z mod 2 ^ 64 - 2 ^ 63 + 1 * 2 ^ 64) by lia. rewrite Z.mod_add, Z.mod_small by lia. lia.
Qed.
Lemma u64_wrap z : u64 z = wrap false z. Proof. reflexivity. Qed.
Lemma wrap_mod sg z : wrap sg z mod 2 ^ 64 = z mod 2 ^ 64.
Proof.
  destruct sg; cbn [wrap]; [|apply Zmod_mod]. destruct (z mod 2 ^ 64 <? 2 ^ 63); [apply Zmod_mod|].
  replace (z mod 2 ^ 64 - 2 ^ 64) with (z mod 2 ^ 64 + (-1) * 2 ^ 64) by lia. now rewrite Z.mod_add, Zmod_mod by lia.
Qed.
Lemma wrap_cong sg a b : a mod 2 ^ 64 = b mod 2 ^ 64 -> wrap sg a = wrap sg b.
Proof. unfold wrap. now intros ->. Qed.
Lemma wrap_wrap sg sg' z : wrap sg (wrap sg' z) = wrap sg z. Proof. apply wrap_cong, wrap_mod. Qed.
Lemma wrap_u64 sg z : wrap sg (u64 z) = wrap sg z. Proof. apply (wrap_wrap sg false). Qed.
Lemma wrap_s64 sg z : wrap sg (s64 z) = wrap sg z. Proof. rewrite s64_wrap. apply wrap_wrap. Qed.
Lemma wrap_id z : - 2 ^ 63 <= z < 2 ^ 63 -> wrap true z = z.
Proof. intros H. rewrite <- s64_wrap. unfold s64. rewrite Z.mod_small by lia. lia. Qed.
Lemma wrap_range z : - 2 ^ 63 <= wrap true z < 2 ^ 63.
Proof. unfold wrap. pose proof (Z.mod_pos_bound z (2 ^ 64) ltac:(lia)). destruct (Z.ltb_spec (z mod 2 ^ 64) (2 ^ 63)); lia. Qed.
Lemma cast_64 z : castToWidth 64 z = s64 z. Proof. reflexivity. Qed.
Lemma narrow_64 sg z : narrow sg 64 z = Ok (VInt sg (s64 z) 64). Proof. reflexivity. Qed.
Lemma u64_range z : 0 <= u64 z < 2 ^ 64. Proof. apply Z.mod_pos_bound. lia. Qed.
Lemma in_s64_ok z : in_s64 z = true <-> - 2 ^ 63 <= z < 2 ^ 63.
Proof. unfold in_s64, max64. rewrite andb_true_iff, !Z.leb_le. lia. Qed.

Lemma pow_loop_ok mx b n : forall r z, pow_loop mx b n r = PVal z -> z = r * b ^ Z.of_nat n.
Proof.
  induction n as [|n IH]; intros r z; cbn [pow_loop].
  - intros E. injection E as <-. cbn. ring.
  - destruct (b =? 0); [discriminate|]. destruct (Z.quot mx b <? r); [discriminate|]. intros E. apply IH in E. rewrite E, Nat2Z.inj_succ, Z.pow_succ_r by lia. ring.
Qed.
Lemma power_ok mx b e z : 0 <= e -> power mx b e = PVal z -> z = b ^ e.
Proof.
  unfold power. intros H. destruct (Z.eqb_spec e 0) as [->|N]; [intros E; injection E as <-; reflexivity|]. intros E. apply pow_loop_ok in E. rewrite E, Z2Nat.id by lia. ring.
Qed.

Definition good (v : cvalue) : Prop := match v with VInt _ z w => w = 64 /\ - 2 ^ 63 <= z < 2 ^ 63 | VBool _ => True | VFloat _ => False end.
Definition abs (v : cvalue) : option xval := match v with VInt sg z _ => Some (XNum sg (wrap sg z)) | VBool b => Some (XBool b) | VFloat _ => None end.
Lemma sh_l x n : 0 <= n -> Z.shiftl x n = x * 2 ^ n. Proof. apply Z.shiftl_mul_pow2. Qed.
Lemma sh_r x n : 0 <= n -> Z.shiftr x n = x / 2 ^ n. Proof. apply Z.shiftr_div_pow2. Qed.
Lemma good_s64 sg z : good (VInt sg (s64 z) 64). Proof. split; auto. rewrite s64_wrap. apply wrap_range. Qed.

Lemma int_exact op x y sg v : - 2 ^ 63 <= x < 2 ^ 63 -> - 2 ^ 63 <= y < 2 ^ 63 -> (op = Power -> sg = true -> 0 <= y) ->
  evalIntExpression op x y 64 sg = Ok v -> good v /\ exact_binary op (XNum sg (wrap sg x)) (XNum sg (wrap sg y)) = abs v.
Proof.
  intros X Y G E. unfold exact_binary. rewrite orb_diag, !wrap_wrap.
  assert (K : forall t z, evalIntExpression op x y 64 sg = narrow sg 64 z -> exact op (wrap sg x) (wrap sg y) = Some (inl t) -> z mod 2 ^ 64 = t mod 2 ^ 64 ->
     good v /\ match exact op (wrap sg x) (wrap sg y) with Some (inl z) => Some (XNum sg (wrap sg z)) | Some (inr c) => Some (XBool c) | None => None end = abs v).
  { intros t z E1 -> M. rewrite E1, narrow_64 in E. injection E as <-. split; [apply good_s64|]. cbn. rewrite wrap_s64. now rewrite (wrap_cong sg z t M). }
  assert (KC : forall f c, evalIntExpression op x y 64 sg = Ok (VBool f) -> exact op (wrap sg x) (wrap sg y) = Some (inr c) -> f = c ->
     good v /\ match exact op (wrap sg x) (wrap sg y) with Some (inl z) => Some (XNum sg (wrap sg z)) | Some (inr c) => Some (XBool c) | None => None end = abs v).
  { intros f c E1 -> ->. rewrite E1 in E. injection E as <-. split; [exact I|reflexivity]. }
  assert (XW : (if sg then x else u64 x) = wrap sg x) by (destruct sg; [now rewrite wrap_id|reflexivity]).
  assert (YW : (if sg then y else u64 y) = wrap sg y) by (destruct sg; [now rewrite wrap_id|reflexivity]).
  assert (MX : wrap sg x mod 2 ^ 64 = x mod 2 ^ 64) by apply wrap_mod. assert (MY : wrap sg y mod 2 ^ 64 = y mod 2 ^ 64) by apply wrap_mod.
  assert (SM : forall z, s64 z mod 2 ^ 64 = z mod 2 ^ 64) by (intros; rewrite s64_wrap; apply wrap_mod).
  pose proof (u64_range x) as UX. pose proof (u64_range y) as UY.
  destruct op.
  - (* Power *) cbn [evalIntExpression exact] in *.
    assert (YP : 0 <= wrap sg y) by (destruct sg; [rewrite wrap_id; auto|exact (proj1 UY)]). destruct (Z.ltb_spec (wrap sg y) 0); [lia|].
    assert (P : forall z, (if sg then power max64 x y else power maxu64 (u64 x) (u64 y)) = PVal z -> z = wrap sg x ^ wrap sg y).
    { intros z. rewrite <- XW, <- YW. destruct sg; apply power_ok; [now apply G|apply UY]. }
    destruct (if sg then power max64 x y else power maxu64 (u64 x) (u64 y)); try discriminate. specialize (P z eq_refl). eapply K; [reflexivity|reflexivity|]. now rewrite SM, P.
  - eapply K; [reflexivity|reflexivity|]. rewrite SM. unfold u64. rewrite Zmod_mod, <- Zplus_mod. now rewrite (Zplus_mod (wrap _ _)), MX, MY, <- Zplus_mod.
  - eapply K; [reflexivity|reflexivity|]. rewrite SM. unfold u64. rewrite Zmod_mod, <- Zminus_mod. now rewrite (Zminus_mod (wrap _ _)), MX, MY, <- Zminus_mod.
  - destruct sg; cbn [evalIntExpression] in *.
    + destruct (in_s64 (x * y)); [|discriminate]. eapply K; [reflexivity|reflexivity|]. now rewrite <- XW, <- YW.
    + eapply K; [reflexivity|reflexivity|]. rewrite SM. unfold u64. rewrite Zmod_mod. reflexivity.
  - cbn [evalIntExpression exact] in *. rewrite <- YW. rewrite <- YW in *. destruct sg.
    + destruct (Z.eqb_spec y 0); [discriminate|]. destruct (in_s64 (Z.quot x y)); [|discriminate]. cbn [orb negb] in *. eapply K; [reflexivity|now rewrite <- XW|reflexivity].
    + destruct (Z.eqb_spec (u64 y) 0); [discriminate|]. eapply K; [reflexivity|now rewrite <- XW|]. rewrite SM, Z.quot_div_nonneg by lia. reflexivity.
  - cbn [evalIntExpression exact] in *. rewrite <- YW. rewrite <- YW in *. destruct sg.
    + destruct (Z.eqb_spec y 0); [discriminate|]. destruct (in_s64 (Z.quot x y)); [|discriminate]. cbn [orb negb] in *. eapply K; [reflexivity|now rewrite <- XW|reflexivity].
    + destruct (Z.eqb_spec (u64 y) 0); [discriminate|]. eapply K; [reflexivity|now rewrite <- XW|]. rewrite SM, Z.rem_mod_nonneg by lia. reflexivity.
  - cbn [evalIntExpression exact] in *. rewrite <- YW. rewrite <- YW in *. destruct sg.
    + destruct (Z.ltb_spec y 0); [discriminate|]. destruct ((false || (64 <=? y)) || (x <? 0) || (maxu64 <? x * 2 ^ y)); [discriminate|]. eapply K; [reflexivity|now rewrite <- XW|]. now rewrite SM, sh_l.
    + destruct (Z.ltb_spec (u64 y) 0); [lia|]. destruct (64 <=? u64 y); [discriminate|]. eapply K; [reflexivity|now rewrite <- XW|]. rewrite SM, sh_l by auto. unfold u64 at 1. now rewrite Zmod_mod.
  - cbn [evalIntExpression exact] in *. rewrite <- YW. rewrite <- YW in *. destruct sg.
    + destruct (Z.ltb_spec y 0); [discriminate|]. destruct (false || (64 <=? y)); [discriminate|]. eapply K; [reflexivity|now rewrite <- XW|]. now rewrite sh_r.
    + destruct (Z.ltb_spec (u64 y) 0); [lia|]. destruct (64 <=? u64 y); [discriminate|]. eapply K; [reflexivity|now rewrite <- XW|]. now rewrite SM, sh_r by auto.
  - eapply KC; [reflexivity|reflexivity|]. rewrite <- XW, <- YW. now destruct sg.
  - eapply KC; [reflexivity|reflexivity|]. rewrite <- XW, <- YW. now destruct sg.
  - eapply KC; [reflexivity|reflexivity|]. rewrite <- XW, <- YW. destruct sg; apply Z.gtb_ltb.
  - eapply KC; [reflexivity|reflexivity|]. rewrite <- XW, <- YW. destruct sg; apply Z.geb_leb.
  - eapply KC; [reflexivity|reflexivity|]. rewrite <- XW, <- YW. now destruct sg.
  - eapply KC; [reflexivity|reflexivity|]. rewrite <- XW, <- YW. now destruct sg.
  - eapply K; [reflexivity|reflexivity|]. rewrite SM, <- !Z.land_ones by lia. rewrite <- (Z.land_assoc (u64 x)). apply Z.bits_inj'. intros n Hn. rewrite !Z.land_spec. unfold u64. rewrite <- !Z.land_ones by lia. rewrite !Z.land_spec.
    assert (BX : Z.testbit (wrap sg x) n && Z.testbit (Z.ones 64) n = Z.testbit x n && Z.testbit (Z.ones 64) n) by (rewrite <- !Z.land_spec, !Z.land_ones, wrap_mod by lia; reflexivity).
    assert (BY : Z.testbit (wrap sg y) n && Z.testbit (Z.ones 64) n = Z.testbit y n && Z.testbit (Z.ones 64) n) by (rewrite <- !Z.land_spec, !Z.land_ones, wrap_mod by lia; reflexivity).
    destruct (Z.testbit (Z.ones 64) n); rewrite ?andb_true_r, ?andb_false_r in *; congruence.
  - eapply K; [reflexivity|reflexivity|]. rewrite SM, <- !Z.land_ones by lia. apply Z.bits_inj'. intros n Hn. rewrite !Z.land_spec, !Z.lxor_spec. unfold u64. rewrite <- !Z.land_ones by lia. rewrite !Z.land_spec.
    assert (BX : Z.testbit (wrap sg x) n && Z.testbit (Z.ones 64) n = Z.testbit x n && Z.testbit (Z.ones 64) n) by (rewrite <- !Z.land_spec, !Z.land_ones, wrap_mod by lia; reflexivity).
    assert (BY : Z.testbit (wrap sg y) n && Z.testbit (Z.ones 64) n = Z.testbit y n && Z.testbit (Z.ones 64) n) by (rewrite <- !Z.land_spec, !Z.land_ones, wrap_mod by lia; reflexivity).
    destruct (Z.testbit (Z.ones 64) n); rewrite ?andb_true_r, ?andb_false_r in *; congruence.
  - eapply K; [reflexivity|reflexivity|]. rewrite SM, <- !Z.land_ones by lia. apply Z.bits_inj'. intros n Hn. rewrite !Z.land_spec, !Z.lor_spec. unfold u64. rewrite <- !Z.land_ones by lia. rewrite !Z.land_spec.
    assert (BX : Z.testbit (wrap sg x) n && Z.testbit (Z.ones 64) n = Z.testbit x n && Z.testbit (Z.ones 64) n) by (rewrite <- !Z.land_spec, !Z.land_ones, wrap_mod by lia; reflexivity).
    assert (BY : Z.testbit (wrap sg y) n && Z.testbit (Z.ones 64) n = Z.testbit y n && Z.testbit (Z.ones 64) n) by (rewrite <- !Z.land_spec, !Z.land_ones, wrap_mod by lia; reflexivity).
    destruct (Z.testbit (Z.ones 64) n); rewrite ?andb_true_r, ?andb_false_r in *; congruence.
  - discriminate.
  - discriminate.
Qed.

(* ---- expressions ----------------------------------------------------------------------------------------------------- *)
Definition env_good (e : env cvalue) : Prop := forall id v, env_find id e = Some v -> good v.
Fixpoint int_expr (x : expr) : Prop :=
  match x with
  | EInt _ z => - 2 ^ 63 <= z < 2 ^ 63 | EBool _ => True | EFloat _ => False | EId _ idx => True
  | EBin _ a b => int_expr a /\ int_expr b | EUn _ a => int_expr a
  end.
(* no signed power with a negative exponent *)
Fixpoint exponents_ok (e : env cvalue) (x : expr) : Prop :=
  match x with
  | EBin op a b => exponents_ok e a /\ exponents_ok e b /\
      (op = Power -> forall sa za sb zb, ceval e a = Ok (VInt sa za 64) -> ceval e b = Ok (VInt sb zb 64) -> sa || sb = true -> 0 <= zb)
  | EUn _ a => exponents_ok e a
  | _ => True
  end.
Definition names (e : env cvalue) (id : string) : option xval := match env_find id e with Some v => abs v | None => None end.
Lemma expr_exact e x : env_good e -> int_expr x -> exponents_ok e x -> forall v, ceval e x = Ok v -> good v /\ exact_eval (names e) x = abs v.
Proof.
  intros G. induction x as [sg z|q|b|id idx|op a IHa b IHb|op a IHa]; cbn [int_expr exponents_ok ceval exact_eval]; intros T P v E.
  - injection E as <-. split; [split; auto|reflexivity].
  - tauto.
  - injection E as <-. split; [exact I|reflexivity].
  - destruct idx; [|discriminate]. unfold names. destruct (env_find id e) as [w|] eqn:F; [|discriminate]. injection E as <-. split; auto. eapply G; eauto.
  - destruct T as [Ta Tb]. destruct P as (Pa & Pb & Pw). destruct (ceval e a) as [va| | | |] eqn:Ea; try discriminate. destruct (ceval e b) as [vb| | | |] eqn:Eb; try discriminate.
    destruct (IHa Ta Pa _ eq_refl) as [Ga Xa]. destruct (IHb Tb Pb _ eq_refl) as [Gb Xb]. rewrite Xa, Xb.
    destruct va as [sa za wa| |ba]; [| |]; destruct vb as [sb zb wb| |bb]; cbn [good] in *; try tauto; cbn [eval_binary] in E; try discriminate.
    + destruct Ga as [-> Ra], Gb as [-> Rb]. change (Z.max 64 64) with 64 in E. cbn [abs]. destruct (int_exact op za zb (sa || sb) v Ra Rb) as [Gv Xv]; auto.
      { intros O S. eapply Pw; eauto. }
      split; auto. rewrite <- Xv. unfold exact_binary. now rewrite orb_diag, !wrap_wrap.
    + cbn [abs]. destruct op; cbn in E; try discriminate; injection E as <-; split; try exact I; cbn; destruct ba, bb; reflexivity.
  - destruct (ceval e a) as [va| | | |] eqn:Ea; try discriminate. destruct (IHa T P _ eq_refl) as [Ga Xa]. rewrite Xa.
    destruct op, va as [sa za wa|q|ba]; cbn [good eval_unary] in *; try tauto; try discriminate.
    + destruct Ga as [-> Ra]. injection E as <-. split.
      * split; auto. unfold Z.lnot. lia.
      * cbn [abs exact_unary]. f_equal. f_equal. apply wrap_cong. unfold Z.lnot. replace (Z.pred (- za)) with (- za - 1) by lia. rewrite (Zminus_mod _ 1), (Zminus_mod (- za) 1). f_equal. f_equal.
        rewrite <- (Z.sub_0_l (wrap _ _)), <- (Z.sub_0_l za), Zminus_mod, wrap_mod, <- Zminus_mod. reflexivity.
    + injection E as <-. split; [exact I|reflexivity].
    + destruct sa; [|discriminate]. destruct (Z.eqb_spec za (- 2 ^ 63)); [discriminate|]. destruct Ga as [-> Ra]. injection E as <-. split; [split; auto; lia|].
      cbn [abs exact_unary]. f_equal. f_equal. apply wrap_cong. rewrite <- (Z.sub_0_l (wrap _ _)), <- (Z.sub_0_l za), Zminus_mod, wrap_mod, <- Zminus_mod. reflexivity.
Qed.

(* ---- undefined behaviour --------------------------------------------------------------------------------------------- *)
(* the operations on 64-bit operands that are undefined *)
Definition bad (op : bop) (sg : bool) (x y : Z) : Prop :=
  match op, sg with
  | Multiply, true => ~ - 2 ^ 63 <= x * y < 2 ^ 63
  | (Divide | Modulo), true => y = 0 \/ x = - 2 ^ 63 /\ y = -1
  | (Divide | Modulo), false => y = 0
  | LeftShift, true => y < 0 \/ 64 <= y \/ x < 0 \/ 2 ^ 64 <= x * 2 ^ y
  | RightShift, true => y < 0 \/ 64 <= y
  | (LeftShift | RightShift), false => 64 <= y
  | Power, _ => x = 0 /\ 0 < y
  | _, _ => False
  end.
Lemma pow_loop_undef mx b n : forall r, pow_loop mx b n r = PUndef <-> b = 0 /\ n <> O.
Proof.
  induction n as [|n IH]; intros r; cbn [pow_loop]; [split; [discriminate|tauto]|]. destruct (Z.eqb_spec b 0) as [->|N]; [split; auto|].
  destruct (Z.quot mx b <? r); [split; [discriminate|tauto]|]. rewrite IH. tauto.
Qed.
Lemma power_undef mx b e : power mx b e = PUndef <-> b = 0 /\ 0 < e.
Proof.
  unfold power. destruct (Z.eqb_spec e 0) as [->|N]; [split; [discriminate|lia]|]. rewrite pow_loop_undef. split; intros [H1 H2]; split; auto; lia.
Qed.
Lemma quot_range x y : - 2 ^ 63 <= x < 2 ^ 63 -> y <> 0 -> in_s64 (Z.quot x y) = false <-> x = - 2 ^ 63 /\ y = -1.
Proof.
  intros X Y. rewrite <- not_true_iff_false, in_s64_ok. split.
  - intros H. destruct (Z.eq_dec y (-1)) as [->|N1].
    + change (-1) with (- (1)) in *. rewrite Z.quot_opp_r, Z.quot_1_r in H by lia. lia.
    + exfalso. apply H. pose proof (Z.quot_abs x y Y) as A. destruct (Z.eq_dec y 1) as [->|N2]; [rewrite Z.quot_1_r; lia|].
      assert (B : Z.abs x ÷ Z.abs y <= Z.abs x / 2). { rewrite Z.quot_div_nonneg by lia. apply Z.div_le_compat_l; lia. }
      assert (D : Z.abs x / 2 <= 2 ^ 62) by (apply Z.div_le_upper_bound; lia). lia.
  - intros [-> ->]. vm_compute. intros [_ H]. discriminate.
Qed.
Lemma undef_iff op sg x y : - 2 ^ 63 <= x < 2 ^ 63 -> - 2 ^ 63 <= y < 2 ^ 63 -> evalIntExpression op x y 64 sg = Undef <-> bad op sg (wrap sg x) (wrap sg y).
Proof.
  intros X Y. assert (N : forall z, narrow sg 64 z = Undef <-> False) by (intros; rewrite narrow_64; split; [discriminate|tauto]).
  destruct op; cbn [evalIntExpression]; try (rewrite N; destruct sg; reflexivity); try (split; [discriminate|destruct sg; cbn; tauto]).
  - assert (Q : forall p b, (p = PUndef <-> b) -> match p with PVal z => narrow sg 64 (s64 z) | POverflow => Error | PUndef => Undef end = Undef <-> b).
    { intros p b H. destruct p; rewrite ?N; rewrite <- H; split; try tauto; try discriminate. }
    apply Q. destruct sg; [rewrite !wrap_id by auto|]; apply power_undef.
  - destruct sg; cbn [bad]; [rewrite !wrap_id by auto|rewrite N; tauto]. destruct (in_s64 (x * y)) eqn:R; [apply in_s64_ok in R; rewrite N; tauto|]. split; auto. intros _ Q. apply in_s64_ok in Q. congruence.
  - destruct sg; cbn [bad]; [rewrite !wrap_id by auto|change (wrap false y) with (u64 y)].
    + destruct (Z.eqb_spec y 0); cbn [orb]; [tauto|]. destruct (in_s64 (Z.quot x y)) eqn:R; cbn [negb].
      * rewrite N. split; [tauto|]. intros [Q|Q]; [tauto|]. apply quot_range in Q; auto. congruence.
      * split; auto. intros _. right. apply quot_range; auto.
    + destruct (Z.eqb_spec (u64 y) 0); rewrite ?N; tauto.
  - destruct sg; cbn [bad]; [rewrite !wrap_id by auto|change (wrap false y) with (u64 y)].
    + destruct (Z.eqb_spec y 0); cbn [orb]; [tauto|]. destruct (in_s64 (Z.quot x y)) eqn:R; cbn [negb].
      * rewrite N. split; [tauto|]. intros [Q|Q]; [tauto|]. apply quot_range in Q; auto. congruence.
      * split; auto. intros _. right. apply quot_range; auto.
    + destruct (Z.eqb_spec (u64 y) 0); rewrite ?N; tauto.
  - destruct sg; cbn [bad]; [rewrite !wrap_id by auto|change (wrap false y) with (u64 y)].
    + unfold maxu64. destruct (Z.ltb_spec y 0); cbn [orb]; [tauto|]. destruct (Z.leb_spec 64 y); cbn [orb]; [tauto|]. destruct (Z.ltb_spec x 0); cbn [orb]; [tauto|]. destruct (Z.ltb_spec (2 ^ 64 - 1) (x * 2 ^ y)); rewrite ?N; split; auto; lia.
    + destruct (Z.leb_spec 64 (u64 y)); rewrite ?N; split; auto; lia.
  - destruct sg; cbn [bad]; [rewrite !wrap_id by auto|change (wrap false y) with (u64 y)].
    + destruct (Z.ltb_spec y 0); cbn [orb]; [tauto|]. destruct (Z.leb_spec 64 y); cbn [orb]; [tauto|]. rewrite N. lia.
    + destruct (Z.leb_spec 64 (u64 y)); rewrite ?N; split; auto; lia.
Qed.
(* every operation in x is defined *)
Fixpoint defined (e : env cvalue) (x : expr) : Prop :=
  match x with
  | EBin op a b => defined e a /\ defined e b /\
      forall sa za sb zb, ceval e a = Ok (VInt sa za 64) -> ceval e b = Ok (VInt sb zb 64) -> ~ bad op (sa || sb) (wrap (sa || sb) za) (wrap (sa || sb) zb)
  | EUn op a => defined e a /\ (op = Negate -> forall za, ceval e a = Ok (VInt true za 64) -> za <> - 2 ^ 63)
  | _ => True
  end.
Lemma ceval_good e x : env_good e -> int_expr x -> forall v, ceval e x = Ok v -> good v.
Proof.
  intros G. induction x as [sg z|q|b|id idx|op a IHa b IHb|op a IHa]; cbn [int_expr ceval]; intros T v E.
  - injection E as <-. split; auto.
  - tauto.
  - injection E as <-. exact I.
  - destruct idx; [|discriminate]. destruct (env_find id e) as [w|] eqn:F; [|discriminate]. injection E as <-. eapply G; eauto.
  - destruct T as [Ta Tb]. destruct (ceval e a) as [va| | | |]; try discriminate. destruct (ceval e b) as [vb| | | |]; try discriminate.
    specialize (IHa Ta _ eq_refl). specialize (IHb Tb _ eq_refl). destruct va as [sa za wa| |ba]; destruct vb as [sb zb wb| |bb]; cbn [good] in *; try tauto; cbn [eval_binary] in E; try discriminate.
    + destruct IHa as [-> Ra], IHb as [-> Rb]. change (Z.max 64 64) with 64 in E. unfold evalIntExpression in E.
      repeat match type of E with context [match ?b with _ => _ end] => destruct b end; try discriminate; rewrite ?narrow_64 in E; injection E as <-; try exact I; apply good_s64.
    + destruct op; cbn in E; try discriminate; injection E as <-; exact I.
  - destruct (ceval e a) as [va| | | |]; try discriminate. specialize (IHa T _ eq_refl). destruct op, va as [sa za wa|q|ba]; cbn [good eval_unary] in *; try tauto; try discriminate.
    + destruct IHa as [-> Ra]. injection E as <-. split; auto. unfold Z.lnot. lia.
    + injection E as <-. exact I.
    + destruct sa; [|discriminate]. destruct (Z.eqb_spec za (- 2 ^ 63)); [discriminate|]. destruct IHa as [-> Ra]. injection E as <-. split; auto; lia.
Qed.
Lemma defined_ok e x : env_good e -> int_expr x -> defined e x -> ceval e x <> Undef.
Proof.
  intros G. induction x as [sg z|q|b|id idx|op a IHa b IHb|op a IHa]; cbn [int_expr ceval defined]; intros T D; try discriminate.
  - destruct idx; [|discriminate]. destruct (env_find id e); discriminate.
  - destruct T as [Ta Tb]. destruct D as (Da & Db & Dx). specialize (IHa Ta Da). specialize (IHb Tb Db). destruct (ceval e a) as [va| | | |] eqn:Ea; auto. destruct (ceval e b) as [vb| | | |] eqn:Eb; auto.
    pose proof (ceval_good e a G Ta _ Ea) as Ga. pose proof (ceval_good e b G Tb _ Eb) as Gb. destruct va as [sa za wa| |ba]; destruct vb as [sb zb wb| |bb]; cbn [good] in *; try tauto; cbn [eval_binary]; try discriminate.
    + destruct Ga as [-> Ra], Gb as [-> Rb]. change (Z.max 64 64) with 64. rewrite undef_iff by auto. eapply Dx; eauto.
    + destruct op; discriminate.
  - destruct D as [Da Dn]. specialize (IHa T Da). destruct (ceval e a) as [va| | | |] eqn:Ea; auto. pose proof (ceval_good e a G T _ Ea) as Ga. destruct op, va as [sa za wa|q|ba]; cbn [good eval_unary] in *; try tauto; try discriminate.
    destruct sa; [|discriminate]. destruct Ga as [-> Ra]. destruct (Z.eqb_spec za (- 2 ^ 63)); [|discriminate]. exfalso. eapply Dn; eauto.
Qed.
