(* Number literals. *)
From Coq Require Import ZArith NArith Bool Lia Ascii String List.
From Verif Require Import QasmScanModel QasmScanSpec.
Import ListNotations.
Local Open Scope Z_scope.

Ltac chars c := destruct c as [[|] [|] [|] [|] [|] [|] [|] [|]].
Lemma all_chars (P : ascii -> bool) : forallb P (map ascii_of_nat (seq 0 256)) = true -> forall c, P c = true.
Proof.
  intros H c. rewrite forallb_forall in H. apply H. apply in_map_iff. exists (nat_of_ascii c). split; [apply ascii_nat_embedding|].
  apply in_seq. pose proof (nat_ascii_bounded c). lia.
Qed.
Lemma valid_16 c : isValidDigit 16 c = is_digit 16 c. Proof. apply eqb_prop. revert c. apply all_chars. vm_compute. reflexivity. Qed.
Lemma valid_10 c : isValidDigit 10 c = is_digit 10 c. Proof. apply eqb_prop. revert c. apply all_chars. vm_compute. reflexivity. Qed.
Lemma valid_8 c : isValidDigit 8 c = is_digit 8 c. Proof. apply eqb_prop. revert c. apply all_chars. vm_compute. reflexivity. Qed.
Lemma valid_2 c : isValidDigit 2 c = is_digit 2 c. Proof. apply eqb_prop. revert c. apply all_chars. vm_compute. reflexivity. Qed.
Definition base_ok (b : Z) : Prop := b = 2 \/ b = 8 \/ b = 10 \/ b = 16.
Lemma prefix_base p b : prefix p b -> base_ok b. Proof. unfold base_ok. intros []; tauto. Qed.
Lemma valid_ok b c : base_ok b -> isValidDigit b c = is_digit b c.
Proof. intros [->|[->|[->| ->]]]; auto using valid_2, valid_8, valid_10, valid_16. Qed.
(* capital hexadecimal digits *)
Definition capital (c : ascii) : bool := (65 <=? N_of_ascii c)%N && (N_of_ascii c <=? 70)%N.
Lemma implb_imp a b : implb a b = true -> a = true -> b = true. Proof. now destruct a, b. Qed.
Definition cval (c : ascii) : Z := if isNum c then code c - code "0" else code c - code "a" + 10.
Lemma cval_digit c : is_digit 16 c && negb (capital c) = true -> Some (cval c) = digit c.
Proof.
  intros H. assert (X : match digit c with Some i => i =? cval c | None => false end = true).
  { revert H. apply implb_imp. revert c. apply all_chars. vm_compute. reflexivity. }
  destruct (digit c); [|discriminate]. apply Z.eqb_eq in X. now subst.
Qed.
Lemma digit_16 b c : base_ok b -> is_digit b c = true -> is_digit 16 c = true.
Proof. unfold is_digit. intros B. destruct (digit c); auto. destruct B as [->|[->|[->| ->]]]; intros H; apply Z.ltb_lt in H; apply Z.ltb_lt; lia. Qed.
Lemma word_digit c : word c = false -> is_digit 16 c = false /\ is_c "_" c = false /\ is_c "." c = false /\ is_c "e" c = false /\ is_c "E" c = false /\
  is_c "b" c = false /\ is_c "B" c = false /\ is_c "o" c = false /\ is_c "x" c = false /\ is_c "X" c = false /\ (forall d, hasTimingSuffix c d = false).
Proof.
  intros H. assert (X : negb (is_digit 16 c || is_c "_" c || is_c "." c || is_c "e" c || is_c "E" c || is_c "b" c || is_c "B" c || is_c "o" c || is_c "x" c || is_c "X" c || is_c "s" c || is_c "m" c || is_c "u" c || is_c "n" c || is_c "p" c || is_c "d" c) = true).
  { assert (Q : negb (word c) = true) by now rewrite H. clear H. revert Q. apply implb_imp. revert c. apply all_chars. vm_compute. reflexivity. }
  apply negb_true_iff in X. repeat (apply orb_false_iff in X; destruct X as [X ?]). repeat split; auto. intros d. unfold hasTimingSuffix. cbn [existsb fst snd].
  repeat match goal with K : is_c _ c = false |- _ => rewrite K; clear K end. reflexivity.
Qed.
Lemma digit_under b : is_digit b "_" = false. Proof. reflexivity. Qed.
Lemma digits_ok b s rest : base_ok b -> (forall c, In c s -> is_digit b c = true \/ c = "_"%char) -> ends rest -> consumeDigits b (s ++ rest) = (strip s, rest).
Proof.
  intros B H E. induction s as [|c s IH]; cbn [app consumeDigits strip filter].
  - destruct rest as [|c r]; auto. cbn in E. destruct (word_digit c E) as (D & U & _). cbn. rewrite valid_ok by auto. replace (is_digit b c) with false; [now rewrite U|].
    symmetry. destruct (is_digit b c) eqn:Q; auto. rewrite (digit_16 b c B Q) in D. discriminate.
  - rewrite valid_ok by auto. rewrite IH by (intros; apply H; now right). destruct (H c (or_introl eq_refl)) as [D| ->].
    + rewrite D. cbn [orb]. destruct (is_c "_" c) eqn:U; [apply Ascii.eqb_eq in U; now subst|]. unfold is_c in U. now rewrite U.
    + reflexivity.
Qed.
Lemma strip_digits b s : (forall c, In c s -> is_digit b c = true \/ c = "_"%char) -> forall c, In c (strip s) -> is_digit b c = true.
Proof. intros H c I. apply filter_In in I as [I N]. destruct (H c I) as [D| ->]; [exact D|discriminate]. Qed.
Lemma u64_add_l a b : u64 (u64 a + b) = u64 (a + b). Proof. apply Zplus_mod_idemp_l. Qed.
Lemma u64_add_r a b : u64 (a + u64 b) = u64 (a + b). Proof. apply Zplus_mod_idemp_r. Qed.
Lemma parse_ok b ds : base_ok b -> (forall c, In c ds -> is_digit b c = true /\ capital c = false) -> forall v,
  fold_left (fun val c => if isNum c then u64 (u64 (val * b) + u64 (code c - code "0")) else u64 (u64 (val * b) + u64 (code c - code "a" + 10))) ds (u64 v) = u64 (v * b ^ Z.of_nat (List.length ds) + value b ds).
Proof.
  intros B. induction ds as [|c ds IH]; intros H v; cbn [fold_left value List.length].
  - f_equal. cbn. ring.
  - destruct (H c (or_introl eq_refl)) as [D N]. rewrite <- cval_digit by (now rewrite (digit_16 b c B D), N).
    assert (E : (if isNum c then u64 (u64 (u64 v * b) + u64 (code c - code "0")) else u64 (u64 (u64 v * b) + u64 (code c - code "a" + 10))) = u64 (v * b + cval c)).
    { unfold cval. destruct (isNum c); rewrite u64_add_l, u64_add_r; unfold u64; rewrite Z.add_mod, Z.mul_mod_idemp_l, <- Z.add_mod by lia; reflexivity. }
    rewrite E, IH by (intros; apply H; now right). f_equal. rewrite Nat2Z.inj_succ, Z.pow_succ_r by lia. ring.
Qed.
Lemma parse_value b ds : base_ok b -> (forall c, In c ds -> is_digit b c = true /\ capital c = false) -> parseIntegerLiteral ds b = u64 (value b ds).
Proof. intros B H. unfold parseIntegerLiteral. change 0 with (u64 0). rewrite parse_ok by auto. f_equal. Qed.
Lemma s64_u64 z : s64 (u64 z) = s64 z. Proof. unfold s64, u64. now rewrite Zplus_mod_idemp_l. Qed.
Lemma s64_cong z : s64 z mod 2 ^ 64 = z mod 2 ^ 64.
Proof. unfold s64. rewrite Zminus_mod, Zmod_mod, <- Zminus_mod. f_equal. ring. Qed.
Lemma s64_range z : - 2 ^ 63 <= s64 z < 2 ^ 63.
Proof. unfold s64. pose proof (Z.mod_pos_bound (z + 2 ^ 63) (2 ^ 64)). lia. Qed.
Lemma ends_ch rest : ends rest -> is_c "." (ch rest) = false /\ is_c "e" (ch rest) = false /\ is_c "E" (ch rest) = false /\ (forall d, hasTimingSuffix (ch rest) d = false).
Proof. destruct rest as [|c r]; cbn [ends ch]; intros E; [repeat split; intros; reflexivity|]. destruct (word_digit c E) as (_ & _ & ? & ? & ? & _ & _ & _ & _ & _ & ?). auto. Qed.

Lemma body_strip b s : body b s -> forall c, In c (strip s) -> is_digit b c = true. Proof. intros [_ H]. now apply strip_digits. Qed.
(* the first characters of a decimal literal do not look like a prefix *)
Lemma no_prefix s rest : body 10 s -> ends rest -> is_c "0" (ch (s ++ rest)) = true -> let p := peek (s ++ rest) in
  is_c "b" p = false /\ is_c "B" p = false /\ is_c "o" p = false /\ is_c "x" p = false /\ is_c "X" p = false.
Proof.
  intros [H0 H] E _ p. assert (P : ends [p] \/ is_digit 10 p = true \/ p = "_"%char \/ p = zero).
  { unfold p, peek. destruct s as [|c [|c2 s]]; cbn; [tauto| |]; [destruct rest; cbn in *; auto|]. right. destruct (H c2); cbn; auto. }
  destruct P as [P|[P|[-> | ->]]]; [cbn in P; apply word_digit in P; tauto| |cbn; tauto|cbn; tauto].
  assert (X : negb (is_c "b" p || is_c "B" p || is_c "o" p || is_c "x" p || is_c "X" p) = true).
  { revert P. apply implb_imp. generalize p. apply (all_chars (fun p => implb (is_digit 10 p) (negb (is_c "b" p || is_c "B" p || is_c "o" p || is_c "x" p || is_c "X" p)))). vm_compute. reflexivity. }
  apply negb_true_iff in X. repeat (apply orb_false_iff in X; destruct X as [X ?]). tauto.
Qed.
Lemma digit_minus c : is_digit 16 c = true -> is_c "-" c = false.
Proof. intros H. apply negb_true_iff. revert H. apply implb_imp. revert c. apply all_chars. vm_compute. reflexivity. Qed.
Lemma body_minus b s rest : base_ok b -> body b s -> is_c "-" (ch (s ++ rest)) = false.
Proof. intros B [H _]. destruct s as [|c s]; [tauto|]. cbn. apply digit_minus. eapply digit_16; eauto. Qed.
Definition tail (base : Z) (negative : bool) (s : chars) : token * chars :=
  let '(before, s) := consumeDigits base s in
  let '(t, s) :=
    if is_c "." (ch s) || is_c "e" (ch s) || is_c "E" (ch s) then
      let '(fr, s) := if is_c "." (ch s) then let '(ds, r) := consumeDigits base (nextCh s) in ("."%char :: ds, r) else ([], s) in
      let '(ex, s) :=
        if is_c "e" (ch s) || is_c "E" (ch s) then
          let e := ch s in
          let s := nextCh s in
          let '(sg, s) := if is_c "+" (ch s) || is_c "-" (ch s) then ([ch s], nextCh s) else ([], s) in
          let '(ds, r) := consumeDigits base s in (e :: sg ++ ds, r)
        else ([], s) in
      (TFloat negative (before ++ fr ++ ex), s)
    else
      let v := s64 (parseIntegerLiteral before base) in
      if negative then (if v =? - 2 ^ 63 then TUndef else TInt (- v) true, s) else (TInt v false, s) in
  let a := ch s in let b := peek s in
  if hasTimingSuffix a b then
    (match t with TUndef => TUndef | _ => TTiming end,
     if negb (is_c "s" a) && (negb (is_c "d" a) || negb (is_c "t" b)) then nextCh (nextCh s) else nextCh s)
  else (t, s).
Lemma consume_unfold s : consumeNumberLiteral s =
  (let p := peek s in
  let '(base, s) :=
    if is_c "0" (ch s) then
      if is_c "b" p || is_c "B" p then (2, nextCh (nextCh s))
      else if is_c "o" p then (8, nextCh (nextCh s))
      else if is_c "x" p || is_c "X" p then (16, nextCh (nextCh s))
      else (10, s)
    else (10, s) in
  let '(negative, s) := if is_c "-" (ch s) then (true, nextCh s) else (false, s) in tail base negative s).
Proof. reflexivity. Qed.
Lemma tail_ok b ng s rest : base_ok b -> body b s -> (forall c, In c s -> capital c = false) -> ends rest ->
  tail b ng (s ++ rest) = (let v := s64 (value b (strip s)) in (if ng then if v =? - 2 ^ 63 then TUndef else TInt (- v) true else TInt v false, rest)).
Proof.
  intros B Bd Cp E. unfold tail. rewrite digits_ok by (auto; apply Bd). destruct (ends_ch rest E) as (-> & -> & -> & T). cbn [orb].
  rewrite parse_value; auto.
  - rewrite s64_u64. destruct ng; now rewrite T.
  - intros c I. split; [now apply (body_strip b s Bd)|]. apply Cp. unfold strip in I. now apply filter_In in I.
Qed.
Lemma literal_ok p b s rest : prefix p b -> p <> list_ascii_of_string "0O" -> body b s -> (forall c, In c s -> capital c = false) -> ends rest ->
  consumeNumberLiteral (p ++ s ++ rest) = (TInt (s64 (value b (strip s))) false, rest).
Proof.
  intros P NO Bd Cp E. rewrite consume_unfold. pose proof (prefix_base p b P) as B. pose proof (body_minus b s rest B Bd) as M.
  destruct P; cbn [list_ascii_of_string app ch peek tl nextCh].
  2,3,4,6,7: unfold is_c at 1; cbn [Ascii.eqb]; cbn -[tail]; change (Ascii.eqb (ch (s ++ rest)) "-") with (is_c "-" (ch (s ++ rest))); rewrite M; cbv beta iota zeta; rewrite tail_ok; auto.
  2: now destruct NO.
  cbv zeta. destruct (is_c "0" (ch (s ++ rest))) eqn:Z0.
  - destruct (no_prefix s rest Bd E Z0) as (-> & -> & -> & -> & ->). cbn [orb]. rewrite M; cbv beta iota zeta; rewrite tail_ok; auto.
  - rewrite M; cbv beta iota zeta; rewrite tail_ok; auto.
Qed.
Lemma negative_ok s rest : body 10 s -> ends rest -> consumeNumberLiteral ("-"%char :: s ++ rest) =
  (let v := s64 (value 10 (strip s)) in if v =? - 2 ^ 63 then TUndef else TInt (- v) true, rest).
Proof.
  intros Bd E. rewrite consume_unfold. cbn [ch peek tl]. change (is_c "0" "-") with false. change (is_c "-" "-") with true. cbv beta iota zeta. cbn [nextCh tl ch]. change (is_c "-" "-") with true. cbv beta iota. rewrite tail_ok; auto.
  - right. right. now left.
  - intros c I. destruct (proj2 Bd c I) as [D| ->]; auto. apply negb_true_iff. revert D. apply implb_imp. revert c I. intros c _. revert c. apply all_chars. vm_compute. reflexivity.
Qed.
