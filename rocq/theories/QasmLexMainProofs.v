(** The scanner: whole texts, termination. *)
From Coq Require Import ZArith NArith Bool Ascii String List Arith Lia.
From Verif Require Import LayoutModel LayoutSpec LayoutProofs QasmScanSpec QasmScanModel QasmScanProofs QasmLexModel QasmLexSpec QasmLexNumProofs QasmLexProofs.
Import ListNotations.
Local Open Scope list_scope.

Definition next' (k : skipped) : option (ltok * chars) :=
  match k with
  | SMore => None
  | SToken t r => Some (t, r)
  | SRest s =>
      let c := ch s in
      if isFirstIdChar c then Some (consumeName s)
      else if isNum c || (is_c "." c && isNum (peek s)) || (is_c "-" c && isNum (peek s)) then
        let '(t, r) := consumeNumberLiteral s in Some (LNum t, r)
      else if is_c "$" c then Some (consumeHardwareQubit s)
      else if is_c """" c || is_c "'" c then consumeString s
      else if is_c zero c then Some (LKind KEof, s)
      else let '(k, n) := symbol c (peek s) (peek (nextCh s)) in Some (LKind k, drop n s)
  end.
Lemma next_eq s : next s = next' (skipAll s). Proof. reflexivity. Qed.

Lemma first_not_space c : isFirstIdChar c = true -> isSpace c = false /\ c <> "/"%char.
Proof.
  assert (F : forall q, implb (isFirstIdChar q) (negb (isSpace q) && negb (is_c "/" q)) = true) by (apply all_chars; vm_compute; reflexivity).
  intros H. specialize (F c). rewrite H in F. cbn [implb] in F. apply andb_prop in F as [A B]. apply negb_true_iff in A, B. apply is_c_false in B. auto.
Qed.
Lemma num_not c : isNum c = true -> isSpace c = false /\ c <> "/"%char /\ isFirstIdChar c = false.
Proof.
  assert (F : forall q, implb (isNum q) (negb (isSpace q) && negb (is_c "/" q) && negb (isFirstIdChar q)) = true) by (apply all_chars; vm_compute; reflexivity).
  intros H. specialize (F c). rewrite H in F. cbn [implb] in F. rewrite !andb_true_iff, !negb_true_iff in F. rewrite is_c_false in F. tauto.
Qed.
Lemma is_digit_num c : is_digit 10 c = true -> isNum c = true.
Proof. intros H. rewrite <- (valid_ok 10) in H by (right; right; now left). exact H. Qed.
Lemma body_first s : body 10 s -> exists c r, s = c :: r /\ isNum c = true.
Proof. intros [H _]. destruct s as [|c r]; [destruct H|]. exists c, r. split; auto. now apply is_digit_num. Qed.

(* a number *)
Lemma next_number c s : isNum c = true -> next' (skipAll (c :: s)) = let '(t, r) := consumeNumberLiteral (c :: s) in Some (LNum t, r).
Proof. intros H. destruct (num_not c H) as (A & B & C). rewrite skip_stop by (auto; congruence). unfold next'. cbn [ch]. cbv zeta. rewrite C, H. reflexivity. Qed.
Lemma next_minus c s : isNum c = true -> next' (skipAll ("-"%char :: c :: s)) = let '(t, r) := consumeNumberLiteral ("-"%char :: c :: s) in Some (LNum t, r).
Proof. intros H. rewrite skip_stop by (auto; discriminate). unfold next', peek. cbn [ch tl]. cbv zeta. rewrite H. reflexivity. Qed.
Lemma next_dot c s : isNum c = true -> next' (skipAll ("."%char :: c :: s)) = let '(t, r) := consumeNumberLiteral ("."%char :: c :: s) in Some (LNum t, r).
Proof. intros H. rewrite skip_stop by (auto; discriminate). unfold next', peek. cbn [ch tl]. cbv zeta. rewrite H. reflexivity. Qed.
Lemma next_signed sg a rest : In sg [[]; ["-"]]%char -> body 10 a -> next' (skipAll (sg ++ a ++ rest)) = let '(t, r) := consumeNumberLiteral (sg ++ a ++ rest) in Some (LNum t, r).
Proof.
  intros S B. destruct (body_first a B) as (c & r & -> & N). destruct S as [<-|[<-|[]]]; cbn [app].
  - now apply next_number. - now apply next_minus.
Qed.

Lemma lexeme_ok w t ok rest : lexeme w t ok -> ok rest -> next' (skipAll (w ++ rest)) = Some (t, rest).
Proof.
  intros L. destruct L as [s k I|c w A B C|p b s P NO B C R|s B R|sg a f e Sg A F E|f e F E|sg a e Sg A E NE|a u A U|s NE D R|d w D N|s k I|w A Z C|w A Z C NC]; intros O.
  - destruct (word_chars s k I) as (W & F & K). destruct (str s) as [|c w] eqn:S; [discriminate F|]. cbn [ch] in F. destruct (first_not_space c F) as [A B].
    cbn [app]. rewrite skip_stop by (auto; congruence). unfold next'. cbn [ch]. cbv zeta. rewrite F. unfold consumeName. change (c :: w ++ rest) with ((c :: w) ++ rest).
    rewrite name_ok; auto; [now rewrite K|]. intros x X. rewrite forallb_forall in W. auto.
  - apply letter_iff in A. destruct (first_not_space c A) as [S1 S2]. cbn [app]. rewrite skip_stop by (auto; congruence). unfold next'. cbn [ch]. cbv zeta. rewrite A. unfold consumeName.
    change (c :: w ++ rest) with ((c :: w) ++ rest). rewrite name_ok; auto.
    + rewrite keyword_none; auto. intros X. inversion X; subst c. discriminate A.
    + intros x [<-|X]; [unfold name_char; now rewrite A|]. apply name_iff. auto.
  - rewrite <- app_assoc. assert (X : next' (skipAll (p ++ s ++ rest)) = let '(t, r) := consumeNumberLiteral (p ++ s ++ rest) in Some (LNum t, r)).
    { destruct P; cbn [str app]; try (apply next_number; reflexivity). destruct (body_first s B) as (c & r & -> & N). cbn [app]. now apply next_number. }
    rewrite X, (literal_ok p b); auto; [|intros c J; apply capital_between; auto].
    rewrite s64_small; auto. split; auto. apply value_range. eapply prefix_base; eauto.
  - destruct (body_first s B) as (c & r & E & N). assert (X : next' (skipAll (("-"%char :: s) ++ rest)) = let '(t, r) := consumeNumberLiteral (("-"%char :: s) ++ rest) in Some (LNum t, r)).
    { subst s. cbn [app]. now apply next_minus. }
    rewrite X. cbn [app]. rewrite negative_ok by auto. cbv zeta. pose proof (value_range 10 (strip s) (or_intror (or_intror (or_introl eq_refl)))) as V. rewrite s64_small by lia.
    replace (value 10 (strip s) =? - 2 ^ 63)%Z with false by (symmetry; apply Z.eqb_neq; lia). reflexivity.
  - replace ((sg ++ a ++ "."%char :: f ++ e) ++ rest) with (sg ++ a ++ "."%char :: f ++ e ++ rest) by (rewrite <- !app_assoc; cbn [app]; now rewrite <- !app_assoc).
    rewrite next_signed by auto. rewrite start_ok by (auto; reflexivity). rewrite tail_float by auto using body_digits. destruct Sg as [<-|[<-|[]]]; reflexivity.
  - destruct (body_first f F) as (c & r & Ef & N). replace (("."%char :: f ++ e) ++ rest) with ("."%char :: f ++ e ++ rest) by (cbn [app]; now rewrite <- app_assoc).
    assert (X : next' (skipAll ("."%char :: f ++ e ++ rest)) = let '(t, r) := consumeNumberLiteral ("."%char :: f ++ e ++ rest) in Some (LNum t, r)) by (subst f; cbn [app]; now apply next_dot).
    rewrite X. change (consumeNumberLiteral ("."%char :: f ++ e ++ rest)) with (tail 10 false ([] ++ "."%char :: f ++ e ++ rest)). rewrite tail_float; auto using body_digits. intros x [].
  - replace ((sg ++ a ++ e) ++ rest) with (sg ++ a ++ e ++ rest) by (now rewrite <- !app_assoc). rewrite next_signed by auto. rewrite start_ok; auto.
    + rewrite tail_scientific by auto using body_digits. destruct Sg as [<-|[<-|[]]]; reflexivity.
    + destruct E as [|x sg' s I J B]; [congruence|]. destruct I as [<-|[<-|[]]]; reflexivity.
  - rewrite <- app_assoc. change (a ++ u ++ rest) with ([] ++ a ++ u ++ rest). rewrite next_signed by (simpl; auto). rewrite start_ok; simpl; auto.
    + rewrite tail_timing by auto using body_digits. reflexivity.
    + destruct U as [<-|[<-|[<-|[<-|[<-|[]]]]]]; reflexivity.
  - cbn [app]. rewrite skip_stop by (auto; discriminate). unfold next', peek. cbn [ch tl]. cbv zeta. change (isFirstIdChar "$") with false. change (isNum "$") with false. change (is_c "." "$") with false. change (is_c "-" "$") with false. cbn [andb orb].
    change (is_c "$" "$") with true. cbv iota. unfold consumeHardwareQubit, expect. cbn [ch]. rewrite is_c_refl. cbn [nextCh tl]. rewrite hardware_ok; auto; try lia; try now rewrite Z.mul_0_l.
  - cbn [app]. rewrite <- app_assoc. cbn [app]. assert (Q : isSpace d = false /\ d <> "/"%char) by (destruct D as [<-|[<-|[]]]; split; [reflexivity|discriminate|reflexivity|discriminate]).
    destruct Q. rewrite skip_stop by (auto; congruence). unfold next', consumeString. cbn [ch nextCh tl].
    assert (X : until d (w ++ d :: rest) = Some (w, d :: rest)) by (now apply until_ok). 
    destruct D as [<-|[<-|[]]]; cbv zeta; cbn -[until expect peek]; rewrite X; unfold expect; cbn [ch]; rewrite is_c_refl; reflexivity.
  - destruct O as (O1 & O2 & O3 & O4). destruct (symbol_table s k I) as (A & B & C & D & E & Z & NE).
    pose proof (symbol_ok s k rest I O1) as Q. 
    assert (LD : forall (x : chars) y, drop (List.length x) (x ++ y) = y).
    { intros x. unfold drop. induction x as [|c x IH] using rev_ind; intros y; auto. rewrite app_length, Nat.add_comm. simpl. rewrite <- app_assoc. rewrite IH. reflexivity. }
    destruct (str s) as [|c w] eqn:S; [congruence|]. cbn [ch] in *.
    assert (SK : skipAll ((c :: w) ++ rest) = SRest ((c :: w) ++ rest)).
    { cbn [app]. apply skip_stop; auto. intros ->. split.
      - destruct (is_c "/" (ch (w ++ rest))) eqn:Y; auto. exfalso. apply ch_cons in Y as (r & Y); [|discriminate]. apply O2. exists r. cbn [str app]. now rewrite Y.
      - destruct (is_c "*" (ch (w ++ rest))) eqn:Y; auto. exfalso. apply ch_cons in Y as (r & Y); [|discriminate]. apply O3. exists r. cbn [str app]. now rewrite Y. }
    rewrite SK. unfold next'. cbn [app ch] in *. cbv zeta. rewrite B, C, D, E, Z. 
    assert (M : (is_c "." c && isNum (peek (c :: w ++ rest))) || (is_c "-" c && isNum (peek (c :: w ++ rest))) = false).
    { destruct (is_c "." c || is_c "-" c) eqn:Y; [|apply orb_false_iff in Y as [-> ->]; reflexivity].
      destruct (isNum (peek (c :: w ++ rest))) eqn:NN; [|now rewrite !andb_false_r]. exfalso. unfold peek in NN. cbn [tl] in NN.
      assert (WW : w <> [] -> isNum (ch (w ++ rest)) = false).
      { intros NW. destruct w as [|x w]; [congruence|]. cbn [app ch].
        assert (G : forallb (fun p => match str (fst p) with _ :: x :: _ => negb (isNum x) | _ => true end) symbols = true) by (vm_compute; reflexivity).
        rewrite forallb_forall in G. specialize (G _ I). cbn [fst] in G. rewrite S in G. now apply negb_true_iff in G. }
      destruct w as [|x w]; [|rewrite WW in NN; discriminate]. cbn [app] in NN.
      assert (SS : s = "-"%string \/ s = "."%string).
      { rewrite <- (string_of_list_ascii_of_string s), S. apply orb_prop in Y as [Y|Y]; apply is_c_true in Y as ->; simpl; auto. }
      specialize (O4 SS). destruct rest as [|x rest]; [discriminate NN|]. cbn [ch] in NN. cbn [not_first] in O4. apply decimal_iff in NN. tauto. }
    cbn [orb]. rewrite M. rewrite Q. change (Some (LKind k, drop (List.length (c :: w)) ((c :: w) ++ rest)) = Some (LKind k, rest)). now rewrite LD.
  - replace ((str "//" ++ w ++ [newline]) ++ rest) with (str "//" ++ w ++ newline :: rest) by (rewrite <- !app_assoc; reflexivity). rewrite skip_line by auto. unfold after.
    apply marked_iff in C. now rewrite C.
  - replace ((str "//" ++ w ++ [newline]) ++ rest) with (str "//" ++ w ++ newline :: rest) by (rewrite <- !app_assoc; reflexivity). rewrite skip_line by auto. unfold after.
    apply marked_iff in C. rewrite C. destruct (marked "i" w) eqn:M; auto. apply marked_iff in M. tauto.
Qed.
Lemma lexeme_kind w t ok : lexeme w t ok -> t <> LKind KEof /\ w <> [].
Proof.
  intros [s k I|c w' A B C|p b s P NO B C R|s B R|sg a f e Sg A F E|f e F E|sg a e Sg A E NE|a u A U|s NE D R|d w' D N|s k I|w' A Z C|w' A Z C NC]; split; try discriminate.
  - assert (F : forallb (fun p => match snd p with KEof => false | _ => true end) words = true) by (vm_compute; reflexivity). rewrite forallb_forall in F. specialize (F _ I). intros X. inversion X; subst. discriminate.
  - destruct (word_chars s k I) as (_ & F & _). intros X. rewrite X in F. discriminate.
  - destruct B as [B _]. destruct s; [destruct B|]. intros X. apply app_eq_nil in X as [_ X]. discriminate.
  - intros X. apply app_eq_nil in X as [_ X]. apply app_eq_nil in X as [_ X]. discriminate.
  - destruct A as [A _]. destruct a; [destruct A|]. intros X. apply app_eq_nil in X as [_ X]. discriminate.
  - destruct A as [A _]. destruct a; [destruct A|]. discriminate.
  - assert (F : forallb (fun p => match snd p with KEof => false | _ => true end) symbols = true) by (vm_compute; reflexivity). rewrite forallb_forall in F. specialize (F _ I). intros X. inversion X; subst. discriminate.
  - apply (symbol_table s k I).
Qed.
Theorem scan_written s ts : written s ts -> forall f, List.length s < f -> scan f s = Some (ts ++ [LKind KEof]).
Proof.
  induction 1 as [b B|b w B A Z M|b w t ok rest ts B L O W IH]; intros f F; (destruct f as [|f]; [lia|]); cbn [scan]; rewrite next_eq, ?skip_blank by auto.
  - rewrite <- (app_nil_r b), skip_blank by auto. reflexivity.
  - rewrite skip_last by auto. unfold after, mark in *.
    assert (I : marked "i" w = false) by (destruct (marked "i" w) eqn:E; auto; apply marked_iff in E; tauto).
    assert (Oo : marked "o" w = false) by (destruct (marked "o" w) eqn:E; auto; apply marked_iff in E; tauto). rewrite I, Oo. reflexivity.
  - rewrite (lexeme_ok w t ok rest L O). destruct (lexeme_kind w t ok L) as [N NE]. rewrite IH.
    + cbn [app]. destruct t as [[]| | | | | | |]; try reflexivity. congruence.
    + rewrite !app_length in F. destruct w; [congruence|]. simpl in F. lia.
Qed.

(** ** Termination *)
Lemma skip_rest : forall f s, List.length s < f -> match skip f s with
  | SMore => False
  | SToken _ r => List.length r < List.length s /\ exists a, s = a ++ r
  | SRest r => List.length r <= List.length s /\ exists a, s = a ++ r
  end.
Proof.
  assert (SP : forall s, exists a, s = a ++ skip_space s).
  { induction s as [|c s [a IH]]; [exists []; auto|]. simpl. destruct (isSpace c); [exists (c :: a); simpl; congruence|exists []; auto]. }
  assert (LN : forall s, exists a, s = a ++ snd (line_of s)).
  { induction s as [|c s [a IH]]; [exists []; auto|]. simpl. destruct (is_c "010" c || is_c zero c); [exists []; auto|]. destruct (line_of s) as [w r]. simpl in *. exists (c :: a). simpl. congruence. }
  assert (TE : forall s, exists a, s = a ++ to_end s).
  { induction s as [|c s [a IH]]; [exists []; auto|]. simpl. destruct (is_c zero c || is_c "*" c && is_c "/" (ch s)); [exists []; auto|]. exists (c :: a). simpl. congruence. }
  assert (TL : forall s : chars, exists a, s = a ++ tl s) by (intros [|c s]; [exists []|exists [c]]; auto).
  assert (EX : forall x s, exists a, s = a ++ expect x s) by (intros x s; unfold expect; destruct (is_c x (ch s)); [apply TL|exists []; auto]).
  assert (TR : forall a b c : chars, (exists x, a = x ++ b) -> (exists x, b = x ++ c) -> exists x, a = x ++ c) by (intros a b c [x ->] [y ->]; exists (x ++ y); now rewrite app_assoc).
  induction f as [|f IH]; intros s L; [lia|]. cbn [skip]. pose proof (skip_space_le s) as Q. pose proof (SP s) as QS. set (u := skip_space s) in *. clearbody u.
  destruct (is_c "/" (ch u) && is_c "/" (peek u)) eqn:E.
  - apply andb_prop in E as [E _]. pose proof (line_shorter u E) as LL. pose proof (LN u) as LS. destruct (line_of u) as [w r]. cbn [snd] in *.
    set (r' := if is_c "010" (ch r) then nextCh r else r). assert (RR : List.length r' <= List.length r /\ exists a, r = a ++ r').
    { unfold r'. destruct (is_c "010" (ch r)); [split; [apply tl_le|apply TL]|split; auto; exists []; auto]. } clearbody r'. destruct RR as [R1 R2].
    assert (P : exists a, s = a ++ r') by eauto.
    destruct (marked "i" w); [split; [lia|auto]|]. destruct (marked "o" w); [split; [lia|auto]|]. specialize (IH r' ltac:(lia)). destruct (skip f r') as [t x|x|]; auto; destruct IH; split; try lia; eauto.
  - destruct (is_c "/" (ch u) && is_c "*" (peek u)) eqn:E'; [|auto]. apply andb_prop in E' as [E' _]. pose proof (block_shorter u E') as BB.
    set (r := expect "/" (expect "*" (to_end (nextCh (nextCh u))))) in *.
    assert (P : exists a, s = a ++ r).
    { apply (TR _ u); auto. apply (TR _ (nextCh u)); [apply TL|]. apply (TR _ (nextCh (nextCh u))); [apply TL|]. eapply TR; [apply TE|]. eapply TR; [apply (EX "*"%char)|]. apply EX. }
    clearbody r. specialize (IH r ltac:(lia)). destruct (skip f r) as [t x|x|]; auto; destruct IH; split; try lia; eauto.
Qed.
Lemma until_none d s : until d s = None -> ~ In d s.
Proof.
  induction s as [|c s IH]; simpl; [auto|]. destruct (is_c d c) eqn:E; [discriminate|]. destruct (until d s) as [[w t]|]; [discriminate|]. intros _ [->|I]; [rewrite is_c_refl in E; discriminate|]. now apply IH.
Qed.
Lemma until_le d s : forall w r, until d s = Some (w, r) -> List.length r <= List.length s /\ exists a, s = a ++ r.
Proof.
  induction s as [|c s IH]; simpl; [discriminate|]. intros w r. destruct (is_c d c).
  - intros X. inversion X; subst. split; auto. exists []; auto.
  - destruct (until d s) as [[w' t]|]; [|discriminate]. intros X. inversion X; subst. destruct (IH _ _ eq_refl) as [A [a B]]. split; [lia|]. exists (c :: a). simpl. congruence.
Qed.
Definition rest_of (s r : chars) : Prop := List.length r < List.length s /\ exists a, s = a ++ r.
Lemma rest_tl s : s <> [] -> rest_of s (tl s). Proof. destruct s as [|c s]; [congruence|]. intros _. split; [simpl; lia|exists [c]; auto]. Qed.
Definition suffix (s r : chars) : Prop := exists a, s = a ++ r.
Lemma suffix_refl s : suffix s s. Proof. exists []; auto. Qed.
Lemma suffix_trans a b c : suffix a b -> suffix b c -> suffix a c. Proof. intros [x ->] [y ->]. exists (x ++ y). now rewrite app_assoc. Qed.
Lemma suffix_tl s : suffix s (tl s). Proof. destruct s as [|c s]; [exists []|exists [c]]; auto. Qed.
Lemma suffix_le s r : suffix s r -> List.length r <= List.length s. Proof. intros [a ->]. rewrite app_length. lia. Qed.
Lemma suffix_digits b s : suffix s (snd (consumeDigits b s)).
Proof.
  induction s as [|c s IH]; [apply suffix_refl|]. cbn [consumeDigits]. destruct (isValidDigit b c || is_c "_" c); [|apply suffix_refl].
  destruct (consumeDigits b s). cbn [snd] in *. eapply suffix_trans; [|exact IH]. exists [c]; auto.
Qed.
(* what a number leaves behind *)
Definition digitsR (b : Z) (s : chars) : chars := snd (consumeDigits b s).
Definition fracR (b : Z) (s : chars) : chars := if is_c "." (ch s) then digitsR b (nextCh s) else s.
Definition signR (s : chars) : chars := if is_c "+" (ch s) || is_c "-" (ch s) then nextCh s else s.
Definition exR (b : Z) (s : chars) : chars := if is_c "e" (ch s) || is_c "E" (ch s) then digitsR b (signR (nextCh s)) else s.
Definition numR (b : Z) (s : chars) : chars := if is_c "." (ch s) || is_c "e" (ch s) || is_c "E" (ch s) then exR b (fracR b s) else s.
Definition timR (s : chars) : chars :=
  if hasTimingSuffix (ch s) (peek s) then
    if negb (is_c "s" (ch s)) && (negb (is_c "d" (ch s)) || negb (is_c "t" (peek s))) then nextCh (nextCh s) else nextCh s
  else s.
Lemma tail_rest b ng s : snd (tail b ng s) = timR (numR b (digitsR b s)).
Proof.
  unfold tail, numR, digitsR. destruct (consumeDigits b s) as [ds r]. cbn [snd].
  match goal with |- snd (let '(t, s) := ?X in _) = timR ?Y => assert (E : snd X = Y); [|destruct X as [t x]; cbn [snd] in E; subst x; unfold timR; cbv zeta; destruct (hasTimingSuffix (ch Y) (peek Y)); reflexivity] end.
  destruct (is_c "." (ch r) || is_c "e" (ch r) || is_c "E" (ch r)); [|now destruct ng].
  unfold exR, fracR, digitsR. destruct (is_c "." (ch r)).
  - destruct (consumeDigits b (nextCh r)) as [d1 r1]. cbn [snd]. destruct (is_c "e" (ch r1) || is_c "E" (ch r1)); auto. cbv zeta. unfold signR.
    destruct (is_c "+" (ch (nextCh r1)) || is_c "-" (ch (nextCh r1))); match goal with |- context [consumeDigits b ?x] => destruct (consumeDigits b x) end; reflexivity.
  - destruct (is_c "e" (ch r) || is_c "E" (ch r)); auto. cbv zeta. unfold signR.
    destruct (is_c "+" (ch (nextCh r)) || is_c "-" (ch (nextCh r))); match goal with |- context [consumeDigits b ?x] => destruct (consumeDigits b x) end; reflexivity.
Qed.
Lemma suffix_next s : suffix s (nextCh s). Proof. apply suffix_tl. Qed.
Lemma suffix_next2 s : suffix s (nextCh (nextCh s)). Proof. eapply suffix_trans; apply suffix_next. Qed.
Lemma suffix_ex b s : suffix s (exR b s).
Proof.
  unfold exR. destruct (is_c "e" (ch s) || is_c "E" (ch s)); [|apply suffix_refl]. eapply suffix_trans; [apply suffix_next|].
  apply suffix_trans with (signR (nextCh s)); [|apply suffix_digits]. unfold signR. destruct (is_c "+" (ch (nextCh s)) || is_c "-" (ch (nextCh s))); [apply suffix_next|apply suffix_refl].
Qed.
Lemma suffix_tim s : suffix s (timR s).
Proof. unfold timR. destruct (hasTimingSuffix (ch s) (peek s)); [|apply suffix_refl]. destruct (negb (is_c "s" (ch s)) && (negb (is_c "d" (ch s)) || negb (is_c "t" (peek s)))); [apply suffix_next2|apply suffix_next]. Qed.
Lemma suffix_num b s : suffix s (numR b s).
Proof.
  unfold numR. destruct (is_c "." (ch s) || is_c "e" (ch s) || is_c "E" (ch s)); [|apply suffix_refl]. eapply suffix_trans; [|apply suffix_ex].
  unfold fracR. destruct (is_c "." (ch s)); [|apply suffix_refl]. eapply suffix_trans; [apply suffix_next|apply suffix_digits].
Qed.
Lemma suffix_tail b ng s : suffix s (snd (tail b ng s)).
Proof. rewrite tail_rest. eapply suffix_trans; [|apply suffix_tim]. eapply suffix_trans; [|apply suffix_num]. apply suffix_digits. Qed.
Lemma rest_suffix s u r : rest_of s u -> suffix u r -> rest_of s r.
Proof. intros [A B] C. split; [apply suffix_le in C; lia|]. eapply suffix_trans; eauto. Qed.
Lemma rest_cons c s : rest_of (c :: s) s. Proof. apply (rest_tl (c :: s)). discriminate. Qed.
(* a number uses at least one character *)
Lemma number_rest s : isNum (ch s) || (is_c "." (ch s) && isNum (peek s)) || (is_c "-" (ch s) && isNum (peek s)) = true -> rest_of s (snd (consumeNumberLiteral s)).
Proof.
  intros H. rewrite consume_unfold. cbv zeta. destruct s as [|c s]; [discriminate|]. cbn [ch] in *.
  assert (N2 : forall b, rest_of (c :: s) (snd (let '(negative, s) := if is_c "-" (ch (nextCh (nextCh (c :: s)))) then (true, nextCh (nextCh (nextCh (c :: s)))) else (false, nextCh (nextCh (c :: s))) in tail b negative s))).
  { intros b. change (nextCh (c :: s)) with s. destruct (is_c "-" (ch (nextCh s))); eapply rest_suffix; try apply rest_cons; (eapply suffix_trans; [|apply suffix_tail]); [apply suffix_next2|apply suffix_next]. }
  assert (N1 : rest_of (c :: s) (snd (let '(negative, s) := if is_c "-" c then (true, nextCh (c :: s)) else (false, c :: s) in tail 10 negative s))).
  { destruct (is_c "-" c) eqn:M; [eapply rest_suffix; [apply rest_cons|apply suffix_tail]|].
    unfold peek in H. cbn [tl] in H. rewrite andb_false_l, orb_false_r in H. rewrite tail_rest. eapply rest_suffix; [|apply suffix_tim].
    unfold digitsR. cbn [consumeDigits]. change (isValidDigit 10 c) with (isNum c). destruct (isNum c) eqn:NC.
    - cbn [orb]. pose proof (suffix_digits 10 s) as D. destruct (consumeDigits 10 s) as [ds r]. cbn [snd] in *. eapply rest_suffix; [|apply suffix_num]. eapply rest_suffix; [apply rest_cons|exact D].
    - cbn [orb] in H. apply andb_prop in H as [K1 K2]. apply is_c_true in K1. subst c. change (is_c "_" ".") with false. cbn [orb]. cbv iota. cbn [snd].
      unfold numR. cbn [ch]. change (is_c "." ".") with true. cbn [orb]. cbv iota. eapply rest_suffix; [|apply suffix_ex]. unfold fracR. cbn [ch]. change (is_c "." ".") with true. cbv iota.
      cbn [nextCh tl]. eapply rest_suffix; [apply rest_cons|]. apply suffix_digits. }
  destruct (is_c "0" c); [|exact N1].
  destruct (is_c "b" (peek (c :: s)) || is_c "B" (peek (c :: s))); [exact (N2 2%Z)|].
  destruct (is_c "o" (peek (c :: s))); [exact (N2 8%Z)|].
  destruct (is_c "x" (peek (c :: s)) || is_c "X" (peek (c :: s))); [exact (N2 16%Z)|]. exact N1.
Qed.
Lemma suffix_name s : suffix s (snd (name_of s)).
Proof.
  induction s as [|c s IH]; [apply suffix_refl|]. cbn [name_of]. destruct (isFirstIdChar c || isNum c); [|apply suffix_refl]. destruct (name_of s). cbn [snd] in *.
  eapply suffix_trans; [|exact IH]. exists [c]; auto.
Qed.
Lemma suffix_hardware s : forall v, suffix s (snd (hardware s v)).
Proof.
  induction s as [|c s IH]; intros v; [apply suffix_refl|]. cbn [hardware]. destruct (isNum c); [|apply suffix_refl]. cbv zeta.
  destruct (_ <=? _)%Z; [eapply suffix_trans; [|apply IH]|]; exists [c]; auto.
Qed.
Lemma suffix_drop n s : suffix s (drop n s).
Proof. unfold drop. induction n as [|n IH]; [apply suffix_refl|]. simpl. eapply suffix_trans; [exact IH|apply suffix_next]. Qed.
Lemma drop_cons n c s : drop (S n) (c :: s) = drop n s.
Proof. unfold drop. induction n as [|n IH]; auto. simpl in *. now rewrite <- IH. Qed.
Lemma symbol_some c p q : 1 <= snd (symbol c p q).
Proof. unfold symbol. repeat match goal with |- context [if ?b then _ else _] => destruct b; [try (cbn [snd]; lia)|] end; try (cbn [snd]; lia). Qed.

(* one call of next *)
Lemma next_cases s : match next s with
  | None => exists u, suffix s u /\ unclosed u
  | Some (t, r) => rest_of s r \/ t = LKind KEof
  end.
Proof.
  rewrite next_eq. pose proof (skip_rest (S (List.length s)) s ltac:(lia)) as K. fold (skipAll s) in K. destruct (skipAll s) as [t r|u|]; [left; exact K| |destruct K].
  destruct K as [_ K]. fold (suffix s u) in K.
  assert (L : forall r, rest_of u r -> rest_of s r).
  { intros r [A B]. split; [apply suffix_le in K; lia|]. eapply suffix_trans; eauto. }
  unfold next'. cbv zeta. destruct (isFirstIdChar (ch u)) eqn:F.
  { destruct u as [|c u]; [discriminate|]. cbn [ch] in F. unfold consumeName. cbn [name_of]. rewrite F. cbn [orb]. pose proof (suffix_name u) as N. destruct (name_of u) as [w r]. cbn [snd] in N.
    left. apply L. eapply rest_suffix; [apply rest_cons|exact N]. }
  match goal with |- context [if ?b then _ else _] => destruct b eqn:N end.
  { pose proof (number_rest u N) as R. destruct (consumeNumberLiteral u) as [t r]. left. apply L. exact R. }
  destruct (is_c "$" (ch u)) eqn:D.
  { unfold consumeHardwareQubit, expect. rewrite D. apply ch_cons in D as (r & ->); [|discriminate]. cbn [nextCh tl]. pose proof (suffix_hardware r 0%Z) as X. destruct (hardware r 0) as [v x]. cbn [snd] in X.
    left. apply L. eapply rest_suffix; [apply rest_cons|exact X]. }
  destruct (is_c """" (ch u) || is_c "'" (ch u)) eqn:Q.
  { assert (E : exists d r, u = d :: r /\ In d [""""; "'"]%char).
    { apply orb_prop in Q as [Q|Q]; apply ch_cons in Q as (r & ->); try discriminate; do 2 eexists; (split; [reflexivity|]); simpl; auto. }
    destruct E as (d & r & -> & I). unfold consumeString. cbn [ch nextCh tl]. destruct (until d r) as [[w x]|] eqn:U.
    - left. apply L. apply until_le in U as [_ U]. eapply rest_suffix; [apply rest_cons|]. eapply suffix_trans; [exact U|]. unfold expect. destruct (is_c d (ch x)); [apply suffix_next|apply suffix_refl].
    - exists (d :: r). split; auto. exists d, r. repeat split; auto. now apply until_none. }
  destruct (is_c zero (ch u)) eqn:Z; [now right|].
  pose proof (symbol_some (ch u) (peek u) (peek (nextCh u))) as M. destruct (symbol (ch u) (peek u) (peek (nextCh u))) as [k n]. cbn [snd] in M.
  left. apply L. destruct n as [|n]; [lia|]. destruct u as [|c u]; [discriminate|]. eapply rest_suffix; [apply rest_cons|]. rewrite drop_cons. apply suffix_drop.
Qed.
Lemma scan_cases : forall f s, List.length s < f -> match scan f s with
  | None => exists u, suffix s u /\ unclosed u
  | Some ts => List.length ts <= S (List.length s) /\ exists ts', ts = ts' ++ [LKind KEof] /\ ~ In (LKind KEof) ts'
  end.
Proof.
  induction f as [|f IH]; intros s L; [lia|]. cbn [scan]. pose proof (next_cases s) as N. destruct (next s) as [[t r]|]; [|exact N].
  assert (E : t = LKind KEof \/ t <> LKind KEof /\ match t with LKind KEof => Some [LKind KEof] | _ => match scan f r with Some l => Some (t :: l) | None => None end end = match scan f r with Some l => Some (t :: l) | None => None end).
  { destruct t as [[]| | | | | | |]; auto; right; split; auto; discriminate. }
  destruct E as [->|[NE E]].
  - split; [simpl; lia|]. exists []. split; auto.
  - rewrite E. destruct N as [[R1 R2]|N]; [|congruence]. specialize (IH r ltac:(lia)). destruct (scan f r) as [l|].
    + destruct IH as [A (ts' & -> & B)]. split; [simpl; lia|]. exists (t :: ts'). split; auto. intros [X|X]; auto.
    + destruct IH as (u & A & B). exists u. split; auto. eapply suffix_trans; eauto.
Qed.
