(** The scanner: numbers. *)
From Coq Require Import ZArith NArith Bool Ascii String List Lia.
From Verif Require Import LayoutSpec QasmScanSpec QasmScanModel QasmScanProofs QasmLexModel QasmLexSpec.
Import ListNotations.
Local Open Scope Z_scope.
Local Open Scope list_scope.

Definition halt (c : ascii) : bool := negb (isValidDigit 10 c || is_c "_" c || is_c "b" c || is_c "B" c || is_c "o" c || is_c "x" c || is_c "X" c).
Lemma halt_digit c : halt c = true -> isValidDigit 10 c = false /\ is_c "_" c = false /\ is_c "b" c = false /\ is_c "B" c = false /\ is_c "o" c = false /\ is_c "x" c = false /\ is_c "X" c = false.
Proof. unfold halt. rewrite negb_true_iff, !orb_false_iff. tauto. Qed.
Lemma digits_halt s rest : digits s -> halt (ch rest) = true -> consumeDigits 10 (s ++ rest) = (strip s, rest).
Proof.
  intros D H. induction s as [|c s IH]; simpl app.
  - destruct rest as [|r rest]; auto. cbn [ch] in H. apply halt_digit in H as (A & B & _). cbn [consumeDigits]. rewrite A, B. reflexivity.
  - cbn [consumeDigits]. rewrite IH by (intros x I; apply D; simpl; auto). unfold strip. cbn [filter].
    destruct (D c (or_introl eq_refl)) as [E| ->]; [|reflexivity]. rewrite <- (valid_ok 10) in E by (right; right; now left). rewrite E. cbn [orb].
    destruct (is_c "_" c) eqn:U; unfold is_c in U; rewrite U; reflexivity.
Qed.
Lemma body_digits s : body 10 s -> digits s. Proof. intros [_ H]. exact H. Qed.
Lemma start_plain a rest : body 10 a -> halt (ch rest) = true -> is_c "0" (ch (a ++ rest)) = true -> let p := peek (a ++ rest) in
  is_c "b" p = false /\ is_c "B" p = false /\ is_c "o" p = false /\ is_c "x" p = false /\ is_c "X" p = false.
Proof.
  intros [H D] E _ p. subst p. destruct a as [|c a]; [destruct H|]. unfold peek. cbn [app tl]. destruct a as [|x a].
  - apply halt_digit in E. cbn [app]. tauto.
  - cbn [app ch]. destruct (D x (or_intror (or_introl eq_refl))) as [X| ->]; [|repeat split; reflexivity].
    revert X. clear. intros X. assert (F : forall q, implb (is_digit 10 q) (negb (is_c "b" q || is_c "B" q || is_c "o" q || is_c "x" q || is_c "X" q)) = true) by (apply all_chars; vm_compute; reflexivity).
    specialize (F x). rewrite X in F. cbn [implb] in F. rewrite negb_true_iff, !orb_false_iff in F. tauto.
Qed.
Definition sign (sg : list ascii) : bool := match sg with [] => false | _ => true end.
Lemma start_ok sg a rest : In sg [[]; ["-"]]%char -> body 10 a -> halt (ch rest) = true -> consumeNumberLiteral (sg ++ a ++ rest) = tail 10 (sign sg) (a ++ rest).
Proof.
  intros Sg B H. rewrite consume_unfold. destruct Sg as [<-|[<-|[]]].
  - cbn [app]. pose proof (body_minus 10 a rest (or_intror (or_intror (or_introl eq_refl))) B) as M. cbv zeta.
    destruct (is_c "0" (ch (a ++ rest))) eqn:Z0.
    + destruct (start_plain a rest B H Z0) as (-> & -> & -> & -> & ->). cbn [orb]. now rewrite M.
    + now rewrite M.
  - reflexivity.
Qed.
Lemma dot_fraction rest : halt (ch rest) = true -> consumeNumberLiteral ("."%char :: rest) = tail 10 false ("."%char :: rest).
Proof. reflexivity. Qed.

Lemma ends_halt rest : ends rest -> halt (ch rest) = true.
Proof.
  destruct rest as [|c rest]; [reflexivity|]. cbn [ends ch]. intros H.
  assert (F : forall q, implb (negb (word q)) (halt q) = true) by (apply all_chars; vm_compute; reflexivity).
  specialize (F c). rewrite H in F. exact F.
Qed.
(** what follows the digits before the point *)
Lemma tail_float ng a f e rest : digits a -> digits f -> exponent e -> ends rest ->
  tail 10 ng (a ++ "."%char :: f ++ e ++ rest) = (TFloat ng (strip (a ++ "."%char :: f ++ e)), rest).
Proof.
  intros A F E R. unfold tail. rewrite digits_halt by (auto; reflexivity). cbn [ch]. change (is_c "." ".") with true. cbn [orb]. cbv iota. cbn [nextCh tl].
  assert (HE : halt (ch (e ++ rest)) = true) by (destruct E as [|x sg s I J B]; cbn [app ch]; [now apply ends_halt|destruct I as [<-|[<-|[]]]; reflexivity]).
  rewrite !(digits_halt f) by auto.
  destruct (ends_ch rest R) as (N1 & N2 & N3 & T).
  assert (X : forall x y z, strip (x ++ y :: z) = strip x ++ strip [y] ++ strip z).
  { intros x y z. unfold strip. rewrite filter_app. cbn [filter]. destruct (negb (Ascii.eqb y "_")); reflexivity. }
  destruct E as [|x sg s I J B].
  - cbn [app]. rewrite N2, N3. cbn [orb]. rewrite T. rewrite !app_nil_r, X. reflexivity.
  - cbn [app ch nextCh tl]. rewrite <- app_assoc.
    assert (K : is_c "e" x || is_c "E" x = true) by (destruct I as [<-|[<-|[]]]; reflexivity). rewrite K. cbv zeta.
    assert (L : (if is_c "+" (ch (sg ++ s ++ rest)) || is_c "-" (ch (sg ++ s ++ rest)) then ([ch (sg ++ s ++ rest)], nextCh (sg ++ s ++ rest)) else ([], sg ++ s ++ rest)) = (sg, s ++ rest)).
    { destruct J as [<-|[<-|[<-|[]]]]; cbn [app ch nextCh tl]; try reflexivity.
      destruct B as [H _]. destruct s as [|c s]; [destruct H|]. cbn [app ch].
      assert (G : forall q, implb (is_digit 10 q) (negb (is_c "+" q || is_c "-" q)) = true) by (apply all_chars; vm_compute; reflexivity).
      specialize (G c). rewrite H in G. cbn [implb] in G. rewrite negb_true_iff in G. now rewrite G. }
    rewrite L. rewrite digits_halt by (auto using body_digits, ends_halt). rewrite T. rewrite X. f_equal. f_equal. f_equal.
    assert (Y : strip (x :: sg ++ s) = x :: sg ++ strip s).
    { unfold strip. cbn [filter]. rewrite filter_app. destruct I as [<-|[<-|[]]], J as [<-|[<-|[<-|[]]]]; reflexivity. }
    assert (W : strip (f ++ x :: sg ++ s) = strip f ++ strip (x :: sg ++ s)) by (unfold strip; apply filter_app). rewrite W, Y. reflexivity.
Qed.
Lemma tail_scientific ng a e rest : digits a -> exponent e -> e <> [] -> ends rest -> tail 10 ng (a ++ e ++ rest) = (TFloat ng (strip (a ++ e)), rest).
Proof.
  intros A E NE R. destruct E as [|x sg s I J B]; [congruence|]. unfold tail. rewrite digits_halt by (auto; destruct I as [<-|[<-|[]]]; reflexivity).
  cbn [app ch nextCh tl]. rewrite <- app_assoc. destruct (ends_ch rest R) as (N1 & N2 & N3 & T).
  assert (K : is_c "e" x || is_c "E" x = true) by (destruct I as [<-|[<-|[]]]; reflexivity).
  assert (Kd : is_c "." x = false) by (destruct I as [<-|[<-|[]]]; reflexivity). rewrite Kd. cbn [orb]. rewrite K. cbv zeta iota. cbn [ch nextCh tl]. rewrite K.
  assert (L : (if is_c "+" (ch (sg ++ s ++ rest)) || is_c "-" (ch (sg ++ s ++ rest)) then ([ch (sg ++ s ++ rest)], nextCh (sg ++ s ++ rest)) else ([], sg ++ s ++ rest)) = (sg, s ++ rest)).
  { destruct J as [<-|[<-|[<-|[]]]]; cbn [app ch nextCh tl]; try reflexivity.
    destruct B as [H _]. destruct s as [|c s]; [destruct H|]. cbn [app ch].
    assert (G : forall q, implb (is_digit 10 q) (negb (is_c "+" q || is_c "-" q)) = true) by (apply all_chars; vm_compute; reflexivity).
    specialize (G c). rewrite H in G. cbn [implb] in G. rewrite negb_true_iff in G. now rewrite G. }
  rewrite L. rewrite digits_halt by (auto using body_digits, ends_halt). rewrite T. f_equal. f_equal. cbn [app].
  assert (Y : strip (x :: sg ++ s) = x :: sg ++ strip s).
  { unfold strip. cbn [filter]. rewrite filter_app. destruct I as [<-|[<-|[]]], J as [<-|[<-|[<-|[]]]]; reflexivity. }
  assert (W : strip (a ++ x :: sg ++ s) = strip a ++ strip (x :: sg ++ s)) by (unfold strip; apply filter_app). rewrite W, Y. reflexivity.
Qed.
Lemma tail_timing a u rest : digits a -> unit_of u -> tail 10 false (a ++ u ++ rest) = (TTiming, rest).
Proof.
  intros A U. unfold tail. rewrite digits_halt by (auto; destruct U as [<-|[<-|[<-|[<-|[<-|[]]]]]]; reflexivity).
  destruct U as [<-|[<-|[<-|[<-|[<-|[]]]]]]; reflexivity.
Qed.
Lemma value_range b s : base_ok b -> 0 <= value b s.
Proof.
  intros B. induction s as [|c s IH]; [reflexivity|]. cbn [value].
  assert (G : 0 <= match digit c with Some i => i | None => 0 end).
  { assert (F : forall q, (0 <=? match digit q with Some i => i | None => 0 end)%Z = true) by (apply all_chars; vm_compute; reflexivity). specialize (F c). apply Z.leb_le in F. exact F. }
  assert (0 <= b ^ Z.of_nat (List.length s)) by (apply Z.pow_nonneg; unfold base_ok in B; lia). nia.
Qed.
Lemma s64_small v : 0 <= v < 2 ^ 63 -> s64 v = v.
Proof. intros H. unfold s64. rewrite Z.mod_small by lia. lia. Qed.
Lemma capital_between c : ~ between "A" c "F" -> capital c = false.
Proof.
  intros H. destruct (capital c) eqn:E; auto. exfalso. apply H. unfold between.
  assert (F : forall q, implb (capital q) ((N_of_ascii "A" <=? N_of_ascii q)%N && (N_of_ascii q <=? N_of_ascii "F")%N) = true) by (apply all_chars; vm_compute; reflexivity).
  specialize (F c). rewrite E in F. cbn [implb] in F. apply andb_prop in F as [F G]. apply N.leb_le in F, G. auto.
Qed.
