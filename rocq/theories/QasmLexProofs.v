(** The scanner: white space, names, symbols, whole texts. *)
From Coq Require Import ZArith NArith Bool Ascii String List Arith Lia.
From Verif Require Import LayoutModel LayoutSpec LayoutProofs QasmScanSpec QasmScanModel QasmScanProofs QasmLexModel QasmLexSpec QasmLexNumProofs.
Import ListNotations.
Local Open Scope list_scope.

Lemma is_c_true x c : is_c x c = true <-> c = x. Proof. apply Ascii.eqb_eq. Qed.
Lemma is_c_false x c : is_c x c = false <-> c <> x. Proof. apply Ascii.eqb_neq. Qed.
Lemma is_c_refl x : is_c x x = true. Proof. now apply is_c_true. Qed.

(** ** skip *)
Lemma skip_space_le s : List.length (skip_space s) <= List.length s.
Proof. induction s as [|c s IH]; simpl; auto. destruct (isSpace c); simpl; lia. Qed.
Lemma line_of_le s : List.length (snd (line_of s)) <= List.length s.
Proof. induction s as [|c s IH]; simpl; auto. destruct (is_c "010" c || is_c zero c); simpl; auto. destruct (line_of s). simpl in *. lia. Qed.
Lemma to_end_le s : List.length (to_end s) <= List.length s.
Proof. induction s as [|c s IH]; simpl; auto. destruct (is_c zero c || is_c "*" c && is_c "/" (ch s)); simpl; lia. Qed.
Lemma tl_le {A} (s : list A) : List.length (tl s) <= List.length s. Proof. destruct s; simpl; lia. Qed.
Lemma expect_le x s : List.length (expect x s) <= List.length s.
Proof. unfold expect. destruct (is_c x (ch s)); auto. apply tl_le. Qed.
Lemma ch_cons x s : x <> zero -> is_c x (ch s) = true -> exists r, s = x :: r.
Proof. intros N H. apply is_c_true in H. destruct s as [|c s]; simpl in H; [congruence|]. subst. eauto. Qed.
(* the rest behind a comment is shorter *)
Lemma line_shorter s : is_c "/" (ch s) = true -> List.length (snd (line_of s)) < List.length s.
Proof.
  intros H. apply ch_cons in H as (r & ->); [|discriminate]. cbn [line_of]. change (is_c "010" "/" || is_c zero "/") with false. cbv iota.
  pose proof (line_of_le r). destruct (line_of r). simpl in *. lia.
Qed.
Lemma block_shorter s : is_c "/" (ch s) = true -> List.length (expect "/" (expect "*" (to_end (nextCh (nextCh s))))) < List.length s.
Proof.
  intros H. apply ch_cons in H as (r & ->); [|discriminate]. cbn [nextCh tl].
  pose proof (expect_le "/" (expect "*" (to_end (tl r)))). pose proof (expect_le "*" (to_end (tl r))). pose proof (to_end_le (tl r)). pose proof (tl_le r). simpl. unfold nextCh in *. lia.
Qed.
Lemma skip_fuel : forall f f' s, List.length s < f -> List.length s < f' -> skip f s = skip f' s.
Proof.
  induction f as [|f IH]; intros f' s L L'; [lia|]. destruct f' as [|f']; [lia|]. cbn [skip]. pose proof (skip_space_le s) as Q. set (u := skip_space s) in *. clearbody u.
  destruct (is_c "/" (ch u) && is_c "/" (peek u)) eqn:E.
  - apply andb_prop in E as [E _]. pose proof (line_shorter u E). destruct (line_of u) as [w r]. cbn [snd] in *.
    destruct (marked "i" w); auto. destruct (marked "o" w); auto. apply IH; destruct (is_c "010" (ch r)); unfold nextCh; pose proof (tl_le r); lia.
  - destruct (is_c "/" (ch u) && is_c "*" (peek u)) eqn:E'; auto. apply andb_prop in E' as [E' _]. pose proof (block_shorter u E'). apply IH; lia.
Qed.
Definition skipAll (s : chars) : skipped := skip (S (List.length s)) s.
Lemma skipAll_fuel f s : List.length s < f -> skip f s = skipAll s.
Proof. intros L. apply skip_fuel; auto. Qed.
Lemma white_space c : white c -> isSpace c = true.
Proof. intros [<-|[<-|[<-|[<-|[]]]]]; reflexivity. Qed.
Lemma skip_white c s : white c -> skipAll (c :: s) = skipAll s.
Proof.
  intros W. rewrite <- (skipAll_fuel (S (S (List.length s))) s) by lia. unfold skipAll. cbn [List.length]. change (skip (S (S (Datatypes.length s))) (c :: s) = skip (S (S (Datatypes.length s))) s).
  cbn [skip skip_space]. rewrite (white_space c W). reflexivity.
Qed.
Lemma line_ok w s : ~ In newline w -> ~ In zero w -> (match s with [] => True | c :: _ => c = newline \/ c = zero end) -> line_of (w ++ s) = (w, s).
Proof.
  intros A B C. induction w as [|c w IH]; simpl app.
  - destruct s as [|c s]; auto. simpl. assert (E : is_c "010" c || is_c zero c = true) by (destruct C as [->| ->]; reflexivity). now rewrite E.
  - cbn [line_of]. assert (E : is_c "010" c || is_c zero c = false).
    { apply orb_false_iff. split; apply is_c_false; intros ->; [apply A|apply B]; simpl; auto. }
    rewrite E, IH; auto; intros I; [apply A|apply B]; simpl; auto.
Qed.
Lemma marked_slash m w : m <> "/"%char -> marked m (str "//" ++ w) = marked m w.
Proof. intros N. cbn [str app marked]. replace (Ascii.eqb "/" m) with false by (symmetry; apply Ascii.eqb_neq; congruence). reflexivity. Qed.
(* a comment up to the end of its line *)
Definition after (w r : chars) : skipped := if marked "i" w then SToken (LLayout (str "//" ++ w)) r else if marked "o" w then SToken (LOutput (str "//" ++ w)) r else skipAll r.
Lemma skip_line w s : ~ In newline w -> ~ In zero w -> skipAll (str "//" ++ w ++ newline :: s) = after w s.
Proof.
  intros A B. unfold skipAll at 1. remember (List.length (str "//" ++ w ++ newline :: s)) as n eqn:N. cbn [skip]. cbn [str app skip_space]. change (isSpace "/") with false. cbv iota. cbn [ch peek tl]. change (is_c "/" "/" && is_c "/" "/") with true. cbv iota.
  change ("/"%char :: "/"%char :: w ++ newline :: s) with ((str "//" ++ w) ++ newline :: s).
  rewrite line_ok; [|intros I; apply in_app_iff in I as [[X|[X|[]]]|I]; try discriminate X; auto|intros I; apply in_app_iff in I as [[X|[X|[]]]|I]; try discriminate X; auto|auto].
  cbn [ch nextCh tl]. unfold newline. rewrite is_c_refl. rewrite !marked_slash by discriminate. unfold after.
  destruct (marked "i" w); auto. destruct (marked "o" w); auto. apply skipAll_fuel. subst n. cbn [str app List.length]. rewrite app_length. simpl. lia.
Qed.
Lemma skip_last w : ~ In newline w -> ~ In zero w -> skipAll (str "//" ++ w) = after w [].
Proof.
  intros A B. unfold skipAll at 1. remember (List.length (str "//" ++ w)) as n eqn:N. cbn [skip]. cbn [str app skip_space]. change (isSpace "/") with false. cbv iota. cbn [ch peek tl]. change (is_c "/" "/" && is_c "/" "/") with true. cbv iota.
  replace ("/"%char :: "/"%char :: w) with ((str "//" ++ w) ++ []) by (now rewrite app_nil_r).
  rewrite line_ok; [|intros I; apply in_app_iff in I as [[X|[X|[]]]|I]; try discriminate X; auto|intros I; apply in_app_iff in I as [[X|[X|[]]]|I]; try discriminate X; auto|auto].
  cbn [ch nextCh tl]. change (is_c "010" zero) with false. rewrite !marked_slash by discriminate. unfold after.
  destruct (marked "i" w); auto. destruct (marked "o" w); auto. apply skipAll_fuel. subst n. simpl. lia.
Qed.
Lemma to_end_ok w s : ~ In zero w -> (forall x y, w ++ str "*/" = x ++ str "*/" ++ y -> y = []) -> to_end (w ++ str "*/" ++ s) = str "*/" ++ s.
Proof.
  intros Z H. induction w as [|c w IH]; [reflexivity|]. cbn [app to_end].
  assert (E : is_c zero c || is_c "*" c && is_c "/" (ch (w ++ str "*/" ++ s)) = false).
  { apply orb_false_iff. split; [apply is_c_false; intros ->; apply Z; simpl; auto|]. destruct (is_c "*" c) eqn:C; auto. apply is_c_true in C as ->. cbn [andb]. apply is_c_false. intros D.
    destruct w as [|d w]; [discriminate D|]. cbn [app ch] in D. subst d. specialize (H [] (w ++ str "*/") eq_refl). destruct w; discriminate H. }
  rewrite E. apply IH; [intros I; apply Z; simpl; auto|]. intros x y Q. apply (H (c :: x) y). cbn [app]. now rewrite Q.
Qed.
Lemma skip_block w s : ~ In zero w -> (forall x y, w ++ str "*/" = x ++ str "*/" ++ y -> y = []) -> skipAll (str "/*" ++ w ++ str "*/" ++ s) = skipAll s.
Proof.
  intros Z H. unfold skipAll at 1. remember (List.length (str "/*" ++ w ++ str "*/" ++ s)) as n eqn:N. cbn [skip]. cbn [str app skip_space]. change (isSpace "/") with false. cbv iota. cbn [ch peek tl nextCh].
  change (is_c "/" "/" && is_c "/" "*") with false. change (is_c "/" "/" && is_c "*" "*") with true. cbv iota.
  change ("*"%char :: "/"%char :: s) with (str "*/" ++ s). rewrite to_end_ok by auto. cbn [str app]. unfold expect at 2. cbn [ch nextCh tl]. rewrite is_c_refl. unfold expect. cbn [ch nextCh tl]. rewrite is_c_refl.
  apply skipAll_fuel. subst n. rewrite !app_length. simpl. lia.
Qed.
Lemma skip_blank b s : blank b -> skipAll (b ++ s) = skipAll s.
Proof.
  induction 1 as [|c b W B IH|w b A Z M B IH|w b Z H B IH]; auto.
  - cbn [app]. rewrite skip_white; auto.
  - replace ((str "//" ++ w ++ newline :: b) ++ s) with (str "//" ++ w ++ newline :: (b ++ s)) by (rewrite <- !app_assoc; reflexivity).
    rewrite skip_line by auto. unfold after. unfold mark in M.
    assert (I : marked "i" w = false) by (destruct (marked "i" w) eqn:E; auto; apply marked_iff in E; tauto).
    assert (O : marked "o" w = false) by (destruct (marked "o" w) eqn:E; auto; apply marked_iff in E; tauto). now rewrite I, O.
  - replace ((str "/*" ++ w ++ str "*/" ++ b) ++ s) with (str "/*" ++ w ++ str "*/" ++ (b ++ s)) by (rewrite <- !app_assoc; reflexivity).
    rewrite skip_block; auto.
Qed.
Lemma skip_stop c s : isSpace c = false -> (c = "/"%char -> is_c "/" (ch s) = false /\ is_c "*" (ch s) = false) -> skipAll (c :: s) = SRest (c :: s).
Proof.
  intros W H. unfold skipAll. cbn [skip skip_space]. rewrite W. cbn [ch peek tl]. unfold peek. cbn [tl]. destruct (is_c "/" c) eqn:E; [|reflexivity].
  apply is_c_true in E. destruct (H E) as [-> ->]. reflexivity.
Qed.
Lemma skip_nil : skipAll [] = SRest []. Proof. reflexivity. Qed.

(** ** Names *)
Definition name_char (c : ascii) : bool := isFirstIdChar c || isNum c.
Lemma between_iff a c b : between a c b <-> ((code a <=? code c) && (code c <=? code b))%Z = true.
Proof. unfold between, code. rewrite andb_true_iff, !Z.leb_le. lia. Qed.
Lemma letter_iff c : letter c <-> isFirstIdChar c = true.
Proof. unfold letter, isFirstIdChar, isalpha. rewrite !between_iff, !orb_true_iff, is_c_true. tauto. Qed.
Lemma decimal_iff c : decimal_digit c <-> isNum c = true.
Proof. unfold decimal_digit, isNum. apply between_iff. Qed.
Lemma name_iff c : name_char c = true <-> letter c \/ decimal_digit c.
Proof. unfold name_char. rewrite orb_true_iff, letter_iff, decimal_iff. tauto. Qed.
Lemma name_ok w rest : (forall c, In c w -> name_char c = true) -> not_first (fun c => letter c \/ decimal_digit c) rest -> name_of (w ++ rest) = (w, rest).
Proof.
  intros H N. induction w as [|c w IH]; simpl app.
  - destruct rest as [|c rest]; auto. cbn [name_of]. cbn [not_first] in N. rewrite <- name_iff in N. fold (name_char c). destruct (name_char c); auto. congruence.
  - cbn [name_of]. fold (name_char c). rewrite (H c) by (simpl; auto). rewrite IH; auto. intros x I. apply H. simpl; auto.
Qed.
Lemma word_chars : forall s k, In (s, k) words -> forallb name_char (str s) = true /\ isFirstIdChar (ch (str s)) = true /\ keyword (str s) = Some k.
Proof.
  assert (F : forallb (fun p => forallb name_char (str (fst p)) && isFirstIdChar (ch (str (fst p)))) words = true) by (vm_compute; reflexivity).
  assert (G : map (fun p => keyword (str (fst p))) words = map (fun p => Some (snd p)) words) by (vm_compute; reflexivity).
  intros s k I. rewrite forallb_forall in F. specialize (F _ I). apply andb_prop in F as [F1 F2]. split; auto. split; auto.
  clear F1 F2. revert I G. generalize words. intros l. induction l as [|p l IH]; intros [].
  - subst p. cbn [map fst snd]. congruence.
  - intros G. apply IH; auto. cbn [map] in G. congruence.
Qed.
Lemma keyword_none w : (forall s k, In (s, k) words -> w <> str s) -> w <> str "#dim" -> keyword w = None.
Proof.
  intros H D. unfold keyword. destruct (find (fun p => same_text w (fst p)) keywords) as [[s k]|] eqn:E; auto. exfalso.
  apply find_some in E as [I S]. cbn [fst] in S. unfold same_text in S. apply String.eqb_eq in S.
  assert (W : w = str s) by (rewrite <- S; symmetry; apply list_ascii_of_string_of_list_ascii).
  assert (F : forallb (fun p => String.eqb (fst p) "#dim" || existsb (fun q => String.eqb (fst p) (fst q)) words)%string keywords = true) by (vm_compute; reflexivity).
  rewrite forallb_forall in F. specialize (F _ I). cbn [fst] in F. apply orb_prop in F as [F|F]; [apply String.eqb_eq in F; congruence|].
  apply existsb_exists in F as ((s' & k') & J & X). apply String.eqb_eq in X. cbn [fst] in X. apply (H s' k' J). congruence.
Qed.

(** ** Other lexemes *)
Lemma until_ok d w rest : ~ In d w -> until d (w ++ d :: rest) = Some (w, d :: rest).
Proof.
  intros H. induction w as [|c w IH]; cbn [app until].
  - now rewrite is_c_refl.
  - replace (is_c d c) with false by (symmetry; apply is_c_false; intros ->; apply H; simpl; auto). rewrite IH; auto. intros I. apply H. simpl; auto.
Qed.
Lemma digit_decimal c : decimal_digit c -> is_digit 10 c = true /\ digit c = Some (code c - code "0")%Z.
Proof.
  rewrite decimal_iff. intros N.
  assert (F : forall q, implb (isNum q) (is_digit 10 q && match digit q with Some i => (i =? code q - code "0")%Z | None => false end) = true) by (apply all_chars; vm_compute; reflexivity).
  specialize (F c). rewrite N in F. cbn [implb] in F. apply andb_prop in F as [F G]. split; auto. destruct (digit c) as [i|]; [|discriminate]. apply Z.eqb_eq in G. congruence.
Qed.
Lemma hardware_ok s rest : (forall c, In c s -> decimal_digit c) -> not_first decimal_digit rest -> forall v, (0 <= v)%Z ->
  (v * 10 ^ Z.of_nat (List.length s) + value 10 s < 2 ^ 63)%Z -> hardware (s ++ rest) v = (Some (v * 10 ^ Z.of_nat (List.length s) + value 10 s)%Z, rest).
Proof.
  intros H N. induction s as [|c s IH]; intros v V B; cbn [app].
  - cbn [List.length value Z.of_nat]. rewrite Z.pow_0_r, Z.mul_1_r, Z.add_0_r. destruct rest as [|c rest]; [reflexivity|]. cbn [hardware]. cbn [not_first] in N. rewrite decimal_iff in N. destruct (isNum c); [congruence|reflexivity].
  - cbn [hardware]. pose proof (H c (or_introl eq_refl)) as D. pose proof (proj1 (decimal_iff c) D) as D1. rewrite D1. destruct (digit_decimal c D) as [_ D2]. cbn [value List.length] in *. rewrite D2 in *.
    assert (C : (0 <= code c - code "0")%Z) by (unfold isNum in D1; apply andb_prop in D1 as [D1 _]; apply Z.leb_le in D1; lia).
    set (x := (code c - code "0")%Z) in *. assert (P : (10 ^ Z.of_nat (S (List.length s)) = 10 * 10 ^ Z.of_nat (List.length s))%Z) by (rewrite Nat2Z.inj_succ, Z.pow_succ_r by lia; reflexivity).
    pose proof (value_range 10 s (or_intror (or_intror (or_introl eq_refl)))) as VR.
    assert (G : (1 <= 10 ^ Z.of_nat (List.length s))%Z) by (pose proof (Z.pow_pos_nonneg 10 (Z.of_nat (List.length s))); lia).
    assert (Q : ((v * 10 + x) * 10 ^ Z.of_nat (List.length s) + value 10 s = v * 10 ^ Z.of_nat (S (List.length s)) + (x * 10 ^ Z.of_nat (List.length s) + value 10 s))%Z) by (rewrite P; ring).
    assert (R : (v * 10 + x <= 2 ^ 63 - 1)%Z) by nia. apply Z.leb_le in R. rewrite R. rewrite IH; auto; [|intros y I; apply H; simpl; auto|lia|lia]. now rewrite Q.
Qed.

(** ** Symbols *)
Lemma symbol_table : forall s k, In (s, k) symbols -> isSpace (ch (str s)) = false /\ isFirstIdChar (ch (str s)) = false /\ isNum (ch (str s)) = false /\ is_c "$" (ch (str s)) = false /\
  is_c """" (ch (str s)) || is_c "'" (ch (str s)) = false /\ is_c zero (ch (str s)) = false /\ str s <> [].
Proof.
  assert (F : forallb (fun p => let c := ch (str (fst p)) in negb (isSpace c || isFirstIdChar c || isNum c || is_c "$" c || (is_c """" c || is_c "'" c) || is_c zero c) && negb (Nat.eqb (List.length (str (fst p))) 0)) symbols = true) by (vm_compute; reflexivity).
  intros s k I. rewrite forallb_forall in F. specialize (F _ I). cbn [fst] in F. apply andb_prop in F as [F G]. apply negb_true_iff in F. rewrite !orb_false_iff in F.
  destruct F as (((((A & B) & C) & D) & E) & H). repeat split; try tauto; [rewrite !orb_false_iff; tauto|]. intros X. rewrite X in G. discriminate.
Qed.
(* no longer symbol begins here *)
Definition longest (s : string) (rest : chars) : Prop :=
  forall t k, In (t, k) symbols -> begins (str t) (str s ++ rest) -> String.length t <= String.length s.
Lemma longer s rest t k : In (t, k) symbols -> longest s rest -> (exists y, str s ++ rest = str t ++ y) -> String.length s < String.length t -> False.
Proof. intros I L (y & E) H. specialize (L t k I (ex_intro _ y E)). lia. Qed.
Ltac in_table := unfold symbols; simpl; repeat (first [left; reflexivity | right]).
Lemma symbol_ok s k rest : In (s, k) symbols -> longest s rest -> symbol (ch (str s ++ rest)) (peek (str s ++ rest)) (peek (nextCh (str s ++ rest))) = (k, List.length (str s)).
Proof.
  intros I L.
  assert (X : forall x k', In (string_of_list_ascii (str s ++ [x]), k') symbols -> x <> zero -> is_c x (ch rest) = false).
  { intros x k' J Z. set (t := string_of_list_ascii (str s ++ [x])) in *. assert (E : str t = str s ++ [x]) by apply list_ascii_of_string_of_list_ascii. clearbody t. destruct (is_c x (ch rest)) eqn:C; auto. exfalso. apply ch_cons in C as (r & ->); auto.
    apply (longer s (x :: r) t k' J L); [exists r; rewrite E, <- app_assoc; reflexivity|].
    assert (G : forall u, List.length (str u) = String.length u) by (induction u as [|a u IHu]; simpl; auto).
    rewrite <- !G, E, app_length. simpl. lia. }
  unfold symbols in I. simpl in I. unfold peek, nextCh.
  repeat (destruct I as [I|I]; [inversion I; subst s k; clear I L; cbn [str app ch tl List.length] in *; try reflexivity|]); try contradiction.
  all: unfold symbol.
  all: repeat match goal with
    | |- context [is_c ?x (ch ?r)] =>
        let H := fresh in assert (H : is_c x (ch r) = false) by (eapply X; [cbn; in_table|discriminate]); rewrite !H; clear H
    end.
  all: reflexivity.
Qed.
