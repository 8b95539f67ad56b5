(** C100, C101: the scanner. *)
From Coq Require Import ZArith NArith Bool Ascii String List Arith Lia.
From Verif Require Import LayoutModel LayoutSpec QasmScanSpec QasmScanModel QasmLexModel QasmLexSpec QasmLexProofs QasmLexMainProofs.
Import ListNotations.
Local Open Scope list_scope.

(** ** C100: the tokens of a text *)
(** The whole text, for every way of writing it. *)
Theorem C100_tokens_partial : forall s ts, written s ts -> scanAll s = Some (ts ++ [LKind KEof]).
Proof. intros s ts W. unfold scanAll. apply scan_written; auto. Qed.
Print Assumptions C100_tokens_partial.
(** One token, whatever comes behind it. *)
Theorem C100_token : forall b w t ok rest, blank b -> lexeme w t ok -> ok rest -> next (b ++ w ++ rest) = Some (t, rest).
Proof. intros b w t ok rest B L O. rewrite next_eq, skip_blank by auto. now apply (lexeme_ok w t ok). Qed.
Print Assumptions C100_token.
(** So a text is a sequence of tokens in one way at most. *)
Theorem C100_unique : forall s ts ts', written s ts -> written s ts' -> ts = ts'.
Proof.
  intros s ts ts' A B. apply C100_tokens_partial in A, B. rewrite A in B. inversion B as [E]. now apply app_inv_tail in E.
Qed.
Print Assumptions C100_unique.
(** Comments and white space do not matter in front of a token. *)
Theorem C100_blank : forall b s, blank b -> next (b ++ s) = next s.
Proof. intros b s B. now rewrite !next_eq, skip_blank. Qed.
Print Assumptions C100_blank.

(** #dim is a keyword that is never found. *)
Theorem C100_dim_refuted : exists s, In ("#dim"%string, KDim) keywords /\ s = str "#dim" /\ scanAll s = Some [LKind KNone; LKind KImag; LKind KEof].
Proof. exists (str "#dim"). repeat split. vm_compute. tauto. Qed.
Print Assumptions C100_dim_refuted.
(** An unknown character takes the one behind it along. *)
Theorem C100_unknown_refuted : forall c, In c ["#"; "?"; "\"; "`"]%char -> exists x, next (c :: x :: str " q;") = Some (LKind KNone, str " q;") /\ lexeme [x] (LIdent [x]) (not_first (fun c => letter c \/ decimal_digit c)).
Proof.
  intros c I. exists "h"%char. split.
  - destruct I as [<-|[<-|[<-|[<-|[]]]]]; reflexivity.
  - apply l_name; [left; split; vm_compute; discriminate | intros x [] | intros s k J E].
    assert (F : forallb (fun p => negb (String.eqb (fst p) "h")) words = true) by (vm_compute; reflexivity). rewrite forallb_forall in F. specialize (F _ J). cbn [fst] in F.
    rewrite <- (string_of_list_ascii_of_string s), <- E in F. discriminate F.
Qed.
Print Assumptions C100_unknown_refuted.
(** The unit dt is cut in two. *)
Theorem C100_dt_refuted : exists s, s = str "10dt" /\ scanAll s = Some [LNum TTiming; LIdent ["t"%char]; LKind KEof].
Proof. eexists. split; reflexivity. Qed.
Print Assumptions C100_dt_refuted.
(** A difference of numbers is two numbers. *)
Theorem C100_minus_refuted : exists s, s = str "2-1" /\ scanAll s = Some [LNum (TInt 2 false); LNum (TInt (-1) true); LKind KEof].
Proof. eexists. split; reflexivity. Qed.
Print Assumptions C100_minus_refuted.
(** A comment in which "i 3" occurs is taken for a layout. *)
Theorem C100_comment_refuted : exists s, s = str "// add pi 3 times" /\ scanAll s = Some [LLayout s; LKind KEof].
Proof. eexists. split; reflexivity. Qed.
Print Assumptions C100_comment_refuted.

Example C100_ex : scanAll (str "gate h2 q { U(-1, 0.5e-3, 0x1f) q; } // end
  $12 >>= ""file"" /* ** */ **= 5us ctrl@x") =
  Some [LKind KGate; LIdent (str "h2"); LIdent (str "q"); LKind KLBrace; LIdent (str "U"); LKind KLParen; LNum (TInt (-1) true); LKind KComma;
    LNum (TFloat false (str "0.5e-3")); LKind KComma; LNum (TInt 31 false); LKind KRParen; LIdent (str "q"); LKind KSemicolon; LKind KRBrace;
    LHard 12; LKind KRightShiftEquals; LString (str "file"); LKind KDoubleAsteriskEquals; LNum TTiming; LKind KCtrl; LKind KAt; LIdent (str "x"); LKind KEof].
Proof. reflexivity. Qed.
(* the specification is inhabited *)
Example C100_ex_written : written (str " qubit q;/**/") [LKind KQubit; LIdent (str "q"); LKind KSemicolon].
Proof.
  apply (w_token [" "%char] (str "qubit") (LKind KQubit) (not_first (fun c => letter c \/ decimal_digit c)) (str " q;/**/")).
  - apply b_white; [left; reflexivity|constructor].
  - apply l_word. vm_compute. tauto.
  - intros [[[A B]|[[A B]|A]]|[A B]]; try discriminate; vm_compute in A, B; congruence.
  - apply (w_token [" "%char] (str "q") (LIdent (str "q")) (not_first (fun c => letter c \/ decimal_digit c)) (str ";/**/")).
    + apply b_white; [left; reflexivity|constructor].
    + apply l_name; [left; split; vm_compute; discriminate | intros x [] | intros s k J E].
      assert (F : forallb (fun p => negb (String.eqb (fst p) "q")) words = true) by (vm_compute; reflexivity). rewrite forallb_forall in F. specialize (F _ J). cbn [fst] in F.
      rewrite <- (string_of_list_ascii_of_string s), <- E in F. discriminate F.
    + intros [[[A B]|[[A B]|A]]|[A B]]; try discriminate; vm_compute in A, B; congruence.
    + refine (w_token [] (str ";") (LKind KSemicolon) _ (str "/**/") [] b_nil (l_symbol ";"%string KSemicolon ltac:(vm_compute; tauto)) _ _).
      * cbv beta. split; [|split; [|split]]; [|intros [y Y]; discriminate|intros [y Y]; discriminate|intros [X|X]; discriminate].
        intros t k' J [y Y]. 
        assert (F : forallb (fun p => (String.length (fst p) <=? 1) || negb (is_c ";" (ch (str (fst p))))) symbols = true) by (vm_compute; reflexivity).
        rewrite forallb_forall in F. specialize (F _ J). cbn [fst] in F. destruct (str t) as [|c w] eqn:T.
        -- rewrite <- (string_of_list_ascii_of_string t), T. simpl. lia.
        -- cbn [app] in Y. inversion Y; subst c. cbn [ch] in F. rewrite is_c_refl in F. rewrite orb_false_r in F. now apply Nat.leb_le in F.
      * apply w_end. apply (b_block [] []); [intros []| |constructor].
        intros [|a [|a' x]] y Y; cbn in Y; inversion Y; auto. destruct x; discriminate.
Qed.

(** ** C101: the scanner comes to an end *)
(** It ends with the token Eof, which occurs once, after no more tokens than there
    are characters. *)
Theorem C101_ends_partial : forall s, (forall a u, s = a ++ u -> ~ unclosed u) ->
  exists ts, scanAll s = Some (ts ++ [LKind KEof]) /\ ~ In (LKind KEof) ts /\ List.length ts <= List.length s.
Proof.
  intros s U. pose proof (scan_cases (S (List.length s)) s ltac:(lia)) as C. fold (scanAll s) in C. destruct (scanAll s) as [ts|].
  - destruct C as [L (ts' & -> & N)]. exists ts'. rewrite app_length in L. simpl in L. repeat split; auto. lia.
  - destruct C as (u & [a E] & X). now destruct (U a u E).
Qed.
Print Assumptions C101_ends_partial.
(** One call of next() ends unless it meets a string that is not closed, and uses up a
    character unless it returns Eof. *)
Theorem C101_step : forall s, match next s with
  | None => exists a u, s = a ++ u /\ unclosed u
  | Some (t, r) => (exists a, s = a ++ r) /\ List.length r < List.length s \/ t = LKind KEof
  end.
Proof.
  intros s. pose proof (next_cases s) as N. destruct (next s) as [[t r]|].
  - destruct N as [[A B]|N]; auto.
  - destruct N as (u & [a E] & X). eauto.
Qed.
Print Assumptions C101_step.
(** Without quotation marks there is nothing to worry about. *)
Theorem C101_plain : forall s, ~ In """"%char s -> ~ In "'"%char s -> exists ts, scanAll s = Some ts.
Proof.
  intros s A B. destruct (C101_ends_partial s) as (ts & E & _); [|eauto]. intros a u -> (d & w & D & -> & _).
  destruct D as [<-|[<-|[]]]; [apply A|apply B]; apply in_or_app; right; now left.
Qed.
Print Assumptions C101_plain.
(** A string that is not closed is read forever. *)
Theorem C101_string_refuted : forall b u, blank b -> unclosed u -> next (b ++ u) = None.
Proof.
  intros b u B (d & w & D & -> & N). rewrite next_eq, skip_blank by auto.
  assert (U : until d w = None).
  { clear D B. induction w as [|c w IH]; auto. simpl. destruct (is_c d c) eqn:E; [apply is_c_true in E; subst; destruct N; now left|]. rewrite IH; auto. intros X. apply N. now right. }
  assert (Q : isSpace d = false /\ d <> "/"%char) by (destruct D as [<-|[<-|[]]]; split; [reflexivity|discriminate|reflexivity|discriminate]). destruct Q.
  rewrite skip_stop by (auto; congruence). unfold next', consumeString. cbn [ch nextCh tl]. destruct D as [<-|[<-|[]]]; cbv zeta; cbn -[until]; now rewrite U.
Qed.
Print Assumptions C101_string_refuted.
Example C101_ex : scanAll (str "include ""stdgates.inc;") = None.
Proof. reflexivity. Qed.
Example C101_ex_plain : scanAll (str "/* open # 08 $ 1e ..") = Some [LKind KEof] /\ scanAll (str "# 0b8 $ 1e ..") = Some [LKind KNone; LNum (TInt 0 false); LNum (TInt 8 false); LHard 0; LNum (TFloat false (str "1e")); LKind KDot; LKind KDot; LKind KEof].
Proof. split; reflexivity. Qed.
