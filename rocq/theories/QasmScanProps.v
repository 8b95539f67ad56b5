(* C62: integer literals. *)
From Coq Require Import ZArith NArith Bool Lia Ascii String List.
From Verif Require Import QasmScanModel QasmScanSpec QasmScanProofs.
Import ListNotations.
Local Open Scope Z_scope.
Notation str := list_ascii_of_string.

(* Every literal of any length without capital hexadecimal digits, with any base prefix but 0O, followed by anything
   that does not continue it, is read to its value modulo 2^64 (as the bits of an int64_t), and nothing more is read. *)
Theorem C62_literal_partial : forall p b s rest, prefix p b -> p <> str "0O" -> body b s -> (forall c, In c s -> capital c = false) -> ends rest ->
  exists v, consumeNumberLiteral (p ++ s ++ rest) = (TInt v false, rest) /\ - 2 ^ 63 <= v < 2 ^ 63 /\ v mod 2 ^ 64 = value b (strip s) mod 2 ^ 64.
Proof.
  intros p b s rest P N B H E. exists (s64 (value b (strip s))). split; [now apply literal_ok|]. split; [apply s64_range|apply s64_cong].
Qed.
Print Assumptions C62_literal_partial.
(* A minus sign in front of a decimal literal, unless the value is 2^63 modulo 2^64. *)
Theorem C62_negative_partial : forall s rest, body 10 s -> ends rest -> value 10 (strip s) mod 2 ^ 64 <> 2 ^ 63 ->
  exists v, consumeNumberLiteral ("-"%char :: s ++ rest) = (TInt v true, rest) /\ - 2 ^ 63 <= v < 2 ^ 63 /\ v mod 2 ^ 64 = (- value 10 (strip s)) mod 2 ^ 64.
Proof.
  intros s rest B E N. rewrite negative_ok by auto. cbv zeta. set (w := value 10 (strip s)) in *. pose proof (s64_range w) as R. pose proof (s64_cong w) as C.
  destruct (Z.eqb_spec (s64 w) (- 2 ^ 63)) as [Q|Q]; [destruct N; rewrite <- C, Q; reflexivity|]. exists (- s64 w). split; [reflexivity|]. split; [lia|].
  rewrite <- (Z.sub_0_l w), <- (Z.sub_0_l (s64 w)), Zminus_mod, C, <- Zminus_mod. reflexivity.
Qed.
Print Assumptions C62_negative_partial.
Example C62_examples :
  consumeNumberLiteral (str "0xdead_beef;") = (TInt 3735928559 false, str ";") /\
  consumeNumberLiteral (str "0B1_0110 +") = (TInt 22 false, str " +") /\ consumeNumberLiteral (str "0o17)") = (TInt 15 false, str ")") /\
  consumeNumberLiteral (str "18446744073709551617]") = (TInt 1 false, str "]") /\ consumeNumberLiteral (str "-12,") = (TInt (-12) true, str ",") /\
  value 16 (str "deadbeef") = 3735928559 /\ body 16 (str "dead_beef") /\ ends (str ";").
Proof.
  vm_compute. intuition (subst; auto).
Qed.
(* Capital hexadecimal digits: 0xA is read as -22. *)
Theorem C62_capital_refuted : exists p b s v, prefix p b /\ body b s /\ value b (strip s) = 10 /\ consumeNumberLiteral (p ++ s) = (TInt v false, []) /\ v = -22.
Proof. exists (str "0x"), 16, (str "A"), (-22). split; [constructor|]. vm_compute. intuition. subst; auto. Qed.
Print Assumptions C62_capital_refuted.
(* The prefix 0O is not recognised: 0O17 is read as the literal 0, leaving O17. *)
Theorem C62_octal_refuted : exists p b s, prefix p b /\ body b s /\ value b (strip s) = 15 /\ consumeNumberLiteral (p ++ s) = (TInt 0 false, str "O17").
Proof. exists (str "0O"), 8, (str "17"). split; [constructor|]. vm_compute. intuition; subst; auto. Qed.
Print Assumptions C62_octal_refuted.
(* The least signed number cannot be written: 2^63 is converted before it is negated, an overflow. *)
Theorem C62_minimum_refuted : exists s, body 10 s /\ - value 10 (strip s) = - 2 ^ 63 /\ consumeNumberLiteral ("-"%char :: s) = (TUndef, []).
Proof. exists (str "9223372036854775808"). split; [|vm_compute; auto]. split; [reflexivity|]. cbn. intros c H. left. repeat (destruct H as [<-|H]; [reflexivity|]). destruct H. Qed.
Print Assumptions C62_minimum_refuted.
