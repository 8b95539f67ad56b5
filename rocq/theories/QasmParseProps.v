(* C63: expression parsing. *)
From Coq Require Import ZArith Bool List String Lia.
From Verif Require Import QasmConstModel QasmParseModel QasmParseSpec QasmParseProofs.
Import ListNotations.
Local Open Scope nat_scope.

(* Every expression in which the parentheses stand where precedence and associativity require them (or are redundant)
   is parsed to its tree, up to the token that ends it, unless it is one of the cases excluded by followed. *)
Theorem C63_parse_partial : forall w r, standard w -> followed true w -> stop r -> exists n, forall k, n <= k -> parseExpression k (text w ++ r) = Some (tree w, r).
Proof. exact parse_ok. Qed.
Print Assumptions C63_parse_partial.
Local Open Scope string_scope.
Definition a := WId "a" []. Definition b := WId "b" []. Definition c := WId "c" [].
(* -a + b * c^2 / sin(a == b) - (a - -c) * x[a + 1] *)
Example C63_example : exists w, w = WBin Subtract (WBin Add (WUn Negate a) (WBin Divide (WBin Multiply b (WBin Power c (WInt false 2))) (WFun Sin (WBin Equal a b))))
    (WBin Multiply (WParen (WBin Subtract a (WUn Negate c))) (WId "x" [WBin Add a (WInt false 1)])) /\
  standard w /\ followed true w /\ parseExpression 60 (text w ++ [KRParen]) = Some (tree w, [KRParen]).
Proof. eexists. split; [reflexivity|]. cbn. intuition (auto; try lia; try discriminate). Qed.

(* Powers associate to the left: 2^3^2 is (2^3)^2. *)
Theorem C63_power_refuted : exists w t k, standard w /\ parseExpression k (text w) = Some (t, []) /\ t = EBin Power (EBin Power (EInt false 2) (EInt false 3)) (EInt false 2) /\ t <> tree w.
Proof. exists (WBin Power (WInt false 2) (WBin Power (WInt false 3) (WInt false 2))). eexists; exists 20. cbn. repeat split; try lia. discriminate. Qed.
Print Assumptions C63_power_refuted.
(* Comparisons bind tighter than sums: a + b == c is a + (b == c). *)
Theorem C63_comparison_refuted : exists w t k, standard w /\ parseExpression k (text w) = Some (t, []) /\ t = EBin Add (EId "a" []) (EBin Equal (EId "b" []) (EId "c" [])) /\ t <> tree w.
Proof. exists (WBin Equal (WBin Add a b) c). eexists; exists 20. cbn. repeat split; try lia. discriminate. Qed.
Print Assumptions C63_comparison_refuted.
(* A sign at the beginning belongs to the whole product, elsewhere not even to a power: -a*b is -(a*b), a*-b^c is a*(-b)^c. *)
Theorem C63_sign_refuted : exists w1 t1 w2 t2 k, standard w1 /\ parseExpression k (text w1) = Some (t1, []) /\ t1 = EUn Negate (EBin Multiply (EId "a" []) (EId "b" [])) /\ t1 <> tree w1 /\
  standard w2 /\ parseExpression k (text w2) = Some (t2, []) /\ t2 = EBin Multiply (EId "a" []) (EBin Power (EUn Negate (EId "b" [])) (EId "c" [])) /\ t2 <> tree w2.
Proof.
  exists (WBin Multiply (WUn Negate a) b). eexists. exists (WBin Multiply a (WUn Negate (WBin Power b c))). eexists; exists 20.
  cbn. intuition (auto; try lia; try discriminate).
Qed.
Print Assumptions C63_sign_refuted.
(* After a sign or a negation at the beginning a comparison is not read on (-a == b stops before ==), and a negation
   elsewhere is an error (a == !b). *)
Theorem C63_rejected_refuted : exists w1 w2 k, standard w1 /\ parseExpression k (text w1) = Some (EUn Negate (EId "a" []), [KCmp Equal; KId "b"]) /\
  standard w2 /\ forall n, parseExpression n (text w2) = None.
Proof.
  exists (WBin Equal (WUn Negate a) b), (WBin Equal a (WUn LogicalNot b)), 20. split; [cbn; intuition (auto; lia)|]. split; [reflexivity|]. split; [cbn; intuition (auto; lia)|].
  intros n. do 20 (destruct n as [|n]; [reflexivity|]). reflexivity.
Qed.
Print Assumptions C63_rejected_refuted.
(* The order binds like the equality: a == b < c is (a == b) < c. *)
Theorem C63_order_refuted : exists w t k, standard w /\ parseExpression k (text w) = Some (t, []) /\ t = EBin LessThan (EBin Equal (EId "a" []) (EId "b" [])) (EId "c" []) /\ t <> tree w.
Proof. exists (WBin Equal a (WBin LessThan b c)). eexists; exists 20. cbn. repeat split; try lia. discriminate. Qed.
Print Assumptions C63_order_refuted.
(* The scanner takes the sign for a part of the literal: 2-1 is read as the two literals 2 and -1, of which the parser
   takes the first; with blanks it is 1. *)
Theorem C63_subtraction_refuted : exists ts, tokens 10 (list_ascii_of_string "2-1") = Some ts /\ parseExpression 20 ts = Some (EInt false 2, [KInt true (-1)]) /\
  exists ts', tokens 10 (list_ascii_of_string "2 - 1") = Some ts' /\ parseExpression 20 ts' = Some (EBin Subtract (EInt false 2) (EInt false 1), []).
Proof. eexists. split; [vm_compute; reflexivity|]. split; [reflexivity|]. eexists. split; [vm_compute; reflexivity|vm_compute; reflexivity]. Qed.
Print Assumptions C63_subtraction_refuted.
