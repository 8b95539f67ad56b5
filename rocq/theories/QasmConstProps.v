(* C64: constant evaluation. *)
From Coq Require Import ZArith QArith Bool Lia List String.
From Verif Require Import QasmScanModel QasmEnvModel QasmConstModel QasmConstSpec QasmConstProofs.
Import ListNotations.
Local Close Scope Q_scope.
Local Open Scope Z_scope.

(* Every expression over integer and boolean constants of any size in which no negative exponent occurs: a returned
   value is the exact one modulo 2^64. *)
Theorem C64_exact_partial : forall e x v, env_good e -> int_expr x -> exponents_ok e x -> ceval e x = Ok v -> exact_eval (names e) x = abs v.
Proof. intros e x v G T P E. now apply (expr_exact e x G T P v E). Qed.
Print Assumptions C64_exact_partial.
(* Exactly these operations on 64-bit integers are undefined ... *)
Theorem C64_undefined : forall op sg x y, - 2 ^ 63 <= x < 2 ^ 63 -> - 2 ^ 63 <= y < 2 ^ 63 -> (evalIntExpression op x y 64 sg = Undef <-> bad op sg (wrap sg x) (wrap sg y)).
Proof. exact undef_iff. Qed.
Print Assumptions C64_undefined.
(* ... and an expression without them is evaluated without undefined behaviour. *)
Theorem C64_no_crash_partial : forall e x, env_good e -> int_expr x -> defined e x -> ceval e x <> Undef.
Proof. exact defined_ok. Qed.
Print Assumptions C64_no_crash_partial.
Definition lit (z : Z) : expr := EInt false z.
(* 7 + 3 * 2^5 - 100 = 3 ; a negative number plus a large unsigned one ; a comparison *)
Example C64_examples :
  ceval env_new (EBin Subtract (EBin Add (lit 7) (EBin Multiply (lit 3) (EBin Power (lit 2) (lit 5)))) (lit 100)) = Ok (VInt false 3 64) /\
  exact_eval (names env_new) (EBin Subtract (EBin Add (lit 7) (EBin Multiply (lit 3) (EBin Power (lit 2) (lit 5)))) (lit 100)) = Some (XNum false 3) /\
  ceval env_new (EBin Subtract (lit 3) (lit 5)) = Ok (VInt false (-2) 64) /\ exact_eval (names env_new) (EBin Subtract (lit 3) (lit 5)) = Some (XNum false (2 ^ 64 - 2)) /\
  ceval env_new (EBin LessThan (EUn Negate (EInt true (-4))) (EBin Modulo (EInt true (-7)) (lit 4))) = Ok (VBool false) /\
  ceval env_new (EBin Power (lit 10) (lit 20)) = Error /\ ceval env_new (EBin Power (lit 10) (lit 19)) = Ok (VInt false (10 ^ 19 - 2 ^ 64) 64).
Proof. vm_compute. repeat split; reflexivity. Qed.
(* Division by zero and others are carried out: undefined behaviour. *)
Theorem C64_crash_refuted : ceval env_new (EBin Divide (lit 1) (lit 0)) = Undef /\ ceval env_new (EBin Modulo (lit 1) (lit 0)) = Undef /\
  ceval env_new (EBin Power (lit 0) (lit 2)) = Undef /\ ceval env_new (EBin LeftShift (lit 1) (lit 64)) = Undef /\
  ceval env_new (EBin Multiply (EInt true (- 2 ^ 62)) (lit 4)) = Undef /\ ceval env_new (EBin Divide (EInt true (- 2 ^ 63)) (EInt true (-1))) = Undef /\
  exact_eval (names env_new) (EBin Power (lit 0) (lit 2)) = Some (XNum false 0).
Proof. vm_compute. repeat split; reflexivity. Qed.
Print Assumptions C64_crash_refuted.
(* A negative exponent gives 1 instead of an error. *)
Theorem C64_negative_exponent_refuted : exists x v, int_expr x /\ ceval env_new x = Ok v /\ exact_eval (names env_new) x = None.
Proof. exists (EBin Power (lit 2) (EInt true (-1))), (VInt true 1 64). vm_compute. repeat split; discriminate. Qed.
Print Assumptions C64_negative_exponent_refuted.
(* The declared type of a constant is ignored. const uint[32] x = 4294967295; gives x + 1 = 2^32 instead of 0.
   const int[32] x = 4; is unsigned, so that x - 5 < 0 is false. const float[64] x = 1; is an integer: x / 2 is 0. *)
Theorem C64_declared_width_refuted : exists e, declare "x" (lit 4294967295) env_new = Some e /\
  ceval e (EBin Add (EId "x" []) (lit 1)) = Ok (VInt false (2 ^ 32) 64) /\ (4294967295 + 1) mod 2 ^ 32 = 0.
Proof. eexists. split; [reflexivity|]. vm_compute. auto. Qed.
Print Assumptions C64_declared_width_refuted.
Theorem C64_declared_sign_refuted : exists e, declare "x" (lit 4) env_new = Some e /\
  ceval e (EBin LessThan (EBin Subtract (EId "x" []) (lit 5)) (lit 0)) = Ok (VBool false) /\
  exact_eval (fun _ => Some (XNum true 4)) (EBin LessThan (EBin Subtract (EId "x" []) (lit 5)) (lit 0)) = Some (XBool true).
Proof. eexists. split; [reflexivity|]. vm_compute. auto. Qed.
Print Assumptions C64_declared_sign_refuted.
Theorem C64_declared_float_refuted : exists e, declare "x" (lit 1) env_new = Some e /\ ceval e (EBin Divide (EId "x" []) (lit 2)) = Ok (VInt false 0 64) /\
  eval_binary Divide (VFloat 1) (VInt false 2 64) = Ok (VFloat (1 / 2)).
Proof. eexists. split; [reflexivity|]. vm_compute. auto. Qed.
Print Assumptions C64_declared_float_refuted.
(* An unsigned number of 2^63 and more on the left of a floating-point operation is taken as negative. *)
Theorem C64_unsigned_float_refuted : eval_binary LessThan (VInt false (-1) 64) (VFloat 0) = Ok (VBool true) /\ abs (VInt false (-1) 64) = Some (XNum false (2 ^ 64 - 1)).
Proof. vm_compute. auto. Qed.
Print Assumptions C64_unsigned_float_refuted.
