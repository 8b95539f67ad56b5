(* C65: nested scopes. *)
From Coq Require Import Bool List String Arith Lia.
From Verif Require Import QasmEnvModel QasmEnvProofs.
Import ListNotations.

(* After every history of opening and closing scopes and of bindings: a name resolves to the innermost visible binding
   (of several in one scope, the first). *)
Theorem C65_find : forall T (h : list (hop T)) e k, hrun h env_new = Some e -> env_find k e = visible k (rev h) 0 None.
Proof. intros. now apply find_visible. Qed.
Print Assumptions C65_find.
(* Opening a scope, doing anything in it and closing it leaves the environment exactly as it was. *)
Theorem C65_restore : forall T (b : list (hop T)) e, balanced b -> hrun (HPush :: b ++ [HPop]) e = Some e.
Proof. intros. now apply scope_restores. Qed.
Print Assumptions C65_restore.
Local Open Scope string_scope.
Example C65_example : exists e, hrun [HDef "x" 1; HPush; HDef "x" 2; HDef "x" 3; HPush; HDef "x" 4; HDef "y" 5; HPop] env_new = Some e /\
  env_find "x" e = Some 2 /\ env_find "y" e = None /\ balanced [HDef "x" 2; HPush; HDef "x" 4; HPop; HDef "y" 5].
Proof.
  eexists. split; [reflexivity|]. split; [reflexivity|]. split; [reflexivity|]. apply bal_def. apply (bal_block _ [HDef "x" 4] [HDef "y" 5]); repeat constructor.
Qed.
