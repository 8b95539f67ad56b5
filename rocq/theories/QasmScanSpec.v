(* The value of an integer literal, stated without reference to the scanner. *)
From Coq Require Import ZArith Bool Ascii String List.
Import ListNotations.
Local Open Scope Z_scope.

Fixpoint index_of (c : ascii) (l : list ascii) (i : Z) : option Z :=
  match l with [] => None | x :: l' => if Ascii.eqb c x then Some i else index_of c l' (i + 1) end.
Definition lower_digits : list ascii := list_ascii_of_string "0123456789abcdef".
Definition upper_digits : list ascii := list_ascii_of_string "0123456789ABCDEF".
(* the value of a digit, in either letter case *)
Definition digit (c : ascii) : option Z := match index_of c lower_digits 0 with Some i => Some i | None => index_of c upper_digits 0 end.
Definition is_digit (base : Z) (c : ascii) : bool := match digit c with Some i => i <? base | None => false end.
Definition strip (s : list ascii) : list ascii := filter (fun c => negb (Ascii.eqb c "_")) s.
(* sum of digit times power of the base *)
Fixpoint value (base : Z) (ds : list ascii) : Z :=
  match ds with [] => 0 | c :: ds' => match digit c with Some i => i | None => 0 end * base ^ Z.of_nat (length ds') + value base ds' end.
(* digits with separators, starting with a digit *)
Definition body (base : Z) (s : list ascii) : Prop :=
  match s with [] => False | c :: _ => is_digit base c = true end /\ forall c, In c s -> is_digit base c = true \/ c = "_"%char.
(* the ways to write a base *)
Inductive prefix : list ascii -> Z -> Prop :=
| p_dec : prefix [] 10
| p_bin : prefix (list_ascii_of_string "0b") 2 | p_Bin : prefix (list_ascii_of_string "0B") 2
| p_oct : prefix (list_ascii_of_string "0o") 8 | p_Oct : prefix (list_ascii_of_string "0O") 8
| p_hex : prefix (list_ascii_of_string "0x") 16 | p_Hex : prefix (list_ascii_of_string "0X") 16.
(* what follows does not continue the literal: no digit or letter, separator or point *)
Definition word (c : ascii) : bool :=
  let n := N_of_ascii c in
  ((48 <=? n) && (n <=? 57) || (65 <=? n) && (n <=? 90) || (97 <=? n) && (n <=? 122) || (n =? 95) || (n =? 46))%N.
Definition ends (rest : list ascii) : Prop := match rest with c :: _ => word c = false | [] => True end.
