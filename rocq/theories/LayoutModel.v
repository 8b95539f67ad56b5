(** The comments that carry the initial layout and the output permutation of a
    circuit in OpenQASM files.

    Text is a list of characters; a line is given without its end. Comments are
    taken to stand between statements. The regular expressions match one digit
    after the marker whatever else follows, so a search is one for the marker, a
    space and a digit. *)
From Coq Require Import List Arith Bool NArith Ascii String.
From Verif Require Import IRModel QasmIfModel CircModel.
Import ListNotations.
Local Open Scope list_scope.
Definition text := list ascii.

(** operator<< of an unsigned integer *)
Fixpoint dec (fuel n : nat) : text :=
  match fuel with
  | O => []
  | S f => (if Nat.ltb n 10 then [] else dec f (n / 10)) ++ [ascii_of_nat (48 + n mod 10)]
  end.
Definition decimal (n : nat) : text := dec (S n) n.

(** ** src/ir/QuantumComputation.cpp:633-663 (dumpOpenQASM) *)
(** 641-645: the place of every physical qubit among those of the layout *)
Definition numbered (lay : perm) : list ((nat * nat) * nat) := combine lay (seq 0 (List.length lay)).
Definition inverseInitialLayout (lay : perm) : perm :=
  fold_left (fun m (x : (nat * nat) * nat) => memplace (snd (fst x)) (snd x) m) (numbered lay) [].
Definition qubitToIndex (lay : perm) : perm :=
  fold_left (fun m (x : (nat * nat) * nat) => mset (fst (fst x)) (snd x) m) (numbered lay) [].
(** 652-655; operator[] yields 0 for a qubit that is not in the layout *)
Definition inverseOutputPermutation (lay out : perm) : perm :=
  fold_left (fun m (x : nat * nat) => memplace (snd x) (match plookup (qubitToIndex lay) (fst x) with Some i => i | None => 0 end) m) out [].
Definition listed (m : perm) : text := flat_map (fun x : nat * nat => " "%char :: decimal (snd x)) m.
Definition dump_layout (lay out : perm) : list text :=
  [ list_ascii_of_string "// i" ++ listed (inverseInitialLayout lay);
    list_ascii_of_string "// o" ++ listed (inverseOutputPermutation lay out) ].

(** ** src/qasm3/Scanner.cpp:57-90 *)
Definition is_digit (c : ascii) : bool := Nat.leb 48 (nat_of_ascii c) && Nat.leb (nat_of_ascii c) 57.
Fixpoint marked (c : ascii) (s : text) : bool :=
  match s with
  | a :: r =>
      (Ascii.eqb a c && match r with b :: d :: _ => Ascii.eqb b " " && is_digit d | _ => false end) || marked c r
  | [] => false
  end.
Inductive comment := CInitial | COutput | COther.
Definition classify (s : text) : comment := if marked "i" s then CInitial else if marked "o" s then COutput else COther.

(** ** src/qasm3/Parser.cpp:901-911 (parsePermutation) *)
Fixpoint runs (s : text) (cur : option N) : list N :=
  match s with
  | [] => match cur with Some v => [v] | None => [] end
  | c :: r =>
      if is_digit c then runs r (Some (10 * (match cur with Some v => v | None => 0 end) + N.of_nat (nat_of_ascii c - 48))%N)
      else match cur with Some v => v :: runs r None | None => runs r None end
  end.
(** std::stoul throws beyond 64 bits; the result is cut off to 32 bits *)
Fixpoint enter (vs : list N) (k : nat) (m : perm) : res perm :=
  match vs with
  | [] => ROk m
  | v :: r => if N.leb (2 ^ 64) v then RError else enter r (S k) (memplace (N.to_nat (v mod 2 ^ 32)) k m)
  end.
Definition parsePermutation (s : text) : res perm := enter (runs s None) 0 [].

(** ** src/qasm3/Importer.cpp:301-311, 401-416: all comments of a file *)
Fixpoint visit (lines : list text) (i o : perm) : res (perm * perm) :=
  match lines with
  | [] => ROk (i, o)
  | s :: r =>
      match classify s with
      | COther => visit r i o
      | CInitial => bindr (parsePermutation s) (fun p => match i with [] => visit r p o | _ => RError end)
      | COutput => bindr (parsePermutation s) (fun p => match o with [] => visit r i p | _ => RError end)
      end
  end.
(** the layout and the outputs of a circuit of [n] qubits with these comments *)
Definition import_layout (n : nat) (lines : list text) : res (perm * perm) :=
  bindr (visit lines [] []) (fun x =>
    let id := identity_on 0 n [] in
    ROk (match fst x with [] => id | i => i end, match snd x with [] => id | o => o end)).
