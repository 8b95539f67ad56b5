(** Operations of acousto-optic deflectors: src/ir/operations/AodOperation.cpp:33-163, and the comparison they inherit,
    src/ir/operations/Operation.cpp:116-166, 194-196 (Operation::equals and isInverseOf, without controls, parameters and permutations).

    Coordinates are rationals and [indent * OUTPUT_INDENT_SIZE] is the number of spaces. The printed text is a list of tokens; a token that gets overwritten is one character. *)
From Coq Require Import ZArith QArith Qabs Qround List Bool String Arith.
From Verif Require Import GateModel OpNameModel.
Import ListNotations.

Inductive dimension := X | Y.
Definition dim_eqb (a b : dimension) : bool := match a, b with X, X | Y, Y => true | _, _ => false end.
Record single := Single { dir : dimension; from : Q; to : Q }.
Record aod := Aod { atype : optype; name : string; targets : list nat; operations : list single }.
(** The constructors, 33-94 *)
Definition makeAod (t : optype) (qubits : list nat) (ops : list single) : aod := Aod t (toString t) qubits ops.
Definition inDir (d : dimension) (op : single) : bool := dim_eqb (dir op) d.
(** getEnds, getStarts, getDistances, 96-113, 121-129 *)
Definition getEnds (a : aod) (d : dimension) : list Q := map to (filter (inDir d) (operations a)).
Definition getStarts (a : aod) (d : dimension) : list Q := map from (filter (inDir d) (operations a)).
Definition getDistances (a : aod) (d : dimension) : list Q := map (fun op => Qabs (to op - from op)) (filter (inDir d) (operations a)).
(** std::max_element *)
Definition max_element (x : Q) (l : list Q) : Q := fold_left (fun m y => if Qle_bool y m then m else y) l x.
(** getMaxDistance, 114-120 *)
Definition getMaxDistance (a : aod) (d : dimension) : Q := match getDistances a d with [] => 0%Q | x :: l => max_element x l end.
(** invert, 153-163; the name is left alone *)
Definition invert (a : aod) : aod :=
  match atype a with
  | gAodMove => Aod (atype a) (name a) (targets a) (map (fun op => Single (dir op) (to op) (from op)) (operations a))
  | gAodActivate => Aod gAodDeactivate (name a) (targets a) (operations a)
  | gAodDeactivate => Aod gAodActivate (name a) (targets a) (operations a)
  | _ => a
  end.
(** Operation::equals: types and targets; the members of AodOperation are not compared *)
Definition equals (a b : aod) : bool := N.eqb (code (atype a)) (code (atype b)) && (if list_eq_dec Nat.eq_dec (targets a) (targets b) then true else false).

(** isInverseOf *)
Definition isInverseOf (a b : aod) : bool := equals a (invert b).

Inductive tok := TName (s : string) | TReg (s : string) | TDim (d : dimension) | TNum (q : Q) | TSp | TOpen | TClose | TComma | TSemi | TNl.
(** Output of a number with the default precision of a stream, six significant digits: std::setprecision is applied to [of]
    in line 134, while toQASMString prints to a stream of its own. A token carries the value that the digits stand for. *)
Definition ten : Q := 10 # 1.
Definition scaled (q : Q) (k : Z) : Q := Qmult q (Qpower ten k).
Definition roundEven (q : Q) : Z :=
  let f := Qfloor q in
  match Qcompare (q - inject_Z f) (1 # 2) with Lt => f | Gt => (f + 1)%Z | Eq => if Z.even f then f else (f + 1)%Z end.
Fixpoint shrink (fuel : nat) (q : Q) (k : Z) : Z :=
  match fuel with
  | O => k
  | S fuel => if Qle_bool 1000000 (Qabs (scaled q k)) then shrink fuel q (k - 1) else k
  end.
Definition digits (q : Q) : Z := shrink (Pos.to_nat (Pos.size (Qden q)) + Z.to_nat (Z.log2 (Z.abs (Qnum q))) + 6) q (5 + Zpos (Pos.size (Qden q))).
Definition sig6 (q : Q) : Q := let k := digits q in scaled (inject_Z (roundEven (scaled q k))) (- k).
(** SingleOperation::toQASMString, 40-44 *)
Definition printSingle (op : single) : list tok := [TDim (dir op); TComma; TSp; TNum (sig6 (from op)); TComma; TSp; TNum (sig6 (to op)); TSemi; TSp].
(** seekp(-1, end) and the following output *)
Definition overwrite (out : list tok) (l : list tok) : list tok := removelast out ++ l.
(** dumpOpenQASM, 130-151 *)
Definition dumpOpenQASM (a : aod) (qubitMap : nat -> string) (spaces : nat) : list tok :=
  let out := repeat TSp spaces ++ [TName (name a); TSp; TOpen] ++ flat_map printSingle (operations a) in
  let out := overwrite out [TClose] in
  let out := out ++ flat_map (fun q => [TSp; TReg (qubitMap q); TComma]) (targets a) in
  overwrite out [TSemi; TNl].
