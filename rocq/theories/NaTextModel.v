(** The text of neutral-atom computations: src/na/NAComputation.cpp:56-69, src/na/operations/LoadOp.cpp:18-38, StoreOp.cpp:18-38,
    MoveOp.cpp:18-31, LocalOp.cpp:24-51, GlobalOp.cpp:24-50, include/mqt-core/na/entities/Location.hpp:60-65, 92-95.

    Coordinates and angles are rationals; spaces are left out, a name is one token (names with spaces or brackets are not
    modelled), a number is the integer made of its digits without the point. Atoms and zones are their names. *)
From Coq Require Import ZArith QArith List Bool String Arith.
From Verif Require Import AodModel.
Import ListNotations.

Record location := Location { lx : Q; ly : Q }.
Inductive nop :=
| Load (locs : option (list location)) (atoms : list string)
| Store (locs : option (list location)) (atoms : list string)
| Move (locs : list location) (atoms : list string)
| Local (name : string) (params : list Q) (atoms : list string)
| Global (name : string) (params : list Q) (zones : list string).
Inductive ntok := NAtom | NAt | NWord (s : string) | NName (s : string) | NLoc (x y : Z) | NNum (z : Z) | NOpen | NClose | NNl.

(** std::fixed with 3 and 5 decimals *)
Definition fixed (unit : Q) (q : Q) : Z := roundEven (q * unit).
Definition printLocation (l : location) : ntok := NLoc (fixed 1000 (lx l)) (fixed 1000 (ly l)).
Definition printParams (ps : list Q) : list ntok := map (fun p => NNum (fixed 100000 p)) ps.
Definition nowhere : location := Location 0 0.
(** LoadOp::toString, StoreOp::toString; indices beyond the locations cannot occur after the checks of the constructors *)
Definition printShuttle (word : string) (locs : option (list location)) (atoms : list string) : list ntok :=
  let at_ i := match locs with Some ls => [printLocation (nth i ls nowhere)] | None => [] end in
  match atoms with
  | [a] => [NAt; NWord word] ++ at_ 0%nat ++ [NName a]
  | _ => [NAt; NWord word; NOpen; NNl] ++ flat_map (fun i => at_ i ++ [NName (nth i atoms EmptyString); NNl]) (seq 0 (List.length atoms)) ++ [NClose]
  end.
(** LocalOp::toString, GlobalOp::toString *)
Definition printGate (name : string) (ps : list Q) (on : list string) : list ntok :=
  match on with
  | [a] => [NAt; NWord name] ++ printParams ps ++ [NName a]
  | _ => [NAt; NWord name; NOpen; NNl] ++ flat_map (fun a => printParams ps ++ [NName a; NNl]) on ++ [NClose]
  end.
Definition toString (o : nop) : list ntok :=
  match o with
  | Load ls atoms => printShuttle "load" ls atoms
  | Store ls atoms => printShuttle "store" ls atoms
  | Move ls atoms => printShuttle "move" (Some ls) atoms
  | Local n ps atoms => printGate n ps atoms
  | Global n ps zones => printGate n ps zones
  end.
(** Location::operator< *)
Definition loc_ltb (a b : location) : bool :=
  negb (Qle_bool (lx b) (lx a)) || (Qeq_bool (lx a) (lx b) && negb (Qle_bool (ly b) (ly a))).
(** std::map::emplace *)
Fixpoint emplace (l : location) (a : string) (m : list (location * string)) : list (location * string) :=
  match m with
  | [] => [(l, a)]
  | (k, b) :: r => if loc_ltb l k then (l, a) :: m else if loc_ltb k l then (k, b) :: emplace l a r else m
  end.
(** NAComputation::toString; [initial] in the order of the hash map *)
Definition ascending (initial : list (string * location)) : list (location * string) :=
  fold_left (fun m p => emplace (snd p) (fst p) m) initial [].
Definition printComputation (initial : list (string * location)) (ops : list nop) : list ntok :=
  flat_map (fun p => [NAtom; printLocation (fst p); NName (snd p); NNl]) (ascending initial)
  ++ flat_map (fun o => toString o ++ [NNl]) ops.
