(** Neutral-atom computations: src/na/NAComputation.cpp,
    include/mqt-core/na/entities/Location.hpp and
    include/mqt-core/na/operations/{Load,Move,Store,Local,Global}Op.hpp.

    Simplifications: coordinates are integers - a finite double is an integer
    multiple of 2^-1074, and coordinates are only compared; infinities and NaN
    are left out. Atoms are numbered instead of identified by their address.
    Names, parameters and zones play no role and are left out; error messages
    become an enumeration. *)
From Coq Require Import List Arith ZArith Bool.
Import ListNotations.

(** entities/Location.hpp:29-33 *)
Record loc := { lx : Z; ly : Z }.
(** Location.hpp:77-115: the comparison operators *)
Definition loc_eq (a b : loc) : bool := (Z.eqb (lx a) (lx b) && Z.eqb (ly a) (ly b))%bool.
Definition loc_ne (a b : loc) : bool := negb (loc_eq a b).
Definition loc_lt (a b : loc) : bool := (Z.ltb (lx a) (lx b) || (Z.eqb (lx a) (lx b) && Z.ltb (ly a) (ly b)))%bool.
Definition loc_gt (a b : loc) : bool := loc_lt b a.
Definition loc_ge (a b : loc) : bool := negb (loc_lt b a).
Definition loc_le (a b : loc) : bool := loc_ge a b.

Definition atom := nat.
(** operations/*.hpp: Load and Store have optional target locations *)
Inductive naop :=
| Load (atoms : list atom) (targets : option (list loc))
| Move (atoms : list atom) (targets : list loc)
| Store (atoms : list atom) (targets : option (list loc))
| Local (atoms : list atom)
| Global.
(** the constructors throw unless there are as many targets as atoms
    (LoadOp.hpp:43-50, MoveOp.hpp, StoreOp.hpp) *)
Definition constructible (o : naop) : Prop :=
  match o with
  | Load l (Some t) | Move l t | Store l (Some t) => length l = length t
  | _ => True
  end.
(** ShuttlingOp.hpp: getAtoms, hasTargetLocations and getTargetLocations of
    shuttling operations *)
Definition op_atoms (o : naop) : list atom :=
  match o with Load l _ | Move l _ | Store l _ | Local l => l | Global => [] end.
Definition op_targets (o : naop) : option (list loc) :=
  match o with Load _ t | Store _ t => t | Move _ t => Some t | _ => None end.

Record nacomp := { na_atoms : nat; na_init : list (atom * loc); na_ops : list naop }.

Definition lmap := atom -> option loc.
Definition lookup (m : list (atom * loc)) : lmap :=
  fun a => option_map snd (find (fun p => Nat.eqb (fst p) a) m).
(** operator[] of std::unordered_map creates a location (0, 0) if there is none *)
Definition at_or_origin (m : lmap) (a : atom) : loc :=
  match m a with Some l => l | None => {| lx := 0; ly := 0 |} end.
Definition set (m : lmap) (a : atom) (l : loc) : lmap :=
  fun x => if Nat.eqb x a then Some l else m x.

Inductive naerr :=
| TooFewLocations | AlreadyLoaded | NotLoaded | TwoAtomsIdentical | TwoEndPointsIdentical
| ColumnsNotPreserved | RowsNotPreserved | ColumnOrderNotPreserved | RowOrderNotPreserved.

(** NAComputation.cpp:130-200: the checks on one pair of atoms, in the order of
    the code *)
Definition check_pair (cur : lmap) (a : atom) (e1 : loc) (b : atom) (e2 : loc) : option naerr :=
  if Nat.eqb a b then Some TwoAtomsIdentical
  else
    let s1 := at_or_origin cur a in
    let s2 := at_or_origin cur b in
    if loc_eq e1 e2 then Some TwoEndPointsIdentical
    else if (Z.eqb (lx s1) (lx s2) && negb (Z.eqb (lx e1) (lx e2)))%bool then Some ColumnsNotPreserved
    else if (Z.eqb (ly s1) (ly s2) && negb (Z.eqb (ly e1) (ly e2)))%bool then Some RowsNotPreserved
    else if (Z.ltb (lx s1) (lx s2) && Z.geb (lx e1) (lx e2))%bool then Some ColumnOrderNotPreserved
    else if (Z.ltb (ly s1) (ly s2) && Z.geb (ly e1) (ly e2))%bool then Some RowOrderNotPreserved
    else if (Z.gtb (lx s1) (lx s2) && Z.leb (lx e1) (lx e2))%bool then Some ColumnOrderNotPreserved
    else if (Z.gtb (ly s1) (ly s2) && Z.leb (ly e1) (ly e2))%bool then Some RowOrderNotPreserved
    else None.
(** 127-201: the two loops over the atoms of the operation *)
Fixpoint check_row (cur : lmap) (a : atom) (e : loc) (l : list (atom * loc)) : option naerr :=
  match l with
  | [] => None
  | (b, e2) :: r => match check_pair cur a e b e2 with Some x => Some x | None => check_row cur a e r end
  end.
Fixpoint check_all (cur : lmap) (l : list (atom * loc)) : option naerr :=
  match l with
  | [] => None
  | (a, e) :: r => match check_row cur a e r with Some x => Some x | None => check_all cur r end
  end.
(** 202-204 *)
Definition move_all (cur : lmap) (l : list (atom * loc)) : lmap :=
  fold_left (fun m p => set m (fst p) (snd p)) l cur.
(** 219-226: std::unordered_set::emplace of every atom of a local operation *)
Fixpoint all_new (used : list atom) (l : list atom) : bool :=
  match l with
  | [] => true
  | a :: r => if existsb (Nat.eqb a) used then false else all_new (a :: used) r
  end.

(** 90-228: one iteration; the state consists of the current locations and the
    set of loaded atoms *)
Definition validate_op (cur : lmap) (sh : list atom) (o : naop) : naerr + lmap * list atom :=
  let loaded a := existsb (Nat.eqb a) sh in
  let shuttle (sh' : list atom) :=
    match op_targets o with
    | Some t =>
        match check_all cur (combine (op_atoms o) t) with
        | Some x => inl x
        | None => inr (move_all cur (combine (op_atoms o) t), sh')
        end
    | None => inr (cur, sh')
    end in
  match o with
  | Load l _ => if existsb loaded l then inl AlreadyLoaded else shuttle (l ++ sh)
  | Move l _ => if existsb (fun a => negb (loaded a)) l then inl NotLoaded else shuttle sh
  | Store l _ =>
      if existsb (fun a => negb (loaded a)) l then inl NotLoaded
      else shuttle (filter (fun a => negb (existsb (Nat.eqb a) l)) sh)
  | Local l => if all_new [] l then inr (cur, sh) else inl TwoAtomsIdentical
  | Global => inr (cur, sh)
  end.
(** 90-230: the loop; [counter] is the number of the last operation *)
Fixpoint validate_ops (counter : nat) (cur : lmap) (sh : list atom) (l : list naop) : option (nat * naerr) :=
  match l with
  | [] => None
  | o :: r =>
      match validate_op cur sh o with
      | inl x => Some (S counter, x)
      | inr (cur', sh') => validate_ops (S counter) cur' sh' r
      end
  end.
(** 69-231 (validate); [None]: valid, otherwise the number of the operation and
    the reason *)
Definition validate (c : nacomp) : option (nat * naerr) :=
  if negb (Nat.eqb (na_atoms c) (length (na_init c))) then Some (0, TooFewLocations)
  else validate_ops 1 (lookup (na_init c)) [] (na_ops c).

(** 32-54 (getLocationOfAtomAfterOperation): operation number [k], counted from
    0; [None]: std::out_of_range for an atom without initial location *)
Definition target_of (a : atom) (o : naop) (l : loc) : loc :=
  match op_targets o with
  | Some t => match find (fun p => Nat.eqb (fst p) a) (combine (op_atoms o) t) with Some p => snd p | None => l end
  | None => l
  end.
Fixpoint location_loop (a : atom) (l : loc) (k : nat) (ops : list naop) {struct ops} : loc :=
  match ops with
  | [] => l
  | o :: r =>
      let l' := target_of a o l in
      match k with O => l' | S k' => location_loop a l' k' r end
  end.
Definition getLocationOfAtomAfterOperation (c : nacomp) (a : atom) (k : nat) : option loc :=
  option_map (fun l => location_loop a l k (na_ops c)) (lookup (na_init c) a).

(** 55-63 (toString): the initial locations are inserted into a map ordered by
    location; the order of the unordered map is that of the list *)
Fixpoint map_emplace (m : list (loc * atom)) (l : loc) (a : atom) : list (loc * atom) :=
  match m with
  | [] => [(l, a)]
  | (l', a') :: r =>
      if loc_lt l l' then (l, a) :: m
      else if loc_lt l' l then (l', a') :: map_emplace r l a
      else m
  end.
Definition initialLocationsAsc (c : nacomp) : list (loc * atom) :=
  fold_left (fun m p => map_emplace m (snd p) (fst p)) (na_init c) [].
