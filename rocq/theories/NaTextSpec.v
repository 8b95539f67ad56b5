(** The language of the texts and what they stand for, independently of the code. *)
From Coq Require Import ZArith QArith Qabs List Bool String Arith.
From Verif Require Import NaTextModel.
Import ListNotations.

(** An item: a location if any, numbers, and the name of an atom or zone. An instruction: a word and its items *)
Definition item : Type := option (Z * Z) * list Z * string.
Fixpoint readItem (l : list ntok) (loc : option (Z * Z)) (nums : list Z) : option (item * list ntok) :=
  match l with
  | NLoc x y :: r => match loc, nums with None, [] => readItem r (Some (x, y)) [] | _, _ => None end
  | NNum z :: r => readItem r loc (nums ++ [z])
  | NName s :: r => Some ((loc, nums, s), r)
  | _ => None
  end.
Fixpoint readItems (l : list ntok) (loc : option (Z * Z)) (nums : list Z) : option (list item * list ntok) :=
  match l with
  | NLoc x y :: r => match loc, nums with None, [] => readItems r (Some (x, y)) [] | _, _ => None end
  | NNum z :: r => readItems r loc (nums ++ [z])
  | NName s :: NNl :: r => match readItems r None [] with Some (is, r') => Some ((loc, nums, s) :: is, r') | None => None end
  | NClose :: r => match loc, nums with None, [] => Some ([], r) | _, _ => None end
  | _ => None
  end.
Definition readInstr (l : list ntok) : option ((string * list item) * list ntok) :=
  match l with
  | NAt :: NWord w :: NOpen :: NNl :: r => match readItems r None [] with Some (is, NNl :: r') => Some ((w, is), r') | _ => None end
  | NAt :: NWord w :: r => match readItem r None [] with Some (i, NNl :: r') => Some ((w, [i]), r') | _ => None end
  | _ => None
  end.
Fixpoint readInstrs (fuel : nat) (l : list ntok) : option (list (string * list item)) :=
  match l, fuel with
  | [], _ => Some []
  | _, O => None
  | _, S fuel => match readInstr l with
                 | Some (i, r) => match readInstrs fuel r with Some is => Some (i :: is) | None => None end
                 | None => None
                 end
  end.
Fixpoint readAtoms (l : list ntok) : list ((Z * Z) * string) * list ntok :=
  match l with
  | NAtom :: NLoc x y :: NName s :: NNl :: r => let '(atoms, r') := readAtoms r in (((x, y), s) :: atoms, r')
  | _ => ([], l)
  end.
Definition readComputation (l : list ntok) : option (list ((Z * Z) * string) * list (string * list item)) :=
  let '(atoms, r) := readAtoms l in match readInstrs (List.length r) r with Some is => Some (atoms, is) | None => None end.

(** What an operation says *)
Definition exact : Type := option location * list Q * string.
Definition placed (locs : option (list location)) (atoms : list string) : list exact :=
  match locs with
  | None => map (fun a => (None, [], a)) atoms
  | Some ls => map (fun p => (Some (fst p), [], snd p)) (combine ls atoms)
  end.
Definition means (o : nop) : string * list exact :=
  match o with
  | Load ls atoms => ("load"%string, placed ls atoms)
  | Store ls atoms => ("store"%string, placed ls atoms)
  | Move ls atoms => ("move"%string, placed (Some ls) atoms)
  | Local n ps on | Global n ps on => (n, map (fun a => (None, ps, a)) on)
  end.
(** The condition of the constructors: as many locations as atoms *)
Definition constructed (o : nop) : Prop :=
  match o with
  | Load (Some ls) atoms | Store (Some ls) atoms | Move ls atoms => List.length ls = List.length atoms
  | _ => True
  end.
(** Digits standing for a number, right to half a unit of the last one, and exactly right if the number ends there *)
Definition near (unit : Q) (z : Z) (q : Q) : Prop :=
  Qabs (inject_Z z / unit - q) <= 1 / (2 * unit) /\ forall k, q == inject_Z k / unit -> z = k.
Definition nearLoc (w : Z * Z) (l : location) : Prop := near 1000 (fst w) (lx l) /\ near 1000 (snd w) (ly l).
Definition nearItem (w : item) (e : exact) : Prop :=
  match fst (fst w), fst (fst e) with None, None => True | Some a, Some b => nearLoc a b | _, _ => False end
  /\ Forall2 (near 100000) (snd (fst w)) (snd (fst e)) /\ snd w = snd e.
Definition nearInstr (w : string * list item) (e : string * list exact) : Prop := fst w = fst e /\ Forall2 nearItem (snd w) (snd e).
Definition sameLoc (a b : location) : Prop := lx a == lx b /\ ly a == ly b.
Definition before (a b : location) : Prop := lx a < lx b \/ lx a == lx b /\ ly a < ly b.
