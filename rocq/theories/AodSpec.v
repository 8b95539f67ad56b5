(** What operations of acousto-optic deflectors should mean, independently of the code. *)
From Coq Require Import ZArith QArith Qabs List Bool String Arith.
From Verif Require Import GateModel AodModel.
Import ListNotations.

(** The written form: [name (d, s, e; ...;) q, ..., q;] *)
Fixpoint readOps (l : list tok) : option (list (dimension * Q * Q) * list tok) :=
  match l with
  | TDim d :: TComma :: TSp :: TNum s :: TComma :: TSp :: TNum e :: TSemi :: TSp :: r =>
      match readOps r with Some (ops, r') => Some ((d, s, e) :: ops, r') | None => None end
  | TDim d :: TComma :: TSp :: TNum s :: TComma :: TSp :: TNum e :: TSemi :: TClose :: r => Some ([(d, s, e)], r)
  | _ => None
  end.
Fixpoint readRegs (l : list tok) : option (list string) :=
  match l with
  | [TSp; TReg s; TSemi; TNl] => Some [s]
  | TSp :: TReg s :: TComma :: r => match readRegs r with Some t => Some (s :: t) | None => None end
  | _ => None
  end.
Fixpoint readText (l : list tok) : option (string * list (dimension * Q * Q) * list string) :=
  match l with
  | TSp :: r => readText r
  | TName n :: TSp :: TOpen :: r =>
      match readOps r with
      | Some (ops, r') => match readRegs r' with Some t => Some (n, ops, t) | None => None end
      | None => None
      end
  | _ => None
  end.

(** The keyword of a type *)
Definition keyword (t : optype) : option string :=
  match t with
  | gAodActivate => Some "aod_activate"%string
  | gAodDeactivate => Some "aod_deactivate"%string
  | gAodMove => Some "aod_move"%string
  | _ => None
  end.
(** A number with at most six significant digits *)
Definition short (q : Q) : Prop := exists m j : Z, (Z.abs m < 1000000)%Z /\ q == inject_Z m * Qpower (10 # 1) j.
(** The same single operation *)
Definition denotes (w : dimension * Q * Q) (op : single) : Prop := fst (fst w) = dir op /\ snd (fst w) == from op /\ snd w == to op.
(** The largest element, zero for an empty list *)
Definition largest (m : Q) (l : list Q) : Prop := (forall x, In x l -> x <= m) /\ (In m l \/ l = [] /\ m == 0).
(** What undoing means: a move goes back, an activation is undone by a deactivation and conversely *)
Definition undone (t : optype) : optype := match t with gAodActivate => gAodDeactivate | gAodDeactivate => gAodActivate | _ => t end.
Definition reversed (op op' : single) : Prop := dir op' = dir op /\ from op' = to op /\ to op' = from op.
