(** Reordering the operations of a circuit along its qubits, and the test
    whether a compound operation is the inverse of another one that relies on
    it: src/ir/QuantumComputation.cpp:1117-1209 and
    src/ir/operations/CompoundOperation.cpp:208-245. *)
From Coq Require Import Reals List Arith Bool NArith.
From Verif Require Import Cplx Qsem GateModel IRModel GraphModel OptModel.
Import ListNotations.
Local Open Scope list_scope.

(** Result, std::out_of_range, undefined behaviour, or the loop is still
    running. *)
Inductive rout (A : Type) := RDone (a : A) | RThrow | RUndef | RFuel.
Arguments RDone {A} a. Arguments RThrow {A}. Arguments RUndef {A}. Arguments RFuel {A}.

(** QuantumComputation.cpp:1122-1127: the number of queues. *)
Definition dag_size (layout : perm) : nat := S (max_key layout).

(** 1129-1134: one queue per qubit, first operation first; an operation is
    represented by its position in the circuit, as it is by its address there. *)
Definition qpush (d : dag) (q p : nat) : dag := fun x => if Nat.eqb x q then d x ++ [p] else d x.
Definition qadd (n : nat) (d : option dag) (o : cop) (p : nat) : option dag :=
  fold_left (fun d q => match d with Some d => if Nat.ltb q n then Some (qpush d q p) else None | None => None end)
    (set_of (used o)) d.
Fixpoint qbuild (n : nat) (d : option dag) (p : nat) (l : list cop) : option dag :=
  match l with
  | [] => d
  | o :: l' => qbuild n (qadd n d o p) (S p) l'
  end.

(** Operations not moved yet, what remains of every queue (the iterators), and
    newOps. *)
Definition rstate := (list (option cop) * dag * list cop)%type.

(** 1169-1191: whether all other qubits the operation acts on are at this
    operation; [None]: the iterator at the end of a queue is dereferenced. *)
Fixpoint executable (d : dag) (o : cop) (q p : nat) (qbs : list nat) : option bool :=
  match qbs with
  | [] => Some true
  | qb :: r =>
      if negb (Nat.eqb qb q) && cacts o qb then
        match d qb with
        | [] => None
        | p' :: _ => if Nat.eqb p' p then executable d o q p r else Some false
        end
      else executable d o q p r
  end.
(** 1201-1206 *)
Definition advance (n : nat) (d : dag) (o : cop) (q : nat) : dag :=
  fun x => if Nat.ltb x n && (Nat.eqb x q || cacts o x) then tl (d x) else d x.

(** 1156-1207: one qubit; the flag is [!done]. [None]: undefined behaviour (a
    moved-from operation is dereferenced, or see [executable]). *)
Definition visit (n q : nat) (s : rstate) : option (rstate * bool) :=
  let '(slots, d, out) := s in
  match d q with
  | [] => Some (s, false)
  | p :: _ =>
      match nth_error slots p with
      | Some (Some o) =>
          match executable d o q p (rev (seq 0 n)) with
          | Some true => Some ((upd slots p None, advance n d o q, out ++ [o]), true)
          | Some false => Some (s, true)
          | None => None
          end
      | _ => None
      end
  end.
(** 1155-1207: all qubits, the highest first. *)
Fixpoint visits (n : nat) (qs : list nat) (s : rstate) (busy : bool) : option (rstate * bool) :=
  match qs with
  | [] => Some (s, busy)
  | q :: r =>
      match visit n q s with
      | Some (s', b) => visits n r s' (busy || b)
      | None => None
      end
  end.
(** 1148-1208 *)
Fixpoint rloop (n fuel : nat) (s : rstate) : rout (list cop) :=
  match fuel with
  | 0 => RFuel
  | S f =>
      match visits n (rev (seq 0 n)) s false with
      | None => RUndef
      | Some (s', true) => rloop n f s'
      | Some ((_, _, out), false) => RDone out
      end
  end.
Definition reorder (n fuel : nat) (l : list cop) : rout (list cop) :=
  match qbuild n (Some (fun _ => [])) 0 l with
  | None => RThrow
  | Some d => rloop n fuel (map Some l, d, [])
  end.
(** As many rounds as there are operations, and one more to notice the end. *)
Definition reorder_ops (layout : perm) (l : list cop) : rout (list cop) :=
  reorder (dag_size layout) (S (length l)) l.

(** ** Equality of operations: Operation.hpp:222, CompoundOperation.cpp:131-152,
    ClassicControlledOperation.cpp:108-129, NonUnitaryOperation.cpp:128-178
    (measurements as sets of pairs of qubit and bit). Control registers are
    compared by start and size here, by name and size there. *)
Definition cond_eqb (c d : cond) : bool :=
  match c, d with
  | CReg s n v k, CReg s' n' v' k' => Nat.eqb s s' && Nat.eqb n n' && N.eqb v v' && match k, k' with
      | kEq, kEq | kNeq, kNeq | kLt, kLt | kLeq, kLeq | kGt, kGt | kGeq, kGeq => true | _, _ => false end
  | CBit b v k, CBit b' v' k' => Nat.eqb b b' && N.eqb v v' && match k, k' with
      | kEq, kEq | kNeq, kNeq | kLt, kLt | kLeq, kLeq | kGt, kGt | kGeq, kGeq => true | _, _ => false end
  | _, _ => false
  end.
Definition pair_in (x : nat * nat) (l : list (nat * nat)) : bool :=
  existsb (fun y => Nat.eqb (fst x) (fst y) && Nat.eqb (snd x) (snd y)) l.
Fixpoint equals_op (a b : cop) : bool :=
  match a, b with
  | OStd s, OStd t => equals_std (fun q => q) (fun q => q) s t
  | OMeas qs cs, OMeas qs' cs' =>
      Nat.eqb (length qs) (length qs') && forallb (fun x => pair_in x (combine qs' cs')) (combine qs cs)
      && forallb (fun x => pair_in x (combine qs cs)) (combine qs' cs')
  | OReset qs, OReset qs' => nats_eqb qs qs'
  | OClass c o, OClass d o' => cond_eqb c d && equals_op o o'
  | OComp _ l, OComp _ m =>
      (fix go l m :=
         match l, m with
         | [], [] => true
         | x :: l', y :: m' => equals_op x y && go l' m'
         | _, _ => false
         end) l m
  | _, _ => false
  end.

(** std::equal with three iterators: [None]: the second range is read beyond its
    end. *)
Fixpoint equal3 (l m : list cop) : option bool :=
  match l, m with
  | [], _ => Some true
  | _ :: _, [] => None
  | x :: l', y :: m' => if equals_op x y then equal3 l' m' else Some false
  end.

(** CompoundOperation.cpp:208-245 (isInverseOf) for two compound operations with
    the operations [l] and [m]. [RUndef] also where the maximum of an empty set
    of qubits is dereferenced; [RThrow] also where an operation has no inverse. *)
Definition max_used (l : list cop) : option nat :=
  match flat_map used l with [] => None | q :: r => Some (fold_left Nat.max r q) end.
Definition comp_is_inverse (l m : list cop) : rout bool :=
  if negb (Nat.eqb (length l) (length m)) then RDone false
  else
    match l with
    | [] => RDone true
    | _ =>
        match max_used l, max_used m with
        | Some a, Some b =>
            match reorder (S a) (S (length l)) (map clone_op l) with
            | RDone l' =>
                match invert_ops (map clone_op m) with
                | None => RThrow
                | Some r =>
                    match reorder (S b) (S (length m)) (rev r) with
                    | RDone m' => match equal3 l' m' with Some v => RDone v | None => RUndef end
                    | RThrow => RThrow | RUndef => RUndef | RFuel => RFuel
                    end
                end
            | RThrow => RThrow | RUndef => RUndef | RFuel => RFuel
            end
        | _, _ => RUndef
        end
    end.
