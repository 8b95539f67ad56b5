(** Model of [qc::Layer] (include/mqt-core/datastructures/Layer.hpp and
    src/datastructures/Layer.cpp).

    Vertices ([std::shared_ptr<DAGVertex>]) are indices in creation order; the
    unordered [executableSet] is a list of indices. The [assert] of
    [isExecutable] (Layer.hpp:73) is not modelled (it is compiled out with
    [NDEBUG]). Operations are abstract: the layer sees them only through
    [getUsedQubits], [isInverseOf], [commutesAtQubit] and [operator==]. *)
From Coq Require Import List Arith ZArith Bool.
From Verif Require Import GraphModel.
Import ListNotations.

(** Layer.hpp:41-51. *)
Record vert := mkVert {
  thr : Z;
  cnt : Z;
  ensucc : list nat;
  dissucc : list nat;
  exd : bool
}.

Record layer := mkLayer { verts : list vert; exset : list nat }.

Definition layer_empty : layer := mkLayer [] [].

Definition vnew : vert := mkVert 0 0 [] [] false.

(** Layer.hpp:72-75. *)
Definition vExecutable (x : vert) : bool := negb (exd x) && Z.eqb (cnt x) (thr x).

Definition isExecutable (l : layer) (v : nat) : bool :=
  match nth_error (verts l) v with
  | Some x => vExecutable x
  | None => false
  end.

(** Layer.hpp:94-106 [updateExecutableSet]. *)
Definition updateExecutableSet (l : layer) (v : nat) : layer :=
  let mem := existsb (Nat.eqb v) (exset l) in
  if isExecutable l v then
    if mem then l else mkLayer (verts l) (v :: exset l)
  else
    if mem then mkLayer (verts l) (filter (fun w => negb (Nat.eqb w v)) (exset l))
    else l.

Definition vmod (l : layer) (v : nat) (f : vert -> vert) : layer :=
  match nth_error (verts l) v with
  | Some x => mkLayer (upd (verts l) v (f x)) (exset l)
  | None => l
  end.

(** Layer.hpp:65-71 [create]; the new vertex is the last one. *)
Definition layer_create (l : layer) : layer :=
  updateExecutableSet (mkLayer (verts l ++ [vnew]) (exset l)) (length (verts l)).

(** Layer.hpp:82-89. *)
Definition addCounter (d : Z) (l : layer) (v : nat) : layer :=
  updateExecutableSet
    (vmod l v (fun x => mkVert (thr x) (cnt x + d) (ensucc x) (dissucc x) (exd x))) v.
Definition incExecutableCounter := addCounter 1.
Definition decExecutableCounter := addCounter (-1).

(** Layer.hpp:109-123 [execute]. *)
Definition layer_execute (l : layer) (v : nat) : outcome layer layer :=
  match nth_error (verts l) v with
  | None => Ub
  | Some x =>
      if vExecutable x then
        let l1 := vmod l v (fun x => mkVert (thr x) (cnt x) (ensucc x) (dissucc x) true) in
        let l2 := fold_left decExecutableCounter (dissucc x) l1 in
        let l3 := fold_left incExecutableCounter (ensucc x) l2 in
        Ret (updateExecutableSet l3 v)
      else Exn l
  end.

(** Layer.hpp:124-128 [u->addEnabledSuccessor(v)]. *)
Definition addEnabledSuccessor (l : layer) (u v : nat) : layer :=
  let l1 := vmod l u (fun x => mkVert (thr x) (cnt x) (ensucc x ++ [v]) (dissucc x) (exd x)) in
  updateExecutableSet
    (vmod l1 v (fun x => mkVert (thr x + 1) (cnt x) (ensucc x) (dissucc x) (exd x))) v.

(** Layer.hpp:129-133 [u->addDisabledSuccessor(v)]. *)
Definition addDisabledSuccessor (l : layer) (u v : nat) : layer :=
  let l1 := vmod l u (fun x => mkVert (thr x) (cnt x) (ensucc x) (dissucc x ++ [v]) (exd x)) in
  updateExecutableSet
    (vmod l1 v (fun x => mkVert (thr x - 1) (cnt x) (ensucc x) (dissucc x) (exd x))) v.

(** ** Histories of calls *)
Inductive lop := LCreate | LEnable (u v : nat) | LDisable (u v : nat) | LExecute (v : nat).

Definition lop_apply (l : layer) (o : lop) : outcome layer layer :=
  match o with
  | LCreate => Ret (layer_create l)
  | LEnable u v => Ret (addEnabledSuccessor l u v)
  | LDisable u v => Ret (addDisabledSuccessor l u v)
  | LExecute v => layer_execute l v
  end.

(** A caller catches the exception of [execute] and goes on. *)
Fixpoint layer_run (ops : list lop) (l : layer) : option layer :=
  match ops with
  | [] => Some l
  | o :: r =>
      match lop_apply l o with
      | Ret l' => layer_run r l'
      | Exn l' => layer_run r l'
      | Ub => None
      end
  end.

(** A schedule: every call must succeed. *)
Fixpoint execute_all (vs : list nat) (l : layer) : option layer :=
  match vs with
  | [] => Some l
  | v :: r =>
      match layer_execute l v with
      | Ret l' => execute_all r l'
      | _ => None
      end
  end.

(** ** [constructDAG], Layer.cpp:26-179 *)
Section Construct.
Context {Op : Type}.
Variable used : Op -> list nat.                  (* getUsedQubits, a sorted set *)
Variable isInverseOf : Op -> Op -> bool.
Variable commutesAtQubit : Op -> Op -> nat -> bool.
Variable opeq : Op -> Op -> bool.
Variable commutable : bool.
Variable ops : list Op.                          (* the circuit; vertex i is ops[i] *)

(** The per-qubit variables, Layer.cpp:35-50. *)
Record qst := mkQst {
  constructive : list nat;
  destructive : list nat;
  currentGroup : list nat;
  lookahead : option nat;
  predecessorGroup : list nat;
  qubitOperations : list nat
}.

Definition qst_empty : qst := mkQst [] [] [] None [] [].

(** A binary predicate on the operations of two vertices. *)
Definition on2 (f : Op -> Op -> bool) (u v : nat) : bool :=
  match nth_error ops u, nth_error ops v with
  | Some a, Some b => f a b
  | _, _ => false
  end.

(** The first member of the current group does not commute with [c]. *)
Definition head_conflict (g : list nat) (c qubit : nat) : bool :=
  match g with
  | [] => true
  | g0 :: _ => negb (on2 (fun a b => commutesAtQubit a b qubit) g0 c)
  end.

(** Layer.cpp:104-140 (with the duplicate check [dup], 122-128) and 148-177
    (without it). *)
Definition add_to_group (dup : bool) (l : layer) (s : qst) (c qubit : nat) : layer * qst :=
  let l1 := fold_left (fun l k => addEnabledSuccessor l k c) (constructive s) l in
  let l2 := fold_left (fun l k => addDisabledSuccessor l k c) (destructive s) l1 in
  let fresh :=
    match currentGroup s with
    | [] => false
    | _ => negb commutable || head_conflict (currentGroup s) c qubit
           || (dup && existsb (fun v => on2 opeq v c) (currentGroup s))
    end in
  let pred := if fresh then currentGroup s else predecessorGroup s in
  let cur := if fresh then [] else currentGroup s in
  let l3 := fold_left (fun l p => addEnabledSuccessor l p c) pred l2 in
  (l3, mkQst (constructive s) (destructive s) (cur ++ [c]) (lookahead s) pred
             (qubitOperations s ++ [c])).

(** Layer.cpp:76-103, the inverse pair [c], [v]. *)
Definition add_inverse_pair (l : layer) (s : qst) (c v : nat) : layer * qst :=
  let l1 := fold_left (fun l o => addEnabledSuccessor l v o) (qubitOperations s) l in
  let l2 := fold_left (fun l o => addEnabledSuccessor l v o) (destructive s) l1 in
  let l3 := fold_left (fun l o => addDisabledSuccessor l c o) (qubitOperations s) l2 in
  let l4 := fold_left (fun l o => addDisabledSuccessor l c o) (destructive s) l3 in
  let l5 := addEnabledSuccessor l4 c v in
  (l5, mkQst (constructive s ++ [v]) (destructive s ++ [c]) (currentGroup s) None
             (predecessorGroup s) (qubitOperations s)).

(** Layer.cpp:55-142, one qubit of one operation. *)
Definition process_qubit (l : layer) (s : qst) (v qubit : nat) : layer * qst :=
  match lookahead s with
  | None =>
      (l, mkQst (constructive s) (destructive s) (currentGroup s) (Some v)
                (predecessorGroup s) (qubitOperations s))
  | Some c =>
      if on2 isInverseOf c v && head_conflict (currentGroup s) c qubit
      then add_inverse_pair l s c v
      else
        let '(l', s') := add_to_group true l s c qubit in
        (l', mkQst (constructive s') (destructive s') (currentGroup s') (Some v)
                   (predecessorGroup s') (qubitOperations s'))
  end.

(** The loop over the used qubits; a qubit outside the circuit is an access
    past the end of the vectors. *)
Fixpoint process_qubits (v : nat) (qs : list nat) (l : layer) (st : list qst)
  : option (layer * list qst) :=
  match qs with
  | [] => Some (l, st)
  | q :: r =>
      match nth_error st q with
      | None => None
      | Some s => let '(l', s') := process_qubit l s v q in
                  process_qubits v r l' (upd st q s')
      end
  end.

(** The loop over the circuit, Layer.cpp:51-143; [rest] are the operations from
    index [v] on. *)
Fixpoint process_ops (v : nat) (rest : list Op) (l : layer) (st : list qst)
  : option (layer * list qst) :=
  match rest with
  | [] => Some (l, st)
  | o :: r =>
      match process_qubits v (used o) (layer_create l) st with
      | None => None
      | Some (l', st') => process_ops (S v) r l' st'
      end
  end.

(** Layer.cpp:144-178. *)
Fixpoint process_rest (q : nat) (st : list qst) (l : layer) : layer :=
  match st with
  | [] => l
  | s :: r =>
      match lookahead s with
      | None => process_rest (S q) r l
      | Some c => process_rest (S q) r (fst (add_to_group false l s c q))
      end
  end.

Definition constructDAG (nQubits : nat) : option layer :=
  match process_ops 0 ops layer_empty (repeat qst_empty nQubits) with
  | None => None
  | Some (l, st) => Some (process_rest 0 st l)
  end.
End Construct.
