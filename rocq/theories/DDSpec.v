(* What a decision diagram denotes, which diagrams are well levelled and which are canonical. *)
From Coq Require Import Reals List Bool Arith Lia.
From Verif Require Import Cplx Qsem DDModel.
Import ListNotations.
Local Open Scope R_scope.

(* amplitude of a basis state: the product of the weights along its path *)
Fixpoint vden (t : vtree) (b : bits) : C :=
  match t with
  | VT => C1
  | VNode q w s => (w (b q) * vden (s (b q)) b)%C
  end.
Definition veden (e : vedge) (b : bits) : C := (fst e * vden (snd e) b)%C.

(* entry (r, c) of the matrix on the qubits below n; a level without a node is an identity factor *)
Fixpoint mden (n : nat) (t : mtree) (r c : bits) : C :=
  match n with
  | O => C1
  | S k =>
    match t with
    | MNode q w s =>
      if Nat.eqb q k then (w (r k) (c k) * mden k (s (r k) (c k)) r c)%C
      else if eqb (r k) (c k) then mden k t r c else C0
    | MT => if eqb (r k) (c k) then mden k t r c else C0
    end
  end.
Definition meden (n : nat) (e : medge) (r c : bits) : C := (fst e * mden n (snd e) r c)%C.

(* vectors have a node on every level from n-1 down to 0, except below zero edges *)
Fixpoint vlev (n : nat) (w : C) (t : vtree) : Prop :=
  match t with
  | VT => n = 0%nat \/ w = C0
  | VNode q ws s => n = S q /\ forall i, vlev q (ws i) (s i)
  end.
Definition vwf (n : nat) (e : vedge) : Prop := vlev n (fst e) (snd e).

(* matrices may skip levels *)
Fixpoint mlev (n : nat) (t : mtree) : Prop :=
  match t with
  | MT => True
  | MNode q _ s => (q < n)%nat /\ forall i j, mlev q (s i j)
  end.
Definition mwf (n : nat) (e : medge) : Prop := mlev n (snd e).

(* canonical vector diagrams: no zero edge into a node, unit norm at every node, and the larger
   weight (the first on a tie) a positive real *)
Definition vfirst (w : bool -> C) : bool := if Rle_dec (Cnorm2 (w true)) (Cnorm2 (w false)) then false else true.
Definition vunit (w : bool -> C) : Prop :=
  Cnorm2 (w false) + Cnorm2 (w true) = 1 /\ exists x, 0 < x /\ w (vfirst w) = RtoC x.
Fixpoint vcan (n : nat) (w : C) (t : vtree) : Prop :=
  match t with
  | VT => n = 0%nat \/ w = C0
  | VNode q ws s => w <> C0 /\ n = S q /\ vunit ws /\ forall i, vcan q (ws i) (s i)
  end.
Definition vcanon (n : nat) (e : vedge) : Prop := vcan n (fst e) (snd e).

(* canonical matrix diagrams: no zero edge into a node, the first weight of maximal magnitude is one,
   and no node resembles the identity *)
Definition before (a b : bool * bool) : bool :=
  match fst a, fst b with
  | false, true => true
  | true, false => false
  | _, _ => negb (snd a) && snd b
  end.
Definition munit (w : bool -> bool -> C) : Prop :=
  exists m, w (fst m) (snd m) = C1 /\
    forall p, if before p m then Cnorm2 (w (fst p) (snd p)) < 1 else Cnorm2 (w (fst p) (snd p)) <= 1.
Definition mident (w : bool -> bool -> C) (s : bool -> bool -> mtree) : Prop :=
  w false false = C1 /\ w false true = C0 /\ w true false = C0 /\ w true true = C1 /\
  s false false = s true true.
Fixpoint mcan (n : nat) (w : C) (t : mtree) : Prop :=
  match t with
  | MT => True
  | MNode q ws s => w <> C0 /\ (q < n)%nat /\ munit ws /\ ~ mident ws s /\ forall i j, mcan q (ws i j) (s i j)
  end.
Definition mcanon (n : nat) (e : medge) : Prop := mcan n (fst e) (snd e).

(* sum over all assignments of the qubits below n *)
Fixpoint bsum (n : nat) (f : bits -> C) (b : bits) : C :=
  match n with
  | O => f b
  | S k => (bsum k f (setb b k false) + bsum k f (setb b k true))%C
  end.

(* what an n-qubit matrix does to a state of arbitrarily many qubits *)
Definition mact (n : nat) (e : medge) (psi : state) : state :=
  fun b => bsum n (fun c => (meden n e b c * psi c)%C) b.
