(** Meaning of circuits. A run of a circuit with measurements is described by
    the list of its branches: an unnormalised state together with the values of
    the classical bits. The squared norm of a branch's state is its
    probability. *)
From Coq Require Import Reals List Arith Bool NArith.
From Verif Require Import Cplx Qsem GateModel GateSpec IRModel.
Import ListNotations.

Definition store := nat -> bool.
Definition branch := (state * store)%type.

Definition semf (o : stdop) : state -> state :=
  match sem o with Some f => f | None => fun psi => psi end.

(** Projection of qubit [q] to value [v]. *)
Definition project (q : nat) (v : bool) (psi : state) : state :=
  fun b => if Bool.eqb (b q) v then psi b else C0.
(** Flipping qubit [q]. *)
Definition flip (q : nat) (psi : state) : state := fun b => psi (setb b q (negb (b q))).

Definition measure1 (q c : nat) (b : branch) : list branch :=
  [(project q false (fst b), setb (snd b) c false); (project q true (fst b), setb (snd b) c true)].
Definition reset1 (q : nat) (b : branch) : list branch :=
  [(project q false (fst b), snd b); (flip q (project q true (fst b)), snd b)].

Fixpoint measure_all (l : list (nat * nat)) (b : branch) : list branch :=
  match l with
  | [] => [b]
  | (q, c) :: l' => flat_map (measure_all l') (measure1 q c b)
  end.
Fixpoint reset_all (l : list nat) (b : branch) : list branch :=
  match l with
  | [] => [b]
  | q :: l' => flat_map (reset_all l') (reset1 q b)
  end.

(** Value of the bits [start .. start + len - 1], least significant first. *)
Fixpoint regval (m : store) (start len : nat) : N :=
  match len with
  | 0 => 0%N
  | S n => ((if m start then 1 else 0) + 2 * regval m (S start) n)%N
  end.

Definition cmp_holds (k : cmpk) (a v : N) : Prop :=
  match k with
  | kEq => a = v | kNeq => a <> v
  | kLt => (a < v)%N | kLeq => (a <= v)%N | kGt => (v < a)%N | kGeq => (v <= a)%N
  end.

Definition cmp_dec (k : cmpk) (a v : N) : bool :=
  match k with
  | kEq => N.eqb a v | kNeq => negb (N.eqb a v)
  | kLt => N.ltb a v | kLeq => N.leb a v | kGt => N.ltb v a | kGeq => N.leb v a
  end.

Definition cond_holds (c : cond) (m : store) : bool :=
  match c with
  | CReg s l v k => cmp_dec k (regval m s l) v
  | CBit b v k => cmp_dec k (regval m b 1) v
  end.

Fixpoint run_op (o : cop) (b : branch) : list branch :=
  match o with
  | OStd s => [(semf s (fst b), snd b)]
  | OMeas qs cs => measure_all (combine qs cs) b
  | OReset qs => reset_all qs b
  | OClass c o' => if cond_holds c (snd b) then run_op o' b else [b]
  | OComp _ l =>
      (fix go l b :=
         match l with
         | [] => [b]
         | o :: l' => flat_map (go l') (run_op o b)
         end) l b
  end.

Fixpoint run (l : list cop) (b : branch) : list branch :=
  match l with
  | [] => [b]
  | o :: l' => flat_map (run l') (run_op o b)
  end.

(** A circuit including its global phase. *)
Definition run_qc (c : qcirc) (b : branch) : list branch :=
  map (fun x => (sscal (Cexp (qc_phase c)) (fst x), snd x)) (run (qc_ops c) b).

(** All standard operations inside denote operators on distinct qubits. *)
Fixpoint op_ok (o : cop) : Prop :=
  match o with
  | OStd s => wf_op s /\ exists f, sem s = Some f
  | OMeas qs cs => length qs = length cs
  | OReset _ => True
  | OClass _ o' => op_ok o'
  | OComp _ l => (fix go l := match l with [] => True | o :: l' => op_ok o /\ go l' end) l
  end.
Definition ops_ok (l : list cop) : Prop := Forall op_ok l.

(** Neither measurement nor reset inside. *)
Fixpoint no_meas (o : cop) : Prop :=
  match o with
  | OStd _ => True
  | OMeas _ _ | OReset _ => False
  | OClass _ o' => no_meas o'
  | OComp _ l => (fix go l := match l with [] => True | o :: l' => no_meas o /\ go l' end) l
  end.

(** Two circuits behave identically on every state and classical store. *)
Definition same_run (l m : list cop) : Prop := forall b, run l b = run m b.

(** Inverse of an injective permutation. *)
Definition pinv (p : perm) : perm := map (fun x => (snd x, fst x)) p.
Definition perm_ok (p : perm) : Prop := NoDup (map fst p) /\ NoDup (map snd p).
