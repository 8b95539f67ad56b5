(** Client view of undirected graphs and symmetric matrices. *)
From Coq Require Import List Arith Bool.
From Verif Require Import GraphModel UGraphModel.
Import ListNotations.

Fixpoint umentions (ops : list uop) : list V :=
  match ops with
  | [] => []
  | UAddVertex v :: r => v :: umentions r
  | UAddEdge u v _ :: r => u :: v :: umentions r
  end.

Definition prod_eq_dec {A B} (da : forall a b : A, {a = b} + {a <> b})
  (db : forall a b : B, {a = b} + {a <> b}) (p q : A * B) : {p = q} + {p <> q}.
Proof. decide equality. Defined.

(** The same unordered pair. *)
Definition same (p q : V * V) : bool :=
  (Nat.eqb (fst p) (fst q) && Nat.eqb (snd p) (snd q))
  || (Nat.eqb (fst p) (snd q) && Nat.eqb (snd p) (fst q)).

(** Label of the edge between [u] and [v]: the first insertion counts, later
    ones are refused. *)
Fixpoint label (ops : list uop) (u v : V) : option nat :=
  match ops with
  | [] => None
  | UAddVertex _ :: r => label r u v
  | UAddEdge a b e :: r => if same (a, b) (u, v) then Some e else label r u v
  end.

(** All vertices that some insertion connects with [v], with repetitions. *)
Fixpoint nbrs (ops : list uop) (v : V) : list V :=
  match ops with
  | [] => []
  | UAddVertex _ :: r => nbrs r v
  | UAddEdge a b _ :: r =>
      (if Nat.eqb a v then [b] else if Nat.eqb b v then [a] else []) ++ nbrs r v
  end.

(** The unordered pairs of the history without repetitions. *)
Definition norm (p : V * V) : V * V :=
  (Nat.min (fst p) (snd p), Nat.max (fst p) (snd p)).

Fixpoint all_pairs (ops : list uop) : list (V * V) :=
  match ops with
  | [] => []
  | UAddVertex _ :: r => all_pairs r
  | UAddEdge a b _ :: r => norm (a, b) :: all_pairs r
  end.

Definition upairs (ops : list uop) : list (V * V) :=
  nodup (fun p q => prod_eq_dec Nat.eq_dec Nat.eq_dec p q) (all_pairs ops).

(** Last value written to the unordered position [(i, j)], if any. *)
Fixpoint last_write {A} (ws : list (nat * nat * A)) (i j : nat) : option A :=
  match ws with
  | [] => None
  | (a, b, x) :: r =>
      match last_write r i j with
      | Some y => Some y
      | None => if same (a, b) (i, j) then Some x else None
      end
  end.
