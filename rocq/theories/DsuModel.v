(** Model of [DisjointSet] (include/mqt-core/datastructures/DisjointSet.hpp),
    with the element type instantiated by [nat] (so [T{}] is 0). *)
From Coq Require Import List Arith Bool.
Import ListNotations.

(** [std::unordered_map<T, X>] as an association list with unique keys. *)
Fixpoint mfind (m : list (nat * nat)) (v : nat) : option nat :=
  match m with
  | [] => None
  | (w, x) :: m' => if Nat.eqb w v then Some x else mfind m' v
  end.

Fixpoint minsert (m : list (nat * nat)) (v x : nat) : list (nat * nat) :=
  match m with
  | [] => [(v, x)]
  | (w, y) :: m' => if Nat.eqb w v then (w, x) :: m' else (w, y) :: minsert m' v x
  end.

(** [map\[v\]] as a read: a missing key is inserted with the value [T{}]. *)
Definition mindex (m : list (nat * nat)) (v : nat) : nat * list (nat * nat) :=
  match mfind m v with
  | Some x => (x, m)
  | None => (0, minsert m v 0)
  end.

(** DisjointSet.hpp:18-20. *)
Record dsu := mkDsu { parent : list (nat * nat); rank : list (nat * nat) }.

(** DisjointSet.hpp:22-28, the constructor. *)
Definition dsu_init (els : list nat) : dsu :=
  fold_left (fun d e => mkDsu (minsert (parent d) e e) (minsert (rank d) e 0))
            els (mkDsu [] []).

(** DisjointSet.hpp:30-35 [findSet]; the recursion is bounded by [fuel], [None]
    means that the bound was hit. The result is the returned value and the
    parent map. *)
Fixpoint find_go (fuel : nat) (p : list (nat * nat)) (v : nat)
  : option (nat * list (nat * nat)) :=
  match fuel with
  | 0 => None
  | S f =>
      let (pv, p0) := mindex p v in
      if Nat.eqb pv v then Some (pv, p0)
      else
        match find_go f p0 pv with
        | None => None
        | Some (r, p1) => Some (r, minsert p1 v r)
        end
  end.

(** [findSet] with a bound that suffices for all reachable states (proved). *)
Definition findSet (d : dsu) (v : nat) : option (nat * dsu) :=
  match find_go (S (S (length (parent d)))) (parent d) v with
  | Some (r, p) => Some (r, mkDsu p (rank d))
  | None => None
  end.

(** DisjointSet.hpp:37-48 [unionSet]. *)
Definition unionSet (d : dsu) (x y : nat) : option dsu :=
  match findSet d x with
  | None => None
  | Some (xs, d1) =>
      match findSet d1 y with
      | None => None
      | Some (ys, d2) =>
          let (rx, rk1) := mindex (rank d2) xs in
          let (ry, rk2) := mindex rk1 ys in
          if Nat.ltb ry rx
          then Some (mkDsu (minsert (parent d2) ys xs) rk2)
          else
            Some (mkDsu (minsert (parent d2) xs ys)
                        (if Nat.eqb rx ry then minsert rk2 ys (S ry) else rk2))
      end
  end.

(** Client calls. *)
Inductive dop := Find (v : nat) | Union (x y : nat).

Definition dsu_step (d : dsu) (o : dop) : option dsu :=
  match o with
  | Find v => match findSet d v with Some (_, d') => Some d' | None => None end
  | Union x y => unionSet d x y
  end.

Fixpoint dsu_run (ops : list dop) (d : dsu) : option dsu :=
  match ops with
  | [] => Some d
  | o :: ops' =>
      match dsu_step d o with
      | Some d' => dsu_run ops' d'
      | None => None
      end
  end.
