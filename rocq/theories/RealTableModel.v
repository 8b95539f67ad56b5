(* The unique table for real numbers: src/dd/RealNumberUniqueTable.cpp.
   Values are rationals (every double is one); additions and comparisons are exact.  Entries are named by the
   order of their allocation.  tailTable[k] always is the last entry of the list table[k] and is not kept
   separately; hash keys are integers.  Statistics and the collection limit are left out. *)
From Coq Require Import ZArith QArith Qabs Qround List Bool Lia.
Import ListNotations.
Local Open Scope Q_scope.

(* std::nearbyint in the default rounding mode: ties to even *)
Definition nearbyint (x : Q) : Z :=
  let f := Qfloor x in
  match Qcompare (x - inject_Z f) (1 # 2) with
  | Lt => f
  | Gt => (f + 1)%Z
  | Eq => if Z.even f then f else (f + 1)%Z
  end.
(* RealNumberUniqueTable.cpp:38-43; NBUCKET = 65537 (RealNumberUniqueTable.hpp:43) *)
Definition hash (v : Q) : Z := Z.min (nearbyint (v * 65536)) 65536.

Definition entry := (nat * Q)%type.
Record table := { buckets : Z -> list entry; fresh : nat }.
Definition tupd (f : Z -> list entry) (k : Z) (l : list entry) : Z -> list entry :=
  fun k' => if Z.eqb k' k then l else f k'.
(* the double closest to 1/sqrt 2 (DDDefinitions.hpp: SQRT2_2) *)
Definition SQRT2_2 : Q := 6369051672525773 # 9007199254740992.

Section Table.
Context (eps : Q).

(* RealNumber.cpp:65-67, 75-77 *)
Definition approx (a b : Q) : bool := Qle_bool (Qabs (a - b)) eps.
Definition approxZero (a : Q) : bool := Qle_bool (Qabs a) eps.
Definition Qltb (a b : Q) : bool := negb (Qle_bool b a).

(* the result of a search in one bucket: the entry, and the list if it has changed *)
(* the while loop, RealNumberUniqueTable.cpp:265-305 *)
Fixpoint walk (n : nat) (v : Q) (l : list entry) : entry * option (list entry) :=
  match l with
  | [] => ((n, v), Some [(n, v)])
  | (i, w) :: r =>
    if Qle_bool w (v + eps) then
      if approx w v then
        match r with
        | (j, u) :: _ =>
          if Qle_bool u (v + eps) && Qltb (Qabs (u - v)) (Qabs (w - v)) then ((j, u), None) else ((i, w), None)
        | [] => ((i, w), None)
        end
      else
        let '(e, o) := walk n v r in (e, match o with Some r' => Some ((i, w) :: r') | None => None end)
    else ((n, v), Some ((n, v) :: l))
  end.
(* RealNumberUniqueTable.cpp:234-306 *)
Definition find_or_insert (n : nat) (v : Q) (l : list entry) : entry * option (list entry) :=
  match rev l with
  | [] => ((n, v), Some [(n, v)])
  | (i, w) :: _ =>
    if Qle_bool w v then
      if approx v w then ((i, w), None) else ((n, v), Some (l ++ [(n, v)]))
    else walk n v l
  end.
Definition store (t : table) (k : Z) (r : entry * option (list entry)) : table * entry :=
  match snd r with
  | Some l => ({| buckets := tupd (buckets t) k l; fresh := S (fresh t) |}, fst r)
  | None => (t, fst r)
  end.
(* RealNumberUniqueTable.cpp:308-338 *)
Definition insertFront (t : table) (k : Z) (v : Q) : table * entry :=
  store t k ((fresh t, v), Some ((fresh t, v) :: buckets t k)).
Definition insertBack (t : table) (k : Z) (v : Q) : table * entry :=
  store t k ((fresh t, v), Some (buckets t k ++ [(fresh t, v)])).
Definition front (l : list entry) : option entry := match l with [] => None | e :: _ => Some e end.
Definition back (l : list entry) : option entry := front (rev l).

(* what a pointer denotes: one of the immortal numbers or an entry *)
Inductive number := NZero | NOne | NSqrt | NEntry (e : entry).
Definition matches (v : Q) (o : option entry) : bool := match o with Some e => approx v (snd e) | None => false end.
(* RealNumberUniqueTable.cpp:71-142 *)
Definition lookupNonNegative (t : table) (v : Q) : table * number :=
  if approx v 1 then (t, NOne)
  else if approx v SQRT2_2 then (t, NSqrt)
  else
    let lowerKey := hash (v - eps) in
    let upperKey := hash (v + eps) in
    let ent (r : table * entry) := (fst r, NEntry (snd r)) in
    if Z.eqb upperKey lowerKey then ent (store t lowerKey (find_or_insert (fresh t) v (buckets t lowerKey)))
    else
      let key := hash v in
      let '(lo, up) := if Z.eqb lowerKey key then (back (buckets t key), front (buckets t upperKey))
                       else (back (buckets t lowerKey), front (buckets t key)) in
      match (if matches v lo then lo else None), (if matches v up then up else None) with
      | Some a, Some b => (t, NEntry (if Qltb (Qabs (snd a - v)) (Qabs (snd b - v)) then a else b))
      | Some a, None => (t, NEntry a)
      | None, Some b => (t, NEntry b)
      | None, None => ent (if Z.eqb key lowerKey then insertFront t key v else insertBack t key v)
      end.
(* RealNumberUniqueTable.cpp:45-54; the sign is the tag of the pointer *)
Definition lookup (t : table) (v : Q) : table * (bool * number) :=
  if approxZero v then (t, (false, NZero))
  else if Qltb v 0 then let '(t', p) := lookupNonNegative t (Qabs v) in (t', (true, p))
  else let '(t', p) := lookupNonNegative t v in (t', (false, p)).

(* garbage collection, RealNumberUniqueTable.cpp:148-193: entries without references disappear *)
Definition collect (keep : nat -> bool) (t : table) : table :=
  {| buckets := fun k => filter (fun e => keep (fst e)) (buckets t k); fresh := fresh t |}.

(* histories *)
Inductive tstep := TLookup (v : Q) | TCollect (keep : nat -> bool).
Definition trun1 (t : table) (s : tstep) : table :=
  match s with TLookup v => fst (lookup t v) | TCollect k => collect k t end.
Definition trun (t : table) (l : list tstep) : table := fold_left trun1 l t.
(* the constructor looks up 1/2 *)
Definition empty : table := {| buckets := fun _ => []; fresh := 0 |}.
Definition init : table := fst (lookupNonNegative empty (1 # 2)).
End Table.
