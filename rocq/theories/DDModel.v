(* Decision diagrams of dd::Package: nodes, normalisation, makeDDNode, the state and gate
   constructors, addition, multiplication, conjugate transpose, inner product, entry access.

   Representation.  A node pointer is modelled by the tree below it: with hash consing
   (UniqueTable, modelled in HeapModel, C03) two pointers are equal exactly when
   the trees are, so `x.p == y.p` becomes tree equality.  Weights are exact complex numbers:
   `cn.lookup` is the identity (the rounding of the real-number table is C08).  Compute tables are
   left out; DDCanonProofs shows that the cached results are the recomputed ones. *)
From Coq Require Import Reals List Bool Arith Lia FunctionalExtensionality.
From Verif Require Import Cplx Qsem.
Import ListNotations.
Local Open Scope R_scope.

(* vNode / mNode: include/mqt-core/dd/Node.hpp:64-118, Edge.hpp:34-60.  `VT` and `MT` are the terminal
   (nullptr); the successors are indexed by bits, e[0..1] for vectors and e[2*i+j] for matrices. *)
Inductive vtree := VT | VNode (v : nat) (w : bool -> C) (t : bool -> vtree).
Inductive mtree := MT | MNode (v : nat) (w : bool -> bool -> C) (t : bool -> bool -> mtree).

Definition vedge := (C * vtree)%type.
Definition medge := (C * mtree)%type.

(* Edge.hpp:68-92 zero(), one(), terminal(w) *)
Definition vzero : vedge := (C0, VT).
Definition vone : vedge := (C1, VT).
Definition mzero : medge := (C0, MT).
Definition mone : medge := (C1, MT).

(* Outcome of an operation: a value, an exception, or undefined behaviour *)
Inductive dres (A : Type) := DOk (a : A) | DThrow | DUb.
Arguments DOk {A}. Arguments DThrow {A}. Arguments DUb {A}.
Definition dbind {A B} (x : dres A) (f : A -> dres B) : dres B :=
  match x with DOk a => f a | DThrow => DThrow | DUb => DUb end.
Notation "'let*' x ':=' a 'in' b" := (dbind a (fun x => b))
  (at level 61, x pattern, a at next level, right associativity).

(* p == q for node pointers *)
Lemma vtree_eq_dec : forall a b : vtree, {a = b} + {a <> b}.
Proof.
  induction a as [|v w t IH]; destruct b as [|v' w' t']; try (right; congruence); auto.
  destruct (Nat.eq_dec v v') as [->|n]; [|right; congruence].
  destruct (Ceq_dec (w false) (w' false)) as [A|n]; [|right; congruence].
  destruct (Ceq_dec (w true) (w' true)) as [B|n]; [|right; congruence].
  destruct (IH false (t' false)) as [D|n]; [|right; congruence].
  destruct (IH true (t' true)) as [E|n]; [|right; congruence].
  left; f_equal; apply functional_extensionality; intros []; auto.
Defined.
Lemma mtree_eq_dec : forall a b : mtree, {a = b} + {a <> b}.
Proof.
  induction a as [|v w t IH]; destruct b as [|v' w' t']; try (right; congruence); auto.
  destruct (Nat.eq_dec v v') as [->|n]; [|right; congruence].
  destruct (Ceq_dec (w false false) (w' false false)) as [A|n]; [|right; congruence].
  destruct (Ceq_dec (w false true) (w' false true)) as [B|n]; [|right; congruence].
  destruct (Ceq_dec (w true false) (w' true false)) as [A1|n]; [|right; congruence].
  destruct (Ceq_dec (w true true) (w' true true)) as [B1|n]; [|right; congruence].
  destruct (IH false false (t' false false)) as [D|n]; [|right; congruence].
  destruct (IH false true (t' false true)) as [E|n]; [|right; congruence].
  destruct (IH true false (t' true false)) as [D1|n]; [|right; congruence].
  destruct (IH true true (t' true true)) as [E1|n]; [|right; congruence].
  left; f_equal; apply functional_extensionality; intros []; apply functional_extensionality;
    intros []; auto.
Defined.

(* exactlyZero (ComplexValue.cpp:33-36, Complex.cpp) and approximatelyZero (ComplexValue.cpp:42-45,
   RealNumber.cpp: |x| <= eps) *)
Definition ezero (w : C) : bool := if Ceq_dec w C0 then true else false.
Definition eone (w : C) : bool := if Ceq_dec w C1 then true else false.
Definition azero (eps : R) (w : C) : bool :=
  if Rle_dec (Rabs (fst w)) eps then if Rle_dec (Rabs (snd w)) eps then true else false else false.

(* argMax of the two vector weights: Edge.cpp:143, CachedEdge.cpp:67 *)
Definition vargmax (eps : R) (w : bool -> C) : bool :=
  if Rle_dec (Cnorm2 (w true)) (Cnorm2 (w false) + eps) then false else true.

(* the common tail of both vector normalisations: Edge.cpp:135-171 and CachedEdge.cpp:64-90.
   (Edge.cpp divides by the looked-up top weight, which is the top weight here.) *)
Definition vnorm_both (eps : R) (v : nat) (w : bool -> C) (t : bool -> vtree) : vedge :=
  let m := vargmax eps w in
  let norm := sqrt (Cnorm2 (w m) + Cnorm2 (w (negb m))) in
  let maxMag := sqrt (Cnorm2 (w m)) in
  let top := (w m * RtoC (norm / maxMag))%C in
  let minW := (w (negb m) / top)%C in
  (top, VNode v (fun i => if eqb i m then RtoC (maxMag / norm) else minW)
                (fun i => if eqb i m then t m else if ezero minW then VT else t (negb m))).

(* makeDDNode with vEdge arguments: Package.hpp:472-510 with Edge.cpp:110-171.
   When one weight is exactly zero, both successors keep their pointers. *)
Definition vmakeE (eps : R) (v : nat) (e : bool -> vedge) : vedge :=
  let w i := fst (e i) in let t i := snd (e i) in
  if ezero (w false) then
    if ezero (w true) then vzero
    else (w true, VNode v (fun i => if i then C1 else w false) t)
  else if ezero (w true) then (w false, VNode v (fun i => if i then w true else C1) t)
  else vnorm_both eps v w t.

(* makeDDNode with vCachedEdge arguments: CachedEdge.cpp:36-90 *)
Definition vmakeC (eps : R) (v : nat) (e : bool -> vedge) : vedge :=
  let w i := fst (e i) in let t i := snd (e i) in
  if azero eps (w false) then
    if azero eps (w true) then vzero
    else (w true, VNode v (fun i => if i then C1 else C0) (fun i => if i then t true else VT))
  else if azero eps (w true) then
    (w false, VNode v (fun i => if i then C0 else C1) (fun i => if i then VT else t false))
  else vnorm_both eps v w t.

(* argMax of the four matrix weights: Edge.cpp:312-331, CachedEdge.cpp:113-130; entries whose `zero`
   flag is set are passed over, later entries win only when larger by more than eps. *)
Definition idx4 : list (bool * bool) := [(false, false); (false, true); (true, false); (true, true)].
Definition argmax_step (eps : R) (z : bool -> bool -> bool) (w : bool -> bool -> C)
    (best : option (bool * bool)) (ij : bool * bool) : option (bool * bool) :=
  if z (fst ij) (snd ij) then best
  else match best with
       | None => Some ij
       | Some b => if Rlt_dec eps (Cnorm2 (w (fst ij) (snd ij)) - Cnorm2 (w (fst b) (snd b)))
                   then Some ij else Some b
       end.
Definition margmax (eps : R) (z : bool -> bool -> bool) (w : bool -> bool -> C) : option (bool * bool) :=
  fold_left (argmax_step eps z w) idx4 None.

(* Edge.cpp:292-353 and CachedEdge.cpp:96-147: the two differ only in the zero test `z` *)
Definition mnormalize (eps : R) (z : bool -> bool -> bool) (v : nat)
    (w : bool -> bool -> C) (t : bool -> bool -> mtree) : medge :=
  match margmax eps z w with
  | None => mzero
  | Some m =>
    let top := w (fst m) (snd m) in
    let nw i j := if z i j then C0
                  else if eqb i (fst m) && eqb j (snd m) then C1 else (w i j / top)%C in
    (top, MNode v nw (fun i j => if z i j then MT
                                 else if eqb i (fst m) && eqb j (snd m) then t i j
                                 else if ezero (nw i j) then MT else t i j))
  end.

(* the identity check of makeDDNode: Package.hpp:491-503 *)
Definition skip_id (e : medge) : medge :=
  match snd e with
  | MNode v w t =>
    if mtree_eq_dec (t false false) (t true true) then
      if eone (w false false) && ezero (w false true) && ezero (w true false) && eone (w true true)
      then (fst e, t false false) else e
    else e
  | MT => e
  end.

(* makeDDNode with mEdge / mCachedEdge arguments: Package.hpp:472-510 *)
Definition mmakeE (eps : R) (v : nat) (e : bool -> bool -> medge) : medge :=
  skip_id (mnormalize eps (fun i j => ezero (fst (e i j))) v
             (fun i j => fst (e i j)) (fun i j => snd (e i j))).
Definition mmakeC (eps : R) (v : nat) (e : bool -> bool -> medge) : medge :=
  skip_id (mnormalize eps (fun i j => azero eps (fst (e i j))) v
             (fun i j => fst (e i j)) (fun i j => snd (e i j))).

(* From here on the tolerance is zero: weights are exact, so is every comparison. *)
Definition vmk := vmakeC 0.
Definition mmk := mmakeC 0.
Definition vmkE := vmakeE 0.

Definition v2 (a b : vedge) : bool -> vedge := fun i => if i then b else a.
Definition m4 (a b c d : medge) : bool -> bool -> medge :=
  fun i j => if i then (if j then d else c) else (if j then b else a).

(* ComplexNumbers::lookup(CachedEdge): ComplexNumbers.hpp:122-129 *)
Definition vlook (e : vedge) : vedge := if ezero (fst e) then vzero else e.
Definition mlook (e : medge) : medge := if ezero (fst e) then mzero else e.

(* ---- states: Package.cpp:171-338 ---------------------------------------------------------- *)

(* makeZeroState loop, Package.cpp:180-182 *)
Fixpoint zero_loop (n start : nat) : vedge :=
  match n with
  | O => vone
  | S k => vmkE (start + k) (v2 (zero_loop k start) vzero)
  end.
Definition makeZeroState (nqubits n start : nat) : dres vedge :=
  if Nat.ltb nqubits (n + start) then DThrow else DOk (zero_loop n start).

(* makeBasisState(vector<bool>), Package.cpp:187-207; state[p] beyond the end is undefined *)
Fixpoint basis_loop (n start : nat) (st : list bool) : dres vedge :=
  match n with
  | O => DOk vone
  | S k =>
    let* f := basis_loop k start st in
    match nth_error st (start + k) with
    | None => DUb
    | Some b => DOk (vmkE (start + k) (if b then v2 vzero f else v2 f vzero))
    end
  end.
Definition makeBasisState (nqubits n : nat) (st : list bool) (start : nat) : dres vedge :=
  if Nat.ltb nqubits (n + start) then DThrow else basis_loop n start st.

(* makeBasisState(vector<BasisStates>), Package.cpp:208-258 *)
Inductive bstate := BZero | BOne | BPlus | BMinus | BRight | BLeft.
Definition s22 : R := / sqrt 2.
Definition bnode (q : nat) (b : bstate) (f : vedge) : vedge :=
  match b with
  | BZero => vmk q (v2 f vzero)
  | BOne => vmk q (v2 vzero f)
  | BPlus => vmk q (v2 (RtoC s22, snd f) (RtoC s22, snd f))
  | BMinus => vmk q (v2 (RtoC s22, snd f) (RtoC (- s22), snd f))
  | BRight => vmk q (v2 (RtoC s22, snd f) ((0, s22), snd f))
  | BLeft => vmk q (v2 (RtoC s22, snd f) ((0, - s22), snd f))
  end.
Fixpoint bstates_loop (n start : nat) (st : list bstate) : dres vedge :=
  match n with
  | O => DOk vone
  | S k =>
    let* f := bstates_loop k start st in
    match nth_error st (start + k) with
    | None => DUb
    | Some b => DOk (bnode (start + k) b f)
    end
  end.
Definition makeBasisStates (nqubits n : nat) (st : list bstate) (start : nat) : dres vedge :=
  if Nat.ltb nqubits (n + start) then DThrow
  else if Nat.ltb (length st) n then DThrow else bstates_loop n start st.

(* makeGHZState, Package.cpp:259-290 *)
Fixpoint ghz_right (n : nat) : vedge :=
  match n with O => vone | S k => vmkE k (v2 vzero (ghz_right k)) end.
Definition makeGHZState (nqubits n : nat) : dres vedge :=
  if Nat.ltb nqubits n then DThrow
  else match n with
       | O => DOk vone
       | S k => DOk (vmkE k (v2 (RtoC s22, snd (zero_loop k 0)) (RtoC s22, snd (ghz_right k))))
       end.

(* makeWState, Package.cpp:291-327; the pair is (leftSubtree, rightSubtree) after p iterations.
   The tolerance check against 1/sqrt(n) < eps never fires for eps = 0. *)
Fixpoint w_loop (n p : nat) : vedge * vedge :=
  match p with
  | O => (vzero, (RtoC (/ sqrt (INR n)), VT))
  | S k =>
    let '(l, r) := w_loop n k in
    (vmkE k (v2 l r), if Nat.eqb k (n - 1) then r else vmkE k (v2 r vzero))
  end.
Definition makeWState (nqubits n : nat) : dres vedge :=
  if Nat.ltb nqubits n then DThrow
  else match n with O => DOk vone | S _ => DOk (fst (w_loop n n)) end.

(* makeStateFromVector, Package.cpp:546-561: level k handles a slice of length 2^(k+1) *)
Fixpoint state_of (l : list C) (k : nat) : dres vedge :=
  match k with
  | O => match l with
         | [a; b] => DOk (vmk 0 (v2 (a, VT) (b, VT)))
         | _ => DUb
         end
  | S j =>
    let half := Nat.div2 (length l) in
    let* a := state_of (firstn half l) j in
    let* b := state_of (skipn half l) j in
    DOk (vmk (S j) (v2 a b))
  end.
(* Package.cpp:328-348 *)
Definition is_pow2 (n : nat) : bool := Nat.eqb (2 ^ Nat.log2 n) n.
Definition makeStateFromVector (l : list C) : dres vedge :=
  match l with
  | [] => DOk vone
  | [a] => DOk (a, VT)
  | _ => if is_pow2 (length l)
         then let* e := state_of l (Nat.log2 (length l) - 1) in DOk e
         else DThrow
  end.

(* ---- gates: Package.cpp:349-515 ------------------------------------------------------------ *)

(* qc::Controls is a std::set ordered by qubit: a control is (qubit, positive?) as in Qsem *)
(* the four successors at a control line: Package.cpp:389-395, 407-414 *)
Definition ctl_edges (pos : bool) (act idl : medge) : bool -> bool -> medge :=
  fun i j => if eqb i j then (if eqb i pos then act else idl) else mzero.
Definition mdelta (b : bool) : medge := if b then mone else mzero.

(* lines below the target, Package.cpp:382-399 *)
Fixpoint gate_below (t : nat) (cs : list ctl) (em : bool -> bool -> medge)
    : list ctl * (bool -> bool -> medge) :=
  match cs with
  | (q, p) :: r =>
    if Nat.ltb q t
    then gate_below t r (fun i j => mmk q (ctl_edges p (em i j) (mdelta (eqb i j))))
    else (cs, em)
  | [] => ([], em)
  end.
(* lines above the target, Package.cpp:405-416 *)
Fixpoint gate_above (cs : list ctl) (e : medge) : medge :=
  match cs with
  | (q, p) :: r => gate_above r (mmk q (ctl_edges p e mone))
  | [] => e
  end.
(* Package.cpp:357-418 *)
Definition makeGateDD (nqubits : nat) (mat : bool -> bool -> C) (cs : list ctl) (t : nat) : dres medge :=
  if existsb (fun c => Nat.leb nqubits (fst c)) cs || Nat.leb nqubits t then DThrow
  else
    let em := fun i j => (mat i j, MT) : medge in
    match cs with
    | [] => DOk (mmk t em)
    | _ => let '(rest, em') := gate_below t cs em in DOk (gate_above rest (mmk t em'))
    end.

(* makeTwoQubitGateDD, Package.cpp:426-515; the 4x4 matrix is indexed by two row bits and two
   column bits, the first of each pair being the more significant *)
Definition mat4 := bool -> bool -> bool -> bool -> C.      (* row1 row0 col1 col0 *)
Definition em4 := bool -> bool -> bool -> bool -> medge.
Fixpoint gate2_below (t : nat) (cs : list ctl) (em : em4) : list ctl * em4 :=
  match cs with
  | (q, p) :: r =>
    if Nat.ltb q t
    then gate2_below t r (fun i1 i0 j1 j0 =>
           mmk q (ctl_edges p (em i1 i0 j1 j0) (mdelta (eqb i1 j1 && eqb i0 j0))))
    else (cs, em)
  | [] => ([], em)
  end.
Definition makeTwoQubitGateDD (nqubits : nat) (mat : mat4) (cs : list ctl) (t0 t1 : nat) : dres medge :=
  if existsb (fun c => Nat.leb nqubits (fst c)) cs || Nat.leb nqubits t0 || Nat.leb nqubits t1 then DThrow
  else
    let lo := Nat.min t0 t1 in let hi := Nat.max t0 t1 in
    let '(r1, em) := gate2_below lo cs (fun i1 i0 j1 j0 => (mat i1 i0 j1 j0, MT)) in
    let em0 := fun row col =>
      mmk lo (fun i j => if Nat.ltb t1 t0 then em row i col j else em i row j col) in
    let '(r2, em1) := gate_below hi r1 em0 in
    DOk (gate_above r2 (mmk hi em1)).

(* makeDDFromMatrix, Package.cpp:562-592: the matrix as a function of row and column *)
Fixpoint mat_of (m : nat -> nat -> C) (level r0 c0 : nat) : medge :=
  match level with
  | O => mmk 0 (m4 (m r0 c0, MT) (m r0 (c0 + 1)%nat, MT) (m (r0 + 1)%nat c0, MT) (m (r0 + 1)%nat (c0 + 1)%nat, MT))
  | S l =>
    let h := (2 ^ S l)%nat in
    mmk (S l) (m4 (mat_of m l r0 c0) (mat_of m l r0 (c0 + h)) (mat_of m l (r0 + h) c0)
                  (mat_of m l (r0 + h) (c0 + h)))
  end.

(* ---- addition: Package.hpp:735-845 ---------------------------------------------------------- *)

Definition vchild (x : C) (w : bool -> C) (t : bool -> vtree) (i : bool) : vedge := ((x * w i)%C, t i).

(* The first argument is var + 1.  Vectors dereference both nodes: a terminal there is UB. *)
Fixpoint vadd (n : nat) (x y : vedge) {struct n} : dres vedge :=
  if ezero (fst x) then (if ezero (fst y) then DOk vzero else DOk y)
  else if ezero (fst y) then DOk x
  else if vtree_eq_dec (snd x) (snd y) then DOk ((fst x + fst y)%C, snd x)
  else match n, snd x, snd y with
       | S v, VNode _ xw xt, VNode _ yw yt =>
         let* a := vadd v (vchild (fst x) xw xt false) (vchild (fst y) yw yt false) in
         let* b := vadd v (vchild (fst x) xw xt true) (vchild (fst y) yw yt true) in
         DOk (vmk v (v2 a b))
       | _, _, _ => DUb
       end.

(* successor of a matrix edge at level v in add2, Package.hpp:780-800: a node below v (or the terminal)
   stands for the identity at v *)
Definition mchild (v : nat) (x : medge) (i j : bool) : medge :=
  match snd x with
  | MT => if eqb i j then x else mzero
  | MNode q w t => if Nat.ltb q v then (if eqb i j then x else mzero) else ((fst x * w i j)%C, t i j)
  end.
Definition seq4 {A} (f : bool -> bool -> dres A) : dres (bool -> bool -> A) :=
  let* a := f false false in let* b := f false true in let* c := f true false in
  let* d := f true true in
  DOk (fun i j : bool => if i then (if j then d else c) else (if j then b else a)).

Fixpoint madd (n : nat) (x y : medge) {struct n} : dres medge :=
  if ezero (fst x) then (if ezero (fst y) then DOk mzero else DOk y)
  else if ezero (fst y) then DOk x
  else if mtree_eq_dec (snd x) (snd y) then DOk ((fst x + fst y)%C, snd x)
  else match n with
       | O => DUb
       | S v => let* e := seq4 (fun i j => madd v (mchild v x i j) (mchild v y i j)) in
                DOk (mmk v e)
       end.

(* var as computed by add and multiply, Package.hpp:736-742, 1054-1060; as a count var + 1 *)
Definition vvar (t : vtree) : nat := match t with VT => 0 | VNode v _ _ => v end.
Definition mvar (t : mtree) : nat := match t with MT => 0 | MNode v _ _ => v end.
Definition vectorAdd (x y : vedge) : dres vedge :=
  let* r := vadd (S (Nat.max (vvar (snd x)) (vvar (snd y)))) x y in DOk (vlook r).
Definition matrixAdd (x y : medge) : dres medge :=
  let* r := madd (S (Nat.max (mvar (snd x)) (mvar (snd y)))) x y in DOk (mlook r).

(* ---- multiplication: Package.hpp:1040-1255 -------------------------------------------------- *)

(* successors in multiply2, Package.hpp:1165-1188: the weight of the parent edge is not included *)
Definition mchildM (v : nat) (t : mtree) (i j : bool) : medge :=
  match t with
  | MNode q w s => if Nat.eqb q v then (w i j, s i j) else if eqb i j then (C1, t) else mzero
  | MT => if eqb i j then (C1, t) else mzero
  end.
(* for a vector only yIdx = 0 counts as diagonal *)
Definition vchildM (v : nat) (t : vtree) (k : bool) : vedge :=
  match t with
  | VNode q w s => if Nat.eqb q v then (w k, s k) else if k then vzero else (C1, t)
  | VT => if k then vzero else (C1, t)
  end.

(* the accumulation `k == 0 || edge[idx].w.exactlyZero()`, Package.hpp:1229-1233 *)
Definition vacc (n : nat) (a b : vedge) : dres vedge :=
  if ezero (fst a) then DOk b else if ezero (fst b) then DOk a else vadd n a b.
Definition macc (n : nat) (a b : medge) : dres medge :=
  if ezero (fst a) then DOk b else if ezero (fst b) then DOk a else madd n a b.

Fixpoint mvmul (n : nat) (x : medge) (y : vedge) {struct n} : dres vedge :=
  if ezero (fst x) || ezero (fst y) then DOk vzero
  else match snd x with
       | MT => DOk ((fst x * fst y)%C, snd y)
       | MNode _ _ _ =>
         match n with
         | O => DUb
         | S v =>
           let entry i :=
             let* a := mvmul v (mchildM v (snd x) i false) (vchildM v (snd y) false) in
             let* b := mvmul v (mchildM v (snd x) i true) (vchildM v (snd y) true) in
             vacc v a b in
           let* a := entry false in
           let* b := entry true in
           let r := vmk v (v2 a b) in
           DOk ((fst r * (fst x * fst y))%C, snd r)
         end
       end.

Fixpoint mmmul (n : nat) (x y : medge) {struct n} : dres medge :=
  if ezero (fst x) || ezero (fst y) then DOk mzero
  else match snd x, snd y with
       | MT, _ => DOk ((fst x * fst y)%C, snd y)
       | _, MT => DOk ((fst x * fst y)%C, snd x)
       | _, _ =>
         match n with
         | O => DUb
         | S v =>
           let* e := seq4 (fun i j =>
             let* a := mmmul v (mchildM v (snd x) i false) (mchildM v (snd y) false j) in
             let* b := mmmul v (mchildM v (snd x) i true) (mchildM v (snd y) true j) in
             macc v a b) in
           let r := mmk v e in
           DOk ((fst r * (fst x * fst y))%C, snd r)
         end
       end.

Definition multiplyMV (x : medge) (y : vedge) : dres vedge :=
  let* r := mvmul (S (Nat.max (mvar (snd x)) (vvar (snd y)))) x y in DOk (vlook r).
Definition multiplyMM (x y : medge) : dres medge :=
  let* r := mmmul (S (Nat.max (mvar (snd x)) (mvar (snd y)))) x y in DOk (mlook r).

(* ---- conjugation: Package.cpp:833-893 --------------------------------------------------------- *)

(* conjugateRec, Package.cpp:838-863 (on the node; the caller multiplies by conj a.w) *)
Fixpoint vconj_node (t : vtree) : vedge :=
  match t with
  | VT => vone
  | VNode v w s =>
    vmk v (fun i => if ezero (w i) then vzero
                    else ((fst (vconj_node (s i)) * Cconj (w i))%C, snd (vconj_node (s i))))
  end.
Definition conjugate (a : vedge) : vedge :=
  ((fst (vconj_node (snd a)) * Cconj (fst a))%C, snd (vconj_node (snd a))).

(* conjugateTransposeRec, Package.cpp:868-893 *)
Fixpoint mct_node (t : mtree) : medge :=
  match t with
  | MT => mone
  | MNode v w s =>
    mmk v (fun i j => ((fst (mct_node (s j i)) * Cconj (w j i))%C, snd (mct_node (s j i))))
  end.
Definition conjugateTranspose (a : medge) : medge :=
  ((fst (mct_node (snd a)) * Cconj (fst a))%C, snd (mct_node (snd a))).

(* ---- inner product: Package.cpp:919-987 ------------------------------------------------------- *)

Definition ipchild (w : nat) (cj : bool) (t : vtree) (i : bool) : vedge :=
  match t with
  | VNode q ws s => if Nat.eqb q w then ((if cj then Cconj (ws i) else ws i), s i) else (C1, t)
  | VT => (C1, t)
  end.
Fixpoint ip_rec (var : nat) (x y : vedge) : C :=
  if ezero (fst x) then C0 else if ezero (fst y) then C0
  else match var with
       | O => (fst x * fst y)%C
       | S w =>
         ((ip_rec w (ipchild w true (snd x) false) (ipchild w false (snd y) false)
           + ip_rec w (ipchild w true (snd x) true) (ipchild w false (snd y) true))
          * (fst x * fst y))%C
       end.
Definition innerProduct (x y : vedge) : C :=
  match snd x, snd y with
  | VNode vx _ _, VNode vy _ _ =>
    if ezero (fst x) || ezero (fst y) then C0
    else ip_rec (S (Nat.max vx vy)) (Cconj (fst x), snd x) y
  | _, _ => C0
  end.
(* Package.cpp:931-933 *)
Definition fidelity (x y : vedge) : R := Cnorm2 (innerProduct x y).
(* expectationValue, Package.cpp:1021-1036 (a terminal y violates the assertion) *)
Definition expectationValue (x : medge) (y : vedge) : dres R :=
  match snd x, snd y with
  | _, VT => DUb
  | MNode vx _ _, VNode vy _ _ =>
    if Nat.ltb vy vx then DThrow
    else let* y' := multiplyMV x y in DOk (fst (innerProduct y y'))
  | MT, VNode _ _ _ => let* y' := multiplyMV x y in DOk (fst (innerProduct y y'))
  end.

(* ---- entries: Edge.cpp:41-80, 173-193, 355-378 ------------------------------------------------ *)

(* getValueByPath, Edge.cpp:41-80, on vectors.  `dec` holds the digits of the string (index = qubit);
   decisions.at throws beyond the end, a digit outside the successor array is undefined.
   c is the accumulated product, r the current edge. *)
Fixpoint vpath (level : nat) (r : vedge) (c : C) (dec : list nat) : dres C :=
  match level with
  | O => DOk c
  | S l =>
    match nth_error dec l with
    | None => DThrow
    | Some d =>
      let skipped :=
        if (match snd r with VT => ezero (fst r) | _ => false end) || Nat.eqb d 1 || Nat.eqb d 2
        then DOk C0 else vpath l r c dec in
      match snd r with
      | VT => skipped
      | VNode q w t =>
        if Nat.eqb q l then
          match d with
          | 0%nat => vpath l (w false, t false) (c * w false)%C dec
          | 1%nat => vpath l (w true, t true) (c * w true)%C dec
          | _ => DUb
          end
        else skipped
      end
    end
  end.
Definition vget_path (e : vedge) (n : nat) (dec : list nat) : dres C :=
  match snd e with VT => DOk (fst e) | _ => vpath n e (fst e) dec end.

(* getValueByIndex on vectors, Edge.cpp:173-193; floor(log2(i+1)) computed exactly *)
Definition bit_nat (i k : nat) : nat := if Nat.testbit i k then 1 else 0.
Definition vget (e : vedge) (i : nat) : dres C :=
  let bw := Nat.log2 (i + 1) in
  let bw := match snd e with VT => bw | VNode q _ _ => Nat.max bw (S q) end in
  vget_path e bw (map (bit_nat i) (seq 0 bw)).

(* the same on matrices *)
Fixpoint mpath (level : nat) (r : medge) (c : C) (dec : list nat) : dres C :=
  match level with
  | O => DOk c
  | S l =>
    match nth_error dec l with
    | None => DThrow
    | Some d =>
      let skipped :=
        if (match snd r with MT => ezero (fst r) | _ => false end) || Nat.eqb d 1 || Nat.eqb d 2
        then DOk C0 else mpath l r c dec in
      match snd r with
      | MT => skipped
      | MNode q w t =>
        if Nat.eqb q l then
          match d with
          | 0%nat => mpath l (w false false, t false false) (c * w false false)%C dec
          | 1%nat => mpath l (w false true, t false true) (c * w false true)%C dec
          | 2%nat => mpath l (w true false, t true false) (c * w true false)%C dec
          | 3%nat => mpath l (w true true, t true true) (c * w true true)%C dec
          | _ => DUb
          end
        else skipped
      end
    end
  end.
Definition mget_path (e : medge) (n : nat) (dec : list nat) : dres C :=
  match snd e with MT => DOk (fst e) | _ => mpath n e (fst e) dec end.
(* getValueByIndex on matrices, Edge.cpp:355-380 *)
Definition mget (e : medge) (n i j : nat) : dres C :=
  match snd e with
  | MT => DOk (fst e)
  | _ => mget_path e n (map (fun k => (2 * bit_nat i k + bit_nat j k)%nat) (seq 0 n))
  end.
