(* Reduction of ancillary and garbage qubits, magnitudes, and the test for the identity.
   src/dd/Package.cpp:1042-1482, include/mqt-core/dd/Package.hpp:850-938.

   Same representation as DDModel.  The successors that share a node are computed once in the code
   (`handled`); here each is computed, with the same result.  Reference counts are left out. *)
From Coq Require Import Reals List Bool Arith.
From Verif Require Import Cplx Qsem DDModel.
Import ListNotations.
Local Open Scope R_scope.

(* ComplexValue::mag *)
Definition cmag (w : C) : C := RtoC (Cmod w).

(* addMagnitudes, Package.hpp:864-938; the first argument is var + 1 *)
Definition root2 (a b : C) : C := RtoC (sqrt (Cnorm2 a + Cnorm2 b)).
Fixpoint vaddmag (n : nat) (x y : vedge) {struct n} : dres vedge :=
  if ezero (fst x) then (if ezero (fst y) then DOk vzero else DOk (cmag (fst y), snd y))
  else if ezero (fst y) then DOk (cmag (fst x), snd x)
  else if vtree_eq_dec (snd x) (snd y) then DOk (root2 (fst x) (fst y), snd x)
  else match n, snd x, snd y with
       | S v, VNode _ xw xt, VNode _ yw yt =>
         let* a := vaddmag v (vchild (fst x) xw xt false) (vchild (fst y) yw yt false) in
         let* b := vaddmag v (vchild (fst x) xw xt true) (vchild (fst y) yw yt true) in
         DOk (vmk v (v2 a b))
       | _, _, _ => DUb
       end.
Fixpoint maddmag (n : nat) (x y : medge) {struct n} : dres medge :=
  if ezero (fst x) then (if ezero (fst y) then DOk mzero else DOk (cmag (fst y), snd y))
  else if ezero (fst y) then DOk (cmag (fst x), snd x)
  else if mtree_eq_dec (snd x) (snd y) then DOk (root2 (fst x) (fst y), snd x)
  else match n with
       | O => DUb
       | S v => let* e := seq4 (fun i j => maddmag v (mchild v x i j) (mchild v y i j)) in
                DOk (mmk v e)
       end.

(* the flags of the qubits; vector<bool> out of range is undefined *)
Definition flagged (l : list bool) (q : nat) : dres bool := match nth_error l q with Some b => DOk b | None => DUb end.
(* 1149-1155, 1181-1187, 1227-1233: the lowest flagged qubit, 0 if there is none *)
Fixpoint first_flag (l : list bool) (i : nat) : nat :=
  match l with [] => 0%nat | b :: r => if b then i else first_flag r (S i) end.
Definition lowerbound (l : list bool) : nat := first_flag l 0.
Definition noneflag (l : list bool) : bool := negb (existsb (fun b => b) l).

(* a node for every flagged qubit from `from` on, `k` qubits: 1137-1143, 1162-1168, 1297-1303, 1311-1317
   and, with other successors, 1213-1222, 1241-1252, 1409-1419, 1433-1443 *)
Definition zero_rest (g : medge) : bool -> bool -> medge := m4 g mzero mzero mzero.
Definition copy_side (regular : bool) (g : medge) : bool -> bool -> medge :=
  if regular then m4 g g mzero mzero else m4 g mzero g mzero.
Fixpoint raise (node : medge -> bool -> bool -> medge) (flags : list bool) (from k : nat) (g : medge) : dres medge :=
  match k with
  | O => DOk g
  | S k' =>
    let* b := flagged flags from in
    raise node flags (S from) k' (if b then mmk from (node g) else g)
  end.
Definition raise_to node flags (from upto : nat) g := raise node flags from (upto - from) g.

(* ---- ancillary qubits -------------------------------------------------------------------------- *)

Definition mscale (k : C) (e : medge) : medge := ((fst e * k)%C, snd e).
(* 1267-1339 (reduceAncillaeRecursion) *)
Fixpoint manc (anc : list bool) (lb : nat) (regular : bool) (t : mtree) : dres medge :=
  match t with
  | MT => DUb
  | MNode v w s =>
    if Nat.ltb v lb then DOk (C1, t)
    else
      let child i j :=
        match s i j with
        | MT => if ezero (w i j) then DOk (w i j, MT)
                else let* g := raise_to zero_rest anc lb v mone in DOk (w i j, snd g)
        | MNode q _ _ =>
          let* f := manc anc lb regular (s i j) in
          let* g := raise_to zero_rest anc (S q) v f in DOk (mscale (w i j) g)
        end in
      let* a := flagged anc v in
      if a then
        if regular then
          let* e0 := child false false in let* e2 := child true false in
          DOk (mmk v (m4 e0 mzero e2 mzero))
        else
          let* e0 := child false false in let* e1 := child false true in
          DOk (mmk v (m4 e0 e1 mzero mzero))
      else let* e := seq4 child in DOk (mmk v e)
  end.
(* 1125-1172 *)
Definition reduceAncillae (e : medge) (anc : list bool) (regular : bool) : dres medge :=
  if noneflag anc then DOk e
  else match snd e with
       | MT => if ezero (fst e) then DOk e else raise_to zero_rest anc 0 (length anc) e
       | MNode v _ _ =>
         let lb := lowerbound anc in
         let* f := if Nat.leb lb v then manc anc lb regular (snd e) else DOk (C1, snd e) in
         let* g := raise_to zero_rest anc (S v) (length anc) f in
         DOk (mscale (fst e) g)
       end.
(* 1122-1124 *)
Definition createInitialMatrix (anc : list bool) : dres medge := reduceAncillae mone anc true.

(* ---- garbage qubits ---------------------------------------------------------------------------- *)

Definition magif (nw : bool) (w : C) : C := if nw then cmag w else w.
(* 1340-1385 (reduceGarbageRecursion, vectors) *)
Fixpoint vgarb (gar : list bool) (lb : nat) (nw : bool) (t : vtree) : dres vedge :=
  match t with
  | VT => DUb
  | VNode v w s =>
    if negb nw && Nat.ltb v lb then DOk (C1, t)
    else
      let child i :=
        match s i with
        | VT => DOk (magif nw (w i), VT)
        | VNode _ _ _ => let* f := vgarb gar lb nw (s i) in DOk (magif nw (fst f * w i)%C, snd f)
        end in
      let* a := child false in
      let* b := child true in
      let* g := flagged gar v in
      if g then let* r := vaddmag v a b in DOk (vmk v (v2 r vzero)) else DOk (vmk v (v2 a b))
  end.
(* 1173-1201 *)
Definition vterminal (e : vedge) : bool := match snd e with VT => true | _ => false end.
Definition reduceGarbageV (e : vedge) (gar : list bool) (nw : bool) : dres vedge :=
  if negb nw && (noneflag gar || vterminal e) then DOk e
  else
    let lb := lowerbound gar in
    match snd e with
    | VT => DUb
    | VNode v _ _ =>
      if negb nw && Nat.ltb v lb then DOk e
      else let* f := vgarb gar lb nw (snd e) in DOk (magif nw (fst e * fst f)%C, snd f)
    end.

(* 1386-1481 (reduceGarbageRecursion, matrices) *)
Fixpoint mgarb (gar : list bool) (lb : nat) (regular nw : bool) (t : mtree) : dres medge :=
  match t with
  | MT => DUb
  | MNode v w s =>
    if negb nw && Nat.ltb v lb then DOk (C1, t)
    else
      let child i j :=
        match s i j with
        | MT => if ezero (w i j) then DOk mzero
                else let* g := raise_to (copy_side regular) gar lb v mone in DOk (mscale (magif nw (w i j)) g)
        | MNode q _ _ =>
          let* f := mgarb gar lb regular nw (s i j) in
          let* g := raise_to (copy_side regular) gar (S q) v f in
          DOk (magif nw (fst g * w i j)%C, snd g)
        end in
      let* e := seq4 child in
      let* g := flagged gar v in
      if g then
        if regular then
          let* a := maddmag v (e false false) (e true false) in
          let* b := maddmag v (e false true) (e true true) in
          DOk (mmk v (m4 a b mzero mzero))
        else
          let* a := maddmag v (e false false) (e false true) in
          let* b := maddmag v (e true false) (e true true) in
          DOk (mmk v (m4 a mzero b mzero))
      else DOk (mmk v e)
  end.
(* 1202-1266 *)
Definition reduceGarbageM (e : medge) (gar : list bool) (regular nw : bool) : dres medge :=
  let zero := match snd e with MT => ezero (fst e) | _ => false end in
  if negb nw && (noneflag gar || zero) then DOk e
  else match snd e with
       | MT => if ezero (fst e) then DUb else raise_to (copy_side regular) gar 0 (length gar) e
       | MNode v _ _ =>
         let lb := lowerbound gar in
         let* f := if Nat.leb lb v || nw then mgarb gar lb regular nw (snd e) else DOk (C1, snd e) in
         let* g := raise_to (copy_side regular) gar (S v) (length gar) f in
         DOk (magif nw (fst g * fst e)%C, snd g)
       end.

(* ---- isCloseToIdentity ----------------------------------------------------------------------------- *)

(* ComplexNumbers::arg, src/dd/ComplexNumbers.cpp: std::arg *)
Definition carg (w : C) : R :=
  if ezero w then 0 else if Rle_dec 0 (snd w) then acos (fst w / Cmod w) else - acos (fst w / Cmod w).

(* 1042-1118.  Nodes visited before are not visited again: they have been accepted, or the answer is
   false already. *)
Section close.
Variables (tol : R) (gar : list bool) (checkOne : bool).
Definition gt (a b : R) : bool := if Rlt_dec b a then true else false.
Definition far_from_one (w : C) : bool := gt (Rabs (Cnorm2 w - 1)) tol || gt (Rabs (carg w)) tol.
Fixpoint close (t : mtree) : bool :=
  match t with
  | MT => true
  | MNode v w s =>
    if nth v gar false then close (s false false) && close (s false true) && close (s true false) && close (s true true)
    else if gt (Cnorm2 (w false true)) tol || gt (Cnorm2 (w true false)) tol then false
    else if checkOne &&
            (far_from_one (w false false) || (gt (Cnorm2 (w true true)) tol && far_from_one (w true true)))
    then false
    else close (s false false) && close (s true true)
  end.
End close.
Definition isCloseToIdentity (m : medge) (tol : R) (gar : list bool) (checkOne : bool) : bool :=
  close tol gar checkOne (snd m).
