(* Information stored in the low bits of pointers: signs of real numbers (src/dd/RealNumber.cpp,
   src/dd/ComplexNumbers.cpp) and flags of density-matrix edges (include/mqt-core/dd/Node.hpp:112-199,
   src/dd/Node.cpp).  Addresses are natural numbers of any size. *)
From Coq Require Import NArith Reals List Bool Lia.
Import ListNotations.
Local Open Scope N_scope.

(* ---- real numbers ---------------------------------------------------------------------------------- *)
(* RealNumber.cpp:26-47 (LSB = 1); zero is &constants::zero *)
Definition getAlignedPointer (e : N) : N := N.ldiff e 1.
Definition getNegativePointer (e : N) : N := N.lor e 1.
Definition isNegativePointer (e : N) : bool := negb (N.eqb (N.land e 1) 0).
Definition flipPointerSign (zero e : N) : N := if N.eqb e zero then zero else N.lxor e 1.
(* RealNumber.cpp:49-55; mem holds the value field of the number at an address *)
Definition val (mem : N -> R) (e : N) : R :=
  if isNegativePointer e then (- mem (getAlignedPointer e))%R else mem e.
(* ComplexNumbers.cpp:44-50 *)
Definition complex := (N * N)%type.
Definition conjc (zero : N) (a : complex) : complex := (fst a, flipPointerSign zero (snd a)).
Definition negc (zero : N) (a : complex) : complex := (flipPointerSign zero (fst a), flipPointerSign zero (snd a)).

(* reference counting of numbers, RealNumber.cpp:79-105: static numbers and saturated counts are left alone.
   None: decrement of a zero count (assertion) *)
Definition maxRef : N := 2 ^ 32 - 1.
Definition noRefCountingNeeded (statics : list N) (refs : N -> N) (p : N) : bool :=
  N.eqb p 0 || existsb (N.eqb p) statics || N.eqb (refs p) maxRef.
Definition updN {A} (f : N -> A) (a : N) (x : A) : N -> A := fun b => if N.eqb b a then x else f b.
Definition incRefR (statics : list N) (refs : N -> N) (e : N) : (N -> N) * bool :=
  let p := getAlignedPointer e in
  if noRefCountingNeeded statics refs p then (refs, false) else (updN refs p (refs p + 1), true).
Definition decRefR (statics : list N) (refs : N -> N) (e : N) : option ((N -> N) * bool) :=
  let p := getAlignedPointer e in
  if noRefCountingNeeded statics refs p then Some (refs, false)
  else if N.eqb (refs p) 0 then None else Some (updN refs p (refs p - 1), true).

(* ---- density-matrix nodes ----------------------------------------------------------------------------- *)
Record dedge := { dp : N; dw : complex }.
Record dnode := { flags : N; e0 : dedge; e1 : dedge; e2 : dedge; e3 : dedge }.
Definition dheap := N -> dnode.
(* Node.hpp:130-181: bit 0 conjugate, bit 1 non-reduce ("first edge"), bit 2 density matrix *)
Definition isConj (p : N) : bool := N.testbit p 0.
Definition isNonReduce (p : N) : bool := N.testbit p 1.
Definition isDensity (p : N) : bool := N.testbit p 2.
Definition setConj (p : N) : N := N.lor p 1.
Definition setNonReduce (p : N) : N := N.lor p 2.
Definition setDensity (p : N) : N := N.lor p 4.
Definition alignD (p : N) : N := N.ldiff p 7.
Definition tempFlags (p : N) : N := N.land p 7.
Definition mapP (f : N -> N) (e : dedge) : dedge := {| dp := f (dp e); dw := dw e |}.
Definition mapW (f : complex -> complex) (e : dedge) : dedge := {| dp := dp e; dw := f (dw e) |}.
Definition mapN (f : dedge -> dedge) (n : dnode) : dnode :=
  {| flags := flags n; e0 := f (e0 n); e1 := f (e1 n); e2 := f (e2 n); e3 := f (e3 n) |}.
Definition swapN (n : dnode) : dnode := {| flags := flags n; e0 := e0 n; e1 := e2 n; e2 := e1 n; e3 := e3 n |}.
Definition setFlags (f : N) (n : dnode) : dnode := {| flags := f; e0 := e0 n; e1 := e1 n; e2 := e2 n; e3 := e3 n |}.

(* alignDensityNodeNode, Node.cpp:30-65 *)
Definition alignDensityNodeNode (zero : N) (h : dheap) (p : N) : dheap * N * N :=
  let f := tempFlags p in
  let p' := alignD p in
  if N.eqb p' 0 then (h, p', 0)
  else if isNonReduce f && negb (isConj f) then (h, p', f)
  else if negb (isConj f) then
    let n := h p' in
    let n1 := {| flags := flags n; e0 := e0 n; e1 := mapP setNonReduce (e1 n);
                 e2 := mapP setConj (mapW (conjc zero) (e2 n)); e3 := e3 n |} in
    (updN h p' (mapN (mapP setDensity) n1), p', f)
  else
    let n := swapN (h p') in
    (updN h p' (mapN (fun e => mapP setDensity (mapP setConj (mapW (conjc zero) e))) n), p', f).
(* getAlignedNodeRevertModificationsOnSubEdges, Node.cpp:67-92 *)
Definition revertSub (zero : N) (h : dheap) (p : N) : dheap :=
  let p := alignD p in
  let n := mapN (mapP alignD) (h p) in
  if isNonReduce (flags n) && negb (isConj (flags n)) then updN h p n
  else if negb (isConj (flags n)) then
    updN h p {| flags := flags n; e0 := e0 n; e1 := e1 n; e2 := mapW (conjc zero) (e2 n); e3 := e3 n |}
  else updN h p (swapN (mapN (mapW (conjc zero)) n)).

(* outcome: value, failed assertion, misaligned access *)
Inductive tres (A : Type) := TOk (a : A) | TAbort | TUb.
Arguments TOk {A}. Arguments TAbort {A}. Arguments TUb {A}.
(* applyDmChangesToNode, Node.cpp:94-103; debug tells whether assertions are compiled in *)
Definition applyDm (debug : bool) (zero : N) (h : dheap) (p : N) : tres (dheap * N) :=
  if isDensity p then
    let '(h1, p1, tmp) := alignDensityNodeNode zero h p in
    if N.eqb p1 0 then TOk (h1, p1)
    else if debug && negb (N.eqb (tempFlags (flags (h1 p1))) 0) then TAbort
    else TOk (updN h1 p1 (setFlags (N.lor (flags (h1 p1)) tmp) (h1 p1)), p1)
  else TOk (h, p).
(* revertDmChangesToNode, Node.cpp:105-110 *)
Definition revertDm (zero : N) (h : dheap) (p : N) : tres dheap :=
  if N.eqb p 0 then TOk h
  else if negb (N.eqb (tempFlags p) 0) then TUb
  else if isDensity (flags (h p)) then
    let h1 := revertSub zero h p in
    TOk (updN h1 p (setFlags (N.ldiff (flags (h1 p)) 7) (h1 p)))
  else TOk h.
(* applyDmChangesToEdges followed by revertDmChangesToEdges on the same edges, Edge.hpp:334-354 *)
Definition roundTrip (debug : bool) (zero : N) (h : dheap) (x y : dedge) : tres (dheap * dedge * dedge) :=
  match applyDm debug zero h (dp x) with
  | TOk (h1, px) =>
    match applyDm debug zero h1 (dp y) with
    | TOk (h2, py) =>
      match revertDm zero h2 px with
      | TOk h3 =>
        match revertDm zero h3 py with
        | TOk h4 => TOk (h4, {| dp := px; dw := dw x |}, {| dp := py; dw := dw y |})
        | TAbort => TAbort | TUb => TUb
        end
      | TAbort => TAbort | TUb => TUb
      end
    | TAbort => TAbort | TUb => TUb
    end
  | TAbort => TAbort | TUb => TUb
  end.
