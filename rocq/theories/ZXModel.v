(* ZX diagrams: include/mqt-core/zx/ZXDiagram.hpp, ZXDefinitions.hpp, src/zx/ZXDiagram.cpp, Utils.cpp, Rules.cpp
   and Simplify.cpp.

   Simplifications. The vectors `vertices` and `edges` are functions of the vertex number together with the common
   length d_size; numbers outside the vector read as a deleted vertex without edges (reading them is undefined in
   C++; C57 shows that every stored vertex number is in range). Columns of vertices, which are only used for drawing,
   are left out. A phase is an exact constant together with exact rational coefficients of symbols; the code keeps the
   coefficients of symbols as doubles and drops terms below 1e-13. *)
From Coq Require Import QArith ZArith Bool List Arith.
From Verif Require Import PiModel.
Import ListNotations.
Local Close Scope Q_scope.
Local Open Scope nat_scope.

(* PiExpression, ZXDefinitions.hpp:77 = sym::Expression<double, PiRational>: constant and terms sorted by variable *)
Definition phase := (pirat * list (nat * Q))%type.
Definition p_zero : phase := (0%Q, []).
Definition p_const (q : Q) : phase := (modPi q, []).
Definition p_pi : phase := p_const 1.
(* Expression.hpp isZero, isConstant *)
Definition p_isZero (p : phase) : bool := match snd p with [] => pi_isZero (fst p) | _ => false end.
Definition p_isConstant (p : phase) : bool := match snd p with [] => true | _ => false end.
(* Expression.hpp aggregateEqualTerms after merging *)
Fixpoint s_add (v : nat) (k : Q) (s : list (nat * Q)) : list (nat * Q) :=
  match s with
  | [] => if Qeq_bool k 0 then [] else [(v, Qred k)]
  | (w, l) :: s' =>
      if v =? w then let m := Qred (k + l) in if Qeq_bool m 0 then s' else (w, m) :: s'
      else if v <? w then if Qeq_bool k 0 then s else (v, Qred k) :: s else (w, l) :: s_add v k s'
  end.
(* Expression.hpp operator+= *)
Definition p_add (p q : phase) : phase :=
  if p_isZero p then q else if p_isZero q then p
  else (pi_add (fst p) (fst q), fold_left (fun s t => s_add (fst t) (snd t) s) (snd q) (snd p)).
(* Expression.hpp operator- *)
Definition p_neg (p : phase) : phase := (pi_neg (fst p), map (fun t => (fst t, (- snd t)%Q)) (snd p)).
(* Utils.cpp:149-158 isPauli, isProperClifford; boost keeps rationals in lowest terms *)
Definition p_isPauli (p : phase) : bool := p_isConstant p && pi_isInteger (Qred (fst p)).
Definition p_isProperClifford (p : phase) : bool := p_isConstant p && Pos.eqb (Qden (Qred (fst p))) 2.

(* ZXDefinitions.hpp:32-60 *)
Inductive vtype := VBoundary | VZ | VX.
Definition vtype_eqb (a b : vtype) : bool :=
  match a, b with VBoundary, VBoundary | VZ, VZ | VX, VX => true | _, _ => false end.
Record vdata := mkV { v_qubit : Z; v_phase : phase; v_type : vtype }.
(* an edge: target and whether it is a Hadamard edge (true) or a simple one (false) *)
Notation edge := (nat * bool)%type.

Record diag := mkD {
  d_size : nat;                       (* vertices.size() = edges.size() *)
  d_verts : nat -> option vdata;
  d_edges : nat -> list edge;
  d_deleted : list nat;               (* the stack, last element first *)
  d_in : list nat; d_out : list nat;
  d_nv : Z; d_ne : Z;                 (* nvertices, nedges *)
  d_gphase : phase
}.
Definition zupd {A} (f : nat -> A) (k : nat) (a : A) : nat -> A := fun x => if x =? k then a else f x.

Definition d_empty : diag := mkD 0 (fun _ => None) (fun _ => []) [] [] [] 0 0 p_zero.

Definition set_verts (d : diag) f := mkD (d_size d) f (d_edges d) (d_deleted d) (d_in d) (d_out d) (d_nv d) (d_ne d) (d_gphase d).
Definition set_edges (d : diag) f := mkD (d_size d) (d_verts d) f (d_deleted d) (d_in d) (d_out d) (d_nv d) (d_ne d) (d_gphase d).
Definition set_ne (d : diag) n := mkD (d_size d) (d_verts d) (d_edges d) (d_deleted d) (d_in d) (d_out d) (d_nv d) n (d_gphase d).
Definition set_io (d : diag) i o := mkD (d_size d) (d_verts d) (d_edges d) (d_deleted d) i o (d_nv d) (d_ne d) (d_gphase d).
Definition set_gphase (d : diag) g := mkD (d_size d) (d_verts d) (d_edges d) (d_deleted d) (d_in d) (d_out d) (d_nv d) (d_ne d) g.

(* ZXDiagram.hpp:158-175, 205-260 *)
Definition live (d : diag) (v : nat) : bool := match d_verts d v with Some _ => true | None => false end.
Definition vphase (d : diag) (v : nat) : phase := match d_verts d v with Some a => v_phase a | None => p_zero end.
Definition vty (d : diag) (v : nat) : vtype := match d_verts d v with Some a => v_type a | None => VX end.
Definition vqubit (d : diag) (v : nat) : Z := match d_verts d v with Some a => v_qubit a | None => 0%Z end.
Definition isBoundary (d : diag) (v : nat) : bool := vtype_eqb (vty d v) VBoundary.
Definition degree (d : diag) (v : nat) : nat := length (d_edges d v).
Definition mod_vertex (d : diag) (v : nat) (f : vdata -> vdata) : diag :=
  set_verts d (zupd (d_verts d) v (option_map f (d_verts d v))).
Definition addPhase (d : diag) (v : nat) (p : phase) : diag :=
  mod_vertex d v (fun a => mkV (v_qubit a) (p_add (v_phase a) p) (v_type a)).
Definition setPhase (d : diag) (v : nat) (p : phase) : diag := mod_vertex d v (fun a => mkV (v_qubit a) p (v_type a)).
Definition setType (d : diag) (v : nat) (t : vtype) : diag := mod_vertex d v (fun a => mkV (v_qubit a) (v_phase a) t).
Definition addGlobalPhase (d : diag) (p : phase) : diag := set_gphase d (p_add (d_gphase d) p).

(* ZXDiagram.cpp:33-38 *)
Definition pushHalf (d : diag) (v : nat) (e : edge) : diag := set_edges d (zupd (d_edges d) v (d_edges d v ++ [e])).
Definition addEdge (d : diag) (from to : nat) (h : bool) : diag :=
  let d1 := pushHalf (pushHalf d from (to, h)) to (from, h) in set_ne d1 (d_ne d1 + 1).
(* 97-102 *)
Definition removeHalfEdge (d : diag) (from to : nat) : diag :=
  set_edges d (zupd (d_edges d) from (filter (fun e => negb (fst e =? to)) (d_edges d from))).
(* 91-95 *)
Definition removeEdge (d : diag) (from to : nat) : diag :=
  let d1 := removeHalfEdge (removeHalfEdge d from to) to from in set_ne d1 (d_ne d1 - 1).
(* 162-180: the first edge from `from` to `to` *)
Definition getEdge (d : diag) (from to : nat) : option edge := find (fun e => fst e =? to) (d_edges d from).
(* 149-160 *)
Definition connected (d : diag) (from to : nat) : bool :=
  live d from && live d to && match getEdge d from to with Some _ => true | None => false end.
(* vector::erase of the first edge from `from` to `to`; toggling it *)
Fixpoint erase_first (to : nat) (l : list edge) : list edge :=
  match l with [] => [] | e :: l' => if fst e =? to then l' else e :: erase_first to l' end.
Fixpoint toggle_first (to : nat) (l : list edge) : list edge :=
  match l with [] => [] | e :: l' => if fst e =? to then (fst e, negb (snd e)) :: l' else e :: toggle_first to l' end.
Definition eraseEdgePtr (d : diag) (from to : nat) : diag := set_edges d (zupd (d_edges d) from (erase_first to (d_edges d from))).
Definition toggleEdgePtr (d : diag) (from to : nat) : diag := set_edges d (zupd (d_edges d) from (toggle_first to (d_edges d from))).

(* 40-89 *)
Definition addEdgeParallelAware (d : diag) (from to : nat) (h : bool) : diag :=
  if from =? to then if negb (isBoundary d from) && h then addPhase d from p_pi else d
  else
    match getEdge d from to with
    | None => addEdge d from to h
    | Some (_, h') =>
        if isBoundary d from || isBoundary d to then d
        else if vtype_eqb (vty d from) (vty d to) then
          match h', h with
          | true, true => let d1 := removeHalfEdge (eraseEdgePtr d from to) to from in set_ne d1 (d_ne d1 - 1)
          | true, false => addPhase (toggleEdgePtr (toggleEdgePtr d from to) to from) from p_pi
          | false, true => addPhase d from p_pi
          | false, false => d
          end
        else
          match h', h with
          | false, false => let d1 := removeHalfEdge (eraseEdgePtr d from to) to from in set_ne d1 (d_ne d1 - 1)
          | true, false => addPhase d from p_pi
          | false, true => addPhase (toggleEdgePtr (toggleEdgePtr d from to) to from) from p_pi
          | true, true => d
          end
    end.

(* 104-122; the returned number of an appended vertex is nvertices - 1 *)
Definition addVertex (d : diag) (a : vdata) : diag * nat :=
  match d_deleted d with
  | v :: rest =>
      (mkD (d_size d) (zupd (d_verts d) v (Some a)) (zupd (d_edges d) v []) rest (d_in d) (d_out d) (d_nv d + 1) (d_ne d) (d_gphase d), v)
  | [] =>
      (mkD (S (d_size d)) (zupd (d_verts d) (d_size d) (Some a)) (zupd (d_edges d) (d_size d) []) [] (d_in d) (d_out d)
         (d_nv d + 1) (d_ne d) (d_gphase d), Z.to_nat (d_nv d))
  end.
(* 138-147: the edges of the removed vertex stay in place until the number is used again *)
Definition removeVertex (d : diag) (v : nat) : diag :=
  let d0 := mkD (d_size d) (zupd (d_verts d) v None) (d_edges d) (v :: d_deleted d) (d_in d) (d_out d) (d_nv d - 1) (d_ne d) (d_gphase d) in
  fold_left (fun d' e => let d1 := removeHalfEdge d' (fst e) v in set_ne d1 (d_ne d1 - 1)) (d_edges d v) d0.
(* 124-136 *)
Definition addQubit (d : diag) : diag :=
  let n := Z.of_nat (length (d_in d)) in
  let '(d1, i) := addVertex d (mkV (n + 1) p_zero VBoundary) in
  let '(d2, o) := addVertex d1 (mkV (n + 1) p_zero VBoundary) in
  set_io d2 (d_in d2 ++ [i]) (d_out d2 ++ [o]).

(* getVertices, getEdges through the iterators of Utils.cpp:19-148 *)
Definition getVertices (d : diag) : list nat := filter (live d) (seq 0 (d_size d)).
Definition getEdges (d : diag) : list (nat * nat) :=
  flat_map (fun v => map (fun e => (v, fst e)) (filter (fun e => v <=? fst e) (d_edges d v))) (getVertices d).

(* 200-217 *)
Definition toggle_back (d : diag) (v : nat) (es : list edge) : diag := fold_left (fun d' e => toggleEdgePtr d' (fst e) v) es d.
Definition graphlike_vertex (d : diag) (v : nat) : diag :=
  match d_verts d v with
  | Some a =>
      match v_type a with
      | VX => setType (toggle_back (set_edges d (zupd (d_edges d) v (map (fun e => (fst e, negb (snd e))) (d_edges d v)))) v (d_edges d v)) v VZ
      | _ => d
      end
  | None => d
  end.
Definition toGraphlike (d : diag) : diag := fold_left graphlike_vertex (seq 0 (d_size d)) d.
(* 219-236 *)
Definition invert (d : diag) : diag :=
  set_io (set_verts d (fun v => option_map (fun a => mkV (v_qubit a) (p_neg (v_phase a)) (v_type a)) (d_verts d v))) (d_out d) (d_in d).
Definition memb (v : nat) (l : list nat) : bool := existsb (Nat.eqb v) l.

(* 238-288 *)
Definition concat_verts (rhs : diag) : diag -> diag * (nat -> nat) :=
  fun d => fold_left (fun '(d', m) i =>
    match d_verts rhs i with
    | Some a => if memb i (d_in rhs) then (d', m) else let '(d1, v) := addVertex d' a in (d1, zupd m i v)
    | None => (d', m)
    end) (seq 0 (d_size rhs)) (d, fun _ => 0).
Definition concat_edges_of (rhs : diag) (m : nat -> nat) (i : nat) (d : diag) : diag :=
  fold_left (fun d' e =>
    let '(to, h) := e in
    if negb (memb to (d_in rhs)) then if i <? to then addEdge d' (m i) (m to) h else d'
    else
      let outV := nth (Z.to_nat (vqubit rhs to)) (d_out d') 0 in
      fold_left (fun d2 e2 => addEdge d2 (fst e2) (m i) (xorb (snd e2) h)) (d_edges d' outV) d') (d_edges rhs i) d.
Definition concat_edges (rhs : diag) (m : nat -> nat) (d : diag) : diag :=
  fold_left (fun d' i => if live rhs i && negb (memb i (d_in rhs)) then concat_edges_of rhs m i d' else d') (seq 0 (d_size rhs)) d.
Definition concat (d rhs : diag) : option diag :=
  if negb (length (d_in rhs) =? length (d_in d)) then None
  else
    let '(d1, m) := concat_verts rhs d in
    let d2 := concat_edges rhs m d1 in
    let d3 := fold_left removeVertex (d_out d2) d2 in
    let d4 := set_io d3 (d_in d3) (map (fun i => m (nth i (d_out rhs) 0)) (seq 0 (length (d_out d3)))) in
    Some (addGlobalPhase d4 (p_neg (d_gphase rhs))).
(* 290-302 *)
Definition isIdentity (d : diag) : bool :=
  Z.eqb (d_ne d) (Z.of_nat (length (d_in d))) && p_isZero (d_gphase d) &&
  forallb (fun i => connected d (nth i (d_in d) 0) (nth i (d_out d) 0)) (seq 0 (length (d_in d))).
(* 304-332, 28-31 *)
Definition initGraph (d : diag) (n : nat) : diag * list nat :=
  fold_left (fun '(d', l) i =>
    let '(d1, v) := addVertex d' (mkV (Z.of_nat i) p_zero VBoundary) in (set_io d1 (d_in d1 ++ [v]) (d_out d1), l ++ [v])) (seq 0 n) (d, []).
Definition closeGraph (d : diag) (qs : list nat) : diag :=
  fold_left (fun d' v =>
    match d_verts d' v with
    | None => d'
    | Some a =>
        let '(d1, w) := addVertex d' (mkV (v_qubit a) p_zero VBoundary) in
        let d2 := addEdge d1 v w false in set_io d2 (d_in d2) (d_out d2 ++ [w])
    end) qs d.
Definition mkDiagram (n : nat) : diag := let '(d, qs) := initGraph d_empty n in closeGraph d qs.
(* 334-342 *)
Fixpoint remove_nth {A} (i : nat) (l : list A) : list A :=
  match l, i with [], _ => [] | _ :: l', 0 => l' | a :: l', S i' => a :: remove_nth i' l' end.
Definition makeAncilla (d : diag) (i o : nat) : diag :=
  let inV := nth i (d_in d) 0 in
  let outV := nth o (d_out d) 0 in
  setType (setType (set_io d (remove_nth i (d_in d)) (remove_nth o (d_out d))) inV VX) outV VX.
(* 352-385; fuel for the stack *)
Fixpoint reach_boundary (fuel : nat) (d : diag) (visited stack : list nat) : option bool :=
  match fuel with
  | 0 => None
  | S f =>
      match stack with
      | [] => Some false
      | w :: st =>
          if memb w visited then reach_boundary f d visited st
          else if memb w (d_in d) || memb w (d_out d) then Some true
          else reach_boundary f d (w :: visited) (rev (map fst (d_edges d w)) ++ st)
      end
  end.
Definition connectedToBoundary (fuel : nat) (d : diag) (v : nat) : option bool := reach_boundary fuel d [] [v].
Definition removeDisconnectedSpiders (fuel : nat) (d : diag) : option diag :=
  fold_left (fun od v =>
    match od with
    | None => None
    | Some d' =>
        if negb (live d' v) then Some d'
        else match connectedToBoundary fuel d' v with
             | None => None
             | Some true => Some d'
             | Some false => Some (removeVertex d' v)
             end
    end) (seq 0 (d_size d)) (Some d).

(* ---- Rules.cpp ------------------------------------------------------------------------------------------------- *)
(* 25-34 *)
Definition isPauliV (d : diag) (v : nat) : bool := p_isPauli (vphase d v).
Definition isInterior (d : diag) (v : nat) : bool :=
  forallb (fun e => (1 <? degree d (fst e)) && vtype_eqb (vty d (fst e)) VZ) (d_edges d v).
(* 36-46 *)
Definition extractGadget (d : diag) (v : nat) : diag :=
  match d_verts d v with
  | None => d
  | Some a =>
      let '(d1, ph) := addVertex d (mkV (v_qubit a) (v_phase a) VZ) in
      let '(d2, idv) := addVertex d1 (mkV (v_qubit a) p_zero VZ) in
      addEdge (addEdge (setPhase d2 v (p_const 0)) v idv true) idv ph true
  end.
(* 48-54 *)
Definition extractPauliGadget (d : diag) (v : nat) : diag := if isPauliV d v then d else extractGadget d v.
(* 56-78 *)
Definition ensureInterior (d : diag) (v : nat) : diag :=
  match d_verts d v with
  | None => d
  | Some a =>
      fold_left (fun d' e =>
        let '(to, h) := e in
        if negb (isBoundary d' to) then d'
        else
          let '(d1, w) := addVertex d' (mkV (v_qubit a) (p_const 0) VZ) in
          removeEdge (addEdge (addEdge d1 v w true) to w (negb h)) v to) (d_edges d v) d
  end.
(* 80-83 *)
Definition ensurePauliVertex (d : diag) (v : nat) : diag := ensureInterior (extractPauliGadget d v) v.
(* 86-89 *)
Definition checkIdSimp (d : diag) (v : nat) : bool :=
  (degree d v =? 2) && p_isZero (vphase d v) && negb (isBoundary d v).
(* 91-102 *)
Definition removeId (d : diag) (v : nat) : diag :=
  let e0 := nth 0 (d_edges d v) (0, false) in
  let e1 := nth 1 (d_edges d v) (0, false) in
  removeVertex (addEdgeParallelAware d (fst e0) (fst e1) (xorb (snd e0) (snd e1))) v.
(* 104-111 *)
Definition checkSpiderFusion (d : diag) (v0 v1 : nat) : bool :=
  negb (v0 =? v1) && vtype_eqb (vty d v0) (vty d v1) &&
  match getEdge d v0 v1 with Some (_, h) => negb h | None => false end && negb (vtype_eqb (vty d v0) VBoundary).
(* 113-121 *)
Definition fuseSpiders (d : diag) (v0 v1 : nat) : diag :=
  let d1 := addPhase d v0 (vphase d v1) in
  let d2 := fold_left (fun d' e => if negb (v0 =? fst e) then addEdgeParallelAware d' v0 (fst e) (snd e) else d') (d_edges d v1) d1 in
  removeVertex d2 v1.
(* 123-135 *)
Definition checkLocalComp (d : diag) (v : nat) : bool :=
  match d_verts d v with
  | None => false
  | Some a => vtype_eqb (v_type a) VZ && p_isProperClifford (v_phase a) &&
              forallb (fun e => snd e && vtype_eqb (vty d (fst e)) VZ) (d_edges d v)
  end.
(* 137-153 *)
Fixpoint lc_pairs (p : phase) (ns : list nat) (d : diag) : diag :=
  match ns with
  | [] => d
  | n0 :: ns' => lc_pairs p ns' (fold_left (fun d' n1 => addEdgeParallelAware d' n0 n1 true) ns' (addPhase d n0 p))
  end.
Definition localComp (d : diag) (v : nat) : diag :=
  let d1 := lc_pairs (p_neg (vphase d v)) (map fst (d_edges d v)) d in
  removeVertex (addGlobalPhase d1 (p_const (Qnum (fst (vphase d1 v)) # 4))) v.
(* 155-184; both data are read from v0 *)
Definition validPauliEdge (d : diag) (e : edge) : bool := vtype_eqb (vty d (fst e)) VZ && snd e.
Definition checkPivotPauli (d : diag) (v0 v1 : nat) : bool :=
  match d_verts d v0 with
  | None => false
  | Some a =>
      vtype_eqb (v_type a) VZ && isPauliV d v0 && isPauliV d v1 &&
      match getEdge d v0 v1 with Some (_, h) => h | None => false end &&
      forallb (validPauliEdge d) (d_edges d v0) && forallb (validPauliEdge d) (d_edges d v1)
  end.
(* 186-218 *)
Definition pivotPauli (d : diag) (v0 v1 : nat) : diag :=
  let p0 := vphase d v0 in
  let p1 := vphase d v1 in
  let n0s := map fst (d_edges d v0) in
  let n1s := map fst (d_edges d v1) in
  let da := if negb (p_isZero p0) && negb (p_isZero p1) then addGlobalPhase d p_pi else d in
  let db := fold_left (fun d' n => if n =? v1 then d' else
    fold_left (fun d2 m => if negb (m =? v0) then addEdgeParallelAware d2 n m true else d2) n1s (addPhase d' n p1)) n0s da in
  let dc := fold_left (fun d' m => addPhase d' m p0) n1s db in
  removeVertex (removeVertex dc v0) v1.
(* 220-252 *)
Definition invalidPivotEdge (d : diag) (e : edge) : bool :=
  (negb (vtype_eqb (vty d (fst e)) VZ) || negb (snd e)) && negb (vtype_eqb (vty d (fst e)) VBoundary).
Definition checkPivot (d : diag) (v0 v1 : nat) : bool :=
  negb (v0 =? v1) && vtype_eqb (vty d v0) VZ && vtype_eqb (vty d v1) VZ &&
  match getEdge d v0 v1 with Some (_, h) => h | None => false end &&
  negb (existsb (invalidPivotEdge d) (d_edges d v0)) && negb (existsb (invalidPivotEdge d) (d_edges d v1)) &&
  ((isInterior d v0 && isPauliV d v0) || (isInterior d v1 && isPauliV d v1)).
(* 254-261 *)
Definition pivot (d : diag) (v0 v1 : nat) : diag := pivotPauli (ensurePauliVertex (ensurePauliVertex d v0) v1) v0 v1.
(* 263-278 *)
Definition checkPivotGadget (d : diag) (v0 v1 : nat) : bool :=
  xorb (isPauliV d v0) (isPauliV d v1) && isInterior d v0 && isInterior d v1 && checkPivot d v0 v1.
(* 280-287 *)
Definition pivotGadget (d : diag) (v0 v1 : nat) : diag :=
  pivotPauli (if isPauliV d v0 then extractGadget d v1 else extractGadget d v0) v0 v1.

(* 289-394. The neighbour through which the second gadget is searched is the last one of id0 other than v. *)
Fixpoint last_neighbour (v : nat) (es : list edge) (acc : option nat) : option (option nat) :=
  match es with
  | [] => Some acc
  | (n, h) :: es' => if n =? v then last_neighbour v es' acc else if negb h then None else last_neighbour v es' (Some n)
  end.
(* 343-369: scan the neighbours of a candidate id1; returns (foundGadget, phaseSpider) *)
Fixpoint scan_gadget (d : diag) (id0 : nat) (es : list edge) (ps : option nat) : bool * option nat :=
  match es with
  | [] => (true, ps)
  | (nn, h) :: es' =>
      if negb h || negb (live d nn) then (false, ps)
      else if (degree d nn =? 1) && negb (isBoundary d nn) then scan_gadget d id0 es' (Some nn)
      else match getEdge d nn id0 with
           | None => (false, ps)
           | Some _ => scan_gadget d id0 es' ps
           end
  end.
(* 326-374: the candidates; the phase spider found for a rejected candidate is kept *)
Fixpoint find_gadget (d : diag) (id0 : nat) (es : list edge) (ps : option nat) : option (nat * option nat) :=
  match es with
  | [] => None
  | (n, h) :: es' =>
      if (n =? id0) || negb h || negb (live d n) || negb (isPauliV d n) || negb (degree d n =? degree d id0) || connected d n id0
      then find_gadget d id0 es' ps
      else
        match scan_gadget d id0 (d_edges d n) ps with
        | (true, ps') => Some (n, ps')
        | (false, ps') => find_gadget d id0 es' ps'
        end
  end.
(* None: no change was made (false is returned) *)
Definition checkAndFuseGadget (d : diag) (v : nat) : option diag :=
  if negb (degree d v =? 1) || isBoundary d v then None
  else
    let '(id0, h0) := nth 0 (d_edges d v) (0, false) in
    if negb (isPauliV d id0) || (degree d id0 <? 2) || negb h0 then None
    else if degree d id0 =? 2 then
      let '(v0, h) := if fst (nth 0 (d_edges d id0) (0, false)) =? v then nth 1 (d_edges d id0) (0, false) else nth 0 (d_edges d id0) (0, false) in
      if negb h then None
      else
        let d1 := addPhase d v0 (if p_isZero (vphase d id0) then vphase d v else p_neg (vphase d v)) in
        Some (removeVertex (removeVertex d1 v) id0)
    else
      match last_neighbour v (d_edges d id0) None with
      | None | Some None => None
      | Some (Some n0) =>
          match find_gadget d id0 (d_edges d n0) None with
          | None | Some (_, None) => None
          | Some (id1, Some ps) =>
              let d1 := if negb (p_isZero (vphase d id0)) then setPhase (setPhase d v (p_neg (vphase d v))) id0 (p_const 0) else d in
              let d2 := addPhase d1 v (if p_isZero (vphase d1 id1) then vphase d1 ps else p_neg (vphase d1 ps)) in
              Some (removeVertex (removeVertex d2 ps) id1)
          end
      end.

(* ---- Simplify.hpp:31-86 and Simplify.cpp ----------------------------------------------------------------------- *)
(* one pass over the vertices (edges) present at its beginning: the new diagram and the number of rewrites *)
Definition passV (check : diag -> nat -> bool) (rule : diag -> nat -> diag) (d : diag) : diag * nat :=
  fold_left (fun '(d', k) v => if check d' v then (rule d' v, S k) else (d', k)) (getVertices d) (d, 0).
Definition passE (check : diag -> nat -> nat -> bool) (rule : diag -> nat -> nat -> diag) (d : diag) : diag * nat :=
  fold_left (fun '(d', k) e => if negb (live d' (fst e)) || negb (live d' (snd e)) || negb (check d' (fst e) (snd e)) then (d', k)
                               else (rule d' (fst e) (snd e), S k)) (getEdges d) (d, 0).
(* while (newMatches): None when the fuel does not suffice *)
Fixpoint exhaust (pass : diag -> diag * nat) (fuel : nat) (d : diag) (n : nat) : option (diag * nat) :=
  match fuel with
  | 0 => None
  | S f => let '(d', k) := pass d in if k =? 0 then Some (d', n) else exhaust pass f d' (n + k)
  end.
Definition simplifyVertices check rule fuel d := exhaust (passV check rule) fuel d 0.
Definition simplifyEdges check rule fuel d := exhaust (passE check rule) fuel d 0.
(* Simplify.cpp:21-79 *)
Definition passGadget (d : diag) : diag * nat :=
  fold_left (fun '(d', k) v => if negb (live d' v) then (d', k)
                               else match checkAndFuseGadget d' v with Some d1 => (d1, S k) | None => (d', k) end) (getVertices d) (d, 0).
Definition gadgetSimp fuel d := exhaust passGadget fuel d 0.
Definition idSimp := simplifyVertices checkIdSimp removeId.
Definition spiderSimp := simplifyEdges checkSpiderFusion fuseSpiders.
Definition localCompSimp := simplifyVertices checkLocalComp localComp.
Definition pivotSimp := simplifyEdges checkPivot pivot.
Definition pivotPauliSimp := simplifyEdges checkPivotPauli pivotPauli.
Definition pivotgadgetSimp := simplifyEdges checkPivotGadget pivotGadget.
Definition obind {A B} (o : option A) (f : A -> option B) : option B := match o with Some a => f a | None => None end.
(* 65-86 *)
Fixpoint interior_loop (fuel : nat) (d : diag) (n : nat) : option (diag * nat) :=
  match fuel with
  | 0 => None
  | S f =>
      obind (idSimp fuel d) (fun '(d1, k1) => obind (spiderSimp fuel d1) (fun '(d2, k2) =>
      obind (pivotPauliSimp fuel d2) (fun '(d3, k3) => obind (localCompSimp fuel d3) (fun '(d4, k4) =>
      if k1 + k2 + k3 + k4 =? 0 then Some (d4, n) else interior_loop f d4 (S n)))))
  end.
Definition interiorCliffordSimp (fuel : nat) (d : diag) : option (diag * nat) :=
  obind (spiderSimp fuel d) (fun '(d1, _) => interior_loop fuel d1 0).
(* 88-101 *)
Fixpoint clifford_loop (fuel : nat) (d : diag) (n : nat) : option (diag * nat) :=
  match fuel with
  | 0 => None
  | S f =>
      obind (interiorCliffordSimp fuel d) (fun '(d1, k1) => obind (pivotSimp fuel d1) (fun '(d2, k2) =>
      if k1 + k2 =? 0 then Some (d2, n) else clifford_loop f d2 (S n)))
  end.
Definition cliffordSimp (fuel : nat) (d : diag) : option (diag * nat) := clifford_loop fuel d 0.
(* 107-127 *)
Fixpoint reduce_loop (fuel : nat) (d : diag) (n : nat) : option (diag * nat) :=
  match fuel with
  | 0 => None
  | S f =>
      obind (cliffordSimp fuel d) (fun '(d1, _) => obind (gadgetSimp fuel d1) (fun '(d2, kg) =>
      obind (interiorCliffordSimp fuel d2) (fun '(d3, _) => obind (pivotgadgetSimp fuel d3) (fun '(d4, kp) =>
      if kg + kp =? 0 then Some (d4, n) else reduce_loop f d4 (n + (kg + kp))))))
  end.
Definition fullReduce (fuel : nat) (d : diag) : option (diag * nat) :=
  obind (interiorCliffordSimp fuel (toGraphlike d)) (fun '(d1, _) =>
  obind (reduce_loop fuel d1 0) (fun '(d2, n) =>
  obind (removeDisconnectedSpiders fuel d2) (fun d3 => Some (d3, n)))).
