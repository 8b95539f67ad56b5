(* Kronecker products (with their compute table), traces, and the transfer of diagrams between
   packages.  Same representation as DDModel: pointers are trees, weights exact. *)
From Coq Require Import Reals List Bool Arith Lia.
From Verif Require Import Cplx Qsem DDModel.
Import ListNotations.
Local Open Scope R_scope.

(* ---- Kronecker product: include/mqt-core/dd/Package.hpp:1395-1490 ------------------------------ *)

(* The compute table (key: the two node pointers).  Entries are never evicted here; an evicted entry
   only means recomputation. *)
Definition vktable := list (vtree * vtree * vedge).
Definition mktable := list (mtree * mtree * medge).
Fixpoint vkfind (c : vktable) (x y : vtree) : option vedge :=
  match c with
  | [] => None
  | ((x', y'), e) :: r =>
    if vtree_eq_dec x x' then if vtree_eq_dec y y' then Some e else vkfind r x y else vkfind r x y
  end.
Fixpoint mkfind (c : mktable) (x y : mtree) : option medge :=
  match c with
  | [] => None
  | ((x', y'), e) :: r =>
    if mtree_eq_dec x x' then if mtree_eq_dec y y' then Some e else mkfind r x y else mkfind r x y
  end.

(* kronecker2 on vectors, Package.hpp:1424-1490 with Node = vNode; yNumQubits is not used *)
Fixpoint vkron (c : vktable) (wx : C) (x : vtree) (y : vedge) (inc : bool) : vktable * vedge :=
  if ezero wx || ezero (fst y) then (c, vzero)
  else
    let r := (wx * fst y)%C in
    match x, snd y with
    | VT, _ => (c, (r, snd y))
    | _, VT => (c, (r, x))
    | VNode v w t, VNode vy _ _ =>
      match vkfind c x (snd y) with
      | Some e => (c, (r, snd e))
      | None =>
        let '(c0, e0) := vkron c (w false) (t false) y inc in
        let '(c1, e1) := vkron c0 (w true) (t true) y inc in
        let e := vmk (if inc then v + S vy else v)%nat (v2 e0 e1) in
        ((x, snd y, e) :: c1, (r, snd e))
      end
    end.
(* on matrices: an identity x disappears, an identity y needs the declared width *)
Fixpoint mkron (c : mktable) (wx : C) (x : mtree) (y : medge) (n : nat) (inc : bool) : mktable * medge :=
  if ezero wx || ezero (fst y) then (c, mzero)
  else
    let r := (wx * fst y)%C in
    match x with
    | MT => (c, (r, snd y))
    | MNode v w t =>
      match mkfind c x (snd y) with
      | Some e => (c, (r, snd e))
      | None =>
        let '(c0, e0) := mkron c (w false false) (t false false) y n inc in
        let '(c1, e1) := mkron c0 (w false true) (t false true) y n inc in
        let '(c2, e2) := mkron c1 (w true false) (t true false) y n inc in
        let '(c3, e3) := mkron c2 (w true true) (t true true) y n inc in
        let idx := (if inc then match snd y with MT => v + n | MNode vy _ _ => v + S vy end else v)%nat in
        let e := mmk idx (m4 e0 e1 e2 e3) in
        ((x, snd y, e) :: c3, (r, snd e))
      end
    end.
(* a sequence of calls sharing the table *)
Fixpoint vkron_calls (c : vktable) (l : list (vedge * vedge)) : vktable * list vedge :=
  match l with
  | [] => (c, [])
  | (x, y) :: r =>
    let '(c1, e) := vkron c (fst x) (snd x) y true in
    let '(c2, es) := vkron_calls c1 r in (c2, e :: es)
  end.
Fixpoint mkron_calls (c : mktable) (l : list (medge * medge * nat)) : mktable * list medge :=
  match l with
  | [] => (c, [])
  | ((x, y), n) :: r =>
    let '(c1, e) := mkron c (fst x) (snd x) y n true in
    let '(c2, es) := mkron_calls c1 r in (c2, e :: es)
  end.

(* ---- (partial) trace: Package.hpp:1534-1651, Package.cpp:1037-1041 ------------------------------- *)

Definition elims := list bool.
Definition elim (el : elims) (q : nat) : bool := nth q el false.
Definition ecount (el : elims) : nat := length (filter (fun b => b) el).

(* `level` entries of eliminate are inspected; eliminate[v] beyond the end is undefined, and so is
   using the node index obtained when the unsigned subtraction of `adjustedV` wraps around *)
Fixpoint mtrace (el : elims) (w : C) (t : mtree) (level already : nat) : dres medge :=
  if ezero w then DOk mzero
  else match t with
  | MT => DOk (w, MT)
  | MNode v ws s =>
    if negb (existsb (fun b => b) (firstn level el)) then DOk (w, t)
    else if Nat.leb (length el) v then DUb
    else if elim el v then
      let* a := mtrace el (ws false false) (s false false) (level - 1) (S already) in
      let* b := mtrace el (ws true true) (s true true) (level - 1) (S already) in
      let* r := madd v a b in
      DOk ((fst r * RtoC (/ 2) * w)%C, snd r)
    else
      let* e0 := mtrace el (ws false false) (s false false) (level - 1) already in
      let* e1 := mtrace el (ws false true) (s false true) (level - 1) already in
      let* e2 := mtrace el (ws true false) (s true false) (level - 1) already in
      let* e3 := mtrace el (ws true true) (s true true) (level - 1) already in
      if Nat.ltb (v + already) (ecount el) then DUb
      else let r := mmk (v + already - ecount el) (m4 e0 e1 e2 e3) in DOk ((fst r * w)%C, snd r)
  end.
Definition partialTrace (a : medge) (el : elims) : dres medge := mtrace el (fst a) (snd a) (length el) 0.
Definition trace (a : medge) (n : nat) : dres C :=
  match snd a with
  | MT => DOk (fst a)
  | _ => let* r := mtrace (repeat true n) (fst a) (snd a) n 0 in DOk (fst r)
  end.

(* ---- transfer: Package.hpp:1781-1857 ---------------------------------------------------------------- *)

(* Nodes of the target package have a type of their own, so that a node of the source cannot end up in the result;
   the target is then modelled like the source: makeDDNode on trees.  `Down` is the inner while
   loop at currentEdge, `Up` the part after it; mappedNode[p] inserts nullptr for an unknown p. *)
Section Transfer.
Context {tree tgt : Type} (tdec : forall a b : tree, {a = b} + {a <> b}) (term : tree) (tterm : tgt).
Definition tmap := list (tree * tgt).
Fixpoint tfind (m : tmap) (t : tree) : option tgt :=
  match m with [] => None | (a, b) :: r => if tdec t a then Some b else tfind r t end.
Definition tmem (m : tmap) (t : tree) : bool := match tfind m t with Some _ => true | None => false end.
Definition isterm (t : tree) : bool := if tdec t term then true else false.
(* successors of a node in order, and the node rebuilt from a list of successors *)
Context (succ : tree -> list (C * tree)) (rebuild : tree -> list (C * tgt) -> C * tgt).

Inductive tstate :=
| Down (cur : tree) (stack : list tree) (m : tmap) (root : C * tgt)
| Up (stack : list tree) (m : tmap) (root : C * tgt)
| Done (root : C * tgt)
| Stuck.
(* the successors pushed: all but the first, in order from top to bottom of the stack *)
Definition pushed (m : tmap) (t : tree) : list tree :=
  map snd (filter (fun e => negb (isterm (snd e)) && negb (ezero (fst e)) && negb (tmem m (snd e))) (tl (succ t))).
(* the hasChild loop: None when stack.top() is evaluated on an empty stack *)
Fixpoint has_child (l : list (C * tree)) (stack : list tree) (m : tmap) : option bool :=
  match l with
  | [] => Some false
  | e :: r =>
    if ezero (fst e) || tmem m (snd e) then has_child r stack m
    else match stack with
         | [] => None
         | p :: _ => if tdec (snd e) p then Some true else has_child r stack m
         end
  end.
(* the edges array: a null pointer is entered for nodes not mapped yet *)
Fixpoint map_succ (l : list (C * tree)) (m : tmap) : list (C * tgt) * tmap :=
  match l with
  | [] => ([], m)
  | e :: r =>
    if isterm (snd e) then let '(es, m') := map_succ r m in ((fst e, tterm) :: es, m')
    else match tfind m (snd e) with
         | Some p => let '(es, m') := map_succ r m in ((fst e, p) :: es, m')
         | None => let '(es, m') := map_succ r ((snd e, tterm) :: m) in ((fst e, tterm) :: es, m')
         end
  end.
Definition finish (stack : list tree) (m : tmap) (root : C * tgt) : tstate :=
  match stack with [] => Done root | _ => Up stack m root end.
Definition tstep (s : tstate) : tstate :=
  match s with
  | Down t stack m root =>
    if isterm t then Up stack m root
    else match succ t with
         | [] => Stuck
         | e0 :: _ => Down (snd e0) (t :: pushed m t ++ stack) m root
         end
  | Up [] m root => Stuck
  | Up (t :: stack) m root =>
    match has_child (tl (succ t)) stack m with
    | None => Stuck
    | Some true => match stack with p :: rest => Down p (t :: rest) m root | [] => Stuck end
    | Some false =>
      if tmem m t then finish stack m root
      else let '(es, m') := map_succ (succ t) m in
           let r := rebuild t es in finish stack ((t, snd r) :: m') r
    end
  | Done r => Done r
  | Stuck => Stuck
  end.
Fixpoint titer (n : nat) (s : tstate) : tstate := match n with O => s | S k => titer k (tstep s) end.
End Transfer.

Definition vsucc (t : vtree) : list vedge :=
  match t with VT => [] | VNode _ w s => [(w false, s false); (w true, s true)] end.
Definition vrebuild (t : vtree) (l : list vedge) : vedge :=
  match t, l with VNode v _ _, [a; b] => vmkE v (v2 a b) | _, _ => vzero end.
Definition msucc (t : mtree) : list medge :=
  match t with
  | MT => []
  | MNode _ w s => [(w false false, s false false); (w false true, s false true);
                    (w true false, s true false); (w true true, s true true)]
  end.
Definition mrebuild (t : mtree) (l : list medge) : medge :=
  match t, l with MNode v _ _, [a; b; c; d] => mmakeE 0 v (m4 a b c d) | _, _ => mzero end.

Definition vtransfer_start (e : vedge) : @tstate vtree vtree := Down (snd e) [] [] vzero.
Definition mtransfer_start (e : medge) : @tstate mtree mtree := Down (snd e) [] [] mzero.
Definition vtstep := tstep vtree_eq_dec VT VT vsucc vrebuild.
Definition mtstep := tstep mtree_eq_dec MT MT msucc mrebuild.
Definition vtiter := titer vtree_eq_dec VT VT vsucc vrebuild.
Definition mtiter := titer mtree_eq_dec MT MT msucc mrebuild.
(* transfer e returns r (respectively: reads the top of an empty stack) *)
Definition vtransfers (e r : vedge) : Prop :=
  match snd e with
  | VT => r = e
  | _ => exists n root, vtiter n (vtransfer_start e) = Done root /\ r = ((fst e * fst root)%C, snd root)
  end.
Definition vtransfer_ub (e : vedge) : Prop := snd e <> VT /\ exists n, vtiter n (vtransfer_start e) = Stuck.
Definition mtransfers (e r : medge) : Prop :=
  match snd e with
  | MT => r = e
  | _ => exists n root, mtiter n (mtransfer_start e) = Done root /\ r = ((fst e * fst root)%C, snd root)
  end.
Definition mtransfer_ub (e : medge) : Prop := snd e <> MT /\ exists n, mtiter n (mtransfer_start e) = Stuck.
