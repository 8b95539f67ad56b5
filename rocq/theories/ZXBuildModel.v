(* Circuits to ZX diagrams: src/zx/FunctionalityConstruction.cpp.

   Simplifications. A parameter is an exact rational multiple of pi plus rational multiples of symbols (plain and symbolic
   operations are treated alike); the code approximates a double by a rational. Columns of vertices are left out.
   RThrow: an exception; RUB: undefined behaviour (front() of an empty vector or an index beyond the qubits). *)
From Coq Require Import Reals QArith ZArith Bool List Arith.
From Verif Require Import Cplx Qsem GateModel IRModel PiModel ZXModel.
Import ListNotations.
Local Close Scope Q_scope.
Local Open Scope nat_scope.

Inductive res (A : Type) := RDone (a : A) | RThrow | RUB.
Arguments RDone {A}. Arguments RThrow {A}. Arguments RUB {A}.
Definition rbind {A B} (r : res A) (f : A -> res B) : res B :=
  match r with RDone a => f a | RThrow => RThrow | RUB => RUB end.

(* operations: type, parameters, controls and targets, or a compound operation *)
Inductive zop :=
| ZGate (t : optype) (ps : list phase) (cs : list ctl) (ts : list nat)
| ZCompound (l : list zop).

(* Rational.cpp:21-45 for a value that is a rational multiple of pi: reduction into (-1, 1] *)
Definition p_reduce (p : phase) : phase :=
  (modPi (fst p - 2 * inject_Z (Z.quot (Qnum (fst p)) (2 * Zpos (Qden (fst p)))))%Q, snd p).
(* Expression.hpp:546-554 (division by the integer 2), 450-453 and 484 (adding a constant) *)
Definition p_half (p : phase) : phase := (modPi (fst p / 2)%Q, map (fun t => (fst t, (snd t / 2)%Q)) (snd p)).
Definition p_addc (p : phase) (q : Q) : phase := (pi_add (fst p) (modPi q), snd p).
Definition p_subc (p : phase) (q : Q) : phase := (pi_add (fst p) (pi_neg (modPi q)), snd p).

(* the diagram and the last vertex on every qubit *)
Definition bst := (diag * list nat)%type.
Fixpoint set_nth {A} (i : nat) (a : A) (l : list A) : list A :=
  match l, i with [], _ => [] | _ :: l', 0 => a :: l' | b :: l', S i' => b :: set_nth i' a l' end.

(* 51-79: addZSpider (VZ), addXSpider (VX) *)
Definition addSpider (ty : vtype) (q : nat) (p : phase) (h : bool) (st : bst) : bst :=
  let '(d, qs) := st in
  match d_verts d (nth q qs 0) with
  | None => st
  | Some _ => let '(d1, v) := addVertex d (mkV (Z.of_nat q) p ty) in (addEdge d1 (nth q qs 0) v h, set_nth q v qs)
  end.
Definition addZ q p := addSpider VZ q p false.
Definition addX q p := addSpider VX q p false.
Definition addGP (p : phase) (st : bst) : bst := (addGlobalPhase (fst st) p, snd st).
Definition joinE (a b : nat) (h : bool) (st : bst) : bst :=
  (addEdge (fst st) (nth a (snd st) 0) (nth b (snd st) 0) h, snd st).
(* the global phase of a rotation, e.g. 85-90: from the unconverted parameter if given *)
Definition addHalf (p : phase) (u : option Q) (st : bst) : bst :=
  match u with
  | Some v => addGP (p_reduce ((- v / 2)%Q, [])) st
  | None => addGP (p_neg (p_half p)) st
  end.
(* 81-92 *)
Definition addRz p q u st := addZ q p (addHalf p u st).
(* 94-99 *)
Definition addRx p q st := addX q p st.
(* 101-115 *)
Definition addRy p q u st :=
  addZ q (p_const 1) (addX q (p_const (1 # 2)) (addZ q (p_addc p 1) (addX q (p_const (1 # 2)) (addHalf p u st)))).
(* 117-125 *)
Definition addCnot c t st := joinE c t false (addX t p_zero (addZ c p_zero st)).
(* 127-140 *)
Definition addCphase p c t st :=
  let np := p_half p in
  addZ t np (addCnot c t (addZ t (p_neg np) (addCnot c t (addZ c np st)))).
(* 142-207: a phase spider on two legs; the kinds of the two new vertices and of the edge to the second qubit *)
Definition addMid (ty0 ty1 : vtype) (h : bool) (p : phase) (a b : nat) (st : bst) : bst :=
  let '(d, qs) := st in
  let '(d1, m0) := addVertex d (mkV (-1) p_zero ty0) in
  let '(d2, m1) := addVertex d1 (mkV (-1) p ty1) in
  (addEdge (addEdge (addEdge d2 (nth a qs 0) m0 false) (nth b qs 0) m0 h) m0 m1 false, qs).
Definition addRzz p a b u st := addHalf p u (addMid VX VZ false p a b (addZ b p_zero (addZ a p_zero st))).
Definition addRxx p a b u st := addHalf p u (addMid VZ VX false p a b (addX b p_zero (addX a p_zero st))).
Definition addRzx p a b u st := addHalf p u (addMid VX VZ true p a b (addX b p_zero (addZ a p_zero st))).
(* 209-214 *)
Definition addDcx a b st := addCnot b a (addCnot a b st).
(* 216-239 *)
Definition addXXplusYY (th be : phase) a b (u : option Q) (st : bst) : bst :=
  let s1 := addRz (p_const (1 # 2)) b None (addRz be b u st) in
  let s2 := addRz (p_const (1 # 2)) a None (addRx (p_const (1 # 2)) a (addRz (p_const (- (1 # 2))) a None s1)) in
  let s3 := addCnot a b (addRy (p_half th) b None (addRy (p_half th) a None (addCnot a b s2))) in
  let s4 := addRz (p_const (1 # 2)) a None (addRx (p_const (- (1 # 2))) a (addRz (p_const (- (1 # 2))) a None s3)) in
  addRz (p_const (- (1 # 2))) b None (addRz (p_neg be) b (option_map Qopp u) s4).
(* 241-263 *)
Definition addXXminusYY (th be : phase) a b (u : option Q) (st : bst) : bst :=
  let s1 := addRz (p_const (1 # 2)) b None (addRz (p_neg be) b (option_map Qopp u) st) in
  let s2 := addRz (p_const (1 # 2)) a None (addRx (p_const (1 # 2)) a (addRz (p_const (- (1 # 2))) a None s1)) in
  let s3 := addCnot a b (addRy (p_half th) b None (addRy (p_half (p_neg th)) a None (addCnot a b s2))) in
  let s4 := addRz (p_const (1 # 2)) a None (addRx (p_const (- (1 # 2))) a (addRz (p_const (- (1 # 2))) a None s3)) in
  addRz (p_const (- (1 # 2))) b None (addRz be b u s4).
(* 265-286 *)
Definition addSwap (t1 t2 : nat) (st : bst) : bst :=
  let '(d, qs) := st in
  let s0 := nth t2 qs 0 in
  let s1 := nth t1 qs 0 in
  match d_verts d s0 with
  | None => st
  | Some _ =>
      let '(d1, v0) := addVertex d (mkV (Z.of_nat t2) p_zero VZ) in
      let '(d2, v1) := addVertex d1 (mkV (Z.of_nat t1) p_zero VZ) in
      (addEdge (addEdge d2 s0 v1 false) s1 v0 false, set_nth t1 v1 (set_nth t2 v0 qs))
  end.
(* 288-307 *)
Definition addH q := addSpider VZ q p_zero true.
Definition addCcx c0 c1 t st :=
  let q p := p_const (p # 4) in
  let s1 := addZ t (q (-1)%Z) (addCnot c1 t (addH t st)) in
  let s2 := addZ t (q 1%Z) (addCnot c0 t s1) in
  let s3 := addZ t (q (-1)%Z) (addZ c1 (q 1%Z) (addCnot c1 t s2)) in
  let s4 := addZ t (q 1%Z) (addCnot c0 t s3) in
  let s5 := addZ c1 (q (-1)%Z) (addZ c0 (q 1%Z) (addCnot c0 c1 s4)) in
  addCnot c0 c1 (addH t s5).

(* accesses: vector::front, operator[], Permutation::at followed by an index into `qubits`, parseParam 710-723 *)
Definition front (ts : list nat) : res nat := match ts with t :: _ => RDone t | [] => RUB end.
Definition second (ts : list nat) : res nat := match ts with _ :: t :: _ => RDone t | _ => RUB end.
Definition at_ (p : perm) (q : nat) : res nat := match plookup p q with Some x => RDone x | None => RThrow end.
Definition inq (st : bst) (q : nat) : res nat := if q <? length (snd st) then RDone q else RUB.
Definition par (ps : list phase) (i : nat) : res phase := match nth_error ps i with Some x => RDone (p_reduce x) | None => RThrow end.
(* isConstant() and the unconverted numeric parameter *)
Definition unconv (ps : list phase) (i : nat) : option Q :=
  match nth_error ps i with Some (v, []) => Some v | _ => None end.

(* 319-505: operations without controls *)
Definition parse_plain (p : perm) (t : optype) (ps : list phase) (ts : list nat) (st : bst) : res bst :=
  rbind (front ts) (fun t0 => rbind (at_ p t0) (fun a =>
  let one f := rbind (inq st a) (fun a => RDone (f a st)) in
  let onep f := rbind (par ps 0) (fun x => rbind (inq st a) (fun a => RDone (f x a st))) in
  let two f := rbind (second ts) (fun t1 => rbind (at_ p t1) (fun b => rbind (inq st a) (fun a => rbind (inq st b) (fun b => f a b)))) in
  let twop f := two (fun a b => rbind (par ps 0) (fun x => RDone (f x a b st))) in
  match t with
  | gGPhase => rbind (par ps 0) (fun x => RDone (addGP x st))
  | gZ => one (fun a => addZ a (p_const 1))
  | gRZ => onep (fun x a => addRz x a (unconv ps 0))
  | gP => onep (fun x a => addZ a x)
  | gX => one (fun a => addX a (p_const 1))
  | gRX => onep addRx
  | gY => one (fun a s => addX a (p_const 1) (addZ a (p_const 1) (addGP (pi_neg (modPi (1 # 2)), []) s)))
  | gRY => onep (fun x a => addRy x a (unconv ps 0))
  | gT => one (fun a => addZ a (p_const (1 # 4)))
  | gTdg => one (fun a => addZ a (p_const (-1 # 4)))
  | gS => one (fun a => addZ a (p_const (1 # 2)))
  | gSdg => one (fun a => addZ a (p_const (-1 # 2)))
  | gU2 => rbind (par ps 1) (fun la => rbind (par ps 0) (fun ph => one (fun a s =>
      addZ a (p_addc ph (1 # 2)) (addX a (p_const (1 # 2)) (addZ a (p_subc la (1 # 2)) s)))))
  | gU => rbind (par ps 2) (fun la => rbind (par ps 0) (fun th => rbind (par ps 1) (fun ph => one (fun a s =>
      addZ a (p_addc ph 3) (addX a (p_const (1 # 2)) (addZ a (p_addc th 1) (addX a (p_const (1 # 2)) (addZ a la s))))))))
  | gSWAP => two (fun a b => RDone (addSwap a b st))
  | giSWAP => two (fun a b => RDone (addH b (addCnot b a (addCnot a b (addH a (addZ b (p_const (1 # 2)) (addZ a (p_const (1 # 2)) st)))))))
  | gRZZ => twop (fun x a b => addRzz x a b (unconv ps 0))
  | gRXX => twop (fun x a b => addRxx x a b (unconv ps 0))
  | gRZX => twop (fun x a b => addRzx x a b (unconv ps 0))
  | gRYY => twop (fun x a b s => addX a (pi_neg (modPi (1 # 2)), []) (addX b (pi_neg (modPi (1 # 2)), [])
      (addRzz x a b (unconv ps 0) (addX b (p_const (1 # 2)) (addX a (p_const (1 # 2)) s)))))
  | gDCX => two (fun a b => RDone (addDcx a b st))
  | gECR => two (fun a b => RDone (addRzx (pi_neg (modPi (1 # 4)), []) a b None (addX a p_zero (addRzx (p_const (1 # 4)) a b None st))))
  | gXXplusYY => two (fun a b => rbind (par ps 0) (fun x => rbind (par ps 1) (fun y => RDone (addXXplusYY x y a b (unconv ps 0) st))))
  | gXXminusYY => two (fun a b => rbind (par ps 0) (fun x => rbind (par ps 1) (fun y => RDone (addXXminusYY x y a b (unconv ps 0) st))))
  | gH => one addH
  | gMeasure | gI => RDone st
  | gSX => one (fun a => addX a (p_const (1 # 2)))
  | gSXdg => one (fun a => addX a (p_const (-1 # 2)))
  | _ => RThrow
  end)).
(* 506-555: one control and one target (the exchange of three CNOTs is in parse); the polarity is not looked at *)
Definition parse_ctl1 (p : perm) (t : optype) (ps : list phase) (c0 t0 : nat) (st : bst) : res bst :=
  rbind (at_ p t0) (fun a => rbind (at_ p c0) (fun c =>
  let two f := rbind (inq st a) (fun a => rbind (inq st c) (fun c => RDone (f c a st))) in
  match t with
  | gX => two addCnot
  | gZ => two (fun c a s => joinE c a true (addZ a p_zero (addZ c p_zero s)))
  | gI => RDone st
  | gP => rbind (par ps 0) (fun x => two (addCphase x))
  | gT => two (addCphase (p_const (1 # 4)))
  | gS => two (addCphase (p_const (1 # 2)))
  | gTdg => two (addCphase (p_const (-1 # 4)))
  | gSdg => two (addCphase (p_const (-1 # 2)))
  | _ => RThrow
  end)).
(* 556-583 *)
Definition parse_ctl2 (p : perm) (t : optype) (c0 c1 : nat) (ts : list nat) (st : bst) : res bst :=
  rbind (front ts) (fun t0 => rbind (at_ p t0) (fun a => rbind (at_ p c0) (fun x => rbind (at_ p c1) (fun y =>
  let three f := rbind (inq st a) (fun a => rbind (inq st x) (fun x => rbind (inq st y) (fun y => RDone (f x y a st)))) in
  match t with
  | gX => three addCcx
  | gZ => three (fun x y a s => addH a (addCcx x y a (addH a s)))
  | _ => RThrow
  end)))).
(* 309-589 *)
Definition parse_gate (p : perm) (t : optype) (ps : list phase) (cs : list ctl) (ts : list nat) (st : bst) : res bst :=
  match t with
  | gBarrier => RDone st
  | _ =>
      match cs, ts with
      | [], _ => parse_plain p t ps ts st
      | [c], [t0] => parse_ctl1 p t ps (fst c) t0 st
      | [c; c'], _ => parse_ctl2 p t (fst c) (fst c') ts st
      | _, _ => RThrow
      end
  end.
(* 32-49 checkSwap at the operation o1 (a CNOT) followed by o2 and o3: RDone (Some (c, t)) for an exchange *)
Definition check_swap (p : perm) (o1 o2 o3 : zop) : res (option (nat * nat)) :=
  match o1, o2, o3 with
  | ZGate gX _ [c] [t], ZGate gX _ [c1] ts1, ZGate gX _ [c2] ts2 =>
      rbind (at_ p t) (fun t' => rbind (at_ p (fst c)) (fun c' =>
      rbind (front ts1) (fun t1 => rbind (at_ p t1) (fun tar1 => rbind (front ts2) (fun t2 => rbind (at_ p t2) (fun tar2 =>
      rbind (at_ p (fst c1)) (fun ctrl1 => rbind (at_ p (fst c2)) (fun ctrl2 =>
      RDone (if (c' =? tar1) && (tar1 =? ctrl2) && (t' =? ctrl1) && (ctrl1 =? tar2) then Some (c', t') else None)))))))))
  | _, _, _ => RDone None
  end.
(* 591-605; the loop over the whole circuit (616-618) is the same as over a compound operation *)
Fixpoint parse (p : perm) (o : zop) (st : bst) : res bst :=
  match o with
  | ZGate t ps cs ts => parse_gate p t ps cs ts st
  | ZCompound l =>
      (fix go (l : list zop) (st : bst) : res bst :=
         match l with
         | [] => RDone st
         | o1 :: l1 =>
             match l1 with
             | o2 :: ((o3 :: l3) as l2) =>
                 rbind (check_swap p o1 o2 o3) (fun s =>
                 match s with
                 | Some (c, t) => rbind (inq st c) (fun c => rbind (inq st t) (fun t => go l3 (addSwap t c st)))
                 | None => rbind (parse p o1 st) (go l1)
                 end)
             | _ => rbind (parse p o1 st) (go l1)
             end
         end) l st
  end.
(* 607-624 *)
Definition build (p : perm) (n : nat) (ops : list zop) : res diag :=
  let d0 := fold_left (fun d i => removeEdge d i (i + n)) (seq 0 n) (mkDiagram n) in
  rbind (parse p (ZCompound ops) (d0, seq 0 n)) (fun '(d, qs) =>
  RDone (fold_left (fun d' i => addEdge d' (nth i qs 0) (nth i (d_out d') 0) false) (seq 0 n) d)).

(* 625-708 *)
Fixpoint transformable (o : zop) : bool :=
  match o with
  | ZCompound l => (fix go l := match l with [] => true | o :: l' => transformable o && go l' end) l
  | ZGate t _ cs ts =>
      match t, cs with
      | gBarrier, _ => true
      | gGPhase, [] => true
      | _, [] =>
          match t with
          | gZ | gRZ | gP | gX | gRX | gY | gRY | gT | gTdg | gS | gSdg | gU2 | gU | gSWAP | giSWAP | gH | gMeasure | gI | gSX | gSXdg
          | gRZZ | gRXX | gRZX | gRYY | gDCX | gECR | gXXplusYY | gXXminusYY => true
          | _ => false
          end
      | _, [_] =>
          if length ts =? 1 then match t with gX | gZ | gI | gP | gT | gS | gTdg | gSdg => true | _ => false end else false
      | _, [_; _] => match t with gX | gZ => true | _ => false end
      | _, _ => false
      end
  end.
