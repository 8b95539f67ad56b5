(* Decision diagrams of operations and circuits, simulation and sampling:
   src/dd/Operations.cpp, include/mqt-core/dd/Operations.hpp, src/dd/FunctionalityConstruction.cpp,
   src/dd/Simulation.cpp and the measurements of src/dd/Package.cpp.

   The circuits have neither ancillary nor garbage qubits: then createInitialMatrix is makeIdent and
   reduceAncillae / reduceGarbage return their argument (Package.cpp:1125-1131, 1173-1180, 1202-1208).
   Reference counts and garbage collection are left out here (C03-C07).  Weights are exact. *)
From Coq Require Import Reals List Bool Arith Lia.
From Verif Require Import Cplx Qsem GateModel IRModel OptModel DDModel.
Import ListNotations.
Local Open Scope R_scope.

(* ---- diagrams of operations ------------------------------------------------------------------------ *)

(* getStandardOperationDD, Operations.cpp:37-58; a missing parameter is read out of range *)
Definition stdDD (nq : nat) (t : optype) (ps : list R) (cs : list ctl) (ts : list nat) : dres medge :=
  if is_single t then
    match ts with
    | [q] => match single_matrix t ps with
             | Some U => makeGateDD nq (fun i j => U [i] [j]) cs q
             | None => DUb
             end
    | _ => DThrow
    end
  else if is_two t then
    match ts with
    | [q0; q1] => match two_matrix t ps with
                  | Some U => makeTwoQubitGateDD nq (fun i1 i0 j1 j0 => U [i1; i0] [j1; j0]) cs q0 q1
                  | None => DUb
                  end
    | _ => DThrow
    end
  else DThrow.

(* getDD without inversion, Operations.cpp:141-192: controls of a global phase and the condition of a
   classically controlled operation are not looked at *)
Fixpoint getDD (nq : nat) (p : perm) (o : cop) : dres medge :=
  match o with
  | OStd s =>
    match o_type s with
    | gBarrier => DOk mone
    | gGPhase => match o_par s with [] => DUb | x :: _ => DOk (Cexp x, MT) end
    | t => match papply_targets p (o_tgt s), papply_controls p (o_ctl s) with
           | Some ts, Some cs => stdDD nq t (o_par s) cs ts
           | _, _ => DThrow
           end
    end
  | OMeas _ _ | OReset _ => DThrow
  | OClass _ o' => getDD nq p o'
  | OComp _ l =>
    (fix go l e :=
       match l with
       | [] => DOk e
       | x :: r => let* d := getDD nq p x in let* e' := multiplyMM d e in go r e'
       end) l mone
  end.

(* std::swap(permutation.at(a), permutation.at(b)) *)
Definition swap_perm (p : perm) (a b : nat) : dres perm :=
  match plookup p a, plookup p b with
  | Some x, Some y => DOk (pset (pset p a y) b x)
  | _, _ => DThrow
  end.

(* changePermutation, Operations.hpp:223-279; mul multiplies the SWAP gate with the diagram *)
Fixpoint find_val (p : perm) (goal : nat) : nat :=
  match p with
  | [] => 0
  | (k, v) :: r => if Nat.eqb v goal then k else find_val r goal
  end.
Definition swapM : mat := fun r c => match two_matrix gSWAP [] with Some U => U r c | None => C0 end.
Section Change.
Context {T : Type} (nq : nat) (mul : medge -> T -> dres T).
Fixpoint cp_loop (to : perm) (from : perm) (on : T) : dres (perm * T) :=
  match to with
  | [] => DOk (from, on)
  | (i, goal) :: r =>
    match plookup from i with
    | None => DUb                               (* the message dereferences from.end() *)
    | Some current =>
      if Nat.eqb current goal then cp_loop r from on
      else
        let j := find_val from goal in
        match plookup from j with
        | None => DThrow
        | Some y =>
          let* s := makeTwoQubitGateDD nq (fun i1 i0 j1 j0 => swapM [i1; i0] [j1; j0]) [] current y in
          let* on' := mul s on in
          cp_loop r (pset (pset from i goal) j current) on'
        end
    end
  end.
End Change.
Definition changePermutationV (nq : nat) (e : vedge) (from to : perm) : dres (perm * vedge) :=
  if match snd e with VT => ezero (fst e) | _ => false end then DOk (from, e) else cp_loop nq multiplyMV to from e.
Definition changePermutationM (nq : nat) (regular : bool) (e : medge) (from to : perm) : dres (perm * medge) :=
  if match snd e with MT => ezero (fst e) | _ => false end then DOk (from, e)
  else cp_loop nq (fun s on => if regular then multiplyMM s on else multiplyMM on s) to from e.

(* ---- functionality: FunctionalityConstruction.cpp ----------------------------------------------------- *)

(* the loop 31-40 *)
Fixpoint func_loop (nq : nat) (l : list cop) (p : perm) (e : medge) : dres (perm * medge) :=
  match l with
  | [] => DOk (p, e)
  | o :: r =>
    match is_swap o with
    | Some (a, b) => let* p' := swap_perm p a b in func_loop nq r p' e
    | None => let* d := getDD nq p o in let* e' := multiplyMM d e in func_loop nq r p e'
    end
  end.
(* 23-47 *)
Definition buildFunctionality (c : qcirc) : dres medge :=
  if Nat.eqb (qc_n c) 0 then DOk mone
  else
    let* (p, e) := func_loop (qc_n c) (qc_ops c) (qc_init c) mone in
    let* (_, e') := changePermutationM (qc_n c) true e p (qc_out c) in
    DOk e'.

(* one operation of the recursive construction, 56-62 and 70-76 *)
Definition op_or_swap (nq : nat) (p : perm) (o : cop) : dres (perm * medge) :=
  match is_swap o with
  | Some (a, b) => let* p' := swap_perm p a b in DOk (p', mone)
  | None => let* d := getDD nq p o in DOk (p, d)
  end.
(* 50-111; the stack has its top first *)
Fixpoint func_rec (nq : nat) (ops : list cop) (depth : nat) (opIdx : nat) (s : list medge) (p : perm)
    : dres (bool * list medge * perm) :=
  match depth with
  | O => DUb
  | S O =>
    match nth_error ops opIdx with
    | None => DThrow
    | Some o =>
      let* (p1, e) := op_or_swap nq p o in
      if Nat.eqb (S opIdx) (length ops) then DOk (false, e :: s, p1)
      else
        match nth_error ops (S opIdx) with
        | None => DThrow
        | Some o' =>
          let* (p2, f) := op_or_swap nq p1 o' in
          let* m := multiplyMM f e in
          DOk (negb (Nat.eqb (S opIdx) (length ops - 1)), m :: s, p2)
        end
    end
  | S d =>
    let leftIdx := Nat.ldiff opIdx (Nat.shiftl 1 d) in
    let* (more, s1, p1) := func_rec nq ops d leftIdx s p in
    if negb more then DOk (false, s1, p1)
    else
      let rightIdx := Nat.lor opIdx (Nat.shiftl 1 d) in
      let* (success, s2, p2) := func_rec nq ops d rightIdx s1 p1 in
      match s2 with
      | e :: f :: r => let* m := multiplyMM e f in DOk (success, m :: r, p2)
      | _ => DUb
      end
  end.
(* 114-142; with no operation log2(0) is converted to an integer (undefined) *)
Definition buildFunctionalityRecursive (c : qcirc) : dres medge :=
  if Nat.eqb (qc_n c) 0 then DOk mone
  else
    match qc_ops c with
    | [] => DUb
    | [o] => getDD (qc_n c) (qc_init c) o
    | ops =>
      let* (_, s, p) := func_rec (qc_n c) ops (Nat.log2_up (length ops)) 0 [] (qc_init c) in
      match s with
      | [] => DUb
      | e :: _ => let* (_, e') := changePermutationM (qc_n c) true e p (qc_out c) in DOk e'
      end
    end.

(* ---- simulation: Simulation.cpp:226-254 ------------------------------------------------------------- *)
Fixpoint sim_loop (nq : nat) (l : list cop) (p : perm) (e : vedge) : dres (perm * vedge) :=
  match l with
  | [] => DOk (p, e)
  | o :: r =>
    match is_swap o with
    | Some (a, b) => let* p' := swap_perm p a b in sim_loop nq r p' e
    | None => let* d := getDD nq p o in let* e' := multiplyMV d e in sim_loop nq r p e'
    end
  end.
Definition simulate (c : qcirc) (inp : vedge) : dres vedge :=
  let* (p, e) := sim_loop (qc_n c) (qc_ops c) (qc_init c) inp in
  let* (_, e') := changePermutationV (qc_n c) e p (qc_out c) in
  if Rlt_dec 0 (Rabs (qc_phase c)) then DOk (vlook ((fst e' * Cexp (qc_phase c))%C, snd e')) else DOk e'.

(* ---- random choices ----------------------------------------------------------------------------------- *)
(* RFlip p a b draws u uniformly from [0,1) and continues with a if u < p and with b otherwise *)
Inductive rnd (A : Type) := RRet (r : dres A) | RFlip (p : R) (a b : rnd A).
Arguments RRet {A}. Arguments RFlip {A}.
Fixpoint rbind {A B} (x : rnd A) (f : A -> rnd B) : rnd B :=
  match x with
  | RRet (DOk a) => f a
  | RRet DThrow => RRet DThrow
  | RRet DUb => RRet DUb
  | RFlip p a b => RFlip p (rbind a f) (rbind b f)
  end.
Definition rlift {A B} (x : dres A) (f : A -> rnd B) : rnd B :=
  match x with DOk a => f a | DThrow => RRet DThrow | DUb => RRet DUb end.
(* probability that the draws end in a value satisfying f *)
Definition clamp (p : R) : R := Rmax 0 (Rmin p 1).
Fixpoint rprob {A} (f : A -> bool) (x : rnd A) : R :=
  match x with
  | RRet (DOk a) => if f a then 1 else 0
  | RRet _ => 0
  | RFlip p a b => clamp p * rprob f a + (1 - clamp p) * rprob f b
  end.

(* ---- measuring one qubit: Package.cpp:703-842 ---------------------------------------------------------- *)

(* measurementProbabilities; its keys are the visited nodes *)
Fixpoint pm_get (m : list (vtree * R)) (t : vtree) : option R :=
  match m with
  | [] => None
  | (x, p) :: r => if vtree_eq_dec x t then Some p else pm_get r t
  end.
Fixpoint pm_set (m : list (vtree * R)) (t : vtree) (p : R) : list (vtree * R) :=
  match m with
  | [] => [(t, p)]
  | (x, p') :: r => if vtree_eq_dec x t then (x, p) :: r else (x, p') :: pm_set r t p
  end.
Definition pm_val (m : list (vtree * R)) (t : vtree) : R := match pm_get m t with Some p => p | None => 0 end.
(* one successor, 719-744 *)
Definition bfs_push (prob : R) (w : C) (t : vtree) (st : list vtree * list (vtree * R)) : list vtree * list (vtree * R) :=
  let '(q, m) := st in
  if azero 0 w then (q, m)
  else match pm_get m t with
       | Some old => (q, pm_set m t (old + prob * Cnorm2 w))
       | None => (q ++ [t], pm_set m t (prob * Cnorm2 w))
       end.
(* the loop 714-745; the nodes left to visit bound the number of rounds *)
Fixpoint bfs (fuel index : nat) (q : list vtree) (m : list (vtree * R)) : dres (list vtree * list (vtree * R)) :=
  match q with
  | VNode v w s :: q' =>
    if Nat.eqb v index then DOk (q, m)
    else match fuel with
         | O => DUb
         | S f =>
           let pr := pm_val m (VNode v w s) in
           let '(q2, m2) := bfs_push pr (w true) (s true) (bfs_push pr (w false) (s false) (q', m)) in
           bfs f index q2 m2
         end
  | _ => DUb                                    (* empty queue, or a null pointer *)
  end.
Fixpoint tsize (t : vtree) : nat := match t with VT => 0 | VNode _ _ s => S (tsize (s false) + tsize (s true)) end.
(* the loop 747-763 *)
Definition bfs_sum (m : list (vtree * R)) (i : bool) (q : list vtree) : R :=
  fold_right (fun t acc => match t with
                           | VNode _ w _ => (if azero 0 (w i) then 0 else pm_val m t * Cnorm2 (w i)) + acc
                           | VT => acc
                           end) 0 q.
Definition determineMeasurementProbabilities (e : vedge) (index : nat) : dres (R * R) :=
  let* (q, m) := bfs (tsize (snd e)) index [snd e] [(snd e, Cnorm2 (fst e))] in
  DOk (bfs_sum m false q, bfs_sum m true q).

(* performCollapsingMeasurement, 823-842; the assertion on the probability *)
Definition performCollapsing (nq : nat) (e : vedge) (index : nat) (probability : R) (measureZero : bool) : dres vedge :=
  let* g := makeGateDD nq (fun i j => if Bool.eqb i j && Bool.eqb i (negb measureZero) then C1 else C0) [] index in
  let* r := multiplyMV g e in
  if Rlt_dec 0 probability then DOk (vlook ((fst r * RtoC (/ sqrt probability))%C, snd r)) else DUb.
(* measureOneCollapsing, 766-785; exact arithmetic: the probabilities have to add up to one *)
Definition measureOneCollapsing (nq : nat) (e : vedge) (index : nat) : rnd (bool * vedge) :=
  rlift (determineMeasurementProbabilities e index) (fun pq =>
    let '(pzero, pone) := pq in
    let sum := pzero + pone in
    if Req_EM_T sum 1 then
      RFlip (pzero / sum)
        (RRet (let* r := performCollapsing nq e index pzero true in DOk (false, r)))
        (RRet (let* r := performCollapsing nq e index pone false in DOk (true, r)))
    else RRet DThrow).

(* measureAll without collapsing, 625-667; the string as the function from its qubits to the outcomes *)
Fixpoint measure_walk (n : nat) (t : vtree) (res : bits) : rnd bits :=
  match n with
  | O => RRet (DOk res)
  | S n' =>
    match t with
    | VT => RRet DUb
    | VNode v w s =>
      let p0 := Cnorm2 (w false) in let p1 := Cnorm2 (w true) in
      let tmp := p0 + p1 in
      if Req_EM_T tmp 1 then
        RFlip (p0 / tmp) (measure_walk n' (s false) res) (measure_walk n' (s true) (setb res v true))
      else RRet DThrow
    end
  end.
Definition measureAll (e : vedge) : rnd bits :=
  if Req_EM_T (Cnorm2 (fst e)) 0 then RRet DThrow
  else match snd e with
       | VT => RRet (DOk (fun _ => false))
       | VNode v _ _ => measure_walk (S v) (snd e) (fun _ => false)
       end.

(* ---- sampling: Simulation.cpp:33-224 -------------------------------------------------------------------- *)

(* isUnitary: only measurements, resets and classically controlled operations override it
   (NonUnitaryOperation.hpp:44, ClassicControlledOperation.hpp:98); a compound operation always counts *)
Definition cunitary (o : cop) : bool := match o with OStd _ | OComp _ _ => true | _ => false end.
(* measurementMap[qubit] = bit in a std::map *)
Fixpoint mm_set (m : list (nat * nat)) (q b : nat) : list (nat * nat) :=
  match m with
  | [] => [(q, b)]
  | (a, c) :: r => if Nat.eqb q a then (a, b) :: r else if Nat.ltb q a then (q, b) :: m else (a, c) :: mm_set r q b
  end.
Fixpoint mm_sets (m : list (nat * nat)) (qs cs : list nat) : dres (list (nat * nat)) :=
  match qs, cs with
  | [], _ => DOk m
  | q :: qs', c :: cs' => mm_sets (mm_set m q c) qs' cs'
  | _ :: _, [] => DThrow
  end.
(* the check 57-88: (dynamic, hasMeasurements, measurementsLast, measurementMap) *)
Fixpoint scan (l : list cop) (has last : bool) (m : list (nat * nat)) : dres (bool * bool * list (nat * nat)) :=
  match l with
  | [] => DOk (negb last, has, m)
  | o :: r =>
    match o with
    | OClass _ _ | OReset _ => DOk (true, has, m)
    | OMeas qs cs => let* m' := mm_sets m qs cs in scan r true last m'
    | _ => scan r has (if has && cunitary o then false else last) m
    end
  end.
(* the mapping 127-152 of one outcome to a bit string of numBits bits; false by default.  Positions
   beyond the strings are undefined, outputPermutation.at throws. *)
Fixpoint map_meas (n numBits : nat) (out : perm) (res : bits) (mm : list (nat * nat)) (acc : bits) : dres bits :=
  match mm with
  | [] => DOk acc
  | (q, b) :: r =>
    match plookup out q with
    | None => DThrow
    | Some l => if Nat.ltb l n && Nat.ltb b numBits then map_meas n numBits out res r (setb acc b (res l)) else DUb
    end
  end.
Fixpoint map_out (n numBits : nat) (res : bits) (out : perm) (acc : bits) : dres bits :=
  match out with
  | [] => DOk acc
  | (q, b) :: r => if Nat.ltb q n && Nat.ltb b numBits then map_out n numBits res r (setb acc b (res q)) else DUb
  end.
(* the static path 95-155, for one shot *)
Definition static_shot (c : qcirc) (numBits : nat) (has : bool) (mm : list (nat * nat)) (inp : vedge) : rnd bits :=
  rlift (let* (p, e) := sim_loop (qc_n c) (filter cunitary (qc_ops c)) (qc_init c) inp in
         let* (_, e') := changePermutationV (qc_n c) e p (qc_out c) in DOk e')
    (fun e => rbind (measureAll e) (fun res =>
       RRet (if has then map_meas (qc_n c) numBits (qc_out c) res mm (fun _ => false)
             else map_out (qc_n c) numBits res (qc_out c) (fun _ => false)))).

(* applyMeasurement and applyReset, Operations.cpp:208-241; measurements.at throws beyond ncbits *)
Fixpoint shot_meas (nq nb : nat) (l : list (nat * nat)) (e : vedge) (m : bits) : rnd (vedge * bits) :=
  match l with
  | [] => RRet (DOk (e, m))
  | (q, c) :: r =>
    rbind (measureOneCollapsing nq e q) (fun oe =>
      if Nat.ltb c nb then shot_meas nq nb r (snd oe) (setb m c (fst oe)) else RRet DThrow)
  end.
Definition x_op (q : nat) : cop := OStd {| o_type := gX; o_par := []; o_ctl := []; o_tgt := [q] |}.
Fixpoint shot_reset (nq : nat) (qs : list nat) (e : vedge) : rnd vedge :=
  match qs with
  | [] => RRet (DOk e)
  | q :: r =>
    rbind (measureOneCollapsing nq e q) (fun oe =>
      if fst oe then rlift (let* d := getDD nq [] (x_op q) in multiplyMV d (snd oe)) (shot_reset nq r)
      else shot_reset nq r (snd oe))
  end.
(* one shot of the dynamic path 161-208 *)
Fixpoint shot (nq nb : nat) (l : list cop) (p : perm) (e : vedge) (m : bits) : rnd bits :=
  match l with
  | [] => RRet (DOk m)
  | o :: r =>
    match o with
    | OStd _ | OComp _ _ =>
      match is_swap o with
      | Some (a, b) => rlift (swap_perm p a b) (fun p' => shot nq nb r p' e m)
      | None => rlift (let* d := getDD nq p o in multiplyMV d e) (fun e' => shot nq nb r p e' m)
      end
    | OMeas qs cs =>
      match papply_targets p qs with
      | None => RRet DThrow
      | Some qs' =>
        if Nat.ltb (length cs) (length qs') then RRet DThrow
        else rbind (shot_meas nq nb (combine qs' cs) e m) (fun em => shot nq nb r p (fst em) (snd em))
      end
    | OReset qs =>
      match papply_targets p qs with
      | None => RRet DThrow
      | Some qs' => rbind (shot_reset nq qs' e) (fun e' => shot nq nb r p e' m)
      end
    | OClass cnd _ =>
      match classic_control cnd m with
      | None => RRet DUb
      | Some false => shot nq nb r p e m
      | Some true => rlift (let* d := getDD nq p o in multiplyMV d e) (fun e' => shot nq nb r p e' m)
      end
    end
  end.
(* one shot of sample(qc, in, ...): nb classical bits, numBits as in 127-128 *)
Definition sample_shot (c : qcirc) (nb : nat) (noRegs : bool) (inp : vedge) : rnd bits :=
  rlift (scan (qc_ops c) false true []) (fun s =>
    let '(dynamic, has, mm) := s in
    if dynamic then shot (qc_n c) nb (qc_ops c) (qc_init c) inp (fun _ => false)
    else static_shot c (if noRegs then qc_n c else nb) has mm inp).
