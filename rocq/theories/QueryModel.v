(** Questions about a circuit and the functions that append operations to it.
    src/ir/QuantumComputation.cpp:198-249, 901-928, 940-1012, 1211-1287,
    1301-1640; src/ir/operations/Operation.cpp:168-183, CompoundOperation.cpp:
    174-179, NonUnitaryOperation.cpp:225-230.

    Simplifications: the elements of a std::set of qubits are visited in any
    order; the vector is accessed for all of them, so that an access out of range
    counts as undefined even where the loop would have stopped before. The
    constructor sorts the qubits of a reset (NonUnitaryOperation.cpp:59), here they
    keep their order. Symbolic operations are left out. *)
From Coq Require Import String List Arith Bool NArith.
From Verif Require Import GateModel GraphModel IRModel OptModel QasmIfModel CircModel.
Import ListNotations.
Local Open Scope list_scope.

(** ** Depth *)
(** [None]: the vector is accessed out of range. *)
Fixpoint deepest (qs : list nat) (d : list nat) (acc : nat) : option nat :=
  match qs with
  | [] => Some acc
  | q :: r => match nth_error d q with Some x => deepest r d (Nat.max acc x) | None => None end
  end.
Definition write_all (qs : list nat) (v : nat) (d : list nat) : list nat := fold_left (fun d q => upd d q v) qs d.
(** Operation.cpp:172-182 *)
Definition sync (qs : list nat) (d : list nat) : option (list nat) :=
  match deepest qs d 0 with Some m => Some (write_all qs (m + 1) d) | None => None end.
(** NonUnitaryOperation.cpp:227-229 *)
Fixpoint bump (qs : list nat) (d : list nat) : option (list nat) :=
  match qs with
  | [] => Some d
  | q :: r => match nth_error d q with Some x => bump r (upd d q (x + 1)) | None => None end
  end.
(** Operation.cpp:168-183, CompoundOperation.cpp:174-179, NonUnitaryOperation.cpp:
    225-230. A classically controlled operation has a type of its own and the
    targets and controls of the operation inside. *)
Fixpoint add_depth (o : cop) (d : list nat) : option (list nat) :=
  match o with
  | OStd s => if optype_eqb (o_type s) gBarrier then Some d else sync (o_tgt s ++ map fst (o_ctl s)) d
  | OMeas qs _ => bump qs d
  | OReset qs => bump qs d
  | OClass _ o' => sync (ctargets o' ++ map fst (ccontrols o')) d
  | OComp _ l =>
      (fix go l d := match l with [] => Some d | o :: l' => match add_depth o d with Some d' => go l' d' | None => None end end) l d
  end.
Fixpoint add_depths (l : list cop) (d : list nat) : option (list nat) :=
  match l with [] => Some d | o :: l' => match add_depth o d with Some d' => add_depths l' d' | None => None end end.
(** 238-249; without qubits the end of an empty vector is dereferenced *)
Definition get_depth (n : nat) (l : list cop) : option nat :=
  match l with
  | [] => Some 0
  | _ =>
      match add_depths l (repeat 0 n) with
      | None => None
      | Some [] => None
      | Some (x :: d) => Some (fold_left Nat.max d x)
      end
  end.

(** ** Counts *)
(** 198-211 *)
Definition individual_ops (l : list cop) : nat :=
  fold_left (fun n o => match o with OComp _ s => n + List.length s | _ => n + 1 end) l 0.
(** Operation.hpp:131, ClassicControlledOperation.hpp:98, NonUnitaryOperation.hpp:44 *)
Definition is_unitary (o : cop) : bool := match o with OStd _ | OComp _ _ => true | _ => false end.
(** 222-225, 229 *)
Definition is_single (o : cop) : bool :=
  match ccontrols o with [] => true | _ => false end && Nat.eqb (List.length (ctargets o)) 1.
(** 213-236 *)
Definition single_qubit_ops (l : list cop) : nat :=
  fold_left (fun n o =>
    if negb (is_unitary o) then n
    else match o with
         | OComp _ s => n + List.length (filter (fun x => is_unitary x && is_single x) s)
         | _ => if is_single o then n + 1 else n
         end) l 0.

(** ** isDynamic: 1211-1255; [None]: access out of range *)
Fixpoint any_measured (qs : list nat) (m : list bool) : option bool :=
  match qs with
  | [] => Some false
  | q :: r => match nth_error m q, any_measured r m with Some b, Some b' => Some (b || b') | _, _ => None end
  end.
Fixpoint mark (qs : list nat) (m : list bool) : option (list bool) :=
  match qs with
  | [] => Some m
  | q :: r => if Nat.ltb q (List.length m) then mark r (upd m q true) else None
  end.
Fixpoint dynamic_op (o : cop) (m : list bool) : option (bool * list bool) :=
  match o with
  | OReset _ => Some (true, m)
  | OClass _ _ => Some (true, m)
  | OStd s => match any_measured (o_tgt s ++ map fst (o_ctl s)) m with Some b => Some (b, m) | None => None end
  | OMeas qs _ => match mark qs m with Some m' => Some (false, m') | None => None end
  | OComp _ l =>
      (fix go l m :=
         match l with
         | [] => Some (false, m)
         | o :: l' =>
             match dynamic_op o m with
             | None => None
             | Some (true, m') => Some (true, m')
             | Some (false, m') => go l' m'
             end
         end) l m
  end.
Fixpoint dynamic_ops (l : list cop) (m : list bool) : option (bool * list bool) :=
  match l with
  | [] => Some (false, m)
  | o :: l' =>
      match dynamic_op o m with
      | None => None
      | Some (true, m') => Some (true, m')
      | Some (false, m') => dynamic_ops l' m'
      end
  end.
Definition is_dynamic (s : circ) : option bool :=
  match dynamic_ops (c_ops s) (repeat false (max_key (c_lay s) + 1)) with Some (b, _) => Some b | None => None end.

(** ** isLastOperationOnQubit: 901-928; the operation and those behind it *)
Definition is_last (n : nat) (o : cop) (rest : list cop) : bool :=
  let actson := map (cacts o) (seq 0 n) in
  negb (existsb (fun p => existsb (fun i => nth i actson false && cacts p i) (seq 0 n)) rest).

(** ** fromCompoundOperation: 1257-1287 *)
Definition emitted (o : cop) (s : circ) : circ :=
  {| c_nq := c_nq s; c_na := c_na s; c_nc := c_nc s; c_qregs := c_qregs s; c_aregs := c_aregs s; c_bregs := c_bregs s;
     c_lay := c_lay s; c_out := c_out s; c_anc := c_anc s; c_gar := c_gar s; c_ops := c_ops s ++ [o] |}.
Definition maxl (l : list nat) (a : nat) : nat := fold_left Nat.max l a.
Fixpoint from_loop (l : list cop) (s : circ) (mq mb : nat) : circ * (nat * nat) :=
  match l with
  | [] => (s, (mq, mb))
  | g :: r => from_loop r (emitted (clone_op g) s) (maxl (used g) mq) (match g with OMeas _ cs => maxl cs mb | _ => mb end)
  end.
(** the default names of the registers: QuantumComputation.hpp:160, 165 *)
Definition fromCompoundOperation (l : list cop) : res circ :=
  let '(s, (mq, mb)) := from_loop l empty_circ 0 0 in
  bindr (addQubitRegister (mq + 1) "q"%string s) (addClassicalRegister (mb + 1) "c"%string).

(** ** Appending operations *)
(** 961-966 *)
Definition qubit_ok (s : circ) (q : nat) : bool :=
  match plookup (c_lay s) q with Some l => Nat.ltb l (total s) | None => false end.
Definition check {A} (b : bool) (r : res A) : res A := if b then r else RError.
(** 1311-1325 and the other macros: 968-980 are checked, then the operation is
    appended *)
Definition add_gate (o : stdop) (s : circ) : res circ :=
  check (forallb (qubit_ok s) (o_tgt o ++ map fst (o_ctl o))) (ROk (emitted (OStd o) s)).
(** 1530-1541; 989-1001 *)
Definition add_measure (qs cs : list nat) (s : circ) : res circ :=
  check (forallb (qubit_ok s) qs) (check (forallb (fun b => Nat.ltb b (c_nc s)) cs)
    (* the constructor throws: NonUnitaryOperation.cpp:37-41 *)
    (check (Nat.eqb (List.length qs) (List.length cs)) (ROk (emitted (OMeas qs cs) s)))).
(** 1568-1575 *)
Definition add_reset (qs : list nat) (s : circ) : res circ :=
  check (forallb (qubit_ok s) qs) (ROk (emitted (OReset qs) s)).
(** 1576-1580 *)
Definition barrier_op (qs : list nat) : cop := OStd {| o_type := gBarrier; o_par := []; o_ctl := []; o_tgt := qs |}.
Definition add_barrier_all (s : circ) : circ := emitted (barrier_op (seq 0 (total s))) s.
(** 1581-1588 *)
Definition add_barrier (qs : list nat) (s : circ) : res circ :=
  check (forallb (qubit_ok s) qs) (ROk (emitted (barrier_op qs) s)).
(** 1603-1613, 1003-1012 *)
Definition add_classic (o : stdop) (start len : nat) (v : N) (k : cmpk) (s : circ) : res circ :=
  check (forallb (qubit_ok s) (o_tgt o ++ map fst (o_ctl o))) (check (Nat.leb (start + len) (c_nc s))
    (ROk (emitted (OClass (CReg start len v k) (OStd o)) s))).
(** 1630-1643 *)
Definition add_classic_bit (o : stdop) (bit : nat) (v : N) (k : cmpk) (s : circ) : res circ :=
  check (forallb (qubit_ok s) (o_tgt o ++ map fst (o_ctl o))) (check (Nat.leb (1 + bit) (c_nc s))
    (match mk_bit_op (OStd o) bit v k with Some x => ROk (emitted x s) | None => RError end)).

(** 956-958 *)
Fixpoint measure_outputs (out : perm) (s : circ) : res circ :=
  match out with [] => ROk s | (q, c) :: r => bindr (add_measure [q] [c] s) (measure_outputs r) end.
(** 940-959 *)
Definition appendMeasurements (name : string) (s : circ) : res circ :=
  bindr
    (match c_bregs s with
     | [] => addClassicalRegister (List.length (c_out s)) name s
     | _ =>
         if Nat.ltb (c_nc s) (List.length (c_out s)) then
           if reg_has name (c_bregs s) then RError else addClassicalRegister (List.length (c_out s) - c_nc s) name s
         else ROk s
     end)
    (fun s1 => measure_outputs (c_out s1) (add_barrier_all s1)).
(** 1543-1566; the loop counts down *)
Fixpoint measure_down (n start : nat) (s : circ) : res circ :=
  match n with O => ROk s | S i => bindr (add_measure [i] [start + i] s) (measure_down i start) end.
Definition measureAll (addBits : bool) (s : circ) : res circ :=
  bindr (if addBits then addClassicalRegister (total s) "meas"%string s else ROk s) (fun s1 =>
    if Nat.ltb (c_nc s1) (total s1) then RError
    else measure_down (total s1) (if addBits then c_nc s else 0) (add_barrier_all s1)).
