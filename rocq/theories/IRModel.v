(** The operations of a circuit and of QuantumComputation, besides
    StandardOperation (GateModel.v): non-unitary, classically controlled and
    compound operations, permutations, registers. *)
From Coq Require Import Reals List Arith Bool NArith.
From Verif Require Import Cplx Qsem GateModel.
Import ListNotations.

(** ** Comparison kinds: ClassicControlledOperation.hpp:30-37 *)
Inductive cmpk := kEq | kNeq | kLt | kLeq | kGt | kGeq.

(** ClassicControlledOperation.cpp:155-172 (getInvertedComparisonKind) *)
Definition inv_kind (k : cmpk) : cmpk :=
  match k with
  | kLt => kGeq | kLeq => kGt | kGt => kLeq | kGeq => kLt | kEq => kNeq | kNeq => kEq
  end.

(** The members controlRegister (start and size), controlBit, expectedValue and
    comparisonKind; exactly one of register and bit is present. The name of a
    register is not modelled. *)
Inductive cond :=
| CReg (start len : nat) (expected : N) (k : cmpk)
| CBit (bit : nat) (expected : N) (k : cmpk).

(** ** Operations: Operation.hpp and its subclasses. Symbolic operations are
    not part of this type. The [OComp] flag is customGate. *)
Inductive cop :=
| OStd (o : stdop)
| OMeas (qs cs : list nat)
| OReset (qs : list nat)
| OClass (c : cond) (o : cop)
| OComp (custom : bool) (l : list cop).

(** ClassicControlledOperation.cpp:61-92: the constructor for a single bit;
    [None]: std::invalid_argument. *)
Definition mk_bit_op (o : cop) (bit : nat) (expected : N) (k : cmpk) : option cop :=
  if N.ltb 1 expected then None
  else
    let '(k, expected) := match k with kNeq => (kEq, (1 - expected)%N) | _ => (k, expected) end in
    match k with
    | kEq => Some (OClass (CBit bit expected kEq) o)
    | _ => None
    end.

(** ClassicControlledOperation.cpp:93-98 (copy constructor, used by clone()):
    comparisonKind is not copied and keeps its default Eq.
    NonUnitaryOperation.hpp:42-44, StandardOperation.hpp (clone): memberwise;
    CompoundOperation.cpp:47-53: each operation is cloned. *)
Definition clone_cond (c : cond) : cond :=
  match c with
  | CReg s l v _ => CReg s l v kEq
  | CBit b v _ => CBit b v kEq
  end.
Fixpoint clone_op (o : cop) : cop :=
  match o with
  | OClass c o' => OClass (clone_cond c) (clone_op o')
  | OComp cu l => OComp cu (map clone_op l)
  | _ => o
  end.

(** src/dd/Operations.cpp:239-253: the value of the control register, read from
    the vector of measured bits; [None]: shift by 64 or more (undefined). *)
Fixpoint actual_value (m : nat -> bool) (start j len : nat) (acc : N) : option N :=
  match len with
  | 0 => Some acc
  | S len' =>
      if m (start + j) then
        if Nat.ltb j 64 then actual_value m start (S j) len' (N.lor acc (N.shiftl 1 (N.of_nat j))) else None
      else actual_value m start (S j) len' acc
  end.

(** 255-276: the comparison. *)
Definition compare_kind (k : cmpk) (actual expected : N) : bool :=
  match k with
  | kEq => N.eqb actual expected
  | kNeq => negb (N.eqb actual expected)
  | kLt => N.ltb actual expected
  | kLeq => N.leb actual expected
  | kGt => N.ltb expected actual
  | kGeq => N.leb expected actual
  end.

(** 228-282 (applyClassicControlledOperation): whether the controlled operation
    is applied; [None]: undefined behaviour. *)
Definition classic_control (c : cond) (m : nat -> bool) : option bool :=
  match c with
  | CReg s l v k =>
      match actual_value m s 0 l 0 with
      | Some a => Some (compare_kind k a v)
      | None => None
      end
  | CBit b v k => Some (compare_kind k (if m b then 1 else 0)%N v)
  end.

(** src/dd/Operations.cpp:141-192 (getDD) as the list of standard operations
    whose product is built, in order of application; the condition of a
    classically controlled operation is not looked at here. [None]: exception. *)
Fixpoint dd_ops (o : cop) : option (list stdop) :=
  match o with
  | OStd s => Some [s]
  | OMeas _ _ | OReset _ => None
  | OClass _ o' => dd_ops o'
  | OComp _ l =>
      (fix go l :=
         match l with
         | [] => Some []
         | o :: l' =>
             match dd_ops o, go l' with
             | Some a, Some b => Some (a ++ b)
             | _, _ => None
             end
         end) l
  end.

(** ** Inversion. StandardOperation::invert is [invert_std];
    NonUnitaryOperation.hpp:87-90 throws; ClassicControlledOperation.hpp:129;
    CompoundOperation.cpp:246-251. *)
Fixpoint invert_op (o : cop) : option cop :=
  match o with
  | OStd s => match invert_std s with Some s' => Some (OStd s') | None => None end
  | OMeas _ _ | OReset _ => None
  | OClass c o' => match invert_op o' with Some i => Some (OClass c i) | None => None end
  | OComp cu l =>
      match
        (fix go l :=
           match l with
           | [] => Some []
           | o :: l' =>
               match invert_op o, go l' with
               | Some i, Some r => Some (i :: r)
               | _, _ => None
               end
           end) l
      with
      | Some r => Some (OComp cu (rev r))
      | None => None
      end
  end.

Fixpoint invert_ops (l : list cop) : option (list cop) :=
  match l with
  | [] => Some []
  | o :: l' =>
      match invert_op o, invert_ops l' with
      | Some i, Some r => Some (i :: r)
      | _, _ => None
      end
  end.

(** ** Permutations (Permutation.hpp: a std::map<Qubit, Qubit>), as association
    lists with distinct keys. *)
Definition perm := list (nat * nat).

Fixpoint plookup (p : perm) (q : nat) : option nat :=
  match p with
  | [] => None
  | (a, b) :: p' => if Nat.eqb q a then Some b else plookup p' q
  end.

(** Permutation.cpp:42-48; [None]: std::out_of_range. *)
Definition papply (p : perm) (q : nat) : option nat :=
  match p with [] => Some q | _ => plookup p q end.

Fixpoint map_opt {A B} (f : A -> option B) (l : list A) : option (list B) :=
  match l with
  | [] => Some []
  | x :: r =>
      match f x, map_opt f r with
      | Some y, Some s => Some (y :: s)
      | _, _ => None
      end
  end.

(** Permutation.cpp:31-40 *)
Definition papply_targets (p : perm) (ts : list nat) : option (list nat) := map_opt (papply p) ts.

(** Permutation.cpp:19-29; the result is built by insertion into a
    std::set<Control>. *)
Definition papply_ctl (p : perm) (c : ctl) : option ctl :=
  match papply p (fst c) with Some q => Some (q, snd c) | None => None end.
Definition papply_controls (p : perm) (cs : list ctl) : option (list ctl) :=
  match p with
  | [] => Some cs
  | _ => match map_opt (papply_ctl p) cs with Some l => Some (ctls_of l) | None => None end
  end.

(** Permutation.cpp:50-63 (maxKey, maxValue). *)
Definition max_key (p : perm) : nat := fold_right (fun x a => Nat.max (fst x) a) 0 p.
Definition max_value (p : perm) : nat := fold_right (fun x a => Nat.max (snd x) a) 0 p.

(** Operation.cpp:185-188 (apply), CompoundOperation.cpp:253-258,
    NonUnitaryOperation.cpp:231-233. A classically controlled operation
    inherits Operation::apply, which reaches the targets and controls of its
    inner operation but not the operations of an inner compound operation. *)
Fixpoint apply_perm (p : perm) (o : cop) : option cop :=
  match o with
  | OStd s =>
      match papply_targets p (o_tgt s), papply_controls p (o_ctl s) with
      | Some ts, Some cs => Some (OStd {| o_type := o_type s; o_par := o_par s; o_ctl := cs; o_tgt := ts |})
      | _, _ => None
      end
  | OMeas qs cs => match papply_targets p qs with Some qs' => Some (OMeas qs' cs) | None => None end
  | OReset qs => match papply_targets p qs with Some qs' => Some (OReset qs') | None => None end
  | OClass c o' =>
      match o' with
      | OComp _ _ => Some o
      | _ => match apply_perm p o' with Some i => Some (OClass c i) | None => None end
      end
  | OComp cu l =>
      match
        (fix go l :=
           match l with
           | [] => Some []
           | o :: l' =>
               match apply_perm p o, go l' with
               | Some i, Some r => Some (i :: r)
               | _, _ => None
               end
           end) l
      with
      | Some r => Some (OComp cu r)
      | None => None
      end
  end.

(** ** Registers: Register.hpp:24-75. BitType arithmetic does not wrap. *)
Record reg := { r_start : nat; r_size : nat }.
(** 46-48 *)
Definition reg_contains (r : reg) (i : nat) : bool :=
  Nat.leb (r_start r) i && Nat.ltb i (r_start r + r_size r).
(** 50-55; [None]: std::out_of_range *)
Definition reg_local (r : reg) (g : nat) : option nat :=
  if reg_contains r g then Some (g - r_start r) else None.
(** 57-62 *)
Definition reg_global (r : reg) (l : nat) : option nat :=
  if Nat.leb (r_size r) l then None else Some (r_start r + l).

(** ** QuantumComputation: the members used here. *)
Record qcirc := {
  qc_n : nat;               (* nqubits + nancillae *)
  qc_ops : list cop;
  qc_init : perm;           (* initialLayout *)
  qc_out : perm;            (* outputPermutation *)
  qc_phase : R              (* globalPhase *)
}.

(** QuantumComputation.cpp:547-562 (invert); [None]: exception. *)
Definition invert_qc (c : qcirc) : option qcirc :=
  match invert_ops (qc_ops c) with
  | None => None
  | Some r =>
      let same := Nat.eqb (length (qc_init c)) (length (qc_out c)) in
      Some {| qc_n := qc_n c; qc_ops := rev r;
              qc_init := if same then qc_out c else qc_init c;
              qc_out := if same then qc_init c else qc_out c;
              qc_phase := qc_phase c |}
  end.

(** QuantumComputation.hpp (copy constructor): operations are cloned. *)
Definition copy_qc (c : qcirc) : qcirc :=
  {| qc_n := qc_n c; qc_ops := map clone_op (qc_ops c);
     qc_init := qc_init c; qc_out := qc_out c; qc_phase := qc_phase c |}.
