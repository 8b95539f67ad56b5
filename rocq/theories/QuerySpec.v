(** What the questions about a circuit ask, and what appended operations may
    refer to. *)
From Coq Require Import String List Arith Bool NArith.
From Verif Require Import Cplx Qsem GateModel GateSpec IRModel IRSpec OptModel QasmIfModel CircModel QueryModel OptFinalProofs CircSpec.
Import ListNotations.
Local Open Scope list_scope.

(** ** Depth *)
(** All qubits of an operation. *)
Fixpoint qubits (o : cop) : list nat :=
  match o with
  | OStd s => o_tgt s ++ map fst (o_ctl s)
  | OMeas qs _ => qs
  | OReset qs => qs
  | OClass _ o' => qubits o'
  | OComp _ l => flat_map qubits l
  end.
(** A circuit as a sequence of steps, each of which occupies some qubits for one
    unit of time. Barriers and operations without qubits take no time, the
    measurement or reset of several qubits is one step on each of them. *)
Definition step (qs : list nat) : list (list nat) := match qs with [] => [] | _ => [qs] end.
Fixpoint steps (o : cop) : list (list nat) :=
  match o with
  | OStd s => if optype_eqb (o_type s) gBarrier then [] else step (o_tgt s ++ map fst (o_ctl s))
  | OMeas qs _ => map (fun q => [q]) qs
  | OReset qs => map (fun q => [q]) qs
  | OClass _ o' => match o' with OStd s => if optype_eqb (o_type s) gBarrier then [] else step (qubits o') | _ => step (qubits o') end
  | OComp _ l => flat_map steps l
  end.
Definition share (a b : list nat) : Prop := exists q, In q a /\ In q b.
Definition nth_step (L : list (list nat)) (i : nat) : list nat := nth i L [].
(** A chain: steps of the sequence, in order, each sharing a qubit with the next. *)
Definition chain (L : list (list nat)) (c : list nat) : Prop :=
  (forall i, In i c -> i < length L) /\
  forall k, S k < length c -> nth k c 0 < nth (S k) c 0 /\ share (nth_step L (nth k c 0)) (nth_step L (nth (S k) c 0)).
(** A schedule in [d] layers: steps that share a qubit are in different layers,
    and in their order. *)
Definition schedule (L : list (list nat)) (t : nat -> nat) (d : nat) : Prop :=
  (forall i, i < length L -> t i < d) /\
  forall i j, i < j -> j < length L -> share (nth_step L i) (nth_step L j) -> t i < t j.
(** Nothing but single operations is classically controlled, and no barrier. *)
Fixpoint timed (o : cop) : Prop :=
  match o with
  | OClass _ o' => match o' with OComp _ _ => False | OStd s => o_type s <> gBarrier | _ => timed o' end
  | OComp _ l => (fix go l := match l with [] => True | o :: l' => timed o /\ go l' end) l
  | _ => True
  end.

(** ** Operations that are not compound *)
Fixpoint leaves (o : cop) : list cop := match o with OComp _ l => flat_map leaves l | _ => [o] end.
Definition shallow (o : cop) : Prop := match o with OComp _ l => forall x, In x l -> match x with OComp _ _ => False | _ => True end | _ => True end.
(** A gate on one qubit, without controls. *)
Definition lone (o : cop) : bool := match o with OStd s => match o_ctl s, o_tgt s with [], [_] => true | _, _ => false end | _ => false end.

(** ** Static circuits *)
(** Gates and measurements only, and no gate on a qubit after its measurement. *)
Definition static (L : list cop) : Prop :=
  (forall o, In o L -> (exists s, o = OStd s) \/ (exists qs cs, o = OMeas qs cs)) /\
  (forall A qs cs B s C, L = A ++ OMeas qs cs :: B ++ OStd s :: C -> forall q, In q qs -> ~ In q (qubits (OStd s))).
Definition gates (L : list cop) : list cop := filter (fun o => match o with OStd _ => true | _ => false end) L.
Definition measurements (L : list cop) : list cop := filter (fun o => match o with OMeas _ _ => true | _ => false end) L.

(** ** Appended operations *)
(** The operation refers to qubits and bits of the circuit only. *)
Definition at_home (s : circ) (o : cop) : Prop :=
  (forall q, uses o q -> In q (map fst (c_lay s))) /\ (forall c, In c (creads o ++ cwrites o) -> c < c_nc s).
(** The public functions that change a circuit; [ACall]: registers and marks. *)
Inductive act :=
| ACall (c : call)
| AGate (o : stdop)
| AMeasure (qs cs : list nat)
| AReset (qs : list nat)
| ABarrier (qs : list nat)
| ABarrierAll
| AClassic (o : stdop) (start len : nat) (v : N) (k : cmpk)
| AClassicBit (o : stdop) (bit : nat) (v : N) (k : cmpk)
| AOutputs (name : string)
| AMeasureAll (addBits : bool).
Definition act1 (a : act) (s : circ) : res circ :=
  match a with
  | ACall (CEmit _) => RError
  | ACall c => call1 c s
  | AGate o => add_gate o s
  | AMeasure qs cs => add_measure qs cs s
  | AReset qs => add_reset qs s
  | ABarrier qs => add_barrier qs s
  | ABarrierAll => ROk (add_barrier_all s)
  | AClassic o start len v k => add_classic o start len v k s
  | AClassicBit o bit v k => add_classic_bit o bit v k s
  | AOutputs name => appendMeasurements name s
  | AMeasureAll b => measureAll b s
  end.
Fixpoint acts (l : list act) (s : circ) : res circ := match l with [] => ROk s | a :: r => bindr (act1 a s) (acts r) end.
(** In every possible outcome the bit shows the value of the qubit: no amplitude is
    left in which they differ. *)
Definition shown (l : list cop) (q c : nat) : Prop :=
  forall b x, In x (run l b) -> forall w, fst x w <> C0 -> snd x c = w q.
(** Only the bits and the operations differ. *)
Definition same_qubits (s s' : circ) : Prop :=
  c_nq s' = c_nq s /\ c_na s' = c_na s /\ c_qregs s' = c_qregs s /\ c_aregs s' = c_aregs s /\ c_lay s' = c_lay s /\ c_out s' = c_out s /\ c_anc s' = c_anc s /\ c_gar s' = c_gar s.
