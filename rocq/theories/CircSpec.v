(** What the bookkeeping of a circuit should satisfy. *)
From Coq Require Import String List Arith Bool Permutation.
From Verif Require Import GateModel IRModel OptModel QasmIfModel CircModel.
Import ListNotations.
Local Open Scope list_scope.

(** The physical qubits of a register. *)
Definition members (r : string * (nat * nat)) : list nat := seq (fst (snd r)) (snd (snd r)).
Definition count (l : list bool) : nat := length (filter (fun b => b) l).
Definition flag (l : list bool) (i : nat) : bool := nth i l false.

Record well_kept (s : circ) : Prop := {
  (* the layout is a bijection from the physical qubits of the circuit to the logical qubits 0, 1, ... *)
  wk_phys : NoDup (map fst (c_lay s));
  wk_log : Permutation (map snd (c_lay s)) (seq 0 (total s));
  (* outputs are qubits of the circuit, and no two of them are the same logical qubit *)
  wk_out : incl (map fst (c_out s)) (map fst (c_lay s));
  wk_out_phys : NoDup (map fst (c_out s));
  wk_out_log : NoDup (map snd (c_out s));
  wk_out_range : forall p l, In (p, l) (c_out s) -> l < total s;
  (* every physical qubit is in exactly one register *)
  wk_regs : Permutation (flat_map members (c_qregs s ++ c_aregs s)) (map fst (c_lay s));
  wk_qnames : NoDup (map fst (c_qregs s));
  wk_anames : NoDup (map fst (c_aregs s));
  (* the ancillary qubits are counted *)
  wk_anc_len : total s <= length (c_anc s);
  wk_anc : count (c_anc s) = c_na s;
  wk_anc_range : forall l, flag (c_anc s) l = true -> l < total s;
  (* the qubits of an ancillary register are ancillary *)
  wk_areg : forall p l, In (p, l) (c_lay s) -> In p (flat_map members (c_aregs s)) -> flag (c_anc s) l = true;
  (* no garbage qubit is an output *)
  wk_gar_len : total s <= length (c_gar s);
  wk_gar_range : forall l, flag (c_gar s) l = true -> l < total s;
  wk_gar : forall p l, In (p, l) (c_out s) -> flag (c_gar s) l = false }.

(** The indices of the physical qubits have no gaps: no qubit has been removed. *)
Definition gapless (s : circ) : Prop := forall p, In p (map fst (c_lay s)) -> p < total s.
(** The names that splitting a register gives to its parts; no register may have
    the name of a part of another. *)
Inductive part_of (a : string) : string -> Prop :=
| po_self : part_of a a
| po_low b : part_of a b -> part_of a (b ++ "_l")
| po_high b : part_of a b -> part_of a (b ++ "_h").
Definition splittable (regs : cregs) : Prop :=
  forall a b, In a (map fst regs) -> In b (map fst regs) -> part_of a b -> a = b.

(** Adding a single qubit: the name of a new register is not taken, also not by the
    parts of a register, and the output is. *)
Definition names_free (regs : cregs) (default : string) (p : nat) : Prop :=
  splittable regs /\ forall n, In n (map fst regs) -> ~ part_of (default ++ "_" ++ number p)%string n.
Definition output_free (s : circ) (o : option nat) : Prop :=
  forall x, o = Some x -> x <= total s /\ ~ In x (map snd (c_out s)) /\ flag (c_gar s) x = false.

(** The calls that build a circuit. *)
Inductive call :=
| CQubits (nr : nat) (name : string)
| CBits (nr : nat) (name : string)
| CAncillae (nr : nat) (name : string)
| CAncillary (l : nat)
| CGarbage (l : nat)
| CEmit (o : cop).
Definition emit (o : cop) (s : circ) : circ :=
  {| c_nq := c_nq s; c_na := c_na s; c_nc := c_nc s; c_qregs := c_qregs s; c_aregs := c_aregs s; c_bregs := c_bregs s;
     c_lay := c_lay s; c_out := c_out s; c_anc := c_anc s; c_gar := c_gar s; c_ops := c_ops s ++ [o] |}.
Definition call1 (c : call) (s : circ) : res circ :=
  match c with
  | CQubits nr name => addQubitRegister nr name s
  | CBits nr name => addClassicalRegister nr name s
  | CAncillae nr name => addAncillaryRegister nr name s
  | CAncillary l => setLogicalQubitAncillary l s
  | CGarbage l => setLogicalQubitGarbage l s
  | CEmit o => ROk (emit o s)
  end.
Fixpoint calls (cs : list call) (s : circ) : res circ :=
  match cs with [] => ROk s | c :: r => bindr (call1 c s) (calls r) end.

(** ** Stripping *)
Definition tidy (s : circ) : Prop := well_kept s /\ splittable (c_qregs s) /\ splittable (c_aregs s).
(** An operation uses a qubit: as target, as control, or one of its parts does. *)
Inductive uses : cop -> nat -> Prop :=
| uses_target s q : In q (o_tgt s) -> uses (OStd s) q
| uses_control s q pol : In (q, pol) (o_ctl s) -> uses (OStd s) q
| uses_measure qs cs q : In q qs -> uses (OMeas qs cs) q
| uses_reset qs q : In q qs -> uses (OReset qs) q
| uses_class c o q : uses o q -> uses (OClass c o) q
| uses_comp cu l o q : In o l -> uses o q -> uses (OComp cu l) q.
Definition idle (s : circ) (p : nat) : Prop := forall o, In o (c_ops s) -> ~ uses o p.
(** The qubits that may go: idle, and neither the physical nor the logical qubit is an output. *)
Definition strippable (s : circ) (p : nat) : Prop :=
  idle s p /\ ~ In p (map fst (c_out s)) /\
  forall l, In (p, l) (c_lay s) -> ~ In l (map snd (c_out s)).
(** [s'] is [s] without some of its qubits: the logical qubits that are left are
    renumbered by [f], which keeps their order, and everything else moves along. *)
Definition without (gone : nat -> Prop) (s s' : circ) : Prop :=
  exists f : nat -> nat,
    (forall p l, In (p, l) (c_lay s') <-> exists l0, In (p, l0) (c_lay s) /\ ~ gone p /\ l = f l0) /\
    (forall p l, In (p, l) (c_out s') <-> exists l0, In (p, l0) (c_out s) /\ l = f l0) /\
    (forall p1 l1 p2 l2, In (p1, l1) (c_lay s) -> ~ gone p1 -> In (p2, l2) (c_lay s) -> ~ gone p2 -> l1 < l2 -> f l1 < f l2) /\
    (forall p l, In (p, l) (c_lay s) -> ~ gone p -> flag (c_anc s') (f l) = flag (c_anc s) l /\ flag (c_gar s') (f l) = flag (c_gar s) l) /\
    c_ops s' = c_ops s /\ c_nc s' = c_nc s /\ c_bregs s' = c_bregs s.

(** ** Inputs and outputs *)
(** The measurements of a circuit: the qubit and the bit. *)
Fixpoint measured (ops : list cop) : list (nat * nat) :=
  match ops with
  | [] => []
  | OMeas qs cs :: r => combine qs cs ++ measured r
  | _ :: r => measured r
  end.
(** A logical qubit that is ancillary and stays idle. *)
Definition dead (s : circ) (l : nat) : Prop :=
  flag (c_anc s) l = true /\ exists p, In (p, l) (c_lay s) /\ idle s p.
(** As the constructor ensures. *)
Definition paired (o : cop) : Prop := match o with OMeas qs cs => length qs = length cs | _ => True end.
(** Nothing but outputs and garbage differs. *)
Definition same_rest (s s' : circ) : Prop :=
  c_nq s' = c_nq s /\ c_na s' = c_na s /\ c_nc s' = c_nc s /\ c_qregs s' = c_qregs s /\ c_aregs s' = c_aregs s /\ c_bregs s' = c_bregs s /\ c_lay s' = c_lay s /\ c_anc s' = c_anc s /\ c_ops s' = c_ops s.
