(* The meaning of gate calls in OpenQASM: operators on states, without reference to the operations of the IR. *)
From Coq Require Import Reals Bool List String Arith.
From Verif Require Import Cplx Qsem GateModel GateSpec QasmEnvModel QasmIfModel QasmGateModel.
Import ListNotations.
Local Open Scope nat_scope.

(* an operator under controls *)
Definition controlled (cs : list ctl) (f : state -> state) : state -> state := fun psi b => if sat cs b then f psi b else psi b.

(* Parameters: a name is looked up among the parameters of the enclosing gate and then among the constants of the program. *)
Fixpoint pval (look : string -> option R) (e : pexpr) : option R :=
  match e with
  | PNum x => Some x
  | PName s => look s
  | PAp1 f a => option_map f (pval look a)
  | PAp2 f a b => match pval look a, pval look b with Some x, Some y => Some (f x y) | _, _ => None end
  end.
Definition inner (names : list string) (vals : list R) (glob : string -> option R) : string -> option R :=
  fun s => match map_find s (combine names vals) with Some v => Some v | None => glob s end.

Section Meaning.
Variable G : gates.                          (* the gates *)
Variable glob : string -> option R.          (* the constants *)
(* den_mods m g ps qs f: gate g under the modifiers m with parameter values ps on the qubits qs is the operator f.
   The leftmost modifier is the outermost and takes the first qubits. *)
Inductive den_mods : list modifier -> gate -> list R -> list nat -> (state -> state) -> Prop :=
| DGate : forall g ps qs f, den_gate g ps qs f -> den_mods [] g ps qs f
| DInv : forall m g ps qs f f', den_mods m g ps qs f -> inverse_maps f f' -> den_mods (MInv :: m) g ps qs f'
| DCtrl : forall m g ps cq qs f pos cnt, List.length cq = match cnt with Some n => n | None => 1 end -> den_mods m g ps qs f ->
    den_mods (MCtrl pos cnt :: m) g ps (cq ++ qs) (controlled (map (fun q => (q, pos)) cq) f)
with den_gate : gate -> list R -> list nat -> (state -> state) -> Prop :=
| DStd : forall t nc nt np ps cq tq M, List.length ps = np -> List.length cq = nc -> List.length tq = nt -> gate_matrix t ps = Some (nt, M) ->
    den_gate (GStd t nc nt np) ps (cq ++ tq) (controlled (map (fun q => (q, true)) cq) (apply M tq))
| DComp : forall params targets body ps qs f, List.length ps = List.length params -> List.length qs = List.length targets ->
    den_body (inner params ps glob) (combine targets qs) body f -> den_gate (GComp params targets body) ps qs f
(* the statements of a body, in order *)
with den_body : (string -> option R) -> list (string * nat) -> list stmt -> (state -> state) -> Prop :=
| DNil : forall look qenv, den_body look qenv [] (fun psi => psi)
| DBarrier : forall look qenv l body f, den_body look qenv body f -> den_body look qenv (SBarrier l :: body) f
| DCall : forall look qenv c g ps qs f body h, map_find (c_gate c) G = Some g -> Forall2 (fun e v => pval look e = Some v) (c_args c) ps ->
    Forall2 (fun o q => op_index o = None /\ map_find (op_name o) qenv = Some q) (c_ops c) qs -> NoDup qs -> den_mods (c_mods c) g ps qs f ->
    den_body look qenv body h -> den_body look qenv (SCall c :: body) (fun psi => h (f psi)).

(* the qubit an operand stands for in round j of a broadcast of width w *)
Definition stands (regs : cregs) (w j : nat) (o : operand) (q : nat) : Prop :=
  exists s n, reg_find (op_name o) regs = Some (s, n) /\
  match op_index o with Some i => i < n /\ q = s + i | None => (n = 1 /\ q = s) \/ (n = w /\ q = s + j) end.
(* a call in the program: one operator for each index of the registers, all registers of the same width *)
Definition den_call (regs : cregs) (c : call) (fs : list (state -> state)) : Prop :=
  exists g ps, map_find (c_gate c) G = Some g /\ Forall2 (fun e v => pval glob e = Some v) (c_args c) ps /\
  (List.length fs = 1 \/ exists o s, In o (c_ops c) /\ op_index o = None /\ reg_find (op_name o) regs = Some (s, List.length fs)) /\
  forall j f, nth_error fs j = Some f -> exists qs, Forall2 (stands regs (List.length fs) j) (c_ops c) qs /\ NoDup qs /\ den_mods (c_mods c) g ps qs f.
End Meaning.

(* The gates of a program: the standard ones and the declared ones. *)
Inductive declared : gates -> Prop :=
| DecStd : declared standard_gates
| DecGate : forall G id params targets body G', declared G -> visitGateStatement false G id params targets body = ROk G' -> declared G'.

(* Guards. A call is plain if it does not put negative controls on a gate with controls of its own. *)
Definition plain_call (G : gates) (c : call) : Prop :=
  forall g, map_find (c_gate c) G = Some g -> nControls g = 0 \/ Forall (fun m => match m with MCtrl pos _ => pos = true | _ => True end) (c_mods c).
Fixpoint names (e : pexpr) : list string :=
  match e with PNum _ => [] | PName s => [s] | PAp1 _ a => names a | PAp2 _ a b => names a ++ names b end.
Definition is_param (G : gates) (s : string) : Prop := exists id ps ts body, In (id, GComp ps ts body) G /\ In s ps.
(* In the bodies: plain calls, no resets, and constants of the program that are used are not named like a parameter of some gate. *)
Definition plain_gates (G : gates) : Prop := forall id params targets body, In (id, GComp params targets body) G ->
  forall s, In s body -> match s with
    | SCall c => plain_call G c /\ forall e x, In e (c_args c) -> In x (names e) -> In x params \/ ~ is_param G x
    | SBarrier _ => True | SReset _ => False end.
