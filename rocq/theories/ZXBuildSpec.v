(* The operator of a circuit, and when buildFunctionality is expected to represent it. *)
From Coq Require Import Reals QArith ZArith Bool List Arith.
From Verif Require Import Cplx Qsem GateModel GateSpec IRModel IRSpec PiModel ZXModel ZXSpec ZXBuildModel.
Import ListNotations.
Local Close Scope Q_scope.
Local Open Scope nat_scope.

(* the qubit of the layout, and the gate on it; rho gives the symbols values *)
Definition lay (p : perm) (q : nat) : nat := match plookup p q with Some x => x | None => q end.
Definition std_of (rho : nat -> R) (p : perm) (t : optype) (ps : list phase) (cs : list ctl) (ts : list nat) : stdop :=
  {| o_type := t; o_par := map (pval rho) ps; o_ctl := map (fun c => (lay p (fst c), snd c)) cs; o_tgt := map (lay p) ts |}.
(* the operator of a circuit; measurements do nothing to it *)
Fixpoint zsem (rho : nat -> R) (p : perm) (o : zop) (psi : state) : state :=
  match o with
  | ZGate t ps cs ts => semf (std_of rho p t ps cs ts) psi
  | ZCompound l => (fix go l psi := match l with [] => psi | o :: l' => go l' (zsem rho p o psi) end) l psi
  end.
Definition zrun (rho : nat -> R) (p : perm) (l : list zop) (psi : state) : state := zsem rho p (ZCompound l) psi.

(* the gate kinds whose translation is right *)
Definition handled (t : optype) : bool := match t with gGPhase | gECR | gXXplusYY | gXXminusYY => false | _ => true end.
(* a gate on distinct qubits of the layout with all the parameters it needs, and positive controls *)
Definition gate_ok (rho : nat -> R) (p : perm) (t : optype) (ps : list phase) (cs : list ctl) (ts : list nat) : Prop :=
  transformable (ZGate t ps cs ts) = true /\ handled t = true /\
  (forall c, In c cs -> snd c = true) /\ NoDup (map fst cs ++ ts) /\
  (forall q, In q (map fst cs ++ ts) -> exists x, plookup p q = Some x) /\
  match t with gMeasure => ts <> [] | gBarrier => True | _ => exists f, sem (std_of rho p t ps cs ts) = Some f end.
Fixpoint zop_ok (rho : nat -> R) (p : perm) (o : zop) : Prop :=
  match o with
  | ZGate t ps cs ts => gate_ok rho p t ps cs ts
  | ZCompound l => (fix go l := match l with [] => True | o :: l' => zop_ok rho p o /\ go l' end) l
  end.
(* an injective layout into n qubits *)
Definition layout_ok (p : perm) (n : nat) : Prop := perm_ok p /\ forall x, In x (map snd p) -> x < n.

(* the basis state of the first n bits of b *)
Definition basis_in (n : nat) (b : bits) : state := fun y => cprod (seq 0 n) (fun i => if eqb (b i) (y i) then C1 else C0).
(* the diagram with inputs 0..n-1 and outputs n..2n-1 represents the operator f up to a non-zero scalar *)
Definition represents (rho : nat -> R) (n : nat) (d : diag) (f : state -> state) : Prop :=
  d_in d = seq 0 n /\ d_out d = seq n n /\
  exists c, c <> C0 /\ forall b, den rho d b = (c * f (basis_in n b) (fun i => b (n + i)%nat))%C.
