(** What instantiating a symbolic operation should give. *)
From Coq Require Import Reals List Arith Bool.
From Verif Require Import Cplx Qsem GateModel GateSpec ExprModel SymModel.
Import ListNotations.
Local Open Scope R_scope.

(** The number a parameter stands for under an assignment. *)
Definition value (a : nat -> option R) (p : sparam) (v : R) : Prop :=
  match p with SNum x => v = x | SSym e => evaluate a e = Some v end.

(** Two operations act on the same qubits with matrices that agree up to [eps]. *)
Definition gate_near (eps : R) (o o' : stdop) : Prop :=
  o_ctl o = o_ctl o' /\ o_tgt o = o_tgt o' /\
  exists k M M', gate_matrix (o_type o) (o_par o) = Some (k, M) /\
    gate_matrix (o_type o') (o_par o') = Some (k, M') /\ mat_near k eps M M'.

(** A mixed U gate that the constructor turns into P or U2. *)
Definition shrunk (tol : R) (t : optype) (ps : list sparam) : Prop :=
  t = gU /\
  ((exists x y e, ps = [SNum x; SNum y; SSym e] /\ Rabs (x - 0) < tol /\ Rabs (y - 0) < tol)
   \/ (exists x p q, ps = [SNum x; p; q] /\ Rabs (x - PI / 2) < tol)).

(** The operation with its parameters evaluated. *)
Definition evaluated (a : nat -> option R) (s : symop) : option stdop :=
  match inst_params a (s_par s) (s_sym s) with
  | Some vs => Some {| o_type := s_type s; o_par := vs; o_ctl := s_ctl s; o_tgt := s_tgt s |}
  | None => None
  end.

(** Variables of an operation, including those inside other operations. *)
Definition sym_vars (s : symop) : list nat :=
  concat (map (fun o => match o with Some e => map fst (e_terms e) | None => [] end) (s_sym s)).
Fixpoint op_vars (o : qop) : list nat :=
  match o with
  | QSym s => sym_vars s
  | QComp l => concat (map op_vars l)
  | QIf o => op_vars o
  | _ => []
  end.
(** Some parameter anywhere in the operation is symbolic. *)
Fixpoint any_symbol (o : qop) : bool :=
  match o with
  | QSym s => has_sym s
  | QComp l => existsb any_symbol l
  | QIf o => any_symbol o
  | _ => false
  end.
(** No symbolic operation inside another operation. *)
Definition flat (o : qop) : bool :=
  match o with QSym _ => true | o => negb (any_symbol o) end.

(** A request to one of the gate methods. *)
Record request := { r_type : optype; r_par : list sparam; r_ctl : list ctl; r_tgt : list nat }.
Fixpoint emit_all (tol : R) (rs : list request) (c : list qop * list nat) : option (list qop * list nat) :=
  match rs with
  | [] => Some c
  | r :: rs' =>
      match emit tol (r_type r) (r_par r) (r_ctl r) (r_tgt r) c with
      | Some c' => emit_all tol rs' c'
      | None => None
      end
  end.
(** The appended operation is the requested gate, with evaluated parameters. *)
Definition request_done (eps : R) (a : nat -> option R) (r : request) (o : qop) : Prop :=
  exists vs o', Forall2 (value a) (r_par r) vs /\ o = QStd o' /\
    gate_near eps {| o_type := r_type r; o_par := vs; o_ctl := r_ctl r; o_tgt := r_tgt r |} o'.
