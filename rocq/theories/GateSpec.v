(** Meaning of standard operations on states of arbitrarily many qubits. *)
From Coq Require Import Reals List Arith Bool.
From Verif Require Import Cplx Qsem GateModel.
Import ListNotations.

(** The matrix of a gate together with the number of targets it needs;
    the global phase is a matrix on zero targets, a barrier does nothing. *)
Definition gate_matrix (t : optype) (ps : list R) : option (nat * mat) :=
  match t, ps with
  | gGPhase, p :: _ => Some (0, fun _ _ => Cexp p)
  | _, _ =>
      match single_matrix t ps with
      | Some M => Some (1, M)
      | None => match two_matrix t ps with Some M => Some (2, M) | None => None end
      end
  end.

(** The operator denoted by an operation: its gate under all its controls.
    [None]: not a unitary gate, or wrong number of targets or parameters. *)
Definition sem (o : stdop) : option (state -> state) :=
  match o_type o with
  | gBarrier => Some (fun psi => psi)
  | t =>
      match gate_matrix t (o_par o) with
      | Some (k, M) => if Nat.eqb (length (o_tgt o)) k then Some (capply (o_ctl o) M (o_tgt o)) else None
      | None => None
      end
  end.

(** Targets are distinct, and no control is a target. *)
Definition wf_op (o : stdop) : Prop := NoDup (o_tgt o) /\ apart (o_ctl o) (o_tgt o).

Definition inverse_maps (f g : state -> state) : Prop :=
  (forall psi, g (f psi) = psi) /\ (forall psi, f (g psi) = psi).

(** Types for which no inverse operation is offered. *)
Definition unitary_type (t : optype) : bool :=
  is_single t || is_two t ||
  match t with gGPhase | gBarrier => true | _ => false end.

(** Renaming qubits. *)
Definition rename_op (p : nat -> nat) (o : stdop) : stdop :=
  {| o_type := o_type o; o_par := o_par o;
     o_ctl := map (fun c => (p (fst c), snd c)) (o_ctl o); o_tgt := map p (o_tgt o) |}.

(** Two matrices agree up to [eps] in every entry. *)
Definition mat_near (k : nat) (eps : R) (M N : mat) : Prop :=
  forall r c, length r = k -> length c = k -> (Cmod (M r c - N r c) <= eps)%R.
