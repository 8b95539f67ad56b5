(** Model of dd::ComputeTable (include/mqt-core/dd/ComputeTable.hpp),
    dd::UnaryComputeTable (UnaryComputeTable.hpp) and dd::DensityNoiseTable
    (DensityNoiseTable.hpp). *)
From Coq Require Import List Arith Bool.
From Verif Require Import HeapModel.
Import ListNotations.

Section Cache.
(** Operands (a pair, a single pointer, or an edge together with a list of
    qubits) with their equality test, and results. *)
Variable K R : Type.
Variable Keqb : K -> K -> bool.

(** [valid] and [table] (ComputeTable.hpp:173-176). An entry whose valid bit is
    false is never read, so [table] starts with arbitrary contents. *)
Record ctable := { cvalid : list bool; ctab : list (option (K * R)) }.

(** ComputeTable.hpp:43-52. *)
Definition ct_init (numBuckets : nat) : ctable :=
  {| cvalid := repeat false numBuckets; ctab := repeat None numBuckets |}.

(** ComputeTable.hpp:105-115. The bucket index [k] is computed by the caller
    ([hash & mask]); statistics omitted. [None]: index out of range. *)
Definition ct_insert (k : nat) (key : K) (r : R) (t : ctable) : option ctable :=
  if Nat.ltb k (length (cvalid t)) && Nat.ltb k (length (ctab t)) then
    Some {| cvalid := set_nth k true (cvalid t);
            ctab := set_nth k (Some (key, r)) (ctab t) |}
  else None.

(** ComputeTable.hpp:124-155. [accept] is the additional density-matrix test in
    lines 142-152 (always true for the other instantiations). The outer option
    is the out-of-range error, the inner one hit or miss. *)
Definition ct_lookup (k : nat) (key : K) (accept : R -> bool) (t : ctable)
  : option (option R) :=
  match nth_error (cvalid t) k with
  | None => None
  | Some false => Some None
  | Some true =>
      match nth_error (ctab t) k with
      | Some (Some (key', r)) =>
          if Keqb key' key then if accept r then Some (Some r) else Some None
          else Some None
      | Some None => Some None
      | None => None
      end
  end.

(** ComputeTable.hpp:161 and DensityNoiseTable.hpp:107: [newsize] is
    [stats.numBuckets]; UnaryComputeTable.hpp:109: [newsize] is the template
    parameter NBUCKET. *)
Definition ct_clear (newsize : nat) (t : ctable) : ctable :=
  {| cvalid := repeat false newsize; ctab := ctab t |}.

(** Histories. Each insert/lookup carries the hash value the code computed at
    that moment (the hash of density-matrix operands depends on flags stored in
    the nodes, ComputeTable.hpp:71-90, so it need not be a function of the
    operands alone). *)
Inductive cop :=
| CInsert (hash : nat) (key : K) (r : R)
| CLookup (hash : nat) (key : K)
| CClear.

Definition ct_step (size clearsize : nat) (t : ctable) (o : cop) : option ctable :=
  match o with
  | CInsert h key r => ct_insert (h mod size) key r t
  | CLookup h key => match ct_lookup (h mod size) key (fun _ => true) t with
                     | Some _ => Some t
                     | None => None
                     end
  | CClear => Some (ct_clear clearsize t)
  end.

Fixpoint ct_run (size clearsize : nat) (ops : list cop) (t : ctable) : option ctable :=
  match ops with
  | [] => Some t
  | o :: rest => match ct_step size clearsize t o with
                 | Some t' => ct_run size clearsize rest t'
                 | None => None
                 end
  end.
End Cache.

Arguments CInsert {K R}.
Arguments CLookup {K R}.
Arguments CClear {K R}.
Arguments cvalid {K R}.
Arguments ctab {K R}.
