(** Package::fidelityOfMeasurementOutcomes, src/dd/Package.cpp:936-944, 987-1022.

    Magnitudes and square roots are exact; a weight counts as zero if it is zero. The map of probabilities is a list of keys
    and values, the permutation a list of physical and logical qubits. *)
From Coq Require Import Reals List Bool Arith.
From Verif Require Import Cplx Qsem DDModel TravModel.
Import ListNotations.
Local Open Scope R_scope.

(** std::stoull(s, nullptr, 2) *)
Definition stoull2 (s : list bool) : nat := fold_left (fun a b => (2 * a + Nat.b2n b)%nat) s 0%nat.
(** 997-999: filteredString[logical] = binaryString[physical]; None: out of range *)
Fixpoint filterString (bin : list bool) (perm : list (nat * nat)) (s : list bool) : option (list bool) :=
  match perm with
  | [] => Some s
  | (physical, logical) :: r =>
      match nth_error bin physical with
      | Some b => match set_at s logical b with Some s' => filterString bin r s' | None => None end
      | None => None
      end
  end.
(** 992-1001: the key of an outcome *)
Definition outcomeKey (n : nat) (perm : list (nat * nat)) (i : nat) : option nat :=
  match perm with
  | [] => Some i
  | _ => match filterString (intToBinaryString i n) perm (repeat false (length perm)) with Some s => Some (stoull2 s) | None => None end
  end.
(** fidelityOfMeasurementOutcomesRecursive, 987-1022 *)
Fixpoint fidRec (key : nat -> option nat) (probs : list (nat * R)) (t : vtree) (w : C) (i : nat) : option R :=
  let top := Cmod w in
  match t with
  | VT =>
      match key i with
      | Some idx => Some (match look Nat.eq_dec idx probs with Some p => top * sqrt p | None => 0 end)
      | None => None
      end
  | VNode q ws s =>
      let left := if ezero (ws false) then Some 0 else fidRec key probs (s false) (ws false) i in
      let right := if ezero (ws true) then Some 0 else fidRec key probs (s true) (ws true) (Nat.lor i (Nat.shiftl 1 q)) in
      match left, right with Some l, Some r => Some (top * (l + r)) | _, _ => None end
  end.
(** fidelityOfMeasurementOutcomes, 936-944 *)
Definition fidelityOfMeasurementOutcomes (e : vedge) (probs : list (nat * R)) (perm : list (nat * nat)) : option R :=
  if ezero (fst e) then Some 0
  else fidRec (outcomeKey (S (vvar (snd e))) perm) probs (snd e) (fst e) 0.
