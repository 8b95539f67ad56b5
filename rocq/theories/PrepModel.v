(** State preparation: src/algorithms/StatePreparation.cpp.

    Simplifications: double is modelled by the real numbers (std::arg of a
    negative real number is pi whatever the sign of its zero imaginary part);
    sizes do not overflow; the canonicalisation of gates by the constructor of
    StandardOperation is left out, as in AlgoModel. [None]: exception. *)
From Coq Require Import Reals List Arith Bool NArith.
From Verif Require Import Cplx Qsem GateModel IRModel AlgoModel.
Import ListNotations.
Local Open Scope R_scope.

(** std::arg, std::polar *)
Definition carg (z : C) : R :=
  if Ceq_dec z C0 then 0
  else if Rle_dec 0 (snd z) then acos (fst z / Cmod z) else - acos (fst z / Cmod z).
Definition polar (r t : R) : C := (RtoC r * Cexp t)%C.

(** 34-41 (twoNorm) for complex and for real entries *)
Definition twoNorm (v : list C) : R := sqrt (fold_left (fun n z => n + Cnorm2 z) v 0).
Definition twoNormR (v : list R) : R := twoNorm (map RtoC v).
(** 43-47 *)
Definition isNormalized (v : list C) (eps : R) : bool :=
  if Rlt_dec (Rabs (1 - twoNorm v)) eps then true else false.

(** 49-75, 77-83, 85-98; matrices as lists of rows *)
Definition matrix := list (list R).
Definition kroneckerProduct (a b : matrix) : matrix :=
  flat_map (fun ra => map (fun rb => flat_map (fun x => map (fun y => x * y) rb) ra) b) a.
Definition createIdentity (n : nat) : matrix :=
  map (fun i => map (fun j => if Nat.eqb i j then 1 else 0) (seq 0 n)) (seq 0 n).
Definition rowProd (row v : list R) : R :=
  fold_left (fun s p => s + fst p * snd p) (combine row v) 0.
Definition matrixVectorProd (m : matrix) (v : list R) : list R := map (fun row => rowProd row v) m.

(** 108-157 (multiplex). [k] is localNumQubits - 1, the logarithm of the number
    of angles, which halves with every call. The operations of the parts are
    flattened into one list. *)
Fixpoint multiplex_ops (k : nat) (t : optype) (angles : list R) (lastCnot : bool) : list cop :=
  match k with
  | O => [g1p t (nth 0 angles 0) 0]
  | S k' =>
      let listLen := length angles in
      let identity := createIdentity (2 ^ k')%nat in
      let angleWeights := kroneckerProduct [[/ 2; / 2]; [/ 2; - / 2]] identity in
      let angles' := matrixVectorProd angleWeights angles in
      let angles1 := firstn (listLen / 2) angles' in
      let angles2 := skipn (listLen / 2) angles' in
      multiplex_ops k' t angles1 false ++ [cg1 gX k 0%nat]
      ++ rev (multiplex_ops k' t angles2 false)
      ++ (if lastCnot then [cg1 gX k 0%nat] else [])
  end.
Definition multiplex (t : optype) (angles : list R) (lastCnot : bool) : list cop :=
  multiplex_ops (Nat.log2 (length angles)) t angles lastCnot.

(** 159-177 (blochAngles): remaining amplitude, theta, phi *)
Definition blochAngles (a b : C) (eps : R) : C * R * R :=
  let magA := Cmod a in
  let magB := Cmod b in
  let finalR := sqrt (magA ^ 2 + magB ^ 2) in
  if Rlt_dec eps finalR then
    let theta := 2 * acos (magA / finalR) in
    let finalT := carg a + carg b in
    let phi := carg b - carg a in
    (polar finalR (finalT / 2), theta, phi)
  else (polar finalR (0 / 2), 0, 0).

(** 181-204 (rotationsToDisentangle) *)
Definition rotationsToDisentangle (amps : list C) (eps : R) : list C * list R * list R :=
  let l := map (fun i => blochAngles (nth (2 * i) amps C0) (nth (2 * i + 1) amps C0) eps) (seq 0 (length amps / 2)) in
  (map (fun x => fst (fst x)) l, map (fun x => - snd (fst x)) l, map (fun x => - snd x) l).

(** 229-240, 250-261: the qubits of one operation shifted by [i] *)
Definition shift_op (i : nat) (o : cop) : cop :=
  match o with
  | OStd s => OStd {| o_type := o_type s; o_par := o_par s;
                      o_ctl := map (fun c => (fst c + i, true)%nat) (o_ctl s);
                      o_tgt := map (fun q => q + i)%nat (o_tgt s) |}
  | _ => o
  end.
(** QuantumComputation.cpp:709-719 (asOperation) followed by emplace_back; the
    list is never empty here *)
Definition as_op (l : list cop) : list cop :=
  match l with [] => [] | [o] => [o] | _ => [OComp false l] end.

(** 212-264: the operations of one round *)
Definition prep_round (i : nat) (thetas phis : list R) (eps : R) : list cop :=
  let phisOn := if Rlt_dec eps (twoNormR phis) then true else false in
  let thetasOn := if Rlt_dec eps (twoNormR thetas) then true else false in
  let addLastCnot := negb (phisOn && thetasOn) in
  (if phisOn then as_op (map (shift_op i) (multiplex gRZ phis addLastCnot)) else [])
  ++ (if thetasOn then as_op (map (shift_op i) (rev (multiplex gRY thetas addLastCnot))) else []).
(** the loop from round [i] on, [k] rounds: operations and remaining amplitudes *)
Fixpoint prep_rounds (k i : nat) (amps : list C) (eps : R) : list cop * list C :=
  match k with
  | O => ([], amps)
  | S k' =>
      let '(rest, thetas, phis) := rotationsToDisentangle amps eps in
      let (ops, final) := prep_rounds k' (S i) rest eps in
      (prep_round i thetas phis eps ++ ops, final)
  end.
(** 206-272 (gatesToUncompute) *)
Definition gatesToUncompute (amps : list C) (n : nat) (eps : R) : qcirc :=
  let (ops, final) := prep_rounds n 0 amps eps in
  let arg := carg (fold_left Cadd final C0) in
  {| qc_n := n; qc_ops := ops; qc_init := idperm n; qc_out := idperm n;
     qc_phase := if Rlt_dec eps (Rabs arg) then norm_phase arg else 0 |}.

(** 275-300 *)
Definition createStatePreparationCircuit (amps : list C) (eps : R) : option qcirc :=
  if negb (isNormalized amps eps) then None
  else
    let size := N.of_nat (length amps) in
    if (N.eqb size 0 || negb (N.eqb (N.land size (size - 1)) 0))%bool then None
    else invert_qc (gatesToUncompute amps (Nat.log2 (length amps)) eps).
