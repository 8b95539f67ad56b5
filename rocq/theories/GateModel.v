(** Gate types, gate matrices and standard operations.

    Sources: include/mqt-core/ir/operations/OpType.inc, OpType.hpp,
    src/dd/GateMatrixDefinitions.cpp, src/dd/Operations.cpp,
    src/ir/operations/StandardOperation.cpp, src/ir/operations/Operation.cpp,
    include/mqt-core/ir/operations/{Operation,Control}.hpp.

    Simplification: [fp] (double) is modelled by the real numbers, so matrix
    entries and parameters are exact; [None] stands for a parameter that
    became infinite (division by zero). *)
From Coq Require Import Reals List Arith Bool Lia.
From Verif Require Import Cplx Qsem.
Import ListNotations.
Local Open Scope R_scope.

(** OpType.inc:10-68 *)
Inductive optype :=
| gNone | gGPhase | gI | gBarrier | gH | gX | gY | gZ | gS | gSdg | gT | gTdg
| gV | gVdg | gU | gU2 | gP | gSX | gSXdg | gRX | gRY | gRZ
| gSWAP | giSWAP | giSWAPdg | gPeres | gPeresdg | gDCX | gECR
| gRXX | gRYY | gRZZ | gRZX | gXXminusYY | gXXplusYY
| gCompound | gMeasure | gReset | gClassicControlled
| gATrue | gAFalse | gMultiATrue | gMultiAFalse
| gMove | gAodActivate | gAodDeactivate | gAodMove.

Definition optype_eq_dec (a b : optype) : {a = b} + {a <> b}.
Proof. decide equality. Defined.
Definition optype_eqb (a b : optype) : bool := if optype_eq_dec a b then true else false.

(** The flag OpTypeDiag of OpType.inc; Operation.hpp:153-156 (isDiagonalGate). *)
Definition is_diag (t : optype) : bool :=
  match t with
  | gI | gBarrier | gZ | gS | gSdg | gT | gTdg | gP | gRZ | gRZZ => true
  | _ => false
  end.

(** [type ^ OpTypeInv] for the types with an inverse partner (OpType.inc). *)
Definition flip_inv (t : optype) : optype :=
  match t with
  | gS => gSdg | gSdg => gS | gT => gTdg | gTdg => gT
  | gV => gVdg | gVdg => gV | gSX => gSXdg | gSXdg => gSX
  | giSWAP => giSWAPdg | giSWAPdg => giSWAP
  | gPeres => gPeresdg | gPeresdg => gPeres
  | _ => t
  end.

(** OpType.hpp:46-66 *)
Definition is_two (t : optype) : bool :=
  match t with
  | gSWAP | giSWAP | giSWAPdg | gPeres | gPeresdg | gDCX | gECR
  | gRXX | gRYY | gRZZ | gRZX | gXXminusYY | gXXplusYY => true
  | _ => false
  end.

(** OpType.hpp:68-93 *)
Definition is_single (t : optype) : bool :=
  match t with
  | gI | gU | gU2 | gP | gX | gY | gZ | gH | gS | gSdg | gT | gSX | gSXdg
  | gTdg | gV | gVdg | gRX | gRY | gRZ => true
  | _ => false
  end.

(** ** Matrices: GateMatrixDefinitions.cpp *)

(** Index of a bit string, most significant bit first. *)
Definition bidx (l : list bool) : nat :=
  fold_left (fun (a : nat) (b : bool) => (2 * a + if b then 1 else 0)%nat) l 0%nat.

Definition mat_of (rows : list (list C)) : mat :=
  fun r c => nth (bidx c) (nth (bidx r) rows []) C0.

(** GateMatrix: std::array of four entries in row-major order. *)
Definition m2 (a b c d : C) : mat := mat_of [[a; b]; [c; d]].

(** SQRT2_2 *)
Definition sq2 : R := / sqrt 2.

(** 25-34 *)
Definition uMat (lambda phi theta : R) : mat :=
  m2 (cos (theta / 2), 0) (- cos lambda * sin (theta / 2), - sin lambda * sin (theta / 2))
     (cos phi * sin (theta / 2), sin phi * sin (theta / 2))
     (cos (lambda + phi) * cos (theta / 2), sin (lambda + phi) * cos (theta / 2)).
(** 36-42 *)
Definition u2Mat (lambda phi : R) : mat :=
  m2 (RtoC sq2) (- cos lambda * sq2, - sin lambda * sq2)
     (cos phi * sq2, sin phi * sq2)
     (cos (lambda + phi) * sq2, sin (lambda + phi) * sq2).
(** 44-46 *)
Definition pMat (lambda : R) : mat := m2 C1 C0 C0 (cos lambda, sin lambda).
(** 48-53 *)
Definition rxMat (l : R) : mat :=
  m2 (cos (l / 2), 0) (0, - sin (l / 2)) (0, - sin (l / 2)) (cos (l / 2), 0).
(** 55-60 *)
Definition ryMat (l : R) : mat :=
  m2 (cos (l / 2), 0) (- sin (l / 2), 0) (sin (l / 2), 0) (cos (l / 2), 0).
(** 62-67 *)
Definition rzMat (l : R) : mat :=
  m2 (cos (l / 2), - sin (l / 2)) C0 C0 (cos (l / 2), sin (l / 2)).
(** 69-77 *)
Definition rxxMat (t : R) : mat :=
  let c := RtoC (cos (t / 2)) in let s := (0, - sin (t / 2)) in
  mat_of [[c; C0; C0; s]; [C0; c; s; C0]; [C0; s; c; C0]; [s; C0; C0; c]].
(** 79-87 *)
Definition ryyMat (t : R) : mat :=
  let c := RtoC (cos (t / 2)) in let s := (0, - sin (t / 2)) in let s' := (0, sin (t / 2)) in
  mat_of [[c; C0; C0; s']; [C0; c; s; C0]; [C0; s; c; C0]; [s'; C0; C0; c]].
(** 89-97 *)
Definition rzzMat (t : R) : mat :=
  let m := (cos (t / 2), - sin (t / 2)) in let p := (cos (t / 2), sin (t / 2)) in
  mat_of [[m; C0; C0; C0]; [C0; p; C0; C0]; [C0; C0; p; C0]; [C0; C0; C0; m]].
(** 99-107 *)
Definition rzxMat (t : R) : mat :=
  let c := RtoC (cos (t / 2)) in let s := (0, - sin (t / 2)) in let s' := (0, sin (t / 2)) in
  mat_of [[c; s; C0; C0]; [s; c; C0; C0]; [C0; C0; c; s']; [C0; C0; s'; c]].
(** 109-121 *)
Definition xxMinusYYMat (t b : R) : mat :=
  let c := RtoC (cos (t / 2)) in
  mat_of [[c; C0; C0; (- sin b * sin (t / 2), - cos b * sin (t / 2))];
          [C0; C1; C0; C0]; [C0; C0; C1; C0];
          [(sin b * sin (t / 2), - cos b * sin (t / 2)); C0; C0; c]].
(** 123-134 *)
Definition xxPlusYYMat (t b : R) : mat :=
  let c := RtoC (cos (t / 2)) in
  mat_of [[C1; C0; C0; C0];
          [C0; c; (sin b * sin (t / 2), - cos b * sin (t / 2)); C0];
          [C0; (- sin b * sin (t / 2), - cos b * sin (t / 2)); c; C0];
          [C0; C0; C0; C1]].

(** 139-192: opToSingleQubitGateMatrix; [None]: std::invalid_argument or an
    out-of-range parameter access. *)
Definition single_matrix (t : optype) (ps : list R) : option mat :=
  match t, ps with
  | gI, _ => Some (m2 C1 C0 C0 C1)
  | gH, _ => Some (m2 (RtoC sq2) (RtoC sq2) (RtoC sq2) (RtoC (- sq2)))
  | gX, _ => Some (m2 C0 C1 C1 C0)
  | gY, _ => Some (m2 C0 (0, -1) (0, 1) C0)
  | gZ, _ => Some (m2 C1 C0 C0 (RtoC (-1)))
  | gS, _ => Some (m2 C1 C0 C0 (0, 1))
  | gSdg, _ => Some (m2 C1 C0 C0 (0, -1))
  | gT, _ => Some (m2 C1 C0 C0 (sq2, sq2))
  | gTdg, _ => Some (m2 C1 C0 C0 (sq2, - sq2))
  | gSX, _ => Some (m2 (1/2, 1/2) (1/2, -1/2) (1/2, -1/2) (1/2, 1/2))
  | gSXdg, _ => Some (m2 (1/2, -1/2) (1/2, 1/2) (1/2, 1/2) (1/2, -1/2))
  | gV, _ => Some (m2 (RtoC sq2) (0, - sq2) (0, - sq2) (RtoC sq2))
  | gVdg, _ => Some (m2 (RtoC sq2) (0, sq2) (0, sq2) (RtoC sq2))
  | gU, p0 :: p1 :: p2 :: _ => Some (uMat p2 p1 p0)
  | gU2, p0 :: p1 :: _ => Some (u2Mat p1 p0)
  | gP, p :: _ => Some (pMat p)
  | gRX, p :: _ => Some (rxMat p)
  | gRY, p :: _ => Some (ryMat p)
  | gRZ, p :: _ => Some (rzMat p)
  | _, _ => None
  end.

(** 194-231: opToTwoQubitGateMatrix. *)
Definition two_matrix (t : optype) (ps : list R) : option mat :=
  match t, ps with
  | gSWAP, _ => Some (mat_of [[C1;C0;C0;C0];[C0;C0;C1;C0];[C0;C1;C0;C0];[C0;C0;C0;C1]])
  | giSWAP, _ => Some (mat_of [[C1;C0;C0;C0];[C0;C0;(0,1);C0];[C0;(0,1);C0;C0];[C0;C0;C0;C1]])
  | giSWAPdg, _ => Some (mat_of [[C1;C0;C0;C0];[C0;C0;(0,-1);C0];[C0;(0,-1);C0;C0];[C0;C0;C0;C1]])
  | gECR, _ => Some (mat_of [[C0;C0;RtoC sq2;(0,sq2)];[C0;C0;(0,sq2);RtoC sq2];
                             [RtoC sq2;(0,-sq2);C0;C0];[(0,-sq2);RtoC sq2;C0;C0]])
  | gDCX, _ => Some (mat_of [[C1;C0;C0;C0];[C0;C0;C1;C0];[C0;C0;C0;C1];[C0;C1;C0;C0]])
  | gPeres, _ => Some (mat_of [[C0;C0;C0;C1];[C0;C0;C1;C0];[C1;C0;C0;C0];[C0;C1;C0;C0]])
  | gPeresdg, _ => Some (mat_of [[C0;C0;C1;C0];[C0;C0;C0;C1];[C0;C1;C0;C0];[C1;C0;C0;C0]])
  | gRXX, p :: _ => Some (rxxMat p)
  | gRYY, p :: _ => Some (ryyMat p)
  | gRZZ, p :: _ => Some (rzzMat p)
  | gRZX, p :: _ => Some (rzxMat p)
  | gXXminusYY, p :: q :: _ => Some (xxMinusYYMat p q)
  | gXXplusYY, p :: q :: _ => Some (xxPlusYYMat p q)
  | _, _ => None
  end.

(** ** Standard operations *)

(** Operation.hpp: the members type, parameter, controls, targets. A control
    is a qubit with its polarity ([true] is positive); std::set<Control> is
    modelled by a list sorted by (qubit, type), Control.hpp:67-88. *)
Record stdop := { o_type : optype; o_par : list R; o_ctl : list ctl; o_tgt : list nat }.

(** src/dd/Operations.cpp:37-58: the matrix and its targets that
    getStandardOperationDD hands to makeGateDD / makeTwoQubitGateDD. *)
Definition std_matrix (t : optype) (ps : list R) (ts : list nat) : option mat :=
  if is_single t then (if Nat.eqb (length ts) 1 then single_matrix t ps else None)
  else if is_two t then (if Nat.eqb (length ts) 2 then two_matrix t ps else None)
  else None.

Definition neg0 (ps : list R) : list R :=
  match ps with p :: r => - p :: r | [] => [] end.

(** StandardOperation.cpp:558-640 (invert); [None]: an exception is thrown or
    a parameter / target is missing. *)
Definition invert_std (o : stdop) : option stdop :=
  let t := o_type o in let ps := o_par o in let ts := o_tgt o in let cs := o_ctl o in
  match t with
  | gI | gX | gY | gZ | gH | gSWAP | gECR | gBarrier => Some o
  | gGPhase | gP | gRX | gRY | gRZ | gRXX | gRYY | gRZZ | gRZX | gXXminusYY | gXXplusYY =>
      match ps with
      | [] => None
      | _ => Some {| o_type := t; o_par := neg0 ps; o_ctl := cs; o_tgt := ts |}
      end
  | gU2 =>
      match ps with
      | p0 :: p1 :: r => Some {| o_type := t; o_par := (- p1 + PI) :: (- p0 - PI) :: r; o_ctl := cs; o_tgt := ts |}
      | _ => None
      end
  | gU =>
      match ps with
      | p0 :: p1 :: p2 :: r => Some {| o_type := t; o_par := - p0 :: - p2 :: - p1 :: r; o_ctl := cs; o_tgt := ts |}
      | _ => None
      end
  | gDCX =>
      match ts with
      | t0 :: t1 :: r => Some {| o_type := t; o_par := ps; o_ctl := cs; o_tgt := t1 :: t0 :: r |}
      | _ => None
      end
  | gS | gSdg | gT | gTdg | gV | gVdg | gSX | gSXdg | gPeres | gPeresdg | giSWAP | giSWAPdg =>
      Some {| o_type := flip_inv t; o_par := ps; o_ctl := cs; o_tgt := ts |}
  | _ => None
  end.

(** src/dd/Operations.cpp:60-139: type, parameters and targets used for the
    inverse by getStandardOperationDD(op, dd, controls, targets, true). *)
Definition dd_inverse (t : optype) (ps : list R) (ts : list nat) : option (optype * list R * list nat) :=
  match t with
  | gI | gH | gX | gY | gZ | gSWAP | gECR => Some (t, ps, ts)
  | giSWAP | giSWAPdg | gPeres | gPeresdg | gS | gSdg | gT | gTdg | gV | gVdg | gSX | gSXdg =>
      Some (flip_inv t, ps, ts)
  | gRXX | gRYY | gRZZ | gRZX | gRX | gRY | gRZ | gP | gXXminusYY | gXXplusYY =>
      match ps with [] => None | _ => Some (t, neg0 ps, ts) end
  | gDCX => match ts with [t0; t1] => Some (t, ps, [t1; t0]) | _ => None end
  | gU =>
      match ps with
      | p0 :: p1 :: p2 :: r => Some (t, map Ropp (p0 :: p2 :: p1 :: r), ts)
      | _ => None
      end
  | gU2 =>
      match ps with
      | p0 :: p1 :: r => Some (t, (- p1 - PI) :: (- p0 + PI) :: r, ts)
      | _ => None
      end
  | _ => None
  end.

(** What getDD / getInverseDD builds for an uncontrolled-phase, barrier or
    standard operation (src/dd/Operations.cpp:141-169), as an action on states
    given by the controlled matrix; [None] when an exception is thrown.
    The diagrams themselves are modelled elsewhere. *)
Definition dd_action (inverse : bool) (o : stdop) : option (state -> state) :=
  match o_type o with
  | gBarrier => Some (fun psi => psi)
  | gGPhase =>
      match o_par o with
      | p :: _ => Some (sscal (Cexp (if inverse then - p else p)))
      | [] => None
      end
  | t =>
      match (if inverse then dd_inverse t (o_par o) (o_tgt o) else Some (t, o_par o, o_tgt o)) with
      | Some (t', ps, ts) =>
          match std_matrix t' ps ts with
          | Some M => Some (capply (o_ctl o) M ts)
          | None => None
          end
      | None => None
      end
  end.

(** Operation.hpp:171-178 (actsOn); std::set::find / count with a qubit index
    ignores the polarity (CompareControl is transparent, Control.hpp:75-90). *)
Definition memn (q : nat) (l : list nat) : bool := existsb (Nat.eqb q) l.
Definition has_ctl (q : nat) (cs : list ctl) : bool := existsb (fun c => Nat.eqb q (fst c)) cs.
Definition acts_on (o : stdop) (q : nat) : bool := memn q (o_tgt o) || has_ctl q (o_ctl o).

Definition Req_b (x y : R) : bool := if Req_EM_T x y then true else false.
Fixpoint pars_eqb (l m : list R) : bool :=
  match l, m with
  | [], [] => true
  | x :: l', y :: m' => Req_b x y && pars_eqb l' m'
  | _, _ => false
  end.
Fixpoint nats_eqb (l m : list nat) : bool :=
  match l, m with
  | [], [] => true
  | x :: l', y :: m' => Nat.eqb x y && nats_eqb l' m'
  | _, _ => false
  end.
Fixpoint ctls_eqb (l m : list ctl) : bool :=
  match l, m with
  | [], [] => true
  | x :: l', y :: m' => Nat.eqb (fst x) (fst y) && Bool.eqb (snd x) (snd y) && ctls_eqb l' m'
  | _, _ => false
  end.

(** StandardOperation.cpp:497-556 (commutesAtQubit, [other] not compound). *)
Definition commutes_at (o other : stdop) (q : nat) : bool :=
  if negb (acts_on o q) || negb (acts_on other q) then true
  else if has_ctl q (o_ctl o) then
    (if has_ctl q (o_ctl other) then true else is_diag (o_type other))
  else if has_ctl q (o_ctl other) then is_diag (o_type o)
  else if is_diag (o_type o) && is_diag (o_type other) then true
  else if Nat.leb (length (o_par o)) 1 then
    optype_eqb (o_type o) (o_type other) && nats_eqb (o_tgt o) (o_tgt other)
  else
    optype_eqb (o_type o) (o_type other) && nats_eqb (o_tgt o) (o_tgt other)
    && pars_eqb (o_par o) (o_par other).

(** Insertion into a std::set, ascending. *)
Fixpoint ins_nat (x : nat) (l : list nat) : list nat :=
  match l with
  | [] => [x]
  | y :: r => if Nat.ltb x y then x :: l else if Nat.eqb x y then l else y :: ins_nat x r
  end.
Definition set_of (l : list nat) : list nat := fold_left (fun s x => ins_nat x s) l [].

Definition ctl_ltb (c d : ctl) : bool :=
  Nat.ltb (fst c) (fst d) || (Nat.eqb (fst c) (fst d) && negb (snd c) && snd d).
Fixpoint ins_ctl (x : ctl) (l : list ctl) : list ctl :=
  match l with
  | [] => [x]
  | y :: r => if ctl_ltb x y then x :: l else if ctl_ltb y x then y :: ins_ctl x r else l
  end.
Definition ctls_of (l : list ctl) : list ctl := fold_left (fun s x => ins_ctl x s) l [].

(** Permutation.cpp:19-48 for a permutation that is defined on every qubit it
    is asked for; an empty permutation is the identity function. *)
Definition perm_ctls (p : nat -> nat) (cs : list ctl) : list ctl :=
  ctls_of (map (fun c => (p (fst c), snd c)) cs).

(** Operation.cpp:198-208 (getUsedQubitsPermuted). *)
Definition used_qubits (p : nat -> nat) (o : stdop) : list nat :=
  set_of (map p (o_tgt o) ++ map (fun c => p (fst c)) (o_ctl o)).

Definition neg_ctls (p : nat -> nat) (o : stdop) : list nat :=
  set_of (map (fun c => p (fst c)) (filter (fun c => negb (snd c)) (o_ctl o))).

(** Operation.cpp:113-155 (equals). *)
Definition equals_std (p1 p2 : nat -> nat) (o1 o2 : stdop) : bool :=
  if negb (optype_eqb (o_type o1) (o_type o2)) then false
  else if negb (Nat.eqb (length (o_ctl o1)) (length (o_ctl o2))) then false
  else if negb (pars_eqb (o_par o1) (o_par o2)) then false
  else if is_diag (o_type o1) then
    if negb (nats_eqb (used_qubits p1 o1) (used_qubits p2 o2)) then false
    else nats_eqb (neg_ctls p1 o1) (neg_ctls p2 o2)
  else if negb (Nat.eqb (length (o_ctl o1)) 0)
          && negb (ctls_eqb (perm_ctls p1 (o_ctl o1)) (perm_ctls p2 (o_ctl o2))) then false
  else nats_eqb (map p1 (o_tgt o1)) (map p2 (o_tgt o2)).

(** Operation.cpp:192-196 (isInverseOf), for standard operations. *)
Definition is_inverse_of (o other : stdop) : option bool :=
  match invert_std other with
  | Some i => Some (equals_std (fun q => q) (fun q => q) o i)
  | None => None
  end.

(** ** Canonicalisation of parameters: StandardOperation.hpp:34-47,
    StandardOperation.cpp:36-184 *)
Section Canon.
(** PARAMETER_TOLERANCE *)
Variable tol : R.

Definition close (x y : R) : bool := if Rlt_dec (Rabs (x - y)) tol then true else false.

(** std::nearbyint; only used where the distance to the nearest integer is
    below the tolerance, so the treatment of ties does not matter. *)
Definition nearby (x : R) : Z := Int_part (x + 1 / 2).

(** StandardOperation.hpp:34-39 *)
Definition check_integer (x : R) : R :=
  let n := IZR (nearby x) in if close x n then n else x.

(** StandardOperation.hpp:41-47. PI / 0 is infinite and no integer is near
    it, so [0] is left alone; if PI / ld rounds to zero the parameter becomes
    infinite ([None]). *)
Definition check_fraction_pi (x : R) : option R :=
  if Req_EM_T x 0 then Some x
  else
    let d := PI / x in
    let n := nearby d in
    if close d (IZR n)
    then (if Z.eqb n 0 then None else Some (PI / IZR n))
    else Some x.

Definition check_par (x : R) : option R := check_fraction_pi (check_integer x).

(** 146-171 (parseU1) *)
Definition parse_u1 (l : R) : option (optype * list R) :=
  if close l 0 then Some (gI, [])
  else
    let sign := if Rlt_dec l 0 then true else false in
    if close (Rabs l) PI then Some (gZ, [])
    else if close (Rabs l) (PI / 2) then Some (if sign then gSdg else gS, [])
    else if close (Rabs l) (PI / 4) then Some (if sign then gTdg else gT, [])
    else match check_par l with
         | Some l' => Some (gP, [l'])
         | None => None
         end.

(** 107-144 (parseU2) *)
Definition parse_u2 (phi lambda : R) : option (optype * list R) :=
  if close phi 0 && close (Rabs lambda) PI then Some (gH, [])
  else if close phi 0 && close lambda 0 then Some (gRY, [PI / 2])
  else
    let phi := if close phi 0 then 0 else phi in
    if close lambda (PI / 2) && close phi (- (PI / 2)) then Some (gV, [])
    else
      let lambda := if close lambda (PI / 2) then PI / 2 else lambda in
      if close lambda (- (PI / 2)) && close phi (PI / 2) then Some (gVdg, [])
      else
        let lambda := if close lambda (- (PI / 2)) then - (PI / 2) else lambda in
        match check_par lambda, check_par phi with
        | Some l, Some p => Some (gU2, [p; l])
        | _, _ => None
        end.

(** 36-105 (parseU3) *)
Definition parse_u3 (theta phi lambda : R) : option (optype * list R) :=
  if close theta 0 && close phi 0 then parse_u1 lambda
  else if close theta (PI / 2) then parse_u2 phi lambda
  else if close lambda 0 && close phi 0 then
    match check_par theta with Some t => Some (gRY, [t]) | None => None end
  else
    let lambda := if close lambda 0 then 0 else lambda in
    if close lambda (PI / 2) && close phi (- (PI / 2)) then
      match check_par theta with Some t => Some (gRX, [t]) | None => None end
    else if close lambda (PI / 2) && close phi (PI / 2) && close theta PI then Some (gY, [])
    else
      let phi := if close lambda (PI / 2) && close phi (PI / 2) then PI / 2 else phi in
      let lambda := if close lambda (PI / 2) then PI / 2 else lambda in
      if close lambda (- (PI / 2)) && close phi (PI / 2) then Some (gRX, [- theta])
      else
        let lambda := if close lambda (- (PI / 2)) then - (PI / 2) else lambda in
        if close lambda PI && close phi 0 && close theta PI then Some (gX, [])
        else
          let phi := if close lambda PI && close phi 0 then 0 else phi in
          let lambda := if close lambda PI then PI else lambda in
          match check_par lambda, check_par phi, check_par theta with
          | Some l, Some p, Some t => Some (gU, [t; p; l])
          | _, _, _ => None
          end.

(** 173-189 (checkUgate); wrong parameter counts are assertion failures. *)
Definition check_ugate (t : optype) (ps : list R) : option (optype * list R) :=
  match t, ps with
  | gP, [l] => parse_u1 l
  | gU2, [p; l] => parse_u2 p l
  | gU, [th; p; l] => parse_u3 th p l
  | gP, _ :: _ | gU2, _ :: _ | gU, _ :: _ => None
  | _, _ => Some (t, ps)
  end.
End Canon.
