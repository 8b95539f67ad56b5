(** The circuit generators of src/algorithms: GHZ and W states, quantum Fourier
    transform, Bernstein-Vazirani, Grover, quantum phase estimation.

    Simplifications: qubit numbers do not wrap around at 2^32; double is
    modelled by the real numbers; the constructor of StandardOperation turns
    phase gates whose angle is within a tolerance of a multiple of pi/4 into
    Z, S, T, ... (modelled elsewhere), which is left out here. Names of
    circuits and registers are not modelled. [None] stands for an exception. *)
From Coq Require Import Reals List Arith Bool NArith ZArith.
From Verif Require Import Cplx Qsem GateModel IRModel.
Import ListNotations.

(** QuantumComputation.cpp:1312-1436: the operations h, x, cx, cz, cp, ry, ...;
    all controls are positive unless stated otherwise. *)
Definition g1 (t : optype) (q : nat) : cop :=
  OStd {| o_type := t; o_par := []; o_ctl := []; o_tgt := [q] |}.
Definition cg1 (t : optype) (c q : nat) : cop :=
  OStd {| o_type := t; o_par := []; o_ctl := [(c, true)]; o_tgt := [q] |}.
Definition mcg1 (t : optype) (cs : list ctl) (q : nat) : cop :=
  OStd {| o_type := t; o_par := []; o_ctl := cs; o_tgt := [q] |}.
Definition g1p (t : optype) (p : R) (q : nat) : cop :=
  OStd {| o_type := t; o_par := [p]; o_ctl := []; o_tgt := [q] |}.
Definition cg1p (t : optype) (p : R) (c q : nat) : cop :=
  OStd {| o_type := t; o_par := [p]; o_ctl := [(c, true)]; o_tgt := [q] |}.
(** QuantumComputation.cpp:1438-1453 (swap) *)
Definition swap_op (a b : nat) : cop :=
  OStd {| o_type := gSWAP; o_par := []; o_ctl := []; o_tgt := [a; b] |}.
(** measure(qubit, bit), reset(qubit) *)
Definition meas (q c : nat) : cop := OMeas [q] [c].
Definition rst (q : nat) : cop := OReset [q].
(** QuantumComputation.cpp:1614-1642 (classicControlled on a single bit with the value 1) *)
Definition cc1 (t : optype) (ps : list R) (q bit : nat) : cop :=
  OClass (CBit bit 1 kEq) (OStd {| o_type := t; o_par := ps; o_ctl := []; o_tgt := [q] |}).

(** The layout of QuantumComputation(nq, nq). *)
Definition idperm (n : nat) : perm := map (fun i => (i, i)) (seq 0 n).
Definition plain_qc (n : nat) (ops : list cop) : qcirc :=
  {| qc_n := n; qc_ops := ops; qc_init := idperm n; qc_out := idperm n; qc_phase := 0 |}.

(** Qubits [from .. to-1]; [for (i = from; i < to; i++)]. *)
Definition range (from to : nat) : list nat := seq from (to - from).

(** ** GHZState.cpp:19-29. For nq = 0 the index nq - 1 wraps and h throws
    std::out_of_range. *)
Definition ghz_ops (nq : nat) : list cop :=
  let top := nq - 1 in
  g1 gH top :: map (fun i => cg1 gX top i) (range 0 top).
Definition createGHZState (nq : nat) : option qcirc :=
  if Nat.eqb nq 0 then None else Some (plain_qc nq (ghz_ops nq)).

(** ** WState.cpp:21-27 (fGate) *)
Definition fGate (i j k n : nat) : list cop :=
  let theta := acos (sqrt (1 / INR (k - n + 1))) in
  [g1p gRY (- theta) j; cg1 gZ i j; g1p gRY theta j].
(** 30-45; for nq = 0 the first operation throws. *)
Definition wstate_ops (nq : nat) : list cop :=
  g1 gX (nq - 1)
  :: flat_map (fun m => fGate (nq - m) (nq - m - 1) nq m) (range 1 nq)
  ++ map (fun k => cg1 gX (k - 1) k) (rev (range 1 nq)).
Definition createWState (nq : nat) : option qcirc :=
  if Nat.eqb nq 0 then None else Some (plain_qc nq (wstate_ops nq)).

(** ** QFT.cpp:34-48: the rotations and the Hadamard gate for qubit [i] *)
Definition qft_rot (i j : nat) : cop :=
  let d := i - j in
  if Nat.eqb j 1 then cg1 gS i d
  else if Nat.eqb j 2 then cg1 gT i d
  else cg1p gP (PI / 2 ^ j) i d.
Definition qft_stage (i : nat) : list cop :=
  map (qft_rot i) (rev (range 1 (i + 1))) ++ [g1 gH i].
Definition qft_core (nq : nat) : list cop := flat_map qft_stage (range 0 nq).
(** 23-67; 27-29 for nq = 0. The output permutation maps every qubit i
    to nq - 1 - i in both cases. *)
Definition revperm (n : nat) : perm := map (fun i => (i, n - 1 - i)) (seq 0 n).
Definition qft_meas (nq : nat) : list cop := map (fun i => meas i (nq - 1 - i)) (range 0 nq).
Definition qft_swaps (nq : nat) : list cop := map (fun i => swap_op i (nq - 1 - i)) (range 0 (nq / 2)).
Definition createQFT (nq : nat) (includeMeasurements : bool) : qcirc :=
  if Nat.eqb nq 0 then plain_qc 0 []
  else
    {| qc_n := nq;
       qc_ops := qft_core nq ++ (if includeMeasurements then qft_meas nq else qft_swaps nq);
       qc_init := idperm nq; qc_out := revperm nq; qc_phase := 0 |}.

(** QFT.cpp:79-90: one classically controlled rotation. *)
Definition iqft_rot (nq i j : nat) : cop :=
  let d := nq - j in
  if Nat.eqb j i then cc1 gS [] 0 d
  else if Nat.eqb j (i - 1) then cc1 gT [] 0 d
  else cc1 gP [(PI / 2 ^ (i - j + 1))%R] 0 d.
(** QFT.cpp:77-102: one round. *)
Definition iqft_round (nq i : nat) : list cop :=
  map (iqft_rot nq i) (range 1 (i + 1)) ++ [g1 gH 0; meas 0 (nq - 1 - i)]
  ++ (if Nat.ltb i (nq - 1) then [rst 0] else []).
(** QFT.cpp:69-105 *)
Definition createIterativeQFT (nq : nat) : qcirc :=
  if Nat.eqb nq 0 then plain_qc 0 []
  else plain_qc 1 (flat_map (iqft_round nq) (range 0 nq)).

(** ** BernsteinVazirani.cpp. BVBitString is std::bitset<4096>, whose test
    throws beyond that. *)
Definition bitstring := nat -> bool.
Definition bv_bits : nat := 4096.
(** 24-32 (getMostSignificantBit) *)
Definition getMostSignificantBit (size : nat) (s : bitstring) : nat :=
  fold_left (fun msb i => if s i then i else msb) (seq 0 size) 0.
(** 57-97, 114-119; addQubitRegister throws for nq = 0. *)
Definition hlayer (from to : nat) : list cop := map (g1 gH) (range from to).
Definition bv_oracle (s : bitstring) (nq : nat) : list cop :=
  flat_map (fun i => if s (i - 1) then [cg1 gZ i 0] else []) (range 1 (nq + 1)).
Definition bv_ops (s : bitstring) (nq : nat) : list cop :=
  g1 gX 0 :: hlayer 1 (nq + 1) ++ bv_oracle s nq ++ hlayer 1 (nq + 1)
  ++ map (fun i => meas i (i - 1)) (range 1 (nq + 1)).
Definition shifted_init (nq : nat) : perm := (0, nq) :: map (fun i => (i, i - 1)) (range 1 (nq + 1)).
Definition shifted_out (nq : nat) : perm := map (fun i => (i, i - 1)) (range 1 (nq + 1)).
Definition createBernsteinVazirani (s : bitstring) (nq : nat) : option qcirc :=
  if Nat.eqb nq 0 || Nat.ltb bv_bits nq then None
  else Some {| qc_n := nq + 1; qc_ops := bv_ops s nq;
               qc_init := shifted_init nq; qc_out := shifted_out nq; qc_phase := 0 |}.
(** 100-104 *)
Definition createBernsteinVazirani1 (s : bitstring) : option qcirc :=
  createBernsteinVazirani s (getMostSignificantBit bv_bits s + 1).
(** 122-161, 178-183; addClassicalRegister throws for nq = 0. *)
Definition ibv_round (s : bitstring) (nq i : nat) : list cop :=
  [g1 gH 1] ++ (if s i then [cg1 gZ 1 0] else []) ++ [g1 gH 1; meas 1 i]
  ++ (if Nat.ltb i (nq - 1) then [rst 1] else []).
Definition ibv_ops (s : bitstring) (nq : nat) : list cop :=
  g1 gX 0 :: flat_map (ibv_round s nq) (range 0 nq).
Definition createIterativeBernsteinVazirani (s : bitstring) (nq : nat) : option qcirc :=
  if Nat.eqb nq 0 || Nat.ltb bv_bits nq then None
  else Some {| qc_n := 2; qc_ops := ibv_ops s nq;
               qc_init := [(0, 1); (1, 0)]; qc_out := [(1, 0)]; qc_phase := 0 |}.

(** ** Grover.cpp. GroverBitString is std::bitset<128>. [n]: nDataQubits. *)
Definition grover_bits : nat := 128.
(** 25-31 (appendGroverInitialization) *)
Definition grover_init (n : nat) : list cop := g1 gX n :: hlayer 0 n.
(** 33-42 (appendGroverOracle) *)
Definition grover_oracle (n : nat) (t : bitstring) : list cop :=
  [mcg1 gZ (map (fun i => (i, t i)) (range 0 n)) n].
(** 44-65 (appendGroverDiffusion) *)
Definition grover_diffusion (n : nat) : list cop :=
  hlayer 0 n ++ map (g1 gX) (range 0 n)
  ++ [mcg1 gZ (map (fun j => (j, true)) (range 1 n)) 0]
  ++ map (g1 gX) (rev (range 0 n)) ++ map (g1 gH) (rev (range 0 n)).
(** std::round for a non-negative argument. *)
Definition floorR (x : R) : Z := (up x - 1)%Z.
Definition roundR (x : R) : Z := floorR (x + / 2)%R.
(** 67-78 (computeNumberOfIterations) *)
Definition iterations (nq : nat) : nat :=
  if Nat.leb nq 2 then 1
  else if Nat.eqb (nq mod 2) 1 then
    Z.to_nat (roundR (PI / 4 * Rpower 2 (INR (nq + 1) / 2 - 1) * sqrt 2)%R)
  else Z.to_nat (roundR (PI / 4 * Rpower 2 (INR nq / 2))%R).
(** 104-125 (constructGroverCircuit) *)
Definition grover_ops (n : nat) (t : bitstring) : list cop :=
  grover_init n
  ++ concat (repeat (grover_oracle n t ++ grover_diffusion n) (iterations n))
  ++ map (fun i => meas i i) (range 0 n).
(** 136-141; targetValue.test throws beyond 128 bits. *)
Definition createGrover (n : nat) (t : bitstring) : option qcirc :=
  if Nat.eqb n 0 || Nat.ltb grover_bits n then None
  else Some (plain_qc (n + 1) (grover_ops n t)).

(** ** QPE.cpp *)
(** Rounding to the nearest integer, ties to even. *)
Definition rneR (x : R) : Z :=
  let f := floorR x in
  if Rlt_dec (x - IZR f) (/ 2) then f
  else if Rlt_dec (/ 2) (x - IZR f) then (f + 1)%Z
  else if Z.even f then f else (f + 1)%Z.
(** std::remainder(x, 2.0) *)
Definition remainder2 (x : R) : R := (x - 2 * IZR (rneR (x / 2)))%R.
(** 101-103: the angle of the controlled phase of round [i]. A shift by 64 or
    more is undefined; [createQPE] excludes it. *)
Definition qpe_angle (nq i : nat) (lambda : R) : R := (remainder2 (2 ^ (nq - 1 - i) * lambda) * PI)%R.
(** 108-119 *)
Definition qpe_rot (i j : nat) : cop :=
  if Nat.eqb j i then cg1 gSdg i (1 + i)
  else if Nat.eqb j (i - 1) then cg1 gTdg (i - 1) (1 + i)
  else cg1p gP (- PI / (2 * 2 ^ (i - j)))%R j (1 + i).
Definition qpe_round (lambda : R) (nq i : nat) : list cop :=
  cg1p gP (qpe_angle nq i lambda) (1 + i) 0 :: map (qpe_rot i) (range 1 (1 + i)) ++ [g1 gH (1 + i)].
(** QuantumComputation.cpp:1301-1310 (gphase): reduction to [0, 2 pi). *)
Definition norm_phase (x : R) : R := (x - 2 * PI * IZR (floorR (x / (2 * PI))))%R.
(** 75-127 (constructQPECircuit); [None] also stands for undefined behaviour
    (shift of a 64-bit integer by 64 or more) when nq > 64. *)
Definition qpe_ops (lambda : R) (nq : nat) : list cop :=
  g1 gX 0 :: hlayer 1 (nq + 1) ++ flat_map (qpe_round lambda nq) (range 0 nq)
  ++ map (fun i => meas (i + 1) i) (range 0 nq).
(** 139-144 *)
Definition createQPE (lambda : R) (nq : nat) : option qcirc :=
  if Nat.eqb nq 0 || Nat.ltb 64 nq then None
  else Some {| qc_n := nq + 1; qc_ops := qpe_ops lambda nq;
               qc_init := shifted_init nq; qc_out := shifted_out nq; qc_phase := norm_phase lambda |}.
(** 30-44 (createExactPhase) as a function of the random number. *)
Definition exact_phase (nq : nat) (theta : N) : R :=
  fold_left (fun l i => if N.testbit theta (N.of_nat (nq - i - 1)) then (l + 1 / 2 ^ i)%R else l) (range 0 nq) 0%R.
(** 48-63 (createInexactPhase) *)
Definition inexact_phase (nq : nat) (theta : N) : R :=
  fold_left (fun l i => if N.testbit theta (N.of_nat (nq - i)) then (l + 1 / 2 ^ i)%R else l) (range 0 (nq + 1)) 0%R.
(** 147-192 (constructIterativeQPECircuit) *)
Definition iqpe_round (lambda : R) (nq i : nat) : list cop :=
  [g1 gH 1; cg1p gP (qpe_angle nq i lambda) 1 0]
  ++ map (fun j => cc1 gP [(- PI / 2 ^ (i - j))%R] 1 j) (range 0 i)
  ++ [g1 gH 1; meas 1 i] ++ (if Nat.ltb i (nq - 1) then [rst 1] else []).
Definition iqpe_ops (lambda : R) (nq : nat) : list cop :=
  g1 gX 0 :: flat_map (iqpe_round lambda nq) (range 0 nq).
(** 204-209 *)
Definition createIterativeQPE (lambda : R) (nq : nat) : option qcirc :=
  if Nat.eqb nq 0 || Nat.ltb 64 nq then None
  else Some {| qc_n := 2; qc_ops := iqpe_ops lambda nq;
               qc_init := [(0, 1); (1, 0)]; qc_out := [(1, 0)]; qc_phase := norm_phase lambda |}.
