(** What the generated circuits are supposed to do. States of [n] qubits are
    functions of the bits [0 .. n-1]; nothing here depends on the generators. *)
From Coq Require Import Reals List Arith Bool NArith.
From Verif Require Import Cplx Qsem GateModel IRModel IRSpec OutcomeSpec.
Import ListNotations.

(** The basis state in which qubit [q < n] has the value [x q]. *)
Definition basis (n : nat) (x : bits) : state := fun b =>
  if forallb (fun q => Bool.eqb (b q) (x q)) (seq 0 n) then C1 else C0.
Definition zeros : bits := fun _ => false.

(** (|0..0> + |1..1>) / sqrt 2 *)
Definition ghz_state (n : nat) : state := fun b =>
  if forallb b (seq 0 n) || forallb (fun q => negb (b q)) (seq 0 n) then RtoC (/ sqrt 2) else C0.

(** The uniform superposition of the basis states with exactly one 1. *)
Definition w_state (n : nat) : state := fun b =>
  if Nat.eqb (length (filter b (seq 0 n))) 1 then RtoC (/ sqrt (INR n)) else C0.

(** Value of a bit string, most significant bit first. *)
Fixpoint value (l : list bool) : nat :=
  match l with
  | [] => 0
  | b :: r => (if b then 2 ^ length r else 0) + value r
  end.
(** The discrete Fourier transform on bit strings of length [n]. *)
Definition dft (n : nat) : mat := fun r c =>
  (RtoC (/ sqrt (2 ^ n)) * Cexp (2 * PI * (INR (value r) * INR (value c)) / 2 ^ n))%C.

(** Value of the classical bits [0 .. n-1], bit 0 being the least significant. *)
Definition outcome (n : nat) (m : store) : nat := value (rev (map m (seq 0 n))).
(** The textbook distribution of phase estimation with [n] bits for the
    eigenvalue exp (2 pi i phi): the probability of the outcome [y]. *)
Definition qpe_dist (n : nat) (phi : R) (y : nat) : R :=
  Cnorm2 (RtoC (/ 2 ^ n) * csum (seq 0 (2 ^ n)) (fun k => Cexp (2 * PI * INR k * (phi - INR y / 2 ^ n))))%C.

(** ** Circuits on one qubit that is reset between rounds *)
(** An operation of a circuit on one qubit, on qubit [i] instead. *)
Fixpoint on_qubit (i : nat) (o : cop) : cop :=
  match o with
  | OStd s => OStd {| o_type := o_type s; o_par := o_par s; o_ctl := map (fun c => (i, snd c)) (o_ctl s); o_tgt := map (fun _ => i) (o_tgt s) |}
  | OMeas qs cs => OMeas (map (fun _ => i) qs) cs
  | OReset qs => OReset (map (fun _ => i) qs)
  | OClass c o' => OClass c (on_qubit i o')
  | OComp cu l => OComp cu (map (on_qubit i) l)
  end.
Definition is_reset (o : cop) : bool := match o with OReset _ => true | _ => false end.
(** A list of operations cut behind every reset. *)
Fixpoint rounds_of (cur l : list cop) : list (list cop) :=
  match l with
  | [] => [cur]
  | o :: l' => if is_reset o then cur :: rounds_of [] l' else rounds_of (cur ++ [o]) l'
  end.
(** Instead of resetting the qubit the next one is used. *)
Fixpoint unroll (i : nat) (rs : list (list cop)) : list cop :=
  match rs with [] => [] | r :: rs' => map (on_qubit i) r ++ unroll (S i) rs' end.
Definition unrolled (l : list cop) : list cop := unroll 0 (rounds_of [] l).
