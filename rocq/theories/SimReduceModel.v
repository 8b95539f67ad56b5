(* Functionality and simulation of circuits with ancillary and garbage qubits:
   src/dd/FunctionalityConstruction.cpp and src/dd/Simulation.cpp:213-244.
   The flags are those of QuantumComputation::getAncillary and getGarbage, one for every qubit. *)
From Coq Require Import Reals List Bool Arith Lia.
From Verif Require Import Cplx Qsem GateModel IRModel OptModel DDModel SimModel DDReduceModel.
Import ListNotations.
Local Open Scope R_scope.

(* FunctionalityConstruction.cpp:23-47 *)
Definition buildFunctionalityR (c : qcirc) (anc gar : list bool) : dres medge :=
  if Nat.eqb (qc_n c) 0 then DOk mone
  else
    let* e0 := createInitialMatrix anc in
    let* (p, e) := func_loop (qc_n c) (qc_ops c) (qc_init c) e0 in
    let* (_, e1) := changePermutationM (qc_n c) true e p (qc_out c) in
    let* e2 := reduceAncillae e1 anc true in
    reduceGarbageM e2 gar true false.

(* 114-142: a single operation is returned as it is, log2 (0) is converted to an integer *)
Definition buildFunctionalityRecursiveR (c : qcirc) (anc gar : list bool) : dres medge :=
  if Nat.eqb (qc_n c) 0 then DOk mone
  else
    match qc_ops c with
    | [] => DUb
    | [o] => getDD (qc_n c) (qc_init c) o
    | ops =>
      let* (_, s, p) := func_rec (qc_n c) ops (Nat.log2_up (length ops)) 0 [] (qc_init c) in
      match s with
      | [] => DUb
      | e :: _ =>
        let* (_, e1) := changePermutationM (qc_n c) true e p (qc_out c) in
        let* e2 := reduceAncillae e1 anc true in
        reduceGarbageM e2 gar true false
      end
    end.

(* Simulation.cpp:213-244: the garbage qubits are reduced before the global phase *)
Definition simulateR (c : qcirc) (gar : list bool) (inp : vedge) : dres vedge :=
  let* (p, e) := sim_loop (qc_n c) (qc_ops c) (qc_init c) inp in
  let* (_, e1) := changePermutationV (qc_n c) e p (qc_out c) in
  let* e2 := reduceGarbageV e1 gar false in
  if Rlt_dec 0 (Rabs (qc_phase c)) then DOk (vlook ((fst e2 * Cexp (qc_phase c))%C, snd e2)) else DOk e2.
