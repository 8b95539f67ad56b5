(* dd::StochasticNoiseFunctionality and dd::DeterministicNoiseFunctionality, src/dd/NoiseFunctionality.cpp.
   Doubles are exact reals. The density-matrix flags of dEdge (which let e[2] be derived from e[1],
   NoiseFunctionality.cpp:299-317) are left out: all four successors are explicit, as on the path
   `firstPathEdge`. Reference counts are left out. *)
From Coq Require Import Reals List Bool Arith.
From Verif Require Import Cplx Qsem GateModel DDModel DDSpec NoiseSpec.
Import ListNotations.
Local Open Scope R_scope.

(* NoiseOperations, NoiseFunctionality.hpp:38-43 *)
Inductive noise := nAmp | nPhase | nDepol | nIdent.
(* the qc::OpType values that occur as noise *)
Inductive ntype := tI | tX | tY | tZ | tATrue | tAFalse | tMultiATrue | tMultiAFalse.
Definition ntype_eqb (a b : ntype) : bool :=
  match a, b with
  | tI, tI | tX, tX | tY, tY | tZ, tZ | tATrue, tATrue | tAFalse, tAFalse
  | tMultiATrue, tMultiATrue | tMultiAFalse, tMultiAFalse => true
  | _, _ => false
  end.

Definition rleb (x y : R) : bool := if Rle_dec x y then true else false.
Definition rltb (x y : R) : bool := if Rlt_dec x y then true else false.

(* sanityCheckOfNoiseProbabilities, NoiseFunctionality.cpp:452-470; true when it throws *)
Definition faulty (noiseProbability amplitudeDampingProb factor : R) : bool :=
  rltb noiseProbability 0 || rltb amplitudeDampingProb 0 || rltb 1 (noiseProbability * factor)
  || rltb 1 (amplitudeDampingProb * factor).

(* the members of StochasticNoiseFunctionality that its constructor computes, 63-88 *)
Record stoch := { s_np : R; s_npM : R; s_sqrtA : R; s_oneMinusA : R; s_sqrtAM : R; s_oneMinusAM : R;
                  s_effects : list noise }.
Definition mkStoch (gateNoise ampDamp factor : R) (effects : list noise) : dres stoch :=
  if faulty gateNoise ampDamp factor then DThrow
  else DOk {| s_np := gateNoise; s_npM := gateNoise * factor;
              s_sqrtA := sqrt ampDamp; s_oneMinusA := sqrt (1 - ampDamp);
              s_sqrtAM := sqrt gateNoise * factor; s_oneMinusAM := sqrt (1 - factor * ampDamp);
              s_effects := effects |}.
(* getNoiseProbability, 90-93 *)
Definition noise_prob (s : stoch) (multi : bool) : R := if multi then s_npM s else s_np s.
(* getAmplitudeDampingOperationType, 95-101 *)
Definition amp_type (multi flag : bool) : ntype :=
  if flag then (if multi then tMultiATrue else tATrue) else (if multi then tMultiAFalse else tAFalse).
(* getAmplitudeDampingOperationMatrix, 103-109, with the matrices of 77-82 *)
Definition amp_matrix (s : stoch) (multi flag : bool) : mat2 :=
  if flag then
    let x := RtoC (if multi then s_sqrtAM s else s_sqrtA s) in fun i j => if negb i && j then x else C0
  else
    let x := RtoC (if multi then s_oneMinusAM s else s_oneMinusA s) in
    fun i j => if eqb i j then (if i then x else C1) else C0.
(* returnNoiseOperation, 206-242; None: throws *)
Definition return_noise (s : stoch) (op : noise) (prob : R) (multi : bool) : option ntype :=
  let p := noise_prob s multi in
  match op with
  | nDepol =>
    if rleb (p * (75 / 100)) prob then Some tI
    else if rltb prob (p * (25 / 100)) then Some tX
    else if rltb prob (p * (5 / 10)) then Some tY
    else Some tZ
  | nPhase => if rltb p prob then Some tI else Some tZ
  | nIdent => Some tI
  | nAmp => None
  end.

(* stochasticNoiseOperationCache, StochasticNoiseOperationTable.hpp:46-75: at most one edge per type and
   target; targets beyond the table throw *)
Definition ncache := ntype -> nat -> option medge.
Definition nc_set (c : ncache) (t : ntype) (q : nat) (e : medge) : ncache :=
  fun t' q' => if ntype_eqb t t' && Nat.eqb q q' then Some e else c t' q'.

(* stackOperation, 146-158; nq: the number of qubits of the package *)
Definition stack (nq : nat) (op : medge) (target : nat) (t : ntype) (m : mat2) (c : ncache) : dres (medge * ncache) :=
  if Nat.ltb target nq then
    match c t target with
    | Some g => let* r := multiplyMM g op in DOk (r, c)
    | None => let* g := makeGateDD nq m [] target in
              let* r := multiplyMM g op in DOk (r, nc_set c t target g)
    end
  else DThrow.

(* opToSingleQubitGateMatrix for X, Y and Z, GateMatrixDefinitions.hpp *)
Definition noise_matrix (s : stoch) (t : ntype) : mat2 :=
  match t with
  | tX => mX | tY => mY | tZ => mZ | tI => mI
  | tATrue => amp_matrix s false true | tAFalse => amp_matrix s false false
  | tMultiATrue => amp_matrix s true true | tMultiAFalse => amp_matrix s true false
  end.

Fixpoint ubind {A B} (m : rndu A) (f : A -> rndu B) : rndu B :=
  match m with
  | URet (DOk a) => f a
  | URet DThrow => URet DThrow
  | URet DUb => URet DUb
  | UDraw k => UDraw (fun u => ubind (k u) f)
  end.

(* generateNoiseOperation, 160-204: one draw per effect other than amplitude damping *)
Fixpoint generate (nq : nat) (s : stoch) (effects : list noise) (op : medge) (target : nat) (amp multi : bool)
    (c : ncache) : rndu (medge * ncache) :=
  match effects with
  | [] => URet (DOk (op, c))
  | nAmp :: r =>
    let t := amp_type multi amp in
    ubind (URet (stack nq op target t (amp_matrix s multi amp) c))
      (fun oc => generate nq s r (fst oc) target amp multi (snd oc))
  | e :: r =>
    UDraw (fun u =>
      match return_noise s e u multi with
      | None => URet DThrow
      | Some tI => generate nq s r op target amp multi c
      | Some t => ubind (URet (stack nq op target t (noise_matrix s t) c))
                    (fun oc => generate nq s r (fst oc) target amp multi (snd oc))
      end)
  end.

(* applyNoiseOperation, 111-144; targets is a std::set, hence in ascending order *)
Fixpoint apply_noise (nq : nat) (s : stoch) (multi : bool) (targets : list nat) (op : medge) (st : vedge) (c : ncache)
    : rndu (vedge * ncache) :=
  match targets with
  | [] => URet (DOk (st, c))
  | t :: r =>
    ubind (generate nq s (s_effects s) op t false multi c) (fun oc =>
    ubind (URet (multiplyMV (fst oc) st)) (fun tmp =>
    UDraw (fun u =>
      if rltb (Cnorm2 (fst tmp)) u then
        ubind (generate nq s (s_effects s) op t true multi (snd oc)) (fun oc' =>
        ubind (URet (multiplyMV (fst oc') st)) (fun tmp' =>
        apply_noise nq s multi r (C1, MT) (C1, snd tmp') (snd oc')))
      else apply_noise nq s multi r (C1, MT) (C1, snd tmp) (snd oc))))
  end.
Definition applyNoiseOperation (nq : nat) (s : stoch) (targets : list nat) (op : medge) (st : vedge) (c : ncache) :=
  apply_noise nq s (Nat.ltb 1 (length targets)) targets op st c.

(* ---- deterministic noise -------------------------------------------------------------------------------- *)
Definition edges4 := bool -> bool -> medge.
Definition put4 (e : edges4) (i j : bool) (x : medge) : edges4 :=
  fun i' j' => if eqb i i' && eqb j j' then x else e i' j'.
(* `if (!e.w.exactlyZero()) e.w *= r` *)
Definition scale (r : R) (e : medge) : medge := if ezero (fst e) then e else ((fst e * RtoC r)%C, snd e).
(* var: the largest index of the four successors, 0 for terminals; as in add2's recursion, as a count *)
Definition vars4 (e : edges4) : nat :=
  S (Nat.max (Nat.max (mvar (snd (e false false))) (mvar (snd (e false true))))
             (Nat.max (mvar (snd (e true false))) (mvar (snd (e true true))))).

(* applyPhaseFlipToEdges, 350-365 *)
Definition phaseFlipEdges (p : R) (e : edges4) : dres edges4 :=
  DOk (fun i j => if eqb i j then e i j else scale (1 - 2 * p) (e i j)).
(* applyAmplitudeDampingToEdges, 367-398 *)
Definition ampDampEdges (p : R) (e : edges4) : dres edges4 :=
  let e0 := e false false in let e3 := e true true in
  let* e0' := if ezero (fst e3) then DOk e0
              else if ezero (fst e0) then DOk ((fst e3 * RtoC p)%C, snd e3)
              else madd (vars4 e) e0 ((fst e3 * RtoC p)%C, snd e3) in
  DOk (m4 e0' (scale (sqrt (1 - p)) (e false true)) (scale (sqrt (1 - p)) (e true false)) (scale (1 - p) e3)).
(* applyDepolarisationToEdges, 400-450; the helper edges have weight zero when the source has *)
Definition helper (r : R) (e : medge) : medge := if ezero (fst e) then (C0, snd e) else ((fst e * RtoC r)%C, snd e).
Definition depolEdges (p : R) (e : edges4) : dres edges4 :=
  let e0 := e false false in let e3 := e true true in
  let* e0' := madd (vars4 e) (helper ((2 - p) * / 2) e0) (helper (p * / 2) e3) in
  let* e3' := madd (vars4 e) (helper ((2 - p) * / 2) e3) (helper (p * / 2) e0) in
  DOk (m4 e0' (scale (1 - p) (e false true)) (scale (1 - p) (e true false)) e3').

(* the probabilities of DeterministicNoiseFunctionality, 244-260 *)
Record determ := { d_np : R; d_npM : R; d_amp : R; d_ampM : R; d_effects : list noise }.
Definition mkDeterm (np npM amp ampM : R) (effects : list noise) : dres determ :=
  if faulty np amp 1 || faulty npM ampM 1 then DThrow
  else DOk {| d_np := np; d_npM := npM; d_amp := amp; d_ampM := ampM; d_effects := effects |}.

(* the loop over the effects, 323-345; single: usedQubits.size() == 1 *)
Fixpoint effectsEdges (d : determ) (single : bool) (effects : list noise) (e : edges4) : dres edges4 :=
  match effects with
  | [] => DOk e
  | x :: r =>
    let* e' := match x with
               | nAmp => ampDampEdges (if single then d_amp d else d_ampM d) e
               | nPhase => phaseFlipEdges (if single then d_np d else d_npM d) e
               | nDepol => depolEdges (if single then d_np d else d_npM d) e
               | nIdent => DOk e
               end in
    effectsEdges d single r e'
  end.

(* applyNoiseEffects, 277-348. `*usedQubits.begin()` of an empty set is undefined. The successors of a
   node are used for the level `level - 1` whatever the node's own index is. *)
Fixpoint dnoise (d : determ) (used : list nat) (level : nat) (e : medge) : dres medge :=
  match e with
  | (w, t) =>
    if (match t with MT => ezero w | MNode _ _ _ => false end) then DOk e
    else match used with
    | [] => DUb
    | u0 :: _ =>
      if Nat.leb level u0 then DOk e
      else match level with
      | O => DOk e
      | S nl =>
        let* es := match t with
                   | MT => let* x := dnoise d used nl (C1, MT) in DOk (m4 x mzero mzero x)
                   | MNode _ ws s => seq4 (fun i j => dnoise d used nl (ws i j, s i j))
                   end in
        let* es' := if existsb (Nat.eqb nl) used then effectsEdges d (Nat.eqb (length used) 1) (d_effects d) es else DOk es in
        let r := mmk nl es' in
        DOk (if ezero (fst r) then r else ((fst r * w)%C, snd r))
      end
    end
  end.
(* applyNoiseEffects of an operation, 262-275 *)
Definition applyNoiseEffects (d : determ) (nq : nat) (used : list nat) (e : medge) : dres medge :=
  let* r := dnoise d used nq e in DOk (mlook r).
