(* Density operators, weighted Kraus operators on one qubit and expectations under uniform draws: the
   yardstick for the noise models. Nothing here depends on the modelled code. *)
From Coq Require Import Reals List Bool Arith.
From Verif Require Import Cplx Qsem DDModel DDSpec.
Import ListNotations.
Local Open Scope R_scope.

Definition density := bits -> bits -> C.
Definition mat2 := bool -> bool -> C.

(* rho |-> K rho K^dagger, K on qubit q *)
Definition sum2 (f : bool -> C) : C := (f false + f true)%C.
Definition kact (K : mat2) (q : nat) (rho : density) : density := fun b c =>
  sum2 (fun i => sum2 (fun j => (K (b q) i * Cconj (K (c q) j) * rho (setb b q i) (setb c q j))%C)).
(* weighted Kraus operators *)
Definition kraus := list (R * mat2).
Definition channel (ks : kraus) (q : nat) (rho : density) : density := fun b c =>
  fold_right (fun wk acc => (RtoC (fst wk) * kact (snd wk) q rho b c + acc)%C) C0 ks.
(* sum of w K^dagger K is the identity *)
Definition complete (ks : kraus) : Prop := forall i j,
  fold_right (fun wk acc => (RtoC (fst wk) * sum2 (fun k => (Cconj (snd wk k i) * snd wk k j)%C) + acc)%C) C0 ks
  = if eqb i j then C1 else C0.

Definition diag2 (a d : C) : mat2 := fun i j => if eqb i j then (if i then d else a) else C0.
Definition anti2 (b c : C) : mat2 := fun i j => if eqb i j then C0 else if i then c else b.
Definition mI : mat2 := diag2 C1 C1.
Definition mX : mat2 := anti2 C1 C1.
Definition mY : mat2 := anti2 (- Ci)%C Ci.
Definition mZ : mat2 := diag2 C1 (- C1)%C.

(* the textbook channels *)
Definition phase_flip (p : R) : kraus := [(1 - p, mI); (p, mZ)].
Definition depolarising (p : R) : kraus := [(1 - p * (3 / 4), mI); (p / 4, mX); (p / 4, mY); (p / 4, mZ)].
Definition amplitude_damping (a : R) : kraus :=
  [(1, diag2 C1 (RtoC (sqrt (1 - a)))); (1, anti2 (RtoC (sqrt a)) C0)].

(* |psi><psi|, and the trace over the qubits below n *)
Definition proj (psi : state) : density := fun b c => (psi b * Cconj (psi c))%C.
Definition trace (n : nat) (rho : density) : C := bsum n (fun b => rho b b) (fun _ => false).

(* real-linear functionals of density operators, such as the parts of an entry *)
Definition linear (L : density -> R) : Prop :=
  forall x y rho sigma, L (fun b c => (RtoC x * rho b c + RtoC y * sigma b c)%C) = x * L rho + y * L sigma.

(* programs that draw uniformly distributed numbers from [0, 1) *)
Inductive rndu (A : Type) : Type :=
  | URet (r : dres A)
  | UDraw (k : R -> rndu A).
Arguments URet {A} r.
Arguments UDraw {A} k.
(* the expectation of f: every draw is integrated over the unit interval *)
Inductive expect {A} (f : dres A -> R) : rndu A -> R -> Prop :=
  | ex_ret r : expect f (URet r) (f r)
  | ex_draw k V (pr : Riemann_integrable V 0 1) : (forall u, 0 < u < 1 -> expect f (k u) (V u)) ->
      expect f (UDraw k) (RiemannInt pr).
