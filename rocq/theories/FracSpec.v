(** What a good fraction is. *)
From Coq Require Import ZArith QArith Qabs.
From Verif Require Import FracModel.
Local Open Scope Z_scope.

(** p/q is at most eps away from x *)
Definition near (eps x : Q) (p q : Z) : Prop := (Qabs (x - inject_Z p / inject_Z q) <= eps)%Q.
(** Numerators and denominators stay below 2^64 *)
Definition fits (x : Q) (maxDen : Z) : Prop :=
  (2 * inject_Z maxDen * x + 2 < inject_Z (2 ^ 64))%Q /\ 2 * maxDen < 2 ^ 64.
(** The search ends with p/q *)
Definition finds (eps x : Q) (maxDen p q : Z) : Prop :=
  exists fuel, getLowestFraction fuel eps x maxDen = Some (p, q).
(** At most this many rounds *)
Definition rounds (x : Q) (maxDen : Z) : nat := Z.to_nat (Qnum x / Zpos (Qden x) + 2 * maxDen + 2).
