(* The linear map of a ZX diagram, independent of the rewriting code: the sum over all bit assignments to the spiders
   of the product of the phases and of the edge weights. A Z spider with phase a contributes e^{ia} when its bit is 1;
   a simple edge forces equal bits; a Hadamard edge contributes the entries of the Hadamard matrix. An X spider is a Z
   spider with a Hadamard on every leg. The bits of boundary vertices are the arguments of the map. *)
From Coq Require Import Reals QArith Qreals ZArith Bool List Arith.
From Verif Require Import Cplx Qsem PiModel ZXModel.
Import ListNotations.
Local Close Scope Q_scope.
Local Open Scope nat_scope.

Fixpoint cprod {A} (l : list A) (f : A -> C) : C := match l with [] => C1 | a :: l' => (f a * cprod l' f)%C end.

(* value of a phase in radians under an assignment to the symbols *)
Definition pval (rho : nat -> R) (p : phase) : R :=
  (PI * Q2R (fst p) + fold_right (fun t acc => Q2R (snd t) * rho (fst t) + acc) 0 (snd p))%R.
Definition pexp (rho : nat -> R) (p : phase) : C := Cexp (pval rho p).
(* entries of the identity and of the Hadamard matrix *)
Definition wgt (h x y : bool) : C :=
  if h then RtoC (if x && y then - / sqrt 2 else / sqrt 2)%R else if eqb x y then C1 else C0.
Definition isX (d : diag) (v : nat) : bool := vtype_eqb (vty d v) VX.
(* the kind of an edge between u and v after turning X spiders into Z spiders *)
Definition eh (d : diag) (u v : nat) (h : bool) : bool := xorb h (xorb (isX d u) (isX d v)).
Definition inner (d : diag) (v : nat) : bool := live d v && negb (isBoundary d v).
Definition interior (d : diag) : list nat := filter (inner d) (seq 0 (d_size d)).

(* the weight of one assignment; every edge is listed at both its ends and counted at the smaller one *)
Definition weight (rho : nat -> R) (d : diag) (x : bits) : C :=
  (cprod (interior d) (fun v => if x v then pexp rho (vphase d v) else C1) *
   cprod (getVertices d) (fun v => cprod (d_edges d v) (fun e =>
     if v <? fst e then wgt (eh d v (fst e) (snd e)) (x v) (x (fst e)) else C1)))%C.
(* sum over the bits of a list of vertices *)
Fixpoint vsum (vs : list nat) (f : bits -> C) (b : bits) : C :=
  match vs with
  | [] => f b
  | v :: vs' => (vsum vs' f (setb b v false) + vsum vs' f (setb b v true))%C
  end.
Definition den (rho : nat -> R) (d : diag) (b : bits) : C := (pexp rho (d_gphase d) * vsum (interior d) (weight rho d) b)%C.

(* the same inputs and outputs, and the same map up to a non-zero scalar *)
Definition same_map (rho : nat -> R) (d d' : diag) : Prop :=
  d_in d' = d_in d /\ d_out d' = d_out d /\ exists c, c <> C0 /\ forall b, den rho d' b = (c * den rho d b)%C.

(* Well-formed diagrams. Structure: every edge is recorded at both ends and joins two different existing vertices;
   two vertices are joined by at most one edge; boundary vertices have at most one edge; inputs and outputs are
   boundary vertices. *)
Record zwf (d : diag) : Prop := {
  z_out : forall v, d_size d <= v -> d_verts d v = None;
  z_nodup : forall v, live d v = true -> NoDup (map fst (d_edges d v));
  z_sym : forall u v h, live d u = true -> In (v, h) (d_edges d u) -> live d v = true /\ u <> v /\ In (u, h) (d_edges d v)
}.
Definition bdeg (d : diag) : Prop := forall v, live d v = true -> isBoundary d v = true -> degree d v <= 1.
(* Bookkeeping: the stack of free numbers is exactly the list of deleted vertices, and the counters count. *)
Record book (d : diag) : Prop := {
  b_nodup : NoDup (d_deleted d);
  b_del : forall v, In v (d_deleted d) <-> v < d_size d /\ d_verts d v = None;
  b_nv : d_nv d = Z.of_nat (length (getVertices d));
  b_ne : (2 * d_ne d)%Z = fold_right (fun v acc => (Z.of_nat (degree d v) + acc)%Z) 0%Z (getVertices d)
}.
Definition io_ok (d : diag) : Prop := forall v, In v (d_in d) \/ In v (d_out d) -> live d v = true /\ isBoundary d v = true.
(* the constant parts of all phases are in (-1, 1] *)
Definition ph_ok (p : phase) : Prop := (- (1) < fst p)%Q /\ (fst p <= 1)%Q.
Definition phases_ok (d : diag) : Prop := forall v, live d v = true -> ph_ok (vphase d v).
Record wf (d : diag) : Prop := { w_z : zwf d; w_b : book d; w_d : bdeg d; w_io : io_ok d; w_ph : phases_ok d }.
