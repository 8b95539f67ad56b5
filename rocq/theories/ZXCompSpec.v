(* Composition of the maps of two diagrams, stated without reference to ZXDiagram::concat. *)
From Coq Require Import Reals QArith ZArith Bool List Arith.
From Verif Require Import Cplx Qsem PiModel ZXModel ZXSpec.
Import ListNotations.
Local Close Scope Q_scope.
Local Open Scope nat_scope.

(* the values vs at the vertices l, and x elsewhere *)
Fixpoint setl (x : bits) (l : list nat) (vs : list bool) : bits :=
  match l, vs with v :: l', a :: vs' => setb (setl x l' vs') v a | _, _ => x end.
Fixpoint bools (n : nat) : list (list bool) :=
  match n with O => [[]] | S k => map (cons false) (bools k) ++ map (cons true) (bools k) end.
Definition lsum {A} (l : list A) (f : A -> C) : C := fold_right (fun a acc => (f a + acc)%C) C0 l.
(* sum over the values in the middle; b gives the values at the inputs of d, ov those at the outputs of e *)
Definition compose (rho : nat -> R) (d e : diag) (b : bits) (ov : list bool) : C :=
  lsum (bools (length (d_out d))) (fun m => (den rho d (setl b (d_out d) m) * den rho e (setl (setl (fun _ => false) (d_in e) m) (d_out e) ov))%C).

(* What concat relies on: both diagrams have as many inputs as outputs, all of them different vertices; the inputs of e
   are labelled by their positions and every boundary vertex of e is an input or an output; every output of d and every
   input of e has exactly one edge, which does not end at another output of d or input of e; no two lines to be joined
   connect the same two vertices. *)
Record composable (d e : diag) : Prop := {
  cm_in : length (d_in e) = length (d_in d);
  cm_mid : length (d_out d) = length (d_in e);
  cm_out : length (d_out e) = length (d_out d);
  cm_nd : NoDup (d_in d ++ d_out d);
  cm_ne : NoDup (d_in e ++ d_out e);
  cm_label : forall q, q < length (d_in e) -> vqubit e (nth q (d_in e) 0) = Z.of_nat q;
  cm_bnd : forall v, live e v = true -> isBoundary e v = true -> In v (d_in e) \/ In v (d_out e);
  cm_odeg : forall o, In o (d_out d) -> degree d o = 1;
  cm_ideg : forall i, In i (d_in e) -> degree e i = 1;
  cm_ocap : forall o u h, In o (d_out d) -> In (u, h) (d_edges d o) -> ~ In u (d_out d);
  cm_icap : forall i w h, In i (d_in e) -> In (w, h) (d_edges e i) -> ~ In w (d_in e);
  cm_par : forall q q' u w h1 h2 h3 h4, q < length (d_in e) -> q' < length (d_in e) ->
    In (u, h1) (d_edges d (nth q (d_out d) 0)) -> In (u, h2) (d_edges d (nth q' (d_out d) 0)) ->
    In (w, h3) (d_edges e (nth q (d_in e) 0)) -> In (w, h4) (d_edges e (nth q' (d_in e) 0)) -> q = q'
}.
