(* fullReduce with the conditions under which the fusion of gadgets is right, checked at every fusion: the same result
   as the code, or None when a condition fails (see C58 for what happens then). *)
From Coq Require Import QArith ZArith Bool List Arith.
From Verif Require Import PiModel ZXModel ZXSpec.
Import ListNotations.
Local Close Scope Q_scope.
Local Open Scope nat_scope.

Definition leafb (d : diag) (n : nat) : bool := (degree d n =? 1) && negb (isBoundary d n).
Definition gadget_guardb (d : diag) (v : nat) : bool :=
  let id0 := fst (nth 0 (d_edges d v) (0, false)) in
  if degree d id0 =? 2 then forallb (fun n => (n =? v) || negb (isBoundary d n)) (map fst (d_edges d id0))
  else forallb (fun n => negb ((degree d n =? degree d id0) && negb (connected d n id0) && negb (n =? id0)) ||
                         (length (filter (leafb d) (map fst (d_edges d n))) <=? 1)) (getVertices d).
Definition passGadget_g (d : diag) : option (diag * nat) :=
  fold_left (fun o v => match o with
    | None => None
    | Some (d', k) =>
        if negb (live d' v) then Some (d', k)
        else match checkAndFuseGadget d' v with
             | Some d1 => if gadget_guardb d' v then Some (d1, S k) else None
             | None => Some (d', k)
             end
    end) (getVertices d) (Some (d, 0)).
Fixpoint gadgetSimp_g (fuel : nat) (d : diag) (n : nat) : option (diag * nat) :=
  match fuel with
  | 0 => None
  | S f => match passGadget_g d with
           | None => None
           | Some (d', k) => if k =? 0 then Some (d', n) else gadgetSimp_g f d' (n + k)
           end
  end.
Fixpoint reduce_loop_g (fuel : nat) (d : diag) (n : nat) : option (diag * nat) :=
  match fuel with
  | 0 => None
  | S f =>
      obind (cliffordSimp fuel d) (fun '(d1, _) => obind (gadgetSimp_g fuel d1 0) (fun '(d2, kg) =>
      obind (interiorCliffordSimp fuel d2) (fun '(d3, _) => obind (pivotgadgetSimp fuel d3) (fun '(d4, kp) =>
      if kg + kp =? 0 then Some (d4, n) else reduce_loop_g f d4 (n + (kg + kp))))))
  end.
Definition fullReduce_g (fuel : nat) (d : diag) : option (diag * nat) :=
  obind (interiorCliffordSimp fuel (toGraphlike d)) (fun '(d1, _) =>
  obind (reduce_loop_g fuel d1 0) (fun '(d2, n) =>
  obind (removeDisconnectedSpiders fuel d2) (fun d3 => Some (d3, n)))).
(* every boundary vertex is an input or an output *)
Definition io_complete (d : diag) : Prop := forall v, live d v = true -> isBoundary d v = true -> In v (d_in d) \/ In v (d_out d).
