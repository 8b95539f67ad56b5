(** C53: disjoint sets. *)
From Coq Require Import List Arith.
From Verif Require Import DsuModel DsuSpec DsuProofs.
Import ListNotations.

(** After every history over known elements, [findSet] terminates and returns
    the same representative for [x] and [y] iff the unions connect them; the
    representative is an element of the class. *)
Theorem C53_find_iff_connected :
  forall els ops,
  (forall o, In o ops -> known els o) ->
  exists d, dsu_run ops (dsu_init els) = Some d
    /\ forall x y, In x els -> In y els ->
       exists rx d1 ry d2,
         findSet d x = Some (rx, d1) /\ findSet d1 y = Some (ry, d2)
         /\ (rx = ry <-> connected ops x y)
         /\ In rx els /\ connected ops x rx.
Proof. exact c53. Qed.
Print Assumptions C53_find_iff_connected.

(** Elements that were not passed to the constructor are not rejected: [findSet]
    merges them with the default-constructed element. *)
Theorem C53_unknown_elements_refuted :
  exists els ops d rx d1 ry d2, dsu_run ops (dsu_init els) = Some d
   /\ findSet d 7 = Some (rx, d1) /\ findSet d1 0 = Some (ry, d2) /\ rx = ry
   /\ ~ connected ops 7 0.
Proof. exact c53_unknown. Qed.
Print Assumptions C53_unknown_elements_refuted.

Example C53_example :
  match dsu_run [Union 1 2; Union 3 4; Union 2 4; Find 1; Union 5 5] (dsu_init [1; 2; 3; 4; 5; 6]) with
  | Some d => option_map fst (findSet d 1) = option_map fst (findSet d 3)
              /\ option_map fst (findSet d 1) <> option_map fst (findSet d 6)
  | None => False
  end.
Proof. vm_compute. split; [reflexivity|discriminate]. Qed.
