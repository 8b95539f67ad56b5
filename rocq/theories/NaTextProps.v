(** C116: the text of neutral-atom computations. *)
From Coq Require Import ZArith QArith Qabs List Bool String Arith Lia Lqa Permutation Sorted.
From Verif Require Import AodModel AodProofs NaTextModel NaTextSpec NaTextProofs.
Import ListNotations.
Open Scope string_scope.
Open Scope list_scope.

(** The text of a computation whose atoms start at different places reads back as its atoms, in the order of their places, and its
    operations, in their order; locations are right to half a thousandth and angles to half of 1/100000 *)
Theorem C116_text_partial : forall initial ops, Forall constructed ops -> ForallOrdPairs (fun p q => ~ sameLoc (snd p) (snd q)) initial ->
  exists atoms instrs sorted, readComputation (printComputation initial ops) = Some (atoms, instrs)
    /\ Permutation sorted initial /\ StronglySorted (fun p q => before (snd p) (snd q)) sorted
    /\ Forall2 (fun w p => nearLoc (fst w) (snd p) /\ snd w = fst p) atoms sorted
    /\ Forall2 (fun w o => nearInstr w (means o)) instrs ops.
Proof.
  intros initial ops C D.
  destruct (ascending_gen initial [] (SSorted_nil _)) as [A B]. specialize (B D (fun p q I => match I with end)). fold (ascending initial) in A, B.
  exists (map (fun p => (wLoc (fst p), snd p)) (ascending initial)), (map (fun o => wInstr (means o)) ops), (map (fun p => (snd p, fst p)) (ascending initial)).
  split; [apply readComputation_print, C|]. split; [|split; [|split]].
  - rewrite B. cbn [app]. rewrite map_map. rewrite <- (map_id initial) at 2. erewrite map_ext; [reflexivity|]. intros [a l]; reflexivity.
  - clear B. induction A as [|p m A IH F]; cbn [map]; constructor; [exact IH|]. apply Forall_forall. intros q I. apply in_map_iff in I.
    destruct I as (x & <- & I). rewrite Forall_forall in F. apply (F x I).
  - clear. induction (ascending initial) as [|[l a] m IH]; cbn [map]; constructor; [|exact IH]. cbn [fst snd].
    split; [split; apply near_fixed; reflexivity | reflexivity].
  - clear. induction ops as [|o ops IH]; cbn [map]; constructor; [apply near_instr | exact IH].
Qed.
Print Assumptions C116_text_partial.

(** Of two atoms that start at the same place only one is declared, although both may be used *)
Theorem C116_lost_refuted : exists initial ops, Forall constructed ops /\ List.length initial = 2%nat
  /\ exists loc w, readComputation (printComputation initial ops) = Some ([(loc, "a")], [w]) /\ map snd (snd w) = ["a"; "b"].
Proof.
  exists [("a", Location 1 2); ("b", Location 1 2)], [Load None ["a"; "b"]]. split; [repeat constructor|]. split; [reflexivity|].
  do 2 eexists. split; vm_compute; reflexivity.
Qed.
Print Assumptions C116_lost_refuted.

(** Moves to different places have the same text *)
Theorem C116_rounded_refuted : exists l l', ~ sameLoc l l' /\ toString (Move [l] ["a"]) = toString (Move [l'] ["a"]).
Proof. exists (Location (1 # 3) 0), (Location (333 # 1000) 0). split; [intros [H _]; discriminate H | vm_compute; reflexivity]. Qed.
Print Assumptions C116_rounded_refuted.

(** The angle of an operation on no atoms is lost *)
Theorem C116_none_refuted : forall n p q, toString (Local n [p] []) = toString (Local n [q] []).
Proof. reflexivity. Qed.
Print Assumptions C116_none_refuted.

(** Tests *)
Definition exInitial := [("b", Location 2 0); ("a", Location 0 (5 # 2)); ("c", Location 0 1)].
Definition exOps := [Load (Some [Location 0 1; Location 2 1]) ["c"; "b"]; Move [Location (1 # 8) (-3)] ["a"]; Local "rz" [31415926 # 10000000] ["a"; "c"];
  Global "cz" [] ["zone"]; Store None ["c"; "b"]].
Example C116_ex : readComputation (printComputation exInitial exOps)
  = Some ([((0, 1000)%Z, "c"); ((0, 2500)%Z, "a"); ((2000, 0)%Z, "b")],
          [("load", [(Some (0, 1000)%Z, [], "c"); (Some (2000, 1000)%Z, [], "b")]);
           ("move", [(Some (125, -3000)%Z, [], "a")]);
           ("rz", [(None, [314159%Z], "a"); (None, [314159%Z], "c")]);
           ("cz", [(None, [], "zone")]);
           ("store", [(None, [], "c"); (None, [], "b")])]).
Proof. vm_compute. reflexivity. Qed.
Example C116_ex_hypotheses : Forall constructed exOps /\ ForallOrdPairs (fun p q => ~ sameLoc (snd p) (snd q)) exInitial.
Proof. split; [repeat constructor|]. repeat constructor; intros [H1 H2]; discriminate. Qed.
