(* ZX diagrams: adjoint, composition and the identity test (C61). *)
From Coq Require Import Reals QArith Qreals ZArith Bool List Arith Lia Lra Permutation.
From Verif Require Import Cplx Qsem PiModel ZXModel ZXSpec ZXUpdSpec ZXPhaseProofs ZXSemProofs ZXUpdProofs ZXUpd2Proofs ZXUpd3Proofs ZXRuleProofs ZXRule2Proofs ZXRule3Proofs ZXGadgetProofs ZXGraphProofs ZXBookProofs ZXProps ZXCompSpec ZXIdProofs ZXConcat3Proofs.
Import ListNotations.
Local Close Scope Q_scope.
Local Open Scope nat_scope.

(* ---- adjoint ------------------------------------------------------------------------------------------------------- *)
(* The adjoint exchanges inputs and outputs and conjugates every entry of the map, up to twice the global phase. *)
Theorem C61_adjoint_partial : forall rho d, wf d -> wf (invert d) /\ d_in (invert d) = d_out d /\ d_out (invert d) = d_in d /\
  (forall b, den rho (invert d) b = (pexp rho (d_gphase d) * pexp rho (d_gphase d) * Cconj (den rho d b))%C) /\
  (p_isZero (d_gphase d) = true -> forall b, den rho (invert d) b = Cconj (den rho d b)).
Proof.
  intros rho d W. split; [now apply inv_wf|]. split; [reflexivity|]. split; [reflexivity|]. split; [apply inv_den|].
  intros Z b. rewrite inv_den, (pexp_zero rho _ Z). ring.
Qed.
Print Assumptions C61_adjoint_partial.
(* an S gate *)
Definition sgate : diag := mk [UVertex bv; UVertex (zv (1 # 2)); UVertex bv; UEdge 0 1 false; UEdge 1 2 false] [0] [2].
Example C61_adjoint_example rho : wf sgate /\ den rho sgate (fun _ => true) = Ci /\ den rho (invert sgate) (fun _ => true) = (- Ci)%C.
Proof.
  split; [apply mk_wf; vm_compute; reflexivity|]. split; [ev sgate|ev (invert sgate)]; rewrite ?pexp_half, ?pexp_mhalf; ring.
Qed.
(* The global phase is not negated: with one, the adjoint of a unitary is not its inverse. *)
Definition gdiag (q : Q) : diag := set_gphase (mk [UVertex bv; UVertex bv; UEdge 0 1 false] [0] [1]) (q, []).
Lemma gp_wf d g : wf d -> wf (set_gphase d g).
Proof. intros [Z B D I P]. destruct (gphase_wf d g) as (A & E & F); auto. constructor; auto. Qed.
Theorem C61_adjoint_phase_refuted : exists d b, wf d /\ forall rho, den rho (invert d) b <> Cconj (den rho d b).
Proof.
  exists (gdiag (1 # 2)), (fun _ => true). split; [apply gp_wf; apply mk_wf; vm_compute; reflexivity|]. intros rho.
  assert (A : den rho (invert (gdiag (1 # 2))) (fun _ => true) = Ci) by (ev (invert (gdiag (1 # 2))); rewrite ?pexp_half; ring).
  assert (B : den rho (gdiag (1 # 2)) (fun _ => true) = Ci) by (ev (gdiag (1 # 2)); rewrite ?pexp_half; ring).
  rewrite A, B. intros E. injection E. intros. lra.
Qed.
Print Assumptions C61_adjoint_phase_refuted.

(* ---- isIdentity ---------------------------------------------------------------------------------------------------- *)
(* If the test succeeds, every edge between an input and its output is a plain one and the map is not zero, then the
   map is a multiple of the identity. *)
Theorem C61_identity_partial : forall rho d, wf d -> NoDup (d_in d ++ d_out d) -> length (d_in d) = length (d_out d) -> isIdentity d = true ->
  (forall u v, In (u, v) (combine (d_in d) (d_out d)) -> In (v, false) (d_edges d u)) -> (exists b, den rho d b <> C0) -> id_map rho d.
Proof.
  intros rho d W N L I S. apply id_main; auto. intros u v J. apply hv_In; auto. apply (z_nodup _ (w_z _ W)). pose proof (in_combine_l _ _ _ _ J). now apply (w_io _ W u); auto.
Qed.
Print Assumptions C61_identity_partial.
(* two wires and a stray spider, found to be the identity; a swap is not *)
Definition wires2 : diag := mk [UVertex bv; UVertex bv; UVertex bv; UVertex bv; UVertex (zv (1 # 2)); UEdge 0 2 false; UEdge 1 3 false] [0; 1] [2; 3].
Example C61_identity_example rho : wf wires2 /\ isIdentity wires2 = true /\ id_map rho wires2 /\ isIdentity (set_io wires2 [0; 1] [3; 2]) = false.
Proof.
  assert (W : wf wires2) by (apply mk_wf; vm_compute; reflexivity). split; [exact W|]. split; [reflexivity|]. split; [|reflexivity].
  apply C61_identity_partial; auto; try reflexivity.
  - repeat constructor; cbn; lia.
  - intros u v J. cbn in J. destruct J as [J|[J|[]]]; injection J as <- <-; cbn; auto.
  - exists (fun _ => true). assert (A : den rho wires2 (fun _ => true) = (C1 + Ci)%C) by (ev wires2; rewrite ?pexp_half; ring). rewrite A. intros E. injection E. intros. lra.
Qed.
(* The kind of the edges is not looked at: a Hadamard gate passes for the identity. *)
Definition hwire : diag := mk [UVertex bv; UVertex bv; UEdge 0 1 true] [0] [1].
Theorem C61_identity_hadamard_refuted : exists d, wf d /\ isIdentity d = true /\ forall rho, (exists b, den rho d b <> C0) /\ ~ id_map rho d.
Proof.
  exists hwire. split; [apply mk_wf; vm_compute; reflexivity|]. split; [reflexivity|]. intros rho.
  set (b := fun v => v =? 0).
  assert (A : den rho hwire b = kap). { unfold b. ev hwire. ring. }
  split; [exists b; rewrite A; apply kap_neq0|]. intros (c & _ & H). specialize (H b). rewrite A in H. apply kap_neq0. rewrite H. cbn. ring.
Qed.
Print Assumptions C61_identity_hadamard_refuted.
(* Nor are spiders without edges: beside a lone spider with phase pi the map is zero. *)
Definition pidiag : diag := mk [UVertex bv; UVertex bv; UEdge 0 1 false; UVertex (zv 1)] [0] [1].
Theorem C61_identity_zero_refuted : exists d, wf d /\ isIdentity d = true /\ forall rho b, den rho d b = C0.
Proof.
  exists pidiag. split; [apply mk_wf; vm_compute; reflexivity|]. split; [reflexivity|]. intros rho b. ev pidiag. rewrite ?pexp_pi. ring.
Qed.
Print Assumptions C61_identity_zero_refuted.

(* ---- concat -------------------------------------------------------------------------------------------------------- *)
(* The global phase of the second diagram is subtracted instead of added. *)
Definition cat (d e : diag) : diag := match concat d e with Some d' => d' | None => d_empty end.
Lemma cat_done d e : (match concat d e with Some _ => true | None => false end) = true -> concat d e = Some (cat d e).
Proof. unfold cat. destruct (concat d e); [reflexivity|discriminate]. Qed.
Theorem C61_concat_phase_refuted : exists d e d' b, wf d /\ wf e /\ concat d e = Some d' /\ forall rho, den rho d' b <> compose rho d e b (map b (d_out d')).
Proof.
  exists (gdiag 0), (gdiag (1 # 2)), (cat (gdiag 0) (gdiag (1 # 2))), (fun _ => true).
  split; [apply gp_wf; apply mk_wf; vm_compute; reflexivity|]. split; [apply gp_wf; apply mk_wf; vm_compute; reflexivity|].
  split; [apply cat_done; vm_compute; reflexivity|]. intros rho.
  assert (A : den rho (cat (gdiag 0) (gdiag (1 # 2))) (fun _ => true) = (- Ci)%C) by (ev (cat (gdiag 0) (gdiag (1 # 2))); rewrite ?pexp_mhalf; ring).
  assert (D : forall m, den rho (gdiag 0) (setl (fun _ => true) [1] [m]) = if m then C1 else C0).
  { intros m. ev (gdiag 0). cbn [setl setb Nat.eqb]. rewrite ?pexp_nil. destruct m; cbn; ring. }
  assert (E : forall m, den rho (gdiag (1 # 2)) (setl (setl (fun _ => false) [0] [m]) [1] [true]) = if m then Ci else C0).
  { intros m. ev (gdiag (1 # 2)). cbn [setl setb Nat.eqb]. rewrite ?pexp_half. destruct m; cbn; ring. }
  rewrite A. unfold compose. change (d_out (gdiag 0)) with [1]. change (d_in (gdiag (1 # 2))) with [0]. change (d_out (gdiag (1 # 2))) with [1].
  replace (map (fun _ => true) (d_out (cat (gdiag 0) (gdiag (1 # 2))))) with [true] by (vm_compute; reflexivity).
  cbn [length bools map app lsum fold_right]. rewrite !D, !E. intros Q. injection Q. cbn. intros. lra.
Qed.
Print Assumptions C61_concat_phase_refuted.
(* concat: for every pair of diagrams that fit together the result is a well-formed diagram between the inputs of the
   first and copies of the outputs of the second (with their labels), and its map is the composition of the two maps, up
   to twice the global phase of the second. *)
Theorem C61_concat_partial : forall rho d e, wf d -> wf e -> composable d e ->
  exists d' m, concat d e = Some d' /\ wf d' /\ d_in d' = d_in d /\ d_out d' = map m (d_out e) /\ (forall o, In o (d_out e) -> vqubit d' (m o) = vqubit e o) /\
    (forall b, den rho d' b = (pexp rho (p_neg (d_gphase e)) * pexp rho (p_neg (d_gphase e)) * compose rho d e b (map b (d_out d')))%C) /\
    (p_isZero (d_gphase e) = true -> forall b, den rho d' b = compose rho d e b (map b (d_out d'))).
Proof.
  intros rho d e Wd We Cm. destruct (concat_spec rho d e Wd We Cm) as (d' & m & E & W & I & O & V & D). exists d', m. repeat (split; [auto; fail|]).
  intros Z b. rewrite D, pexp_neg, (pexp_zero rho _ Z), Cconj_1. ring.
Qed.
Print Assumptions C61_concat_partial.
(* An S gate on the first qubit followed by a swap, then a Z gate on the first qubit. *)
Definition bq (q : Z) : vdata := mkV q p_zero VBoundary.
Definition sswap : diag := mk [UVertex (bq 0); UVertex (bq 1); UVertex (zv (1 # 2)); UVertex (bq 0); UVertex (bq 1); UEdge 0 2 false; UEdge 2 4 false; UEdge 1 3 false] [0; 1] [3; 4].
Definition zfirst : diag := mk [UVertex (bq 0); UVertex (bq 1); UVertex (zv 1); UVertex (bq 0); UVertex (bq 1); UEdge 0 2 false; UEdge 2 3 false; UEdge 1 4 false] [0; 1] [3; 4].
Lemma sswap_zfirst : composable sswap zfirst.
Proof.
  constructor; try reflexivity.
  - repeat constructor; vm_compute; intuition discriminate.
  - repeat constructor; vm_compute; intuition discriminate.
  - intros q H. change (length (d_in zfirst)) with 2 in H. destruct q as [|[|q]]; [reflexivity|reflexivity|lia].
  - intros v L B. do 5 (destruct v as [|v]; [vm_compute in *; tauto || discriminate|]). exfalso. unfold live in L. cbn in L. discriminate.
  - intros o I. vm_compute in I. destruct I as [<-|[<-|[]]]; reflexivity.
  - intros o I. vm_compute in I. destruct I as [<-|[<-|[]]]; reflexivity.
  - intros o u h I. vm_compute in I. destruct I as [<-|[<-|[]]]; vm_compute; intros [[= <- <-]|[]]; intuition discriminate.
  - intros o u h I. vm_compute in I. destruct I as [<-|[<-|[]]]; vm_compute; intros [[= <- <-]|[]]; intuition discriminate.
  - intros q q' u w h1 h2 h3 h4 H H' A B _ _. change (length (d_in zfirst)) with 2 in *. destruct q as [|[|q]]; [| |lia]; (destruct q' as [|[|q']]; [| |lia]); auto; exfalso.
    + vm_compute in A, B. destruct A as [A|[]], B as [B|[]]. congruence.
    + vm_compute in A, B. destruct A as [A|[]], B as [B|[]]. congruence.
Qed.
Example C61_concat_example rho : wf sswap /\ wf zfirst /\ d_in (cat sswap zfirst) = [0; 1] /\
  (forall a b, den rho (cat sswap zfirst) (setl (fun _ => false) ([0; 1] ++ d_out (cat sswap zfirst)) [a; b; b; a]) = ((if a then Ci else C1) * (if b then - C1 else C1))%C).
Proof.
  split; [apply mk_wf; vm_compute; reflexivity|]. split; [apply mk_wf; vm_compute; reflexivity|]. split; [vm_compute; reflexivity|].
  intros a b. replace (d_out (cat sswap zfirst)) with [6; 7] by (vm_compute; reflexivity). cbn [app setl].
  destruct a, b; ev (cat sswap zfirst); rewrite ?pexp_half, ?pexp_pi; cbn; try ring.
Qed.
(* If two lines to be joined connect the same two spiders, the result has parallel edges, which every rewriting rule
   assumes not to exist. *)
Definition fanin : diag := mk [UVertex (bq 0); UVertex (bq 1); UVertex (zv 0); UVertex (bq 0); UVertex (bq 1); UEdge 0 2 false; UEdge 1 2 false; UEdge 2 3 false; UEdge 2 4 false] [0; 1] [3; 4].
Theorem C61_concat_parallel_refuted : exists d d', wf d /\ concat d d = Some d' /\ ~ zwf d'.
Proof.
  exists fanin, (cat fanin fanin). split; [apply mk_wf; vm_compute; reflexivity|]. split; [apply cat_done; vm_compute; reflexivity|].
  intros Z. pose proof (z_nodup _ Z 2 ltac:(vm_compute; reflexivity)) as N. replace (map fst (d_edges (cat fanin fanin) 2)) with [0; 1; 5; 5] in N by (vm_compute; reflexivity).
  inversion_clear N as [|? ? _ N1]. inversion_clear N1 as [|? ? _ N2]. inversion_clear N2 as [|? ? N3 _]. apply N3. now left.
Qed.
Print Assumptions C61_concat_parallel_refuted.
