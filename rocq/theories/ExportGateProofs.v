(* The text of a gate is read back as a gate with the same matrix. *)
From Coq Require Import Reals ZArith NArith Bool List String Ascii Arith Lia Lra FunctionalExtensionality.
From Verif Require Import Cplx Qsem GateModel GateSpec GateProofs CanonProofs IRModel IRSpec IRProofs QasmEnvModel QasmConstModel QasmIfModel QasmGateModel QasmGateSpec QasmGateProofs
  AlgoBaseProofs AlgoGroverProofs ExportModel ExportSpec ExportRegProofs.
Import ListNotations.
Local Open Scope nat_scope.
Local Open Scope string_scope.

Definition found (compat : bool) (G : gates) (id : string) : option (gate * nat) :=
  match map_find id G with
  | Some g => Some (g, 0)
  | None => if compat then let '(id, k) := parseGateIdentifierCompatMode G id in match map_find id G with Some g => Some (g, k) | None => None end else None
  end.
Lemma strip_cs n s : strip_c s = (s, 0) -> strip_c (cs n s) = (s, n).
Proof. intros E. induction n as [|n IH]; [exact E|]. cbn [cs strip_c]. now rewrite IH. Qed.
Lemma found_strip G n s g : strip_c s = (s, 0) -> map_find (cs n s) G = None -> map_find s G = Some g -> found true G (cs n s) = Some (g, n).
Proof. intros A B C. unfold found, parseGateIdentifierCompatMode. rewrite B, strip_cs, C by auto. rewrite C. reflexivity. Qed.

Definition good_text (t t' : optype) (np nt : nat) (name : string) : Prop :=
  map_find name (library true) = Some (GStd t' 0 nt np) /\
  (forall n, builtin t n = true -> map_find (cs n name) (library true) = Some (GStd t' n nt np)) /\
  (forall n, exists nc imp, found true (library false) (cs n name) = Some (GStd t' nc nt np, imp) /\ nc + imp = n).
Ltac lookups :=
  split; [reflexivity|]; split;
  [intros [|[|[|n]]]; cbn [builtin Nat.eqb orb]; intros B; try discriminate B; reflexivity
  |intros [|[|[|n]]]; [exists 0, 0; split; reflexivity| | |exists 0, (S (S (S n))); split; [apply found_strip; reflexivity|lia]];
   do 2 eexists; (split; [reflexivity|reflexivity])].
Lemma half_val : pevals constants [pi_half] = Some [(PI / 2)%R]. Proof. reflexivity. Qed.
Lemma p_mat t ps l M : single_matrix t ps = Some M -> is_u t ps l 0 0 -> meq 1 (pMat l) M.
Proof. intros E (M' & E' & H) r c Hr Hc. rewrite E in E'. injection E' as <-. rewrite H, u_p; auto. Qed.
Lemma u_mat t ps l p th M : single_matrix t ps = Some M -> is_u t ps l p th -> meq 1 (uMat l p th) M.
Proof. intros E (M' & E' & H) r c Hr Hc. rewrite E in E'. injection E' as <-. rewrite H; auto. Qed.
Lemma isu_any t ps ps' l p th : single_matrix t ps = single_matrix t ps' -> is_u t ps l p th -> is_u t ps' l p th.
Proof. intros E (M & A & B). exists M. split; [now rewrite <- E|auto]. Qed.
Ltac gen tt := eexists; eexists; exists tt; eexists; eexists; split; [reflexivity|]; split; [reflexivity|]; split; [discriminate|]; split; [reflexivity|]; split.
Lemma text_ok t ps ctld k M : gate_matrix t ps = Some (k, M) -> t <> gPeres -> t <> gPeresdg ->
  exists name args t' ps' M', gate_text t ps ctld = ROk (name, args) /\ pevals constants args = Some ps' /\ t' <> gBarrier /\
  gate_matrix t' ps' = Some (k, M') /\ meq k M' M /\ good_text t t' (List.length args) k name.
Proof.
  intros E P1 P2. assert (SM : k = 1 -> t <> gGPhase -> single_matrix t ps = Some M).
  { intros -> N. unfold gate_matrix in E. destruct (single_matrix t ps) eqn:S; [destruct t; try congruence; destruct ps; try congruence|].
    exfalso. destruct t; try congruence; destruct (two_matrix _ ps); congruence. }
  destruct t; try discriminate E; try congruence;
    try (destruct ps as [|p0 [|p1 [|p2 ps]]]; try discriminate E; cbn in E; injection E as <- <-;
         (match goal with |- context [gate_text ?t _ _] => gen t end; [intros r c _ _; reflexivity|lookups])).
  1-4: cbn in E; destruct ctld; (assert (k = 1) as -> by (destruct ps; injection E; auto));
    (match goal with |- context [gate_text ?t _ true] => gen gP | |- context [gate_text ?t _ _] => gen t end; [|lookups]).
  all: try (injection E as EM; rewrite <- EM; intros r c _ _; reflexivity).
  all: try (assert (SM' := SM eq_refl ltac:(discriminate))).
  - eapply p_mat; [exact SM'|]. eapply isu_any; [|apply isu_S]. destruct ps; reflexivity.
  - eapply p_mat; [exact SM'|]. eapply isu_any; [|apply isu_Sdg]. destruct ps; reflexivity.
  - eapply p_mat; [exact SM'|]. eapply isu_any; [|apply isu_T]. destruct ps; reflexivity.
  - eapply p_mat; [exact SM'|]. eapply isu_any; [|apply isu_Tdg]. destruct ps; reflexivity.
  - assert (k = 1) as -> by (destruct ps; injection E; auto). exists "U", [pi_half; neg pi_half; pi_half], gU. do 2 eexists. split; [reflexivity|]. split; [reflexivity|]. split; [discriminate|]. split; [reflexivity|]. split; [|lookups].
    eapply u_mat; [exact (SM eq_refl ltac:(discriminate))|]. eapply isu_any; [|apply isu_V]. destruct ps; reflexivity.
  - assert (k = 1) as -> by (destruct ps; injection E; auto). exists "U", [pi_half; pi_half; neg pi_half], gU. do 2 eexists. split; [reflexivity|]. split; [reflexivity|]. split; [discriminate|]. split; [reflexivity|]. split; [|lookups].
    eapply u_mat; [exact (SM eq_refl ltac:(discriminate))|]. eapply isu_any; [|apply isu_Vdg]. destruct ps; reflexivity.
  - destruct ps as [|p0 [|p1 ps]]; try discriminate E. assert (k = 1) as -> by (injection E; auto). exists "U", [pi_half; PNum p0; PNum p1], gU. do 2 eexists. split; [reflexivity|]. split; [reflexivity|]. split; [discriminate|]. split; [reflexivity|]. split; [|lookups].
    eapply u_mat; [exact (SM eq_refl ltac:(discriminate))|]. eapply isu_any; [|apply isu_U2]. reflexivity.
Qed.
