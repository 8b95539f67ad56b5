(** C110: codes and names of operation types. *)
From Coq Require Import NArith String List Bool Reals Lra Lia.
From Verif Require Import Cplx Qsem GateModel GateSpec GateProofs OpProofs OpNameModel.
Import ListNotations.
Local Open Scope string_scope.
Local Open Scope list_scope.
Local Open Scope N_scope.

(** The type behind a code, by search through all types *)
Definition types : list optype :=
  [gNone; gGPhase; gI; gBarrier; gH; gX; gY; gZ; gS; gSdg; gT; gTdg; gV; gVdg; gU; gU2; gP; gSX; gSXdg; gRX; gRY; gRZ;
   gSWAP; giSWAP; giSWAPdg; gPeres; gPeresdg; gDCX; gECR; gRXX; gRYY; gRZZ; gRZX; gXXminusYY; gXXplusYY;
   gCompound; gMeasure; gReset; gClassicControlled; gATrue; gAFalse; gMultiATrue; gMultiAFalse;
   gMove; gAodActivate; gAodDeactivate; gAodMove].
Definition decode (c : N) : option optype := find (fun t => code t =? c) types.
Lemma decode_code t : decode (code t) = Some t.
Proof. destruct t; reflexivity. Qed.
Lemma types_all t : In t types.
Proof. destruct t; cbn; tauto. Qed.

(** Different types have different codes, which fit into eight bits and lie before OpTypeEnd. *)
Theorem C110_codes : (forall t t', code t = code t' -> t = t') /\ forall t, code t < OpTypeEnd < 2 ^ 8.
Proof.
  split.
  - intros t t' E. pose proof (decode_code t) as D. rewrite E, decode_code in D. now injection D.
  - intros t. destruct t; split; reflexivity.
Qed.
Print Assumptions C110_codes.

(** Setting or clearing OpTypeInv: if the result is the code of a type, that type is the inverse gate. *)
Lemma inv_partner t t' : code t' = inverted (code t) -> t' = flip_inv t /\ t' <> t.
Proof.
  intros E. pose proof (decode_code t') as D. rewrite E in D. clear E.
  destruct t; vm_compute in D; try discriminate; injection D as <-; (split; [reflexivity|discriminate]).
Qed.
Lemma gate1 t ps M : single_matrix t ps = Some M -> gate_matrix t ps = Some (1%nat, M).
Proof. intros E. unfold gate_matrix. rewrite E. destruct t; try discriminate; reflexivity. Qed.
Lemma gate2 t ps M : single_matrix t ps = None -> two_matrix t ps = Some M -> gate_matrix t ps = Some (2%nat, M).
Proof. intros E1 E2. unfold gate_matrix. rewrite E1, E2. destruct t; try discriminate; reflexivity. Qed.
Lemma pair1 t t' ps : dd_inverse t ps [] = Some (t', ps, []) -> (exists M, single_matrix t ps = Some M) ->
  exists k M N, gate_matrix t ps = Some (k, M) /\ gate_matrix t' ps = Some (k, N) /\ mat_inv k M N.
Proof.
  intros D [M E]. destruct (dd_inverse_single t ps [] M E) as (t2 & ps2 & N & E1 & E2 & E3). rewrite D in E1.
  injection E1 as <- <-. exists 1%nat, M, N. split; [now apply gate1|]. split; [now apply gate1|exact E3].
Qed.
Lemma pair2 t t' ps : dd_inverse t ps [] = Some (t', ps, []) -> (exists M, two_matrix t ps = Some M) -> t <> gDCX ->
  single_matrix t ps = None -> single_matrix t' ps = None ->
  exists k M N, gate_matrix t ps = Some (k, M) /\ gate_matrix t' ps = Some (k, N) /\ mat_inv k M N.
Proof.
  intros D [M E] Hd S1 S2. destruct (dd_inverse_two t ps [] M E Hd) as (t2 & ps2 & N & E1 & E2 & E3). rewrite D in E1.
  injection E1 as <- <-. exists 2%nat, M, N. split; [now apply gate2|]. split; [now apply gate2|exact E3].
Qed.
Theorem C110_inverse : forall t t', code t' = inverted (code t) ->
  forall ps, exists k M N, gate_matrix t ps = Some (k, M) /\ gate_matrix t' ps = Some (k, N) /\ mat_inv k M N.
Proof.
  intros t t' E ps. destruct (inv_partner t t' E) as [F NE].
  destruct t; subst t'; try (exfalso; apply NE; reflexivity); clear E NE;
  first [ apply pair1; [reflexivity|eexists; reflexivity]
        | apply pair2; [reflexivity|eexists; reflexivity|discriminate|reflexivity|reflexivity] ].
Qed.
Print Assumptions C110_inverse.
(** The types for which dd/Operations.cpp:82-100 changes the flag have such a partner. *)
Theorem C110_partner : forall t,
  In t [giSWAP; giSWAPdg; gPeres; gPeresdg; gS; gSdg; gT; gTdg; gV; gVdg; gSX; gSXdg] <->
  exists t', code t' = inverted (code t).
Proof.
  intros t. split.
  - intros H. exists (flip_inv t). cbn in H. repeat (destruct H as [<-|H]; [reflexivity|]). destruct H.
  - intros [t' E]. destruct (inv_partner t t' E) as [F NE]. destruct t; cbn in *; try tauto; exfalso; congruence.
Qed.
Print Assumptions C110_partner.

Ltac entry K r c := exfalso;
  let K1 := fresh in pose proof (K r c eq_refl eq_refl ltac:(discriminate)) as K1; cbn in K1;
  unfold C0, RtoC in K1; injection K1; intros;
  repeat match goal with H : context [sin (PI / 2)] |- _ => rewrite sin_PI2 in H end;
  repeat match goal with H : context [cos 0] |- _ => rewrite cos_0 in H end; lra.
(** The flag OpTypeDiag is set exactly for the gates whose matrices are diagonal for all parameters. *)
Theorem C110_diagonal : forall t, is_single t = true \/ is_two t = true ->
  (isDiagonalGate (code t) = true <-> forall ps k M, gate_matrix t ps = Some (k, M) -> diag_mat k M).
Proof.
  intros t G. split.
  - intros D ps k M E. apply (gate_diag t ps k M E). destruct t; vm_compute in D; (reflexivity || discriminate).
  - intros H. destruct (isDiagonalGate (code t)) eqn:D; [reflexivity|]. exfalso.
    assert (S2 : (0 < sq2)%R).
    { unfold sq2. apply Rinv_0_lt_compat. apply sqrt_lt_R0; lra. }
    pose proof (H [PI; 0; 0]%R) as K. clear H.
    destruct t; try (vm_compute in D; discriminate); try (destruct G as [G|G]; discriminate G);
    specialize (K _ _ eq_refl).
    all: first
      [ entry K [false] [true] | entry K [false; true] [true; false] | entry K [false; false] [true; true]
      | entry K [false; false] [false; true] | entry K [false; false] [true; false] ].
Qed.
Print Assumptions C110_diagonal.
(** Global phases are diagonal too but do not carry the flag. *)
Theorem C110_phase_refuted : exists t, isDiagonalGate (code t) = false /\
  (exists ps k M, gate_matrix t ps = Some (k, M)) /\ forall ps k M, gate_matrix t ps = Some (k, M) -> diag_mat k M.
Proof.
  exists gGPhase. split; [reflexivity|]. split; [exists [0%R]; do 2 eexists; reflexivity|].
  intros [|p ps] k M E; [discriminate|]. injection E as <- _. intros r c Hr Hc NE. destruct r, c; try discriminate. congruence.
Qed.
Print Assumptions C110_phase_refuted.

(** Every type other than the four truth values of classical computation is found again by its name. *)
Theorem C110_names_partial : forall t, ~ In t [gATrue; gAFalse; gMultiATrue; gMultiAFalse] -> opTypeFromString (toString t) = Some t.
Proof. intros t H. destruct t; try reflexivity; exfalso; apply H; cbn; tauto. Qed.
Print Assumptions C110_names_partial.
Theorem C110_names_refuted : exists t, opTypeFromString (toString t) = None.
Proof. now exists gATrue. Qed.
Print Assumptions C110_names_refuted.
(** Names of types are different, and so are short names. *)
Theorem C110_distinct : forall t t', (toString t = toString t' -> t = t') /\ (shortName t = shortName t' -> t = t').
Proof.
  assert (D1 : forall t, find (fun u => String.eqb (toString u) (toString t)) types = Some t) by (intros []; reflexivity).
  assert (D2 : forall t, find (fun u => String.eqb (shortName u) (shortName t)) types = Some t) by (intros []; reflexivity).
  intros t t'. split; intros E.
  - pose proof (D1 t) as A. rewrite E, D1 in A. now injection A.
  - pose proof (D2 t) as A. rewrite E, D2 in A. now injection A.
Qed.
Print Assumptions C110_distinct.
(** A leading c (control) does not change the type. *)
Theorem C110_control : forall s t t', opTypeFromString s = Some t -> opTypeFromString ("c" ++ s)%string = Some t' -> t' = t.
Proof.
  assert (In1 : forall l s t, lookup l s = Some t -> In (s, t) l).
  { induction l as [|[n u] l IH]; cbn; intros s t E; [discriminate|]. destruct (String.eqb_spec n s) as [->|]; [injection E as ->; now left|right; auto]. }
  assert (A : forallb (fun e => match opTypeFromString ("c" ++ fst e)%string with Some u => if optype_eq_dec u (snd e) then true else false | None => true end)
    nameTable = true) by (vm_compute; reflexivity).
  intros s t t' E1 E2. apply In1 in E1. rewrite forallb_forall in A. specialize (A _ E1). cbn [fst snd] in A. rewrite E2 in A.
  destruct (optype_eq_dec t' t); [assumption|discriminate].
Qed.
Print Assumptions C110_control.
(** Every accepted string is the name of its type or one of the usual other names, perhaps behind c or mc. *)
Definition other_names : list (string * optype) :=
  [("id", gI); ("not", gX); ("u3", gU); ("u1", gP); ("phase", gP)].
Theorem C110_meaning : forall s t, opTypeFromString s = Some t ->
  exists pre base, In pre [""; "c"; "mc"] /\ s = (pre ++ base)%string /\ (base = toString t \/ In (base, t) other_names).
Proof.
  assert (In1 : forall l s t, lookup l s = Some t -> In (s, t) l).
  { induction l as [|[n u] l IH]; cbn; intros s t E; [discriminate|]. destruct (String.eqb_spec n s) as [->|]; [injection E as ->; now left|right; auto]. }
  intros s t E. apply In1 in E. unfold nameTable in E.
  repeat (destruct E as [E|E]; [injection E as <- <-|]); try destruct E.
  all: first
    [ exists ""; eexists; split; [now left|]; split; [reflexivity|]; first [now left | right; cbn; tauto]
    | exists "c"; eexists; split; [right; now left|]; split; [cbn; reflexivity|]; first [now left | right; cbn; tauto]
    | exists "mc"; eexists; split; [right; right; now left|]; split; [cbn; reflexivity|]; first [now left | right; cbn; tauto] ].
Qed.
Print Assumptions C110_meaning.
(** Short names are documented to have at most three characters. *)
Theorem C110_short_partial : forall t, is_single t = true \/ is_two t = true -> (String.length (shortName t) <= 3)%nat.
Proof. intros t [H|H]; destruct t; try discriminate H; cbn; lia. Qed.
Print Assumptions C110_short_partial.
Theorem C110_short_refuted : exists t, (3 < String.length (shortName t))%nat.
Proof. exists gAodDeactivate. cbn. lia. Qed.
Print Assumptions C110_short_refuted.

Example C110_ex : code gSdg = 35 /\ decode 35 = Some gSdg /\ decode (inverted 35) = Some gS /\ decode (inverted (code gX)) = None /\
  opTypeFromString "mcphase" = Some gP /\ opTypeFromString "cv" = None.
Proof. repeat split. Qed.
