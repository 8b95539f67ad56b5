(** Properties C22, C23, C25, C26, C27 and C68: gate matrices, inverses,
    canonicalisation, equality and commutation of operations. *)
From Coq Require Import Reals Lra List Arith Bool Lia FunctionalExtensionality.
From Verif Require Import Cplx Qsem GateModel GateSpec GateProofs OpProofs CanonProofs TextbookProofs.
Import ListNotations.
Local Open Scope R_scope.
Local Open Scope list_scope.

(** ** C22: all gate matrices are unitary *)
Theorem C22_single_qubit_unitary : forall t ps M, single_matrix t ps = Some M -> unitary 1 M.
Proof. exact single_unitary. Qed.
Print Assumptions C22_single_qubit_unitary.

Theorem C22_two_qubit_unitary : forall t ps M, two_matrix t ps = Some M -> unitary 2 M.
Proof. exact two_unitary. Qed.
Print Assumptions C22_two_qubit_unitary.

(** No gate type is left out: with three parameters each gate has a matrix. *)
Theorem C22_every_gate_has_a_matrix : forall t a b c ps,
  (is_single t = true -> exists M, single_matrix t (a :: b :: c :: ps) = Some M) /\
  (is_two t = true -> exists M, two_matrix t (a :: b :: c :: ps) = Some M).
Proof.
  intros t a b c ps. split; destruct t; simpl; intros; try discriminate; eexists; reflexivity.
Qed.
Print Assumptions C22_every_gate_has_a_matrix.

Example C22_ex : exists M, two_matrix gXXplusYY [1; 2] = Some M /\ M [false; true] [true; false] <> C0.
Proof.
  eexists. split; [reflexivity|]. cbv [xxPlusYYMat mat_of bidx fold_left List.nth Nat.mul Nat.add].
  intros E. inversion E as [[E1 E2]].
  assert (S : 0 < sin (1 / 2)). { apply sin_gt_0; pose proof PI2_3_2; lra. }
  pose proof (sc2 2) as Q.
  assert (cos 2 = 0) by nra. assert (sin 2 = 0) by nra. rewrite H, H0 in Q. lra.
Qed.

(** ** C68: the matrices are the textbook ones *)
Theorem C68_pauli_gates :
  gate_is gI [] 1 (pauli 0) /\ gate_is gX [] 1 (pauli 1) /\ gate_is gY [] 1 (pauli 2) /\ gate_is gZ [] 1 (pauli 3).
Proof. exact tb_paulis. Qed.
Print Assumptions C68_pauli_gates.

Theorem C68_rotations : forall t,
  gate_is gRX [t] 1 (rot (pauli 1) t) /\ gate_is gRY [t] 1 (rot (pauli 2) t) /\ gate_is gRZ [t] 1 (rot (pauli 3) t) /\
  gate_is gRXX [t] 2 (rot (kron (pauli 1) (pauli 1)) t) /\ gate_is gRYY [t] 2 (rot (kron (pauli 2) (pauli 2)) t) /\
  gate_is gRZZ [t] 2 (rot (kron (pauli 3) (pauli 3)) t) /\ gate_is gRZX [t] 2 (rot (kron (pauli 3) (pauli 1)) t).
Proof. intros t. destruct (tb_rot t) as (A & B & D). destruct (tb_rot2 t) as (E & F & G & H). repeat (split; auto). Qed.
Print Assumptions C68_rotations.

Theorem C68_roots :
  square_is gS gZ C1 /\ square_is gT gS C1 /\ square_is gSdg gZ C1 /\ square_is gTdg gSdg C1 /\
  square_is gSX gX C1 /\ square_is gSXdg gX C1 /\ square_is gV gX (- Ci)%C /\ square_is gVdg gX Ci /\ square_is gH gI C1.
Proof. exact tb_squares. Qed.
Print Assumptions C68_roots.

Theorem C68_permutation_gates :
  gate_is gSWAP [] 2 (pmat swap01) /\ gate_is gDCX [] 2 (pmat (fun v => cx10 (cx01 v))) /\
  gate_is gPeres [] 2 (pmat (fun v => flip0 (cx01 v))) /\ gate_is gPeresdg [] 2 (pmat (fun v => cx01 (flip0 v))).
Proof. exact tb_perms. Qed.
Print Assumptions C68_permutation_gates.

Theorem C68_iswap_ecr_xy :
  (forall S, single_matrix gS [] = Some S -> gate_is giSWAP [] 2 (mmul 2 (pmat swap01) (mmul 2 czmat (kron S S)))) /\
  gate_is gECR [] 2 (mscal (RtoC sq2) (fun r c => (kron (pauli 1) (pauli 0) r c - kron (pauli 2) (pauli 1) r c)%C)) /\
  forall t b,
  gate_is gXXplusYY [t; b] 2 (mmul 2 (kron (pauli 0) (rzMat b)) (mmul 2 (xy_rot 1 t) (kron (pauli 0) (rzMat (- b))))) /\
  gate_is gXXminusYY [t; b] 2 (mmul 2 (kron (pauli 0) (rzMat b)) (mmul 2 (xy_rot (-1) t) (kron (pauli 0) (rzMat (- b))))).
Proof. split; [exact tb_iswap|]. split; [exact tb_ecr|exact tb_xy]. Qed.
Print Assumptions C68_iswap_ecr_xy.

(** Every single-qubit gate is a special case of the generic gate U. *)
Theorem C68_special_cases_of_U : forall t p l,
  is_u gH [] PI 0 (PI / 2) /\ is_u gS [] (PI / 2) 0 0 /\ is_u gT [] (PI / 4) 0 0 /\
  is_u gV [] (PI / 2) (- (PI / 2)) (PI / 2) /\ is_u gP [l] l 0 0 /\ is_u gU2 [p; l] l p (PI / 2) /\
  is_u gRX [t] (PI / 2) (- (PI / 2)) t /\ is_u gRY [t] 0 0 t /\ is_u gX [] PI 0 PI /\ is_u gY [] (PI / 2) (PI / 2) PI /\
  is_u gZ [] PI 0 0.
Proof.
  intros. repeat split;
  eauto using isu_H, isu_S, isu_T, isu_V, isu_P, isu_U2, isu_RX, isu_RY, isu_X, isu_Y, isu_Z.
Qed.
Print Assumptions C68_special_cases_of_U.

Example C68_ex : pmat (fun v => flip0 (cx01 v)) [false; true] [true; false] = C1.
Proof. reflexivity. Qed.

(** ** C23: inversion *)
(** For each operation that denotes an operator, on any number of qubits and
    under any controls, invert() yields an operation denoting the inverse. *)
Theorem C23_invert : forall o f, wf_op o -> sem o = Some f ->
  exists o' g, invert_std o = Some o' /\ wf_op o' /\ sem o' = Some g /\ inverse_maps f g.
Proof. exact invert_correct. Qed.
Print Assumptions C23_invert.

Theorem C23_rejects : forall o, unitary_type (o_type o) = false -> invert_std o = None.
Proof. exact invert_rejects. Qed.
Print Assumptions C23_rejects.

(** getDD and getInverseDD hand on the operator and its inverse, except that
    the controls of a global phase are ignored (next theorem). *)
Theorem C23_inverse_dd_partial : forall o f, wf_op o -> sem o = Some f -> (o_type o = gGPhase -> o_ctl o = []) ->
  dd_action false o = Some f /\ exists g, dd_action true o = Some g /\ inverse_maps f g.
Proof. intros o f W S G. split; [now apply dd_action_sem|now apply dd_inverse_action]. Qed.
Print Assumptions C23_inverse_dd_partial.

Definition cgphase : stdop := {| o_type := gGPhase; o_par := [PI]; o_ctl := [(0%nat, true)]; o_tgt := [] |}.

Theorem C23_controlled_phase_refuted : exists o f g, wf_op o /\ sem o = Some f /\
  dd_action false o = Some g /\ f <> g.
Proof.
  exists cgphase. eexists. eexists.
  split; [split; [constructor|intros c _ []]|]. split; [reflexivity|]. split; [reflexivity|].
  intros E. assert (K := f_equal (fun h => h (fun _ => C1) (fun _ => false)) E).
  cbn in K. unfold sscal, capply in K. cbn in K. inversion K as [[K1 K2]]. rewrite cos_PI in K1. lra.
Qed.
Print Assumptions C23_controlled_phase_refuted.

Example C23_ex :
  let o := {| o_type := gU2; o_par := [1; 2]; o_ctl := [(3%nat, true); (5%nat, false)]; o_tgt := [0%nat] |} in
  wf_op o /\ (exists f, sem o = Some f) /\
  invert_std o = Some {| o_type := gU2; o_par := [- (2) + PI; - (1) - PI]; o_ctl := [(3%nat, true); (5%nat, false)]; o_tgt := [0%nat] |}.
Proof.
  split.
  - split; cbn.
    + constructor; auto using NoDup_nil.
    + intros c [<-|[<-|[]]] [E|[]]; discriminate.
  - split; [eexists; reflexivity|reflexivity].
Qed.

(** isInverseOf, wherever equality of operations is sound (see C26). *)
Theorem C23_is_inverse_of_partial : forall o other f g,
  wf_op o -> wf_op other -> ctl_ok o -> ctl_ok other ->
  ((o_type o = gRZ \/ o_type o = gRZZ) -> o_ctl o = []) ->
  sem o = Some f -> sem other = Some g -> is_inverse_of o other = Some true -> inverse_maps f g.
Proof.
  intros o other f g W1 W2 K1 K2 RZ F G H. unfold is_inverse_of in H.
  destruct (invert_correct other g W2 G) as (i & h & I1 & WI & SI & INV). rewrite I1 in H.
  assert (E : f = h).
  { assert (RN : forall x, rename_op (fun q => q) x = x).
    { intros [t ps cs ts]. unfold rename_op. simpl. rewrite map_id. f_equal.
      rewrite <- (map_id cs) at 2. apply map_ext. now intros []. }
    assert (KI : ctl_ok i).
    { unfold ctl_ok in *. clear - I1 K2. unfold invert_std in I1.
      destruct (o_type other); try discriminate; try (inversion I1; subst; exact K2);
      repeat match type of I1 with
        | match ?x with _ => _ end = _ => destruct x; try discriminate
        end; inversion I1; subst; exact K2. }
    inversion H as [H'].
    eapply (equals_sound (fun q => q) (fun q => q) o i); eauto; try (intros x y; auto); rewrite RN; auto. }
  subst h. destruct INV as [A B]. split; auto.
Qed.
Print Assumptions C23_is_inverse_of_partial.

(** ** C25: canonicalisation of parameters *)
(** PARAMETER_TOLERANCE (StandardOperation.hpp:32) *)
Definition param_tol : R := / 10 ^ 13.
Lemma param_tol_ok : 0 < param_tol /\ param_tol <= 1 / 100.
Proof.
  unfold param_tol. split; [apply Rinv_0_lt_compat; lra|].
  replace (1 / 100) with (/ 100) by lra. apply Rinv_le_contravar; lra.
Qed.

(** The rewritten gate deviates by at most 24 tolerances in every entry. *)
Theorem C25_preserves_matrix : forall t ps M t' ps', single_matrix t ps = Some M ->
  check_ugate param_tol t ps = Some (t', ps') ->
  exists M', single_matrix t' ps' = Some M' /\ mat_near 1 (24 * param_tol) M M'.
Proof. intros t ps M t' ps'. destruct param_tol_ok. apply canon_near; auto. Qed.
Print Assumptions C25_preserves_matrix.

(** It succeeds for all parameters of magnitude up to 10^13. *)
Theorem C25_finite_partial : forall t ps M, single_matrix t ps = Some M -> all_small param_tol ps ->
  (t = gU -> length ps = 3%nat) -> (t = gU2 -> length ps = 2%nat) -> (t = gP -> length ps = 1%nat) ->
  exists r, check_ugate param_tol t ps = Some r.
Proof. intros t ps M. destruct param_tol_ok. apply canon_finite; auto. Qed.
Print Assumptions C25_finite_partial.

Lemma int_part_is x n : IZR n <= x < IZR n + 1 -> Int_part x = n.
Proof.
  intros [A B]. unfold Int_part. rewrite <- (tech_up x (n + 1)); [lia| |]; rewrite plus_IZR; lra.
Qed.

Lemma nearby_int n : nearby (IZR n) = n.
Proof.
  unfold nearby. apply int_part_is. lra.
Qed.

(** The angle 10^14 is turned into an infinite one. *)
Theorem C25_large_angle_refuted : exists l, single_matrix gP [l] <> None /\ check_ugate param_tol gP [l] = None.
Proof.
  exists (IZR 100000000000000). split; [discriminate|].
  pose proof PI_4 as P4. pose proof PI2_3_2 as P3. destruct param_tol_ok as [T0 T1].
  set (l := IZR 100000000000000).
  assert (L : l = 100000000000000) by reflexivity.
  assert (FAR : forall v, Rabs v <= 4 -> close param_tol l v = false).
  { intros v Hv. unfold close. destruct (Rlt_dec (Rabs (l - v)) param_tol) as [H|]; auto. exfalso.
    pose proof (Rabs_triang_inv l v). rewrite (Rabs_pos_eq l) in H0 by (rewrite L; lra). rewrite L in H0 at 1. lra. }
  assert (AL : Rabs l = l) by (apply Rabs_pos_eq; rewrite L; lra).
  cbn [check_ugate]. unfold parse_u1. rewrite AL.
  rewrite (FAR 0) by (rewrite Rabs_R0; lra). rewrite (FAR PI) by (rewrite Rabs_pos_eq; lra).
  rewrite (FAR (PI / 2)) by (rewrite Rabs_pos_eq; lra). rewrite (FAR (PI / 4)) by (rewrite Rabs_pos_eq; lra).
  assert (CI : check_integer param_tol l = l).
  { unfold check_integer, l. rewrite nearby_int. now destruct (close _ _ _). }
  unfold check_par. rewrite CI. unfold check_fraction_pi.
  destruct (Req_EM_T l 0) as [E|_]; [rewrite L in E; lra|].
  assert (D0 : 0 < PI / l) by (apply Rdiv_lt_0_compat; rewrite ?L; lra).
  assert (D1 : PI / l < param_tol).
  { unfold param_tol. apply (Rmult_lt_reg_r l); [rewrite L; lra|]. unfold Rdiv. rewrite Rmult_assoc, Rinv_l by (rewrite L; lra).
    replace (/ 10 ^ 13 * l) with 10 by (rewrite L; field). lra. }
  assert (N : nearby (PI / l) = 0%Z).
  { unfold nearby. apply int_part_is. simpl. lra. }
  rewrite N. simpl. unfold close. rewrite Rminus_0_r, Rabs_pos_eq by lra.
  destruct (Rlt_dec (PI / l) param_tol); [reflexivity|lra].
Qed.
Print Assumptions C25_large_angle_refuted.

Example C25_ex : check_ugate param_tol gU [PI; 0; PI] = Some (gX, []).
Proof.
  pose proof PI_4 as P4. pose proof PI2_3_2 as P3. destruct param_tol_ok as [T0 T1].
  assert (CS : forall x, close param_tol x x = true).
  { intros x. unfold close. rewrite Rxx. destruct (Rlt_dec 0 param_tol); [auto|lra]. }
  assert (CF : forall x y, 1 <= x - y -> close param_tol x y = false /\ close param_tol y x = false).
  { intros x y H. unfold close. rewrite (Rabs_minus_sym y x), Rabs_pos_eq by lra.
    destruct (Rlt_dec (x - y) param_tol); [lra|auto]. }
  cbn [check_ugate]. unfold parse_u3.
  rewrite ?(proj1 (CF PI 0 ltac:(lra))), ?(proj1 (CF PI (PI / 2) ltac:(lra))), ?(proj1 (CF PI (- (PI / 2)) ltac:(lra))),
    ?(proj2 (CF (PI / 2) 0 ltac:(lra))), ?(proj1 (CF 0 (- (PI / 2)) ltac:(lra))).
  rewrite !CS. reflexivity.
Qed.

(** ** C26: equality of operations *)
(** Sound for all gates but controlled RZ and RZZ. *)
Theorem C26_equality_partial : forall p1 p2 o1 o2 f g,
  inj p1 -> inj p2 -> wf_op o1 -> wf_op o2 -> ctl_ok o1 -> ctl_ok o2 ->
  ((o_type o1 = gRZ \/ o_type o1 = gRZZ) -> o_ctl o1 = []) ->
  equals_std p1 p2 o1 o2 = true ->
  sem (rename_op p1 o1) = Some f -> sem (rename_op p2 o2) = Some g -> f = g.
Proof. exact equals_sound. Qed.
Print Assumptions C26_equality_partial.

Definition crz (c t : nat) : stdop := {| o_type := gRZ; o_par := [PI]; o_ctl := [(c, true)]; o_tgt := [t] |}.

Theorem C26_controlled_rz_refuted : exists o1 o2 f g, wf_op o1 /\ wf_op o2 /\ ctl_ok o1 /\ ctl_ok o2 /\
  equals_std (fun q => q) (fun q => q) o1 o2 = true /\ sem o1 = Some f /\ sem o2 = Some g /\ f <> g.
Proof.
  exists (crz 0 1), (crz 1 0). eexists. eexists.
  split; [split; cbn; [constructor; auto using NoDup_nil|intros c [<-|[]] [E|[]]; discriminate]|].
  split; [split; cbn; [constructor; auto using NoDup_nil|intros c [<-|[]] [E|[]]; discriminate]|].
  split; [cbn; constructor; auto using NoDup_nil|]. split; [cbn; constructor; auto using NoDup_nil|].
  split.
  { unfold equals_std. cbn -[Req_b]. replace (Req_b PI PI) with true by (symmetry; now apply Req_b_eq). reflexivity. }
  split; [reflexivity|]. split; [reflexivity|].
  intros E. assert (K := f_equal (fun h => h (fun _ => C1) (fun q => Nat.eqb q 0)) E).
  cbv -[cos sin PI Rplus Rmult Ropp Rminus Rdiv Rinv IZR R0 R1] in K.
  inversion K as [[K1 K2]]. rewrite cos_PI2, sin_PI2 in K1. lra.
Qed.
Print Assumptions C26_controlled_rz_refuted.

Example C26_ex :
  equals_std (fun q => q) (fun q => q)
    {| o_type := gZ; o_par := []; o_ctl := [(0%nat, true); (2%nat, false)]; o_tgt := [1%nat] |}
    {| o_type := gZ; o_par := []; o_ctl := [(1%nat, true); (2%nat, false)]; o_tgt := [0%nat] |} = true.
Proof. reflexivity. Qed.

(** ** C27: commutation check *)
Theorem C27_commutation : forall o1 o2 f g, wf_op o1 -> wf_op o2 -> sem o1 = Some f -> sem o2 = Some g ->
  (forall q, acts_on o1 q = true -> acts_on o2 q = true -> commutes_at o1 o2 q = true) ->
  forall psi, f (g psi) = g (f psi).
Proof. exact commutes_sound. Qed.
Print Assumptions C27_commutation.

Example C27_ex :
  let o1 := {| o_type := gRXX; o_par := [1]; o_ctl := [(2%nat, true)]; o_tgt := [0; 1]%nat |} in
  let o2 := {| o_type := gRXX; o_par := [2]; o_ctl := [(2%nat, false); (3%nat, true)]; o_tgt := [0; 1]%nat |} in
  forall q, (q < 4)%nat -> commutes_at o1 o2 q = true.
Proof. intros o1 o2 q H. do 4 (destruct q as [|q]; [reflexivity|]). lia. Qed.
