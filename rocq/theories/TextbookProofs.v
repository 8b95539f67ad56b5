(** The gate matrices agree with their textbook definitions. *)
From Coq Require Import Reals Lra List Arith Bool Lia.
From Verif Require Import Cplx Qsem GateModel GateSpec GateProofs.
Import ListNotations.
Local Open Scope R_scope.
Local Open Scope list_scope.

(** Pauli matrices, tensor products and rotations exp(-i t/2 G). *)
Definition pauli (x : nat) : mat :=
  fun r c =>
    match x, r, c with
    | 0%nat, [a], [b] => if Bool.eqb a b then C1 else C0                       (* I *)
    | 1%nat, [a], [b] => if Bool.eqb a b then C0 else C1                       (* X *)
    | 2%nat, [a], [b] => if Bool.eqb a b then C0 else if a then Ci else (- Ci)%C  (* Y *)
    | 3%nat, [a], [b] => if Bool.eqb a b then (if a then (- C1)%C else C1) else C0 (* Z *)
    | _, _, _ => C0
    end.
Definition kron (M N : mat) : mat :=
  fun r c => match r, c with
             | [r0; r1], [c0; c1] => (M [r0] [c0] * N [r1] [c1])%C
             | _, _ => C0
             end.
Definition rot (G : mat) (t : R) : mat :=
  fun r c => (RtoC (cos (t / 2)) * mid r c - Ci * RtoC (sin (t / 2)) * G r c)%C.
(** Permutation matrix of a map on bit strings: column [c] goes to row [f c]. *)
Definition pmat (f : list bool -> list bool) : mat :=
  fun r c => if leqb r (f c) then C1 else C0.
Definition cx01 (v : list bool) : list bool := match v with [a; b] => [a; xorb a b] | _ => v end.
Definition cx10 (v : list bool) : list bool := match v with [a; b] => [xorb a b; b] | _ => v end.
Definition flip0 (v : list bool) : list bool := match v with [a; b] => [negb a; b] | _ => v end.
Definition swap01 (v : list bool) : list bool := match v with [a; b] => [b; a] | _ => v end.
Definition mscal (x : C) (M : mat) : mat := fun r c => (x * M r c)%C.
(** diag(1, 1, 1, -1) *)
Definition czmat : mat := fun r c => if leqb r c then (match r with [true; true] => (- C1)%C | _ => C1 end) else C0.

Ltac tb :=
  cbv [List.rev mmul madj mid m2 mat_of allb map app csum fold_right bidx fold_left List.nth
       Nat.mul Nat.add leqb list_eq_dec list_rec list_rect Bool.bool_dec bool_rec bool_rect
       sumbool_rec sumbool_rect pauli kron rot pmat cx01 cx10 flip0 swap01 mscal czmat Bool.eqb xorb negb
       uMat u2Mat pMat rxMat ryMat rzMat rxxMat ryyMat rzzMat rzxMat xxMinusYYMat xxPlusYYMat];
  apply Ceq; cbv [Cmul Cadd Csub Copp Cconj RtoC C0 C1 Ci Cexp fst snd].
Ltac tb1 := let r := fresh in let c := fresh in let Hr := fresh in let Hc := fresh in
  intros r c Hr Hc; split1 r Hr; split1 c Hc; allbools; tb; gen_trig; gen_sq2; fin.
Ltac tb2 := let r := fresh in let c := fresh in let Hr := fresh in let Hc := fresh in
  intros r c Hr Hc; split2 r Hr; split2 c Hc; allbools; tb; gen_trig; gen_sq2; fin.

(** [gate t ps k N]: the package's matrix for the gate is [N]. *)
Definition gate_is (t : optype) (ps : list R) (k : nat) (N : mat) : Prop :=
  exists M, gate_matrix t ps = Some (k, M) /\ meq k M N.

Ltac gi := eexists; split; [reflexivity|].

Lemma tb_paulis : gate_is gI [] 1 (pauli 0) /\ gate_is gX [] 1 (pauli 1) /\ gate_is gY [] 1 (pauli 2) /\ gate_is gZ [] 1 (pauli 3).
Proof. repeat split; gi; tb1. Qed.
Lemma tb_rot t : gate_is gRX [t] 1 (rot (pauli 1) t) /\ gate_is gRY [t] 1 (rot (pauli 2) t) /\ gate_is gRZ [t] 1 (rot (pauli 3) t).
Proof. repeat split; gi; tb1. Qed.
Lemma tb_rot2 t :
  gate_is gRXX [t] 2 (rot (kron (pauli 1) (pauli 1)) t) /\ gate_is gRYY [t] 2 (rot (kron (pauli 2) (pauli 2)) t) /\
  gate_is gRZZ [t] 2 (rot (kron (pauli 3) (pauli 3)) t) /\ gate_is gRZX [t] 2 (rot (kron (pauli 3) (pauli 1)) t).
Proof. repeat split; gi; tb2. Qed.
(** Square roots and phases. *)
Definition square_is (t u : optype) (x : C) : Prop :=
  exists M N, single_matrix t [] = Some M /\ single_matrix u [] = Some N /\ meq 1 (mmul 1 M M) (mscal x N).
Lemma tb_squares : square_is gS gZ C1 /\ square_is gT gS C1 /\ square_is gSdg gZ C1 /\ square_is gTdg gSdg C1 /\
  square_is gSX gX C1 /\ square_is gSXdg gX C1 /\ square_is gV gX (- Ci)%C /\ square_is gVdg gX Ci /\ square_is gH gI C1.
Proof. repeat split; (eexists; eexists; split; [reflexivity|split; [reflexivity|]]); tb1. Qed.
Lemma tb_perms : gate_is gSWAP [] 2 (pmat swap01) /\ gate_is gDCX [] 2 (pmat (fun v => cx10 (cx01 v))) /\
  gate_is gPeres [] 2 (pmat (fun v => flip0 (cx01 v))) /\ gate_is gPeresdg [] 2 (pmat (fun v => cx01 (flip0 v))).
Proof. repeat split; gi; tb2. Qed.
Lemma tb_iswap : forall S, single_matrix gS [] = Some S ->
  gate_is giSWAP [] 2 (mmul 2 (pmat swap01) (mmul 2 czmat (kron S S))).
Proof. intros S E. inversion E; subst. gi. tb2. Qed.
Lemma tb_ecr : gate_is gECR [] 2 (mscal (RtoC sq2) (fun r c => (kron (pauli 1) (pauli 0) r c - kron (pauli 2) (pauli 1) r c)%C)).
Proof. gi. tb2. Qed.
(** The XY interactions: rotations in the {01, 10} and {00, 11} planes. *)
Definition half_xy (s : R) : mat := fun r c => (RtoC (1/2) * (kron (pauli 1) (pauli 1) r c + RtoC s * kron (pauli 2) (pauli 2) r c))%C.
Definition proj_xy (s : R) : mat := fun r c => (RtoC (1/2) * (mid r c - RtoC s * kron (pauli 3) (pauli 3) r c))%C.
Definition xy_rot (s t : R) : mat := fun r c =>
  (mid r c + RtoC (cos (t / 2) - 1) * proj_xy s r c - Ci * RtoC (sin (t / 2)) * half_xy s r c)%C.
Lemma mmul_diag_l k D X r c : (forall u v, u <> v -> D u v = C0) -> length r = k ->
  mmul k D X r c = (D r r * X r c)%C.
Proof.
  intros H L. unfold mmul. rewrite (csum_single _ r); auto using allb_NoDup.
  - now apply allb_In.
  - intros v _ N. rewrite H by congruence. ring.
Qed.
Lemma mmul_diag_r k D X r c : (forall u v, u <> v -> D u v = C0) -> length c = k ->
  mmul k X D r c = (X r c * D c c)%C.
Proof.
  intros H L. unfold mmul. rewrite (csum_single _ c); auto using allb_NoDup.
  - now apply allb_In.
  - intros v _ N. rewrite H by congruence. ring.
Qed.
Lemma kron_rz_diag b u v : u <> v -> kron (pauli 0) (rzMat b) u v = C0.
Proof.
  intros N. destruct u as [|u0 [|u1 [|]]], v as [|v0 [|v1 [|]]]; try reflexivity.
  destruct u0, u1, v0, v1; try congruence; simpl; try ring;
    unfold rzMat, m2, mat_of; simpl; ring.
Qed.
Lemma tb_xy t b :
  gate_is gXXplusYY [t; b] 2 (mmul 2 (kron (pauli 0) (rzMat b)) (mmul 2 (xy_rot 1 t) (kron (pauli 0) (rzMat (- b))))) /\
  gate_is gXXminusYY [t; b] 2 (mmul 2 (kron (pauli 0) (rzMat b)) (mmul 2 (xy_rot (-1) t) (kron (pauli 0) (rzMat (- b))))).
Proof.
  assert (CB : cos b = cos (b / 2) * cos (b / 2) - sin (b / 2) * sin (b / 2)) by (rewrite <- cos_plus; f_equal; lra).
  assert (SB : sin b = 2 * (sin (b / 2) * cos (b / 2))) by (replace b with (b / 2 + b / 2) at 1 by lra; rewrite sin_plus; ring).
  assert (Q : cos (b / 2) * cos (b / 2) = 1 - sin (b / 2) * sin (b / 2)) by (pose proof (sc2 (b / 2)); lra).
  split; gi; intros r c Hr Hc; rewrite mmul_diag_l, mmul_diag_r by (auto using kron_rz_diag);
    split2 r Hr; split2 c Hc; allbools; cbv [half_xy proj_xy xy_rot]; tb;
    rewrite ?CB, ?SB; angles; clear CB SB; field [Q].
Qed.
