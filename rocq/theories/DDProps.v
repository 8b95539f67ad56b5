(** Properties C11-C18 of the decision-diagram package. *)
From Coq Require Import Reals Lra Psatz List Bool Arith Lia FunctionalExtensionality Sorting.Sorted.
From Verif Require Import Cplx Qsem DDModel DDSpec DDProofs DDCanonProofs DDOpsProofs DDGateProofs DDStateProofs.
Import ListNotations.
Local Open Scope R_scope.

(** ** C11: makeDDNode preserves the represented object *)
(** Vectors given as Edges: any successors, any tolerance, no well-formedness needed. *)
Theorem C11_vector_edges : forall eps v e b, veden (vmakeE eps v e) b = veden (e (b v)) b.
Proof. exact vmakeE_den. Qed.
Print Assumptions C11_vector_edges.
(** Vectors given as CachedEdges: weights within the tolerance of zero are dropped. *)
Theorem C11_vector_cached : forall eps v e b, 0 <= eps ->
  veden (vmakeC eps v e) b = if azero eps (fst (e (b v))) then C0 else veden (e (b v)) b.
Proof. exact vmakeC_den. Qed.
Print Assumptions C11_vector_cached.
Theorem C11_matrix_edges : forall eps v e r c, (forall i j, mwf v (e i j)) ->
  meden (S v) (mmakeE eps v e) r c = meden v (e (r v) (c v)) r c.
Proof. exact mmakeE_den. Qed.
Print Assumptions C11_matrix_edges.
Theorem C11_matrix_cached : forall eps v e r c, 0 <= eps -> (forall i j, mwf v (e i j)) ->
  meden (S v) (mmakeC eps v e) r c = if azero eps (fst (e (r v) (c v))) then C0 else meden v (e (r v) (c v)) r c.
Proof. exact mmakeC_den. Qed.
Print Assumptions C11_matrix_cached.

Example C11_ex : forall b, veden (vmakeE 0 0 (v2 (RtoC 3, VT) (RtoC 4, VT))) b = RtoC (if b 0%nat then 4 else 3).
Proof. intros b. rewrite C11_vector_edges. destruct (b 0%nat); unfold veden; cbn; ring. Qed.
(* the identity on qubit 1 above X on qubit 0 needs no node of its own *)
Example C11_ex_skip :
  let x := mmk 0 (m4 mzero mone mone mzero) in mmk 1 (m4 x mzero mzero x) = x.
Proof.
  intros x. apply (mcanon_unique 2).
  - apply mmk_canon. intros [] []; right; cbn [m4]; try apply mcanon_T; apply mmk_canon; intros [] []; right; apply mcanon_T.
  - unfold mcanon. apply (mcan_mono 1); [lia|]. apply mmk_canon; intros [] []; right; apply mcanon_T.
  - assert (X : mwf 1 x) by (apply mmk_wf; intros [] []; exact Logic.I).
    intros r c. rewrite mmk_den by (intros [] []; cbn [m4]; auto; exact Logic.I).
    unfold meden. rewrite (mden_lift 1 (snd x)) by exact X.
    destruct (r 1%nat), (c 1%nat); cbn [m4 eqb]; auto; cbn [mzero fst snd]; ring.
Qed.

(** ** C12: canonicity *)
(** Everything makeDDNode builds, with arbitrary non-zero factors on intermediate edges. *)
Inductive vbuilt : nat -> vedge -> Prop :=
| VB_zero n : vbuilt n vzero
| VB_term w : vbuilt 0 (w, VT)
| VB_scale n w w' t : vbuilt n (w, t) -> w <> C0 -> w' <> C0 -> vbuilt n (w', t)
| VB_nodeE n e : (forall i, vbuilt n (e i)) -> vbuilt (S n) (vmakeE 0 n e)
| VB_nodeC n e : (forall i, vbuilt n (e i)) -> vbuilt (S n) (vmakeC 0 n e).
Inductive mbuilt : nat -> medge -> Prop :=
| MB_term n w : mbuilt n (w, MT)
| MB_scale n w w' t : mbuilt n (w, t) -> w' <> C0 -> mbuilt n (w', t)
| MB_skip n e : mbuilt n e -> mbuilt (S n) e
| MB_nodeE n e : (forall i j, mbuilt n (e i j)) -> mbuilt (S n) (mmakeE 0 n e)
| MB_nodeC n e : (forall i j, mbuilt n (e i j)) -> mbuilt (S n) (mmakeC 0 n e).

Lemma vbuilt_canon n e : vbuilt n e -> vcanon n e.
Proof.
  induction 1 as [n|w|n w w' t _ IH N N'|n e _ IH|n e _ IH].
  - apply vcanon_zero.
  - left; auto.
  - exact (vcan_weight _ _ _ _ IH N N').
  - apply vmkE_canon; auto.
  - apply vmk_canon; auto.
Qed.
Lemma mbuilt_canon n e : mbuilt n e -> mcanon n e.
Proof.
  induction 1 as [n w|n w w' t _ IH N|n e _ IH|n e _ IH|n e _ IH].
  - apply mcanon_T.
  - exact (mcan_weight _ _ _ _ IH N).
  - unfold mcanon in *. apply (mcan_mono n); auto.
  - rewrite mmkE_mmk. apply mmk_canon; auto.
  - apply mmk_canon; auto.
Qed.

Theorem C12_vectors : forall n e e', vbuilt n e -> vbuilt n e' -> (forall b, veden e b = veden e' b) <-> e = e'.
Proof.
  intros n e e' H H'. split; [|intros ->; auto]. apply (vcanon_unique n); apply vbuilt_canon; auto.
Qed.
Print Assumptions C12_vectors.
Theorem C12_matrices : forall n e e', mbuilt n e -> mbuilt n e' -> (forall r c, meden n e r c = meden n e' r c) <-> e = e'.
Proof.
  intros n e e' H H'. split; [|intros ->; auto]. apply (mcanon_unique n); apply mbuilt_canon; auto.
Qed.
Print Assumptions C12_matrices.
(** Proportional vectors share the node. *)
Theorem C12_proportional : forall n e e' k, vbuilt n e -> vbuilt n e' -> fst e <> C0 -> k <> C0 ->
  (forall b, veden e b = (k * veden e' b)%C) -> snd e = snd e'.
Proof.
  intros n [w t] [w' t'] k H H' W K E. apply vbuilt_canon in H, H'. cbn [fst snd] in *.
  assert (W' : w' <> C0).
  { intros ->. assert (Z : forall b, veden (w, t) b = C0) by (intros b; rewrite E; unfold veden; cbn [fst]; ring).
    assert (X : (w, t) = vzero) by (apply (vcanon_unique n); auto using vcanon_zero; intros b; rewrite Z; unfold veden; cbn; ring).
    injection X; auto. }
  apply (vcanon_prop t t' n w w' (k * w' / w)%C); auto.
  intros b. specialize (E b). unfold veden in E; cbn [fst snd] in E.
  apply (Cmul_cancel_l w); auto. rewrite E. field. auto.
Qed.
Print Assumptions C12_proportional.

(** With the tolerance of the package a node depends on the scale of its successors: (1, i sqrt(1+eps))
    and its double are proportional but get different nodes, so equality of edges is not complete. *)
Theorem C12_tolerance_refuted : forall eps, 0 < eps < 1 ->
  exists e e' : bool -> vedge, (forall i, e' i = ((RtoC 2 * fst (e i))%C, snd (e i))) /\
    snd (vmakeC eps 0 e) <> snd (vmakeC eps 0 e') /\
    (forall b, veden (vmakeC eps 0 e') b = veden ((RtoC 2 * fst (vmakeC eps 0 e))%C, snd (vmakeC eps 0 e)) b).
Proof.
  intros eps [E0 E1]. set (y := sqrt (1 + eps)).
  assert (Y1 : y * y = 1 + eps) by (apply sqrt_sqrt; lra).
  assert (Y2 : 1 < y) by (unfold y; rewrite <- sqrt_1 at 1; apply sqrt_lt_1; lra).
  set (e := v2 (C1, VT) ((0, y), VT)).
  set (e' := v2 (RtoC 2, VT) ((0, 2 * y), VT)).
  assert (EE : forall i, e' i = ((RtoC 2 * fst (e i))%C, snd (e i))).
  { intros []; unfold e, e', v2; cbn [fst snd];
      apply (f_equal (fun w : C => (w, VT) : vedge)); apply Ceq; unfold RtoC, C1, Cmul; cbn; ring. }
  assert (AZ : forall x : C, eps < Rabs (fst x) \/ eps < Rabs (snd x) -> azero eps x = false).
  { intros x [H|H]; unfold azero; repeat destruct Rle_dec; auto; lra. }
  assert (Z1 : azero eps C1 = false) by (apply AZ; left; cbn; rewrite Rabs_R1; lra).
  assert (Z2 : azero eps (0, y) = false) by (apply AZ; right; cbn; rewrite Rabs_pos_eq; lra).
  assert (Z3 : azero eps (RtoC 2) = false) by (apply AZ; left; cbn; rewrite Rabs_pos_eq; lra).
  assert (Z4 : azero eps (0, 2 * y) = false) by (apply AZ; right; cbn; rewrite Rabs_pos_eq; lra).
  exists e, e'. split; [exact EE|]. split.
  - unfold vmakeC, e, e', v2; cbn [fst snd]. rewrite Z1, Z2, Z3, Z4.
    unfold vnorm_both, vargmax; cbn [fst snd].
    assert (N1 : Cnorm2 C1 = 1) by apply Cnorm2_1.
    assert (N2 : Cnorm2 (0, y) = 1 + eps) by (unfold Cnorm2; cbn [fst snd]; lra).
    assert (N3 : Cnorm2 (RtoC 2) = 4) by (rewrite Cnorm2_RtoC; lra).
    assert (N4 : Cnorm2 (0, 2 * y) = 4 + 4 * eps) by (unfold Cnorm2; cbn [fst snd]; nra).
    rewrite N1, N2, N3, N4. destruct (Rle_dec (1 + eps) (1 + eps)) as [_|]; [|lra].
    destruct (Rle_dec (4 + 4 * eps) (4 + eps)) as [|_]; [lra|]. cbn [negb eqb fst snd]. rewrite ?N1, ?N2, ?N3, ?N4.
    intros H. assert (K := f_equal (fun t => match t with VNode _ w _ => snd (w false) | VT => 0 end) H). cbn [eqb] in K.
    revert K. unfold Cdiv, Cinv, Cmul, RtoC. cbn -[Rmult Rplus Rinv Rdiv Ropp sqrt].
    assert (S4 : sqrt (4 + 4 * eps) = 2 * y).
    { replace (4 + 4 * eps) with ((2 * y) * (2 * y)) by nra. apply sqrt_square; lra. }
    rewrite S4. set (N := sqrt (4 + 4 * eps + 4)).
    assert (NP : 0 < N) by (apply sqrt_lt_R0; lra).
    intros K.
    assert (P : 0 < 2 * y * (N / (2 * y))) by (replace (2 * y * (N / (2 * y))) with N by (field; lra); auto).
    replace (2 * y * (N / (2 * y))) with N in * by (field; lra).
    revert K. unfold Cnorm2; cbn -[Rmult Rplus Rinv Rdiv Ropp sqrt].
    match goal with |- 0 = ?x -> _ => replace x with (- (2 / N)) end.
    + intros K. assert (0 < 2 / N) by (apply Rdiv_lt_0_compat; lra). lra.
    + field. split; nra.
  - intros b. rewrite C11_vector_cached by lra.
    assert (G : veden (vmakeC eps 0 e) b = veden (e (b 0%nat)) b).
    { rewrite C11_vector_cached by lra. destruct (b 0%nat); unfold e, v2; cbn [fst]; rewrite ?Z1, ?Z2; auto. }
    transitivity (RtoC 2 * veden (vmakeC eps 0 e) b)%C; [|unfold veden; cbn [fst snd]; ring].
    rewrite G, EE. unfold veden; cbn [fst snd].
    destruct (b 0%nat); rewrite ?EE; cbn [fst snd]; unfold e, v2; cbn [fst snd].
    + replace (RtoC 2 * (0, y))%C with ((0, 2 * y) : C) by (apply Ceq; unfold RtoC, Cmul; cbn; ring).
      rewrite Z4. apply Ceq; unfold RtoC, Cmul, C1; cbn; ring.
    + replace (RtoC 2 * C1)%C with (RtoC 2) by ring. rewrite Z3. ring.
Qed.
Print Assumptions C12_tolerance_refuted.

(* |00>+|11> built bottom-up and from its amplitude vector *)
Example C12_ex : exists e e', makeGHZState 2 2 = DOk e /\
  makeStateFromVector [RtoC s22; C0; C0; RtoC s22] = DOk e' /\ e = e'.
Proof.
  destruct (makeGHZState_spec 2 2 ltac:(lia) ltac:(lia)) as (e & E & Ca & D).
  destruct (state_of_spec 1 [RtoC s22; C0; C0; RtoC s22] eq_refl) as (e' & E' & Ca' & D').
  exists e, e'. split; [auto|]. split; [unfold makeStateFromVector; cbn [length]; change (is_pow2 4) with true; cbv iota;
    change (Nat.log2 4 - 1)%nat with 1%nat; rewrite E'; auto|].
  apply (vcanon_unique 2); auto. intros b. rewrite D, D'. unfold all_eq. cbn [seq forallb index Nat.pow].
  destruct (b 0%nat), (b 1%nat); reflexivity.
Qed.

(** ** C13, C14: gates *)
Theorem C13_makeGateDD : forall n nqubits (U : mat) cs t, (n <= nqubits)%nat -> ctls_ok n cs [t] ->
  exists e, makeGateDD nqubits (fun i j => U [i] [j]) cs t = DOk e /\ mcanon n e /\
    forall psi, mact n e psi = capply cs U [t] psi.
Proof.
  intros n nq U cs t H K. destruct (makeGateDD_spec n nq (fun i j => U [i] [j]) cs t H K) as (e & E & Ca & D).
  exists e. split; [auto|]. split; [auto|]. intros psi. apply cgate_act; [repeat constructor; auto| |exact D].
  intros x [<-|[]]. destruct K as (_ & _ & K & _). inversion K; auto.
Qed.
Print Assumptions C13_makeGateDD.
Theorem C13_out_of_range_throws : forall nqubits U cs t, (nqubits <= t)%nat \/ (exists c, In c cs /\ (nqubits <= fst c)%nat) ->
  makeGateDD nqubits U cs t = DThrow.
Proof.
  intros nq U cs t H. unfold makeGateDD.
  match goal with |- context [if ?x then _ else _] => assert (E : x = true) end; [|rewrite E; auto].
  apply orb_true_iff. destruct H as [H|(c & I & H)]; [right; apply Nat.leb_le; auto|left].
  apply existsb_exists. exists c. split; [auto|]. apply Nat.leb_le; auto.
Qed.
Print Assumptions C13_out_of_range_throws.
Theorem C14_makeTwoQubitGateDD : forall n nqubits (U : mat) cs t0 t1, (n <= nqubits)%nat -> t0 <> t1 ->
  ctls_ok n cs [t0; t1] ->
  exists e, makeTwoQubitGateDD nqubits (fun i1 i0 j1 j0 => U [i1; i0] [j1; j0]) cs t0 t1 = DOk e /\ mcanon n e /\
    forall psi, mact n e psi = capply cs U [t0; t1] psi.
Proof.
  intros n nq U cs t0 t1 H N K.
  destruct (makeTwoQubitGateDD_spec n nq (fun i1 i0 j1 j0 => U [i1; i0] [j1; j0]) cs t0 t1 H N K) as (e & E & Ca & D).
  exists e. split; [auto|]. split; [auto|]. intros psi. apply cgate_act; [| |exact D].
  - constructor; [intros [X|[]]; congruence|repeat constructor; auto].
  - intros x I. destruct K as (_ & _ & K & _). rewrite Forall_forall in K. auto.
Qed.
Print Assumptions C14_makeTwoQubitGateDD.

(* Toffoli with a negative control, target in the middle, flips |q2 q1 q0> = |10-> *)
Definition xmat : mat := fun r c => match r, c with [i], [j] => if eqb i j then C0 else C1 | _, _ => C0 end.
Example C13_ex : exists e, makeGateDD 3 (fun i j => xmat [i] [j]) [(0%nat, false); (2%nat, true)] 1 = DOk e /\
  forall psi b, mact 3 e psi b = if negb (b 0%nat) && b 2%nat then psi (setb b 1 (negb (b 1%nat))) else psi b.
Proof.
  destruct (C13_makeGateDD 3 3 xmat [(0%nat, false); (2%nat, true)] 1) as (e & E & _ & D); [auto| |].
  - split; [repeat constructor|]. split; [repeat constructor; auto|]. split; [repeat constructor|].
    intros t [<-|[]] [X|[X|[]]]; discriminate.
  - exists e. split; [auto|]. intros psi b. rewrite D. unfold capply, sat, apply. cbn [forallb fst snd andb length allb map app].
    destruct (b 0%nat), (b 2%nat), (b 1%nat) eqn:B1; cbn [eqb andb negb]; auto; unfold csum; cbn; rewrite ?B1; cbn; ring.
Qed.
Definition swapmat : mat := fun r c => match r, c with [a; b], [x; y] => if eqb a y && eqb b x then C1 else C0 | _, _ => C0 end.
Example C14_ex : exists e, makeTwoQubitGateDD 3 (fun i1 i0 j1 j0 => swapmat [i1; i0] [j1; j0]) [(1%nat, true)] 0 2 = DOk e /\
  forall psi b, mact 3 e psi b = if b 1%nat then psi (setb (setb b 2 (b 0%nat)) 0 (b 2%nat)) else psi b.
Proof.
  destruct (C14_makeTwoQubitGateDD 3 3 swapmat [(1%nat, true)] 0 2) as (e & E & _ & D); [auto|auto| |].
  - split; [repeat constructor|]. split; [repeat constructor; auto|]. split; [repeat constructor|].
    intros t [<-|[<-|[]]] [X|[]]; discriminate.
  - exists e. split; [auto|]. intros psi b. rewrite D. unfold capply, sat, apply. cbn [forallb fst snd andb length allb map app].
    destruct (b 1%nat); cbn [eqb andb]; auto. unfold csum.
    destruct (b 0%nat) eqn:B0, (b 2%nat) eqn:B2; cbn; ring.
Qed.

(** ** C15: arithmetic *)
Theorem C15_add_vectors : forall n x y, vcanon n x -> vcanon n y ->
  exists r, vectorAdd x y = DOk r /\ vcanon n r /\ forall b, veden r b = (veden x b + veden y b)%C.
Proof. exact vectorAdd_spec. Qed.
Print Assumptions C15_add_vectors.
Theorem C15_add_matrices : forall n x y, mcanon n x -> mcanon n y ->
  exists r, matrixAdd x y = DOk r /\ mcanon n r /\ forall b c, meden n r b c = (meden n x b c + meden n y b c)%C.
Proof. exact matrixAdd_spec. Qed.
Print Assumptions C15_add_matrices.
Theorem C15_multiply_matrix_vector : forall n x y, mcanon n x -> vcanon n y ->
  exists r, multiplyMV x y = DOk r /\ vcanon n r /\
    forall b b0, veden r b = bsum n (fun c => (meden n x b c * veden y c)%C) b0.
Proof. exact multiplyMV_spec. Qed.
Print Assumptions C15_multiply_matrix_vector.
Theorem C15_multiply_matrices : forall n x y, mcanon n x -> mcanon n y ->
  exists e, multiplyMM x y = DOk e /\ mcanon n e /\
    forall r c b0, meden n e r c = bsum n (fun k => (meden n x r k * meden n y k c)%C) b0.
Proof. exact multiplyMM_spec. Qed.
Print Assumptions C15_multiply_matrices.
Theorem C15_conjugate_transpose : forall n a, mcanon n a ->
  mcanon n (conjugateTranspose a) /\ forall r c, meden n (conjugateTranspose a) r c = Cconj (meden n a c r).
Proof. exact conjugateTranspose_spec. Qed.
Print Assumptions C15_conjugate_transpose.
(** Multiplying by a gate diagram applies the gate: the simulation step. *)
Theorem C15_apply_gate : forall n nqubits (U : mat) cs t y, (n <= nqubits)%nat -> ctls_ok n cs [t] -> vcanon n y ->
  exists e r, makeGateDD nqubits (fun i j => U [i] [j]) cs t = DOk e /\ multiplyMV e y = DOk r /\ vcanon n r /\
    veden r = capply cs U [t] (veden y).
Proof.
  intros n nq U cs t y H K Y. destruct (C13_makeGateDD n nq U cs t H K) as (e & E & Ca & D).
  destruct (multiplyMV_spec n e y Ca Y) as (r & R & Cr & Dr). exists e, r.
  split; [auto|]. split; [auto|]. split; [auto|]. rewrite <- D. apply functional_extensionality. intros b.
  rewrite (Dr b b). reflexivity.
Qed.
Print Assumptions C15_apply_gate.

(* X on qubit 0 of |00> gives |01> as the very same diagram as makeBasisState *)
Example C15_ex : exists e r s, makeGateDD 2 (fun i j => xmat [i] [j]) [] 0 = DOk e /\
  multiplyMV e (zero_loop 2 0) = DOk r /\ makeBasisState 2 2 [true; false] 0 = DOk s /\ r = s.
Proof.
  destruct (C15_apply_gate 2 2 xmat [] 0 (zero_loop 2 0)) as (e & r & E & R & Cr & D).
  - auto.
  - split; [constructor|]. split; [constructor|]. split; [repeat constructor|]. intros t _ [].
  - destruct (zero_loop_spec 2 0) as (_ & Z & _). auto.
  - destruct (basis_loop_spec 2 0 [true; false] (Nat.le_refl 2)) as (s & S & _ & Cs & Ds).
    exists e, r, s. split; [auto|]. split; [auto|]. split; [exact S|].
    apply (vcanon_unique 2); auto. intros b. rewrite D, Ds. destruct (zero_loop_spec 2 0) as (_ & _ & Z).
    unfold capply, apply. cbn [sat forallb length allb map app]. unfold csum. cbn [fold_right setl]. rewrite !Z.
    unfold matches. cbn [seq forallb]. unfold setb. cbn [Nat.eqb nth Nat.add].
    destruct (b 0%nat), (b 1%nat); cbn; ring.
Qed.

(** ** C16: inner product *)
Theorem C16_inner_product : forall n x y b0, vcanon (S n) x -> vcanon (S n) y ->
  innerProduct x y = bsum (S n) (fun b => (Cconj (veden x b) * veden y b)%C) b0.
Proof. exact innerProduct_spec. Qed.
Print Assumptions C16_inner_product.
Theorem C16_fidelity : forall n x y b0, vcanon (S n) x -> vcanon (S n) y ->
  fidelity x y = Cnorm2 (bsum (S n) (fun b => (Cconj (veden x b) * veden y b)%C) b0).
Proof. intros n x y b0 H H'. unfold fidelity. rewrite (innerProduct_spec n x y b0) by auto. auto. Qed.
Print Assumptions C16_fidelity.

Lemma vcan_norm : forall t n w b0, vcan n w t -> w <> C0 ->
  bsum n (fun b => (Cconj (vden t b) * vden t b)%C) b0 = C1.
Proof.
  induction t as [|q ws s IH]; intros n w b0 H W.
  - destruct H as [->|H]; [|tauto]. cbn. rewrite Cconj_1. ring.
  - destruct H as (_ & -> & [U _] & H). rewrite bsum_S.
    assert (T : forall k, bsum q (fun c => (Cconj (vden (VNode q ws s) (setb c q k)) * vden (VNode q ws s) (setb c q k))%C) b0
      = RtoC (Cnorm2 (ws k))).
    { intros k. rewrite (bsum_ext _ _ (fun b => ((Cconj (ws k) * ws k) * (Cconj (vden (s k) b) * vden (s k) b))%C)).
      2:{ intros c. cbn [vden]. rewrite setb_same. rewrite (vden_setb (s k) q (ws k)) by (auto; apply vcan_lev; auto).
          rewrite Cconj_mul. ring. }
      rewrite bsum_scal, Cconj_norm2. destruct (Ceq_dec (ws k) C0) as [Z|Z].
      - rewrite Z, Cnorm2_0. apply Ceq; cbn; ring.
      - rewrite (IH k q (ws k)) by auto. ring. }
    rewrite !T, <- RtoC_add, U. reflexivity.
Qed.
(** The norm of a canonical state is the magnitude of its root weight; a state of norm one has inner
    product one with itself. *)
Theorem C16_norm : forall n x, vcanon (S n) x -> innerProduct x x = RtoC (Cnorm2 (fst x)).
Proof.
  intros n x H. rewrite (innerProduct_spec n x x (fun _ => false)) by auto.
  rewrite (bsum_ext _ _ (fun b => ((Cconj (fst x) * fst x) * (Cconj (vden (snd x) b) * vden (snd x) b))%C))
    by (intros b; unfold veden; rewrite Cconj_mul; ring).
  rewrite bsum_scal, Cconj_norm2. destruct (Ceq_dec (fst x) C0) as [Z|Z].
  - rewrite Z, Cnorm2_0. apply Ceq; cbn; ring.
  - rewrite (vcan_norm _ _ (fst x)) by auto. ring.
Qed.
Print Assumptions C16_norm.
Theorem C16_self : forall n x b0, vcanon (S n) x ->
  bsum (S n) (fun b => (Cconj (veden x b) * veden x b)%C) b0 = C1 -> innerProduct x x = C1 /\ fidelity x x = 1.
Proof.
  intros n x b0 H N. unfold fidelity. rewrite (innerProduct_spec n x x b0), N by auto. split; [auto|apply Cnorm2_1].
Qed.
Print Assumptions C16_self.
(** Without qubits the recursion is never entered and the inner product of 1 with itself is 0. *)
Theorem C16_scalars_refuted : exists x, vcanon 0 x /\ (Cconj (veden x (fun _ => false)) * veden x (fun _ => false))%C = C1 /\
  innerProduct x x = C0.
Proof. exists vone. split; [apply vcanon_one|]. split; [unfold veden; cbn; rewrite Cconj_mul, Cconj_1; ring|reflexivity]. Qed.
Print Assumptions C16_scalars_refuted.
Example C16_ex : exists e, makeGHZState 5 5 = DOk e /\ vcanon 5 e /\
  innerProduct (zero_loop 5 0) e = RtoC s22.
Proof.
  destruct (makeGHZState_spec 5 5 ltac:(lia) ltac:(lia)) as (e & E & Ca & D).
  exists e. split; [auto|]. split; [auto|]. destruct (zero_loop_spec 5 0) as (_ & Z & ZD).
  rewrite (C16_inner_product 4 _ _ (fun _ => false)) by auto.
  cbn [bsum]. rewrite !ZD, !D. unfold all_eq, setb. cbn [seq forallb Nat.eqb negb andb eqb orb delta].
  rewrite !Cconj_0, !Cconj_1. ring.
Qed.

(** ** C17: states *)
Theorem C17_zero_state : forall nqubits n, (n <= nqubits)%nat ->
  exists e, makeZeroState nqubits n 0 = DOk e /\ vcanon n e /\
    forall b, veden e b = if forallb (fun k => negb (b k)) (seq 0 n) then C1 else C0.
Proof.
  intros nq n H. unfold makeZeroState. rewrite Nat.add_0_r. destruct (Nat.ltb_spec nq n); [lia|].
  eexists; split; [reflexivity|]. destruct (zero_loop_spec n 0) as (_ & A & B). auto.
Qed.
Print Assumptions C17_zero_state.
(** Also with an offset, where the lower lines have no nodes. *)
Theorem C17_zero_state_offset : forall nqubits n start, (n + start <= nqubits)%nat ->
  exists e, makeZeroState nqubits n start = DOk e /\
    forall b, veden e b = if forallb (fun k => negb (b k)) (seq start n) then C1 else C0.
Proof.
  intros nq n start H. unfold makeZeroState. destruct (Nat.ltb_spec nq (n + start)); [lia|].
  eexists; split; [reflexivity|]. destruct (zero_loop_spec n start) as (_ & A & B). auto.
Qed.
Print Assumptions C17_zero_state_offset.
Theorem C17_basis_state : forall nqubits st, (length st <= nqubits)%nat ->
  exists e, makeBasisState nqubits (length st) st 0 = DOk e /\ vcanon (length st) e /\
    forall b, veden e b = if forallb (fun k => eqb (b k) (nth k st false)) (seq 0 (length st)) then C1 else C0.
Proof.
  intros nq st H. unfold makeBasisState. rewrite Nat.add_0_r. destruct (Nat.ltb_spec nq (length st)); [lia|].
  destruct (basis_loop_spec (length st) 0 st (Nat.le_refl _)) as (e & E & _ & A & B).
  exists e. split; [auto|]. split; auto.
Qed.
Print Assumptions C17_basis_state.
(** Product states of |0>, |1>, |+>, |->, |R>, |L>: the amplitude is the product of the factors. *)
Theorem C17_product_state : forall nqubits st, (length st <= nqubits)%nat ->
  exists e, makeBasisStates nqubits (length st) st 0 = DOk e /\ vcanon (length st) e /\
    forall b, veden e b = bprod (length st) 0 st b.
Proof.
  intros nq st H. unfold makeBasisStates. rewrite Nat.add_0_r. destruct (Nat.ltb_spec nq (length st)); [lia|].
  rewrite Nat.ltb_irrefl.
  destruct (bstates_loop_spec (length st) 0 st (Nat.le_refl _)) as (e & E & _ & A & B).
  exists e. split; [auto|]. split; auto.
Qed.
Print Assumptions C17_product_state.
Theorem C17_ghz : forall nqubits n, (1 <= n <= nqubits)%nat ->
  exists e, makeGHZState nqubits n = DOk e /\ vcanon n e /\
    forall b, veden e b = if all_eq false n b || all_eq true n b then RtoC (/ sqrt 2) else C0.
Proof. intros nq n [H H']. exact (makeGHZState_spec nq n H' H). Qed.
Print Assumptions C17_ghz.
Theorem C17_w : forall nqubits n, (1 <= n <= nqubits)%nat ->
  exists e, makeWState nqubits n = DOk e /\ vcanon n e /\
    forall b, veden e b = if Nat.eqb (weightb n b) 1 then RtoC (/ sqrt (INR n)) else C0.
Proof. intros nq n [H H']. exact (makeWState_spec nq n H' H). Qed.
Print Assumptions C17_w.
(** Amplitude vectors of length 2^n. *)
Theorem C17_vector : forall l k, length l = (2 ^ S k)%nat ->
  exists e, makeStateFromVector l = DOk e /\ vcanon (S k) e /\ forall b, veden e b = nth (index (S k) b) l C0.
Proof.
  intros l k H. destruct (state_of_spec k l H) as (e & E & Ca & D). exists e. split; [|auto].
  unfold makeStateFromVector. assert (L : (2 <= length l)%nat).
  { rewrite H. cbn [Nat.pow]. pose proof (Nat.pow_nonzero 2 k). lia. }
  destruct l as [|a [|a' l]]; cbn [length] in L; try lia.
  rewrite H. unfold is_pow2. rewrite Nat.log2_pow2 by lia. rewrite Nat.eqb_refl.
  replace (S k - 1)%nat with k by lia. rewrite E. auto.
Qed.
Print Assumptions C17_vector.
(** With an offset the constructor reads state[start + k], beyond a vector of the required length n. *)
Theorem C17_offset_refuted : exists nqubits n st start, (n + start <= nqubits)%nat /\ length st = n /\
  makeBasisState nqubits n st start = DUb.
Proof. exists 2%nat, 1%nat, [true], 1%nat. repeat split; auto. Qed.
Print Assumptions C17_offset_refuted.
Theorem C17_offset_product_refuted : exists nqubits n st start, (n + start <= nqubits)%nat /\ length st = n /\
  makeBasisStates nqubits n st start = DUb.
Proof. exists 2%nat, 1%nat, [BPlus], 1%nat. repeat split; auto. Qed.
Print Assumptions C17_offset_product_refuted.
Example C17_ex_w : exists e, makeWState 3 3 = DOk e /\ veden e (Nat.testbit 4) = RtoC (/ sqrt (INR 3)) /\
  veden e (Nat.testbit 6) = C0.
Proof.
  destruct (C17_w 3 3 ltac:(lia)) as (e & E & _ & D). exists e. split; [auto|]. rewrite !D. split; reflexivity.
Qed.
Example C17_ex_product : exists e, makeBasisStates 2 2 [BMinus; BOne] 0 = DOk e /\
  veden e (Nat.testbit 3) = RtoC (- s22) /\ veden e (Nat.testbit 1) = C0.
Proof.
  destruct (C17_product_state 2 [BMinus; BOne]) as (e & E & _ & D); [auto|]. exists e. split; [exact E|].
  rewrite !D. cbn. split; ring.
Qed.

(** ** C18: entries *)
Theorem C18_vector : forall n e i, vcanon n e -> (i < 2 ^ n)%nat -> vget e i = DOk (veden e (Nat.testbit i)).
Proof. exact vget_spec. Qed.
Print Assumptions C18_vector.
Theorem C18_matrix_partial : forall n e i j, mwf n e ->
  snd e <> MT \/ agree_off n [] (Nat.testbit i) (Nat.testbit j) = true ->
  mget e n i j = DOk (meden n e (Nat.testbit i) (Nat.testbit j)).
Proof. exact mget_spec. Qed.
Print Assumptions C18_matrix_partial.
(** A terminal matrix edge (a multiple of the identity) answers its weight off the diagonal too. *)
Theorem C18_identity_refuted : exists e i j, mcanon 1 e /\ (i < 2)%nat /\ (j < 2)%nat /\
  mget e 1 i j = DOk C1 /\ meden 1 e (Nat.testbit i) (Nat.testbit j) = C0.
Proof.
  exists mone, 0%nat, 1%nat. split; [apply mcanon_T|]. split; [lia|]. split; [lia|]. split; [reflexivity|].
  unfold meden; cbn. ring.
Qed.
Print Assumptions C18_identity_refuted.
Example C18_ex : exists e, makeGHZState 3 3 = DOk e /\ vget e 7 = DOk (RtoC s22) /\ vget e 3 = DOk C0.
Proof.
  destruct (makeGHZState_spec 3 3 ltac:(lia) ltac:(lia)) as (e & E & Ca & D). exists e. split; [auto|].
  rewrite !(C18_vector 3) by (auto; cbn; lia). rewrite !D. split; reflexivity.
Qed.
(* outside the range an index can alias: entry 2 of a one-qubit state is entry 0 *)
Example C18_ex_alias : vget (zero_loop 1 0) 2 = DOk C1.
Proof.
  cbn [zero_loop Nat.add]. unfold vone. rewrite vmkE_left. unfold vget. cbn [snd Nat.add].
  change (Nat.max (Nat.log2 3) 1) with 1%nat. unfold vget_path. cbn. f_equal. ring.
Qed.
