(** C106 (entries of vectors and matrices), C107 (probabilities of density matrices). *)
From Coq Require Import Reals Lra List Bool Arith Lia.
From Verif Require Import Cplx Qsem DDModel DDSpec DDProofs TravModel TravSpec TravProofs TravDiagProofs.
Import ListNotations.
Local Open Scope R_scope.

(** ** C106 *)
(** The dense vector: all amplitudes of at least the threshold, and zeros. *)
Theorem C106_vector : forall thr n e, vcanon (S n) e -> fst e <> C0 ->
  exists l, getVector thr e = Some l /\ length l = (2 ^ S n)%nat /\ forall k, (k < 2 ^ S n)%nat -> nth k l C0 = if Rle_dec thr (Cmod (ventry e k)) then ventry e k else C0.
Proof. exact vec_dense. Qed.
Print Assumptions C106_vector.
(** The sparse vector: exactly the non-zero amplitudes of at least the threshold. *)
Theorem C106_sparse : forall thr n e k c, vcanon (S n) e -> fst e <> C0 ->
  look Nat.eq_dec k (getSparseVector thr e) = Some c <-> (k < 2 ^ S n)%nat /\ c = ventry e k /\ c <> C0 /\ thr <= Cmod c.
Proof. exact vec_sparse. Qed.
Print Assumptions C106_sparse.
(** Adding to a vector, entry by entry. *)
Theorem C106_add : forall n e l, vcanon n e -> fst e <> C0 -> length l = (2 ^ n)%nat ->
  exists l', addToVector e l = Some l' /\ length l' = (2 ^ n)%nat /\ forall k, (k < 2 ^ n)%nat -> nth k l' C0 = (nth k l C0 + ventry e k)%C.
Proof. exact vec_add. Qed.
Print Assumptions C106_add.
(** The same for matrices, whatever levels the diagram skips. *)
Theorem C106_matrix : forall thr n e, mcanon (S n) e ->
  exists m, getMatrix (S n) thr e = Some m /\ length m = (2 ^ S n)%nat /\ (forall i, (i < 2 ^ S n)%nat -> length (nth i m []) = (2 ^ S n)%nat) /\
  forall i j, (i < 2 ^ S n)%nat -> (j < 2 ^ S n)%nat -> nth j (nth i m []) C0 = if Rle_dec thr (Cmod (mentry (S n) e i j)) then mentry (S n) e i j else C0.
Proof. exact mat_dense. Qed.
Print Assumptions C106_matrix.
Theorem C106_sparse_matrix : forall thr n e k l c, mcanon (S n) e -> fst e <> C0 ->
  look eq2_dec (k, l) (getSparseMatrix (S n) thr e) = Some c <-> (k < 2 ^ S n)%nat /\ (l < 2 ^ S n)%nat /\ c = mentry (S n) e k l /\ c <> C0 /\ thr <= Cmod c.
Proof. exact mat_sparse. Qed.
Print Assumptions C106_sparse_matrix.
(** The zero vector of two qubits is read as a vector of one entry, which is listed as non-zero; so are zeros of the zero matrix.
    Without qubits the threshold is ignored. *)
Theorem C106_zero_refuted :
  (exists e, vcanon 2 e /\ getVector 0 e = Some [C0] /\ look Nat.eq_dec 0%nat (getSparseVector 0 e) = Some C0) /\
  (exists e, mcanon 1 e /\ look eq2_dec (1, 1)%nat (getSparseMatrix 1 0 e) = Some C0) /\
  (exists e, vcanon 0 e /\ getVector 2 e = Some [C1] /\ Cmod (ventry e 0) < 2).
Proof.
  repeat split.
  - exists (C0, VT). split; [right; reflexivity|]. split; reflexivity.
  - exists (C0, MT). split; [exact I|]. unfold getSparseMatrix. cbn [fst snd traverseMatrix]. replace (C1 * C0)%C with C0 by ring.
    assert (Z : small 0 C0 = false) by (apply small_false, Cmod_pos). rewrite !Z. reflexivity.
  - exists (C1, VT). split; [left; reflexivity|]. split; [reflexivity|]. unfold ventry, veden. cbn [fst snd vden]. replace (C1 * C1)%C with C1 by ring. unfold Cmod. rewrite Cnorm2_1, sqrt_1. lra.
Qed.
Print Assumptions C106_zero_refuted.

(** ** C107 *)
(** The probabilities of a density matrix: exactly the positive diagonal entries of at least the threshold, although the
    traversal multiplies the real parts of the weights only. *)
Theorem C107_probabilities : forall thr n e k v, mcanon (S n) e -> fst e <> C0 -> minors (S n) e ->
  look Nat.eq_dec k (getSparseProbabilityVector (S n) thr e) = Some v <-> (k < 2 ^ S n)%nat /\ v = fst (mentry (S n) e k k) /\ 0 < v /\ thr <= v.
Proof. exact diag_sparse. Qed.
Print Assumptions C107_probabilities.
(** The reason: in the diagram of a density matrix the weight of the root is a positive number, and so are those on the diagonal paths. *)
Theorem C107_weights : forall n e, mcanon n e -> fst e <> C0 -> minors n e ->
  (snd (fst e) = 0 /\ 0 < fst (fst e)) /\
  forall w s q, snd e = MNode q w s -> forall b, w b b <> C0 -> snd (w b b) = 0 /\ 0 < fst (w b b).
Proof. intros n [w t] H W M. split; [exact (weight_pos n t w H W M)|]. intros ws s q E b Z. cbn [fst snd] in E. subst t. exact (child_pos n w q ws s b H W M Z). Qed.
Print Assumptions C107_weights.
(** Keys as strings, if the diagram has a node on the highest level. *)
Theorem C107_keys_partial : forall thr n w ws s, mcanon (S n) (w, MNode n ws s) -> minors (S n) (w, MNode n ws s) ->
  exists m, getSparseProbabilityVectorStrKeys (S n) thr (w, MNode n ws s) = DOk m /\
  forall key v, look (list_eq_dec Bool.bool_dec) key m = Some v <-> exists k, (k < 2 ^ S n)%nat /\ key = intToBinaryString k (S n) /\ v = fst (mentry (S n) (w, MNode n ws s) k k) /\ 0 < v /\ thr <= v.
Proof. exact diag_keys. Qed.
Print Assumptions C107_keys_partial.
(** Otherwise a null pointer is followed (the maximally mixed state), or the keys are too short and outcomes are lost
    (|0><0| on qubit 0, maximally mixed qubit 1: the outcomes 00 and 10 share the key 0). *)
Definition mixed_zero : medge := (RtoC (1 / 2), MNode 0 (fun i j => if i || j then C0 else C1) (fun _ _ => MT)).
Theorem C107_keys_refuted :
  (exists e, mcanon 1 e /\ minors 1 e /\ mentry 1 e 0 0 = RtoC (1 / 2) /\ mentry 1 e 1 1 = RtoC (1 / 2) /\ getSparseProbabilityVectorStrKeys 1 0 e = DUb) /\
  (exists e m, mcanon 2 e /\ minors 2 e /\ mentry 2 e 0 0 = RtoC (1 / 2) /\ mentry 2 e 2 2 = RtoC (1 / 2) /\ getSparseProbabilityVectorStrKeys 2 0 e = DOk m /\ map fst m = [[false]]).
Proof.
  split.
  - exists (RtoC (1 / 2), MT). split; [exact I|]. split.
    { split; intros r; [unfold meden; cbn; destruct (r 0%nat); cbn; split; lra|]. intros c. unfold meden, Cnorm2. cbn. destruct (r 0%nat), (c 0%nat); cbn; lra. }
    unfold mentry, meden. cbn. split; [apply Ceq; cbn; ring|]. split; [apply Ceq; cbn; ring|reflexivity].
  - exists mixed_zero. unfold getSparseProbabilityVectorStrKeys, mixed_zero. cbn [fst snd traverseDiagonal Nat.ltb Nat.leb]. cbn [orb].
    assert (Z0 : ezero C0 = true) by apply ezero_0. assert (Z1 : ezero C1 = false) by (apply ezero_false, C1_neq_C0). rewrite Z0, Z1. cbn [fst RtoC C1].
    destruct (Rlt_dec (1 * (1 / 2)) 0) as [L|L]; [lra|]. destruct (Rlt_dec (1 * (1 / 2) * 1) 0) as [L'|L']; [lra|].
    eexists. split; [|split; [|split; [|split; [|split; [reflexivity|reflexivity]]]]].
    + unfold mcanon. cbn [fst snd mcan]. split; [apply RtoC_neq0; lra|]. split; [lia|]. split; [|split; [|auto]].
      * exists (false, false). split; [reflexivity|]. intros [[] []]; cbn; unfold Cnorm2; cbn; lra.
      * intros (_ & _ & _ & Q & _). cbn in Q. symmetry in Q. apply C1_neq_C0 in Q. auto.
    + split; intros r; [unfold meden; cbn; destruct (r 0%nat), (r 1%nat); cbn; split; lra|]. intros c. unfold meden, Cnorm2. cbn. destruct (r 0%nat), (c 0%nat), (r 1%nat), (c 1%nat); cbn; lra.
    + unfold mentry, meden. cbn. apply Ceq; cbn; ring.
    + unfold mentry, meden. cbn. apply Ceq; cbn; ring.
Qed.
Print Assumptions C107_keys_refuted.
(** Positivity is needed: for the Hermitian matrix [[1/2, i], [-i, 1/2]] no probability 1/2 is reported. *)
Definition herm_w (i j : bool) : C := match i, j with false, true => C1 | true, false => (- C1)%C | _, _ => ((Ci * RtoC (- (1 / 2)))%C) end.
Theorem C107_positive_refuted : exists e, mcanon 1 e /\ mentry 1 e 0 0 = RtoC (1 / 2) /\ mentry 1 e 1 1 = RtoC (1 / 2) /\ (forall r c, meden 1 e r c = Cconj (meden 1 e c r)) /\
  look Nat.eq_dec 0%nat (getSparseProbabilityVector 1 (1 / 4) e) = None.
Proof.
  exists (Ci, MNode 0 herm_w (fun _ _ => MT)). split.
  { unfold mcanon. cbn [fst snd mcan]. split; [intros E; injection E as E; lra|]. split; [lia|]. split; [|split; [|auto]].
    - exists (false, true). split; [reflexivity|]. intros [[] []]; cbn; unfold Cnorm2; cbn; lra.
    - intros (_ & Q & _). cbn in Q. apply C1_neq_C0 in Q. auto. }
  unfold mentry, meden. cbn. split; [apply Ceq; cbn; field|]. split; [apply Ceq; cbn; field|]. split.
  - intros r c. destruct (r 0%nat), (c 0%nat); apply Ceq; cbn; field.
  - unfold getSparseProbabilityVector. cbn. destruct (Rlt_dec (1 * 0) (1 / 4)) as [L|L]; [reflexivity|lra].
Qed.
Print Assumptions C107_positive_refuted.

(** ** Examples *)
(** |1>|-> with threshold 1/2 *)
Definition h2 : R := / sqrt 2.
Lemma h2_sq : h2 * h2 = / 2. Proof. unfold h2. rewrite <- Rinv_mult, sqrt_sqrt by lra. auto. Qed.
Lemma h2_pos : 0 < h2. Proof. unfold h2. apply Rinv_0_lt_compat, sqrt_lt_R0. lra. Qed.
Definition low_w (i : bool) : C := if i then RtoC (- h2) else RtoC h2.
Definition one_low : vedge := (C1, VNode 1 (fun i => if i then C1 else C0) (fun i => if i then VNode 0 low_w (fun _ => VT) else VT)).
Lemma one_low_canon : vcanon 2 one_low.
Proof.
  unfold vcanon; cbn. split; [apply C1_neq_C0|]. split; auto. split.
  - split; [rewrite Cnorm2_0, Cnorm2_1; ring|]. exists 1. split; [lra|]. unfold vfirst. rewrite Cnorm2_0, Cnorm2_1. destruct Rle_dec; [lra|reflexivity].
  - intros []; cbn; [|right; auto]. split; [apply C1_neq_C0|]. split; auto. split; [|intros []; left; auto].
    unfold vunit, low_w. rewrite !Cnorm2_RtoC. pose proof h2_sq. split; [lra|]. exists h2. split; [apply h2_pos|]. unfold vfirst. rewrite !Cnorm2_RtoC. destruct Rle_dec; auto. exfalso. apply n. lra.
Qed.
Lemma Cmod_RtoC x : Cmod (RtoC x) = Rabs x. Proof. unfold Cmod. rewrite Cnorm2_RtoC. apply sqrt_Rsqr_abs. Qed.
Example C106_ex : exists l, getVector (1 / 2) one_low = Some l /\ length l = 4%nat /\ nth 1 l C1 = C0 /\ nth 2 l C0 = RtoC h2 /\ nth 3 l C0 = RtoC (- h2) /\
  look Nat.eq_dec 3%nat (getSparseVector (1 / 2) one_low) = Some (RtoC (- h2)) /\ look Nat.eq_dec 1%nat (getSparseVector 0 one_low) = None.
Proof.
  pose proof h2_sq. pose proof h2_pos. assert (G : 1 / 2 <= h2) by nra.
  assert (E1 : ventry one_low 1 = C0) by (unfold ventry, veden; cbn; ring). assert (E2 : ventry one_low 2 = RtoC h2) by (unfold ventry, veden; cbn; apply Ceq; cbn; ring). assert (E3 : ventry one_low 3 = RtoC (- h2)) by (unfold ventry, veden; cbn; apply Ceq; cbn; ring).
  destruct (C106_vector (1 / 2) 1 one_low one_low_canon C1_neq_C0) as (l & El & L & N). exists l. split; [exact El|]. split; [exact L|].
  split; [rewrite (nth_indep l C1 C0) by (rewrite L; cbn; lia); rewrite N, E1 by (cbn; lia); destruct Rle_dec; reflexivity|].
  split; [rewrite N, E2, Cmod_RtoC, Rabs_pos_eq by (cbn; lra || lia); destruct Rle_dec; [reflexivity|contradiction]|].
  split; [rewrite N, E3, Cmod_RtoC, Rabs_Ropp, Rabs_pos_eq by (cbn; lra || lia); destruct Rle_dec; [reflexivity|contradiction]|]. split.
  - apply (C106_sparse (1 / 2) 1 one_low 3 _ one_low_canon C1_neq_C0). split; [cbn; lia|]. split; [now symmetry|]. split; [intros E; injection E as E; lra|]. rewrite Cmod_RtoC, Rabs_Ropp, Rabs_pos_eq by lra. exact G.
  - destruct (look Nat.eq_dec 1%nat (getSparseVector 0 one_low)) as [c|] eqn:Q; [|reflexivity]. apply (C106_sparse 0 1 one_low 1 c one_low_canon C1_neq_C0) in Q as (_ & Q & N0 & _). rewrite E1 in Q. contradiction.
Qed.
(** |1><1| on qubit 1, qubit 0 maximally mixed: all outcomes of the highest qubit are known. *)
Definition one_mixed : medge := (RtoC (1 / 2), MNode 1 (fun i j => if i && j then C1 else C0) (fun _ _ => MT)).
Lemma one_mixed_canon : mcanon 2 one_mixed.
Proof.
  unfold mcanon. cbn [fst snd mcan one_mixed]. split; [apply RtoC_neq0; lra|]. split; [lia|]. split; [|split; [|auto]].
  - exists (true, true). split; [reflexivity|]. intros [[] []]; cbn; unfold Cnorm2; cbn; lra.
  - intros (Q & _). cbn in Q. symmetry in Q. apply C1_neq_C0 in Q. auto.
Qed.
Lemma one_mixed_minors : minors 2 one_mixed.
Proof. split; intros r; [unfold meden; cbn; destruct (r 0%nat), (r 1%nat); cbn; split; lra|]. intros c. unfold meden, Cnorm2. cbn. destruct (r 0%nat), (c 0%nat), (r 1%nat), (c 1%nat); cbn; lra. Qed.
Example C107_ex : look Nat.eq_dec 2%nat (getSparseProbabilityVector 2 (1 / 4) one_mixed) = Some (1 / 2) /\ look Nat.eq_dec 3%nat (getSparseProbabilityVector 2 (1 / 4) one_mixed) = Some (1 / 2) /\
  look Nat.eq_dec 0%nat (getSparseProbabilityVector 2 (1 / 4) one_mixed) = None /\
  exists m, getSparseProbabilityVectorStrKeys 2 (1 / 4) one_mixed = DOk m /\ look (list_eq_dec Bool.bool_dec) [true; false] m = Some (1 / 2).
Proof.
  assert (W : fst one_mixed <> C0) by (apply RtoC_neq0; lra). pose proof (fun k v => C107_probabilities (1 / 4) 1 one_mixed k v one_mixed_canon W one_mixed_minors) as P.
  repeat split.
  - apply P. repeat split; try lra; [cbn; lia|]. unfold mentry, meden. cbn. ring.
  - apply P. repeat split; try lra; [cbn; lia|]. unfold mentry, meden. cbn. ring.
  - destruct (look Nat.eq_dec 0%nat _) as [v|] eqn:Q; [|reflexivity]. apply P in Q as (_ & Q & V & _). unfold mentry, meden in Q. cbn in Q. lra.
  - destruct (C107_keys_partial (1 / 4) 1 _ _ _ one_mixed_canon one_mixed_minors) as (m & E & X). exists m. split; [exact E|]. apply X. exists 2%nat. repeat split; try lra; [cbn; lia|]. unfold mentry, meden. cbn. ring.
Qed.
