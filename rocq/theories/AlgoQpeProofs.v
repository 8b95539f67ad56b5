(** Quantum phase estimation and the measured Fourier transform. *)
From Coq Require Import Reals Lra List Arith Bool Lia NArith ZArith FunctionalExtensionality.
From Verif Require Import Cplx Qsem GateModel IRModel IRSpec OutcomeSpec SimNormProofs AlgoModel AlgoSpec AlgoBaseProofs AlgoStateProofs AlgoQftProofs AlgoMeasProofs AlgoIterProofs.
Import ListNotations.
Local Open Scope nat_scope.

Lemma NoDup_map_in {A B} (f : A -> B) l : (forall x y, In x l -> In y l -> f x = f y -> x = y) -> NoDup l -> NoDup (map f l).
Proof.
  induction l as [|a l IH]; intros I ND; cbn; constructor; inversion ND; subst.
  - intros X. apply in_map_iff in X. destruct X as (y & E & Y). apply I in E; cbn; auto. subst. contradiction.
  - apply IH; auto. intros; apply I; cbn; auto.
Qed.

(** ** The measured Fourier transform *)
Lemma qft_measured n psi m0 m : prob n n m (run_qc (createQFT n true) (psi, m0)) = Cnorm2 (apply (dft n) (seq 0 n) psi (mask n m)).
Proof.
  unfold run_qc. rewrite weight_phase.
  assert (O : qc_ops (createQFT n true) = qft_core n ++ qft_meas n).
  { unfold createQFT. destruct (Nat.eqb_spec n 0) as [->|]; reflexivity. }
  rewrite O, run_app, acts_core. cbn [flat_map]. rewrite app_nil_r, stages_dft.
  unfold qft_meas. replace (map (fun i => meas i (n - 1 - i)) (range 0 n)) with (map (fun p => meas (fst p) (snd p)) (map (fun i => (i, n - 1 - i)) (range 0 n))) by (now rewrite map_map).
  assert (S : map snd (map (fun i => (i, n - 1 - i)) (range 0 n)) = map (fun i => n - 1 - i) (range 0 n)) by (now rewrite map_map).
  rewrite prob_meas.
  - replace (settled _ _ _ _) with true.
    2: { symmetry. apply settled_iff. rewrite S. intros c C N. exfalso. apply N. apply in_map_iff. exists (n - 1 - c). rewrite range_In. lia. }
    rewrite (weight_cut_full _ _ _ _ (revb n m)).
    + replace (mask n (revb n m)) with (revb n (mask n m)); [now rewrite rdft_revb|].
      apply functional_extensionality. intros q. unfold revb, mask. destruct (Nat.ltb_spec q n); auto. rewrite (proj2 (Nat.ltb_lt (n - 1 - q) n)) by lia. auto.
    + intros p P. apply in_map_iff in P. destruct P as (i & <- & I). apply range_In in I. cbn [fst snd]. split; [lia|].
      unfold revb. now rewrite (proj2 (Nat.ltb_lt i n)) by lia.
    + intros c M (q & Q & N). exfalso. apply N. unfold matches in M. rewrite forallb_forall in M. specialize (M (q, n - 1 - q)). cbn [fst snd] in M.
      unfold revb. rewrite (proj2 (Nat.ltb_lt q n)) by lia. apply eqb_prop, M. apply in_map_iff. exists q. split; auto. apply range_In. lia.
  - rewrite S. apply NoDup_map_in; [|apply range_NoDup]. intros x y X Y. apply range_In in X, Y. lia.
  - intros p P. apply in_map_iff in P. destruct P as (i & <- & I). apply range_In in I. cbn [snd]. lia.
Qed.

(** ** Phase estimation with one qubit per bit *)
Definition shift (b : bits) : bits := fun q => b (q + 1).
Lemma acts_qrot i j : 1 <= j <= i -> acts [qpe_rot i j] (cph (- (PI / 2 ^ (i + 1 - j))) j (1 + i)).
Proof.
  intros J. unfold qpe_rot. destruct (Nat.eqb_spec j i) as [->|N]; [|destruct (Nat.eqb_spec j (i - 1)) as [->|N2]].
  - replace (i + 1 - i) with 1 by lia. cbn [pow]. rewrite Rmult_1_r. apply acts_csdg.
  - replace (i + 1 - (i - 1)) with 2 by lia. replace (2 ^ 2)%R with 4%R by (cbn; ring). apply acts_ctdg.
  - replace (i + 1 - j) with (S (i - j)) by lia. cbn [pow]. replace (- (PI / (2 * 2 ^ (i - j))))%R with (- PI / (2 * 2 ^ (i - j)))%R by (field; apply pow2_neq).
    apply acts_cp.
Qed.
Lemma cph_sym a c q : cph a c q = cph a q c.
Proof. unfold cph. f_equal. apply functional_extensionality. intros x. now rewrite andb_comm. Qed.
Lemma qrot_sum i (b : bits) : fold_right (fun j a => (if b j then - (PI / 2 ^ (i + 1 - j)) else 0) + a)%R 0%R (range 1 (1 + i)) = (- ph i (shift b))%R.
Proof.
  rewrite <- rot_sum2, <- fold_sum_opp. unfold range. replace (1 + i - 1) with i by lia. replace (i - 0) with i by lia.
  rewrite <- seq_shift. generalize (seq 0 i). induction l as [|j l IH]; cbn [map fold_right]; auto. rewrite IH. f_equal. unfold shift.
  replace (j + 1) with (S j) by lia. replace (i + 1 - S j) with (i - j) by lia. destruct (b (S j)); ring.
Qed.
Definition qround (lambda : R) (n i : nat) (psi : state) : state :=
  hst (1 + i) (dg (fun x => if x (1 + i) then Cexp (- ph i (shift x)) else C1) (cph (qpe_angle n i lambda) (1 + i) 0 psi)).
Lemma acts_qround lambda n i : acts (qpe_round lambda n i) (qround lambda n i).
Proof.
  unfold qpe_round. eapply acts_ext.
  { apply acts_cons; [apply acts_cp|]. apply acts_app; [|apply acts_h].
    apply (acts_map _ (fun j => cph (- (PI / 2 ^ (i + 1 - j))) j (1 + i))). intros j J. apply range_In in J. apply acts_qrot. lia. }
  intros psi. cbv beta. unfold qround. f_equal.
  generalize (cph (qpe_angle n i lambda) (1 + i) 0 psi). intros phi.
  transitivity (fold_left (fun p j => dg (fun x => if x (1 + i) then Cexp ((fun j (x : bits) => if x j then (- (PI / 2 ^ (i + 1 - j)))%R else 0%R) j x) else C1) p) (range 1 (1 + i)) phi).
  - generalize (range 1 (1 + i)) phi. induction l as [|j l IH]; intros p; cbn [fold_left]; auto. rewrite IH, cph_sym, cph_as. auto.
  - rewrite fold_dg_cexp. f_equal. apply functional_extensionality. intros x. now rewrite qrot_sum.
Qed.

Fixpoint qp (lambda : R) (n k : nat) (b : bits) : C :=
  match k with 0 => C1 | S k => (qp lambda n k b * qamp n lambda k (shift b) (b (S k)))%C end.
Definition qstate (lambda : R) (n k : nat) : state := fun b => (dbit true (b 0%nat) * qp lambda n k b * RtoC (sq2 ^ (n - k)))%C.
Lemma qp_ext lambda n k b c : (forall q, q <= k -> b q = c q) -> qp lambda n k b = qp lambda n k c.
Proof.
  induction k as [|k IH]; intros H; cbn [qp]; auto. rewrite IH by (intros; apply H; lia). rewrite (H (S k)) by lia. unfold qamp.
  rewrite (ph_ext k (shift b) (shift c)); auto. intros q Q. unfold shift. apply H. lia.
Qed.
Lemma qround_step lambda n k : k < n -> qround lambda n k (qstate lambda n k) = qstate lambda n (S k).
Proof.
  intros L. apply functional_extensionality. intros b. unfold qround, hst, dg, cph, dg. rewrite !setb_same. cbn [andb].
  unfold qstate. rewrite !(qp_ext lambda n k (setb b (1 + k) _) b) by (intros; apply setb_other; lia).
  cbn [qp plus]. rewrite (setb_other b (S k) false 0), (setb_other b (S k) true 0) by lia.
  rewrite (ph_ext k (shift (setb b (S k) true)) (shift b)) by (intros q Q; unfold shift; apply setb_other; lia).
  unfold qamp. replace (n - k) with (S (n - S k)) by lia. cbn [pow]. rewrite RtoC_mul.
  unfold Rminus. rewrite Cexp_add.
  assert (Q : (RtoC sq2 * RtoC sq2 = RtoC (/ 2))%C) by (apply Ceq; cbn; rewrite ?sq2_sq; ring).
  rewrite <- Q. unfold dbit. destruct (b 0); cbn [Bool.eqb]; ring.
Qed.
Lemma qstart lambda n : fold_left (fun p q => hst q p) (range 1 (n + 1)) (xst 0 (basis (n + 1) zeros)) = qstate lambda n 0.
Proof.
  rewrite xst_basis, basis_prod by lia. rewrite fold_h_prod by lia. apply functional_extensionality. intros b. unfold qstate. cbn [qp].
  rewrite Nat.sub_0_r. enough (H : forall k, k <= n -> prodst (k + 1) (fun i => if (1 <=? i) && (i <? n + 1) then hbit (dbit (setb zeros 0 (negb (zeros 0)) i)) else dbit (setb zeros 0 (negb (zeros 0)) i)) b = (dbit true (b 0) * C1 * RtoC (sq2 ^ k))%C) by (apply H; lia).
  induction k as [|k IH]; intros K.
  - cbn. unfold dbit. destruct (b 0); cbn; apply Ceq; cbn; ring.
  - change (S k + 1) with (S (k + 1)). cbn [prodst]. rewrite IH by lia. replace (k + 1) with (S k) by lia.
    rewrite (proj2 (Nat.ltb_lt (S k) (n + 1))) by lia. cbn [Nat.leb andb pow]. rewrite RtoC_mul.
    unfold hbit at 1. unfold dbit at 2 3. unfold setb, zeros. cbn [Nat.eqb Bool.eqb negb]. ring.
Qed.
Lemma acts_qrounds lambda n k : k <= n -> fold_left (fun p i => qround lambda n i p) (range 0 k) (qstate lambda n 0) = qstate lambda n k.
Proof.
  intros L. rewrite range_0. induction k as [|k IH]; [reflexivity|]. rewrite seq_S, fold_left_app, IH by lia. cbn [fold_left plus]. apply qround_step. lia.
Qed.
Lemma qp_prod lambda n k b : qp lambda n k b = cprod (fun j => qamp n lambda j (shift b) (b (S j))) (seq 0 k).
Proof. induction k as [|k IH]; [reflexivity|]. rewrite seq_S, cprod_app. cbn [qp]. rewrite IH. unfold cprod. cbn [fold_right plus]. ring. Qed.

Lemma qpe_run lambda n c m0 m : createQPE lambda n = Some c ->
  prob (n + 1) n m (run_qc c (basis (n + 1) zeros, m0)) = rprod (fun j => Cnorm2 (qamp n lambda j m (m j))) (seq 0 n).
Proof.
  unfold createQPE. destruct (_ || _); [discriminate|].
  intros E. injection E as <-. unfold run_qc. cbn [qc_ops qc_phase]. rewrite weight_phase. unfold qpe_ops.
  change (g1 gX 0 :: ?l) with ([g1 gX 0] ++ l). rewrite run_app, acts_x. cbn [flat_map]. rewrite app_nil_r.
  rewrite run_app, acts_hlayer. cbn [flat_map]. rewrite app_nil_r, (qstart lambda).
  rewrite run_app. rewrite (acts_flat_map (qpe_round lambda n) (qround lambda n) (range 0 n) (fun a _ => acts_qround lambda n a)).
  rewrite acts_qrounds by lia. cbn [flat_map]. rewrite app_nil_r.
  replace (map (fun i => meas (i + 1) i) (range 0 n)) with (map (fun p => meas (fst p) (snd p)) (map (fun i => (i + 1, i)) (range 0 n))) by (now rewrite map_map).
  assert (SN : map snd (map (fun i => (i + 1, i)) (range 0 n)) = seq 0 n) by (rewrite map_map, range_0; apply map_id).
  rewrite prob_meas.
  - rewrite settled_full by auto. rewrite (weight_cut_full _ _ _ _ (bvx m)).
    + rewrite <- cprod_norm. unfold qstate. rewrite Nat.sub_diag, qp_prod. f_equal.
      replace (mask (n + 1) (bvx m) 0) with true by (unfold mask; rewrite (proj2 (Nat.ltb_lt 0 (n + 1))) by lia; auto).
      assert (X : forall q, q < n -> mask (n + 1) (bvx m) (S q) = m q).
      { intros q Q. unfold mask, bvx. rewrite (proj2 (Nat.ltb_lt (S q) (n + 1))) by lia. cbn. now rewrite Nat.sub_0_r. }
      rewrite (cprod_ext _ (fun j => qamp n lambda j m (m j))).
      * unfold dbit. cbn. apply Ceq; cbn; ring.
      * intros j J. apply in_seq in J. rewrite X by lia. unfold qamp. rewrite (ph_ext j _ m); auto.
        intros q Q. unfold shift. replace (q + 1) with (S q) by lia. apply X. lia.
    + intros p P. apply in_map_iff in P. destruct P as (i & <- & I). apply range_In in I. cbn [fst snd]. split; [lia|].
      unfold bvx. destruct (Nat.eqb_spec (i + 1) 0); [lia|]. f_equal. lia.
    + intros d M (q & Q & N). unfold matches in M. rewrite forallb_forall in M. destruct (Nat.eq_dec q 0) as [->|NQ].
      * unfold qstate, bvx, dbit in *. cbn in N |- *. destruct (d 0); [congruence|]. cbn. ring.
      * exfalso. apply N. specialize (M (q, q - 1)). cbn [fst snd] in M. unfold bvx. destruct (Nat.eqb_spec q 0); [lia|].
        apply eqb_prop, M. apply in_map_iff. exists (q - 1). split; [f_equal; lia|]. apply range_In. lia.
  - rewrite SN. apply seq_NoDup.
  - intros p P. apply in_map_iff in P. destruct P as (i & <- & I). apply range_In in I. cbn [snd]. lia.
Qed.
