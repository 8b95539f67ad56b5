(** The rounds of the iterative Fourier transform on the qubits of a register. *)
From Coq Require Import Reals Lra List Arith Bool Lia NArith FunctionalExtensionality.
From Verif Require Import Cplx Qsem GateModel IRModel IRSpec OutcomeSpec SimNormProofs AlgoModel AlgoSpec AlgoBaseProofs AlgoStateProofs AlgoQftProofs AlgoMeasProofs AlgoIterProofs.
Import ListNotations.
Local Open Scope nat_scope.

Definition uround (n i : nat) : list cop := map (on_qubit i) (map (iqft_rot n i) (range 1 (i + 1))) ++ [g1 gH i; meas i (n - 1 - i)].
Lemma rounds_app cur r l : forallb (fun o => negb (is_reset o)) r = true -> rounds_of cur (r ++ rst 0 :: l) = (cur ++ r) :: rounds_of [] l.
Proof.
  revert cur. induction r as [|o r IH]; intros cur F; [now rewrite app_nil_r|]. cbn [forallb app rounds_of] in *. apply andb_true_iff in F. destruct F as [F1 F2].
  destruct (is_reset o); [discriminate|]. rewrite IH by auto. now rewrite <- app_assoc.
Qed.
Lemma rounds_end cur r : forallb (fun o => negb (is_reset o)) r = true -> rounds_of cur r = [cur ++ r].
Proof.
  revert cur. induction r as [|o r IH]; intros cur F; [now rewrite app_nil_r|]. cbn [forallb rounds_of] in *. apply andb_true_iff in F. destruct F as [F1 F2].
  destruct (is_reset o); [discriminate|]. rewrite IH by auto. now rewrite <- app_assoc.
Qed.
Definition body (n i : nat) : list cop := map (iqft_rot n i) (range 1 (i + 1)) ++ [g1 gH 0; meas 0 (n - 1 - i)].
Lemma body_free n i : forallb (fun o => negb (is_reset o)) (body n i) = true.
Proof.
  unfold body. rewrite forallb_app. cbn [forallb is_reset g1 meas negb andb]. rewrite andb_true_r. apply forallb_forall. intros o I. apply in_map_iff in I. destruct I as (j & <- & _).
  unfold iqft_rot, cc1. destruct (j =? i); [|destruct (j =? i - 1)]; reflexivity.
Qed.
Lemma body_on n i : map (on_qubit i) (body n i) = uround n i.
Proof. unfold body, uround. rewrite map_app. reflexivity. Qed.
Lemma unrolled_rounds n : forall d i, i + S d = n -> unroll i (rounds_of [] (flat_map (iqft_round n) (seq i (S d)))) = flat_map (uround n) (seq i (S d)).
Proof.
  induction d as [|d IH]; intros i E; cbn [seq flat_map].
  - unfold iqft_round. rewrite (proj2 (Nat.ltb_ge i (n - 1))) by lia. rewrite !app_nil_r. fold (body n i). rewrite rounds_end by apply body_free. cbn [unroll app]. now rewrite app_nil_r, body_on.
  - replace (iqft_round n i) with (body n i ++ [rst 0]) by (unfold iqft_round, body; rewrite (proj2 (Nat.ltb_lt i (n - 1))) by lia; now rewrite <- app_assoc).
    rewrite <- app_assoc. cbn [app]. rewrite rounds_app by apply body_free. cbn [unroll app]. rewrite body_on. f_equal. apply IH. lia.
Qed.

(** ** One round with the phases taken from the outcomes *)
Definition cstage (n i : nat) (s : store) (psi : state) : state := hst i (dg (fun x => if x i then Cexp (ph i (fun r => s (n - 1 - r))) else C1) psi).
Lemma run_rot n i j psi s : 1 <= j <= i ->
  run [on_qubit i (iqft_rot n i j)] (psi, s) = [(dg (fun x => if x i then Cexp (if s (n - j)%nat then PI / 2 ^ (i + 1 - j) else 0)%R else C1) psi, s)].
Proof.
  intros J. assert (OFF : dg (fun x => if x i then Cexp 0 else C1) psi = psi) by (apply functional_extensionality; intros x; unfold dg; rewrite Cexp_0; destruct (x i); ring).
  unfold iqft_rot. replace (i + 1 - j) with (i - j + 1) by lia. destruct (Nat.eqb_spec j i) as [->|N1]; [|destruct (Nat.eqb_spec j (i - 1)) as [->|N2]].
  - change (on_qubit i (cc1 gS [] 0 (n - i))) with (cc1 gS [] i (n - i)). rewrite run_cc_off. destruct (s (n - i)); [|now rewrite OFF].
    rewrite (acts_ph gS [] i (PI / 2)) by (rewrite Cexp_PI2; auto). now rewrite Nat.sub_diag, pow_1.
  - change (on_qubit i (cc1 gT [] 0 (n - (i - 1)))) with (cc1 gT [] i (n - (i - 1))). rewrite run_cc_off. destruct (s (n - (i - 1))); [|now rewrite OFF].
    rewrite (acts_ph gT [] i (PI / 4)) by (rewrite Cexp_PI4; auto). replace (i - (i - 1) + 1) with 2 by lia. now replace (2 ^ 2)%R with 4%R by (cbn; ring).
  - change (on_qubit i (cc1 gP [(PI / 2 ^ (i - j + 1))%R] 0 (n - j))) with (cc1 gP [(PI / 2 ^ (i - j + 1))%R] i (n - j)). rewrite run_cc_off. destruct (s (n - j)); [|now rewrite OFF].
    now rewrite (acts_ph gP _ i (PI / 2 ^ (i - j + 1))) by auto.
Qed.
Lemma run_rots n i l psi s : (forall j, In j l -> 1 <= j <= i) -> run (map (on_qubit i) (map (iqft_rot n i) l)) (psi, s) =
  [(fold_left (fun p j => dg (fun x => if x i then Cexp ((fun j (_ : bits) => if s (n - j)%nat then PI / 2 ^ (i + 1 - j) else 0)%R j x) else C1) p) l psi, s)].
Proof.
  revert psi. induction l as [|j l IH]; intros psi H; [reflexivity|]. cbn [map fold_left]. rewrite (run_seq _ _ _ _ _ (run_rot n i j psi s (H j (or_introl eq_refl)))). apply IH. intros k K. apply H. now right.
Qed.
Lemma range_rev i : map (fun j => i + 1 - j) (range 1 (i + 1)) = rev (range 1 (i + 1)).
Proof.
  unfold range. replace (i + 1 - 1) with i by lia. apply nth_ext with (d := 0) (d' := 0); [now rewrite rev_length, map_length|]. rewrite map_length, seq_length. intros k K.
  rewrite (nth_indep _ 0 (i + 1 - 0)) by (now rewrite map_length, seq_length). rewrite (map_nth (fun j => i + 1 - j)), rev_nth, seq_length, !seq_nth by (rewrite ?seq_length; lia). lia.
Qed.
Lemma cph_sum n i (s : store) : i < n -> fold_right (fun j a => (if s (n - j)%nat then PI / 2 ^ (i + 1 - j) else 0) + a)%R 0%R (range 1 (i + 1)) = ph i (fun r => s (n - 1 - r)).
Proof.
  intros I. rewrite <- rot_sum, <- fold_sum_rev with (l := range 1 (i + 1)) (f := fun j => (if s (n - 1 - (i - j))%nat then PI / 2 ^ j else 0)%R), <- range_rev.
  assert (H : forall j, In j (range 1 (i + 1)) -> 1 <= j <= i) by (intros j J; apply range_In in J; lia). revert H. generalize (range 1 (i + 1)). intros l H.
  induction l as [|j l IH]; [reflexivity|]. cbn [fold_right map]. rewrite IH by (intros k K; apply H; now right). pose proof (H j (or_introl eq_refl)).
  now replace (n - 1 - (i - (i + 1 - j))) with (n - j) by lia.
Qed.
Lemma run_round n i psi s : i < n -> run (uround n i) (psi, s) = run [meas i (n - 1 - i)] (cstage n i s psi, s).
Proof.
  intros I. unfold uround. rewrite run_app, run_rots by (intros j J; apply range_In in J; lia). cbn [flat_map]. rewrite app_nil_r, fold_dg_cexp.
  rewrite (run_seq _ _ _ _ _ (acts_h i _ _)). unfold cstage. now rewrite cph_sum.
Qed.

(** ** Measuring first *)
Definition mlist (n k : nat) : list cop := map (fun i => meas i (n - 1 - i)) (seq 0 k).
Lemma project_stage q i v psi : q < i -> project q v (stage i psi) = stage i (project q v psi).
Proof.
  intros Q. apply functional_extensionality. intros b. assert (E : forall w, setb b i w q = b q) by (intros w; apply setb_other; lia).
  unfold stage, project, hst, dg. rewrite !E. destruct (Bool.eqb (b q) v); auto. ring.
Qed.
Lemma run_meas_stage n i l : (forall q, In q l -> q < i) -> forall psi s, run (map (fun q => meas q (n - 1 - q)) l) (stage i psi, s) =
  map (fun b => (stage i (fst b), snd b)) (run (map (fun q => meas q (n - 1 - q)) l) (psi, s)).
Proof.
  induction l as [|q l IH]; intros H psi s; [reflexivity|]. cbn [map]. rewrite !run_meas_cons, map_app, !project_stage by (apply H; now left). rewrite !IH by (intros k K; apply H; now right). reflexivity.
Qed.
(** After the measurements the qubits are in the state of their bits. *)
Lemma meas_known n k : k <= n -> forall psi s b, In b (run (mlist n k) (psi, s)) -> forall x q, q < k -> x q <> snd b (n - 1 - q) -> fst b x = C0.
Proof.
  intros K. unfold mlist. assert (G : forall d j psi s b, j + d <= n -> In b (run (map (fun q => meas q (n - 1 - q)) (seq j d)) (psi, s)) ->
    (forall x, psi x = C0 -> fst b x = C0) /\ (forall c, (forall q, j <= q < j + d -> c <> n - 1 - q) -> snd b c = s c) /\ forall x q, j <= q < j + d -> x q <> snd b (n - 1 - q) -> fst b x = C0).
  { induction d as [|d IH]; intros j psi s b L I.
    - cbn in I. destruct I as [<-|[]]. cbn [fst snd]. split; auto. split; auto. intros x q Q. lia.
    - cbn [seq map] in I. rewrite run_meas_cons in I. apply in_app_or in I. assert (I' : exists v, In b (run (map (fun q => meas q (n - 1 - q)) (seq (S j) d)) (project j v psi, setb s (n - 1 - j) v))) by (destruct I; eauto).
      destruct I' as (v & I'). destruct (IH (S j) _ _ b ltac:(lia) I') as (A & B & C). split; [|split].
      + intros x X. apply A. unfold project. rewrite X. now destruct (Bool.eqb _ _).
      + intros c R. rewrite B by (intros q Q; apply R; lia). apply setb_other. apply R. lia.
      + intros x q Q NE. destruct (Nat.eq_dec q j) as [->|NQ]; [|apply (C x q); auto; lia]. apply A. rewrite B, setb_same in NE by (intros r R; lia). unfold project. destruct (x j), v; auto; congruence. }
  intros psi s b I x q Q NE. destruct (G k 0 psi s b ltac:(lia) I) as (_ & _ & H). apply (H x q); auto. lia.
Qed.
Lemma stage_known n i psi s b : i < n -> In b (run (mlist n i) (psi, s)) -> stage i (fst b) = cstage n i (snd b) (fst b).
Proof.
  intros L I. unfold stage, cstage. f_equal. apply functional_extensionality. intros x. unfold dg. destruct (x i); auto.
  destruct (forallb (fun q => Bool.eqb (x q) (snd b (n - 1 - q))) (seq 0 i)) eqn:E.
  - f_equal. f_equal. apply ph_ext. intros q Q. rewrite forallb_forall in E. apply eqb_prop, E, in_seq. lia.
  - assert (N : exists q, q < i /\ x q <> snd b (n - 1 - q)).
    { clear - E. assert (G : forall l, forallb (fun q => Bool.eqb (x q) (snd b (n - 1 - q))) l = false -> exists q, In q l /\ x q <> snd b (n - 1 - q)).
      { induction l as [|q l IH]; intros F; [discriminate|]. cbn in F. apply andb_false_iff in F. destruct F as [F|F]; [exists q; split; [now left|]; intros X; rewrite X in F; now rewrite eqb_reflx in F|].
        destruct (IH F) as (r & R & X). exists r. split; auto. now right. }
      destruct (G _ E) as (q & Q & X). apply in_seq in Q. exists q. split; auto. lia. }
    destruct N as (q & Q & X). rewrite (meas_known n i ltac:(lia) psi s b I x q Q X). ring.
Qed.

Lemma unroll_run n k : k <= n -> same_run (flat_map (uround n) (seq 0 k)) (flat_map qft_stage (seq 0 k) ++ mlist n k).
Proof.
  induction k as [|k IH]; intros K; [intros b; reflexivity|]. intros [psi s]. unfold mlist. rewrite seq_S, !flat_map_app, map_app. cbn [flat_map plus map]. rewrite !app_nil_r.
  rewrite run_app, (IH ltac:(lia)), <- app_assoc. rewrite !run_app. rewrite (acts_flat_map _ stage) by (intros; apply acts_stage). set (phi := fold_left _ _ psi). cbn [flat_map]. rewrite !app_nil_r, run_app, acts_stage.
  cbn [flat_map]. rewrite app_nil_r, run_app. unfold mlist. rewrite run_meas_stage by (intros q Q; apply in_seq in Q; lia).
  pose proof (stage_known n k phi s) as SK. unfold mlist in SK. revert SK. generalize (run (map (fun i => meas i (n - 1 - i)) (seq 0 k)) (phi, s)). intros L SK. rewrite flat_map_concat_map, flat_map_concat_map, map_map. f_equal.
  apply map_ext_in. intros [f t] I. rewrite run_round by lia. cbn [fst snd]. pose proof (SK (f, t) ltac:(lia) I) as E. cbn [fst snd] in E. now rewrite E.
Qed.
Lemma iterative_unrolled n : 0 < n -> same_run (unrolled (qc_ops (createIterativeQFT n))) (qc_ops (createQFT n true)).
Proof.
  intros P. unfold createIterativeQFT, createQFT. destruct (Nat.eqb_spec n 0); [lia|]. cbn [qc_ops plain_qc]. unfold unrolled, qft_core, qft_meas. rewrite !range_0.
  destruct n as [|d]; [lia|]. rewrite (unrolled_rounds (S d) d 0) by lia. apply unroll_run. lia.
Qed.
