(** Circuits that measure and reset one qubit in rounds. *)
From Coq Require Import Reals Lra List Arith Bool Lia NArith FunctionalExtensionality.
From Verif Require Import Cplx Qsem GateModel IRModel IRSpec OutcomeSpec SimNormProofs AlgoModel AlgoSpec AlgoBaseProofs AlgoStateProofs AlgoQftProofs AlgoMeasProofs.
Import ListNotations.
Local Open Scope nat_scope.

(** Qubit [t] in the state [g], the others fixed by [k]. *)
Definition lone (k : bits -> bool) (t : nat) (g : bool -> C) : state := fun b => if k b then g (b t) else C0.
Lemma lone_ext k t g h : (forall v, g v = h v) -> lone k t g = lone k t h.
Proof. intros H. apply functional_extensionality. intros b. unfold lone. now rewrite H. Qed.
Definition rprod (f : nat -> R) (l : list nat) : R := fold_right (fun j a => (f j * a)%R) 1%R l.
Definition cprod (f : nat -> C) (l : list nat) : C := fold_right (fun j a => (f j * a)%C) C1 l.
Lemma cprod_norm f l : Cnorm2 (cprod f l) = rprod (fun j => Cnorm2 (f j)) l.
Proof. unfold cprod, rprod. induction l as [|j l IH]; cbn [fold_right]; [apply Cnorm2_1|]. now rewrite Cnorm2_mul, IH. Qed.
Lemma rprod_ext f g l : (forall j, In j l -> f j = g j) -> rprod f l = rprod g l.
Proof. unfold rprod. induction l as [|j l IH]; intros H; cbn [fold_right]; auto. rewrite (H j) by (left; auto). rewrite IH by (intros; apply H; right; auto). auto. Qed.
Lemma cprod_ext f g l : (forall j, In j l -> f j = g j) -> cprod f l = cprod g l.
Proof. unfold cprod. induction l as [|j l IH]; intros H; cbn [fold_right]; auto. rewrite (H j) by (left; auto). rewrite IH by (intros; apply H; right; auto). auto. Qed.
Lemma cprod_app f l l' : cprod f (l ++ l') = (cprod f l * cprod f l')%C.
Proof. unfold cprod. induction l as [|j l IH]; cbn [app fold_right]; [ring|]. rewrite IH. ring. Qed.

Section Rounds.
Variables (N : nat) (k : bits -> bool) (t n : nat).
Hypothesis K : forall b v, k (setb b t v) = k b.
Hypothesis W : forall g, weight N (lone k t g) = (Cnorm2 (g false) + Cnorm2 (g true))%R.
Variables (pre : nat -> list cop) (amp : nat -> store -> bool -> C) (cbit : nat -> nat).
Hypothesis PRE : forall i z s, i < n -> run (pre i) (lone k t (fun v => z * dbit false v)%C, s) = [(lone k t (fun v => z * amp i s v)%C, s)].
Hypothesis CB : forall i, i < n -> cbit i < n.
Hypothesis CI : forall i j, i < n -> j < n -> cbit i = cbit j -> i = j.
Hypothesis CS : forall c, c < n -> exists i, i < n /\ cbit i = c.
Hypothesis AE : forall i s s' v, i < n -> (forall j, j < i -> s (cbit j) = s' (cbit j)) -> amp i s v = amp i s' v.

Definition round (i : nat) : list cop := pre i ++ [meas t (cbit i)] ++ (if i <? n - 1 then [rst t] else []).
Definition upto (i : nat) (s m : store) : bool := forallb (fun j => Bool.eqb (s (cbit j)) (m (cbit j))) (seq 0 i).

Lemma upto_iff i s m : upto i s m = true <-> forall j, j < i -> s (cbit j) = m (cbit j).
Proof.
  unfold upto. rewrite forallb_forall. split.
  - intros H j J. apply eqb_prop, H, in_seq. lia.
  - intros H j J. apply in_seq in J. rewrite H by lia. apply eqb_reflx.
Qed.
Lemma upto_S i s m v : i < n -> upto (S i) (setb s (cbit i) v) m = Bool.eqb v (m (cbit i)) && upto i s m.
Proof.
  intros I. apply eq_iff_eq_true. rewrite andb_true_iff, !upto_iff. split.
  - intros H. split; [rewrite <- (H i), setb_same by lia; apply eqb_reflx|]. intros j J. rewrite <- (H j) by lia. rewrite setb_other; auto.
    intros E. apply CI in E; lia.
  - intros [E H] j J. apply eqb_prop in E. destruct (Nat.eq_dec j i) as [->|NE]; [now rewrite setb_same|].
    rewrite setb_other; [apply H; lia|]. intros X. apply CI in X; lia.
Qed.
Lemma upto_same s m : upto n s m = same_bits n s m.
Proof.
  apply eq_iff_eq_true. rewrite upto_iff, same_bits_iff. split; intros H j J; [|apply H, CB; auto].
  destruct (CS j J) as (i & I & <-). auto.
Qed.
Lemma project_lone v g : project t v (lone k t g) = lone k t (fun w => g v * dbit v w)%C.
Proof.
  apply functional_extensionality. intros b. unfold project, lone, dbit. destruct (k b); [|destruct (Bool.eqb _ _); auto].
  destruct (b t), v; cbn [Bool.eqb]; ring.
Qed.
Lemma prob_rst K' v z s m : prob N n m (run (rst t :: K') (lone k t (fun w => z * dbit v w)%C, s)) =
   prob N n m (run K' (lone k t (fun w => z * dbit false w)%C, s)).
Proof.
  cbn [run rst run_op reset_all reset1 fst snd flat_map app]. rewrite !app_nil_r, prob_app.
  assert (Z : forall u : bits -> C, (forall b, u b = C0) -> prob N n m (run K' (u, s)) = 0%R).
  { intros u U. replace u with (fun _ : bits => C0) by (symmetry; now apply functional_extensionality). apply prob_run_zero. }
  destruct v.
  - rewrite Z, Rplus_0_l.
    + f_equal. f_equal. f_equal. apply functional_extensionality. intros b. unfold flip, project, lone. rewrite setb_same, K.
      destruct (k b), (b t); cbn; auto; ring.
    + intros b. unfold project, lone, dbit. destruct (k b), (b t); cbn; auto; ring.
  - rewrite (Z (flip t _)), Rplus_0_r.
    + f_equal. f_equal. f_equal. apply functional_extensionality. intros b. unfold project, lone, dbit. destruct (k b), (b t); cbn; auto; ring.
    + intros b. unfold flip, project, lone, dbit. rewrite setb_same, K. destruct (k b), (b t); cbn; auto; ring.
Qed.

Lemma rounds_prob d : forall i z s m, i + S d = n ->
  prob N n m (run (flat_map round (seq i (S d))) (lone k t (fun v => z * dbit false v)%C, s)) =
  if upto i s m then (Cnorm2 z * rprod (fun j => Cnorm2 (amp j m (m (cbit j)))) (seq i (S d)))%R else 0%R.
Proof.
  induction d as [|d IH]; intros i z s m E.
  - cbn [seq flat_map]. rewrite app_nil_r. unfold round. rewrite (proj2 (Nat.ltb_ge i (n - 1))) by lia. rewrite app_nil_r, run_app, PRE by lia.
    cbn [flat_map]. rewrite app_nil_r, run_meas_cons. cbn [run]. rewrite prob_app, !prob_one, !project_lone, !W.
    rewrite <- !upto_same. replace n with (S i) by lia. rewrite !upto_S by lia.
    cbn [rprod fold_right]. destruct (upto i s m) eqn:U; rewrite ?andb_false_r, ?andb_true_r; [|ring].
    rewrite <- (AE i s m) by (try lia; apply upto_iff; auto).
    unfold dbit. destruct (m (cbit i)); cbn [Bool.eqb]; rewrite !Cnorm2_mul, Cnorm2_0, Cnorm2_1; ring.
  - cbn [seq flat_map]. unfold round at 1. rewrite (proj2 (Nat.ltb_lt i (n - 1))) by lia.
    rewrite <- app_assoc, run_app, PRE by lia. cbn [flat_map app]. rewrite app_nil_r, run_meas_cons, prob_app, !project_lone, !prob_rst.
    change (round (S i) ++ flat_map round (seq (S (S i)) d)) with (flat_map round (seq (S i) (S d))).
    rewrite !IH, !upto_S by lia.
    change (rprod ?f (i :: S i :: seq (S (S i)) d)) with (f i * rprod f (seq (S i) (S d)))%R. cbv beta.
    destruct (upto i s m) eqn:U; rewrite ?andb_false_r, ?andb_true_r; [|ring].
    rewrite <- (AE i s m) by (try lia; apply upto_iff; auto).
    destruct (m (cbit i)); cbn [Bool.eqb]; rewrite !Cnorm2_mul; ring.
Qed.
Lemma rounds_all s m : 0 < n -> prob N n m (run (flat_map round (range 0 n)) (lone k t (dbit false), s)) =
  rprod (fun j => Cnorm2 (amp j m (m (cbit j)))) (seq 0 n).
Proof.
  intros P. assert (E : exists d, n = S d) by (exists (n - 1); lia). destruct E as [d E].
  rewrite (lone_ext k t (dbit false) (fun v => C1 * dbit false v)%C) by (intros; ring).
  rewrite range_0, (f_equal (seq 0) E), (rounds_prob d) by lia.
  cbn [upto forallb]. rewrite Cnorm2_1. apply Rmult_1_l.
Qed.
End Rounds.

Lemma hst_lone k t g : (forall b v, k (setb b t v) = k b) -> hst t (lone k t g) = lone k t (hbit g).
Proof.
  intros K. apply functional_extensionality. intros b. unfold hst, lone, hbit. rewrite !K, !setb_same. destruct (k b); [|]; ring.
Qed.
(** The second qubit of two, the first being one. *)
Definition k2 : bits -> bool := fun b => b 0.
Lemma k2_set b v : k2 (setb b 1 v) = k2 b. Proof. reflexivity. Qed.
Lemma w2 g : weight 2 (lone k2 1 g) = (Cnorm2 (g false) + Cnorm2 (g true))%R.
Proof.
  unfold weight. cbn [weight_from]. unfold lone, k2, setb. cbn [Nat.eqb]. rewrite Cnorm2_0. ring.
Qed.
Lemma w1 g : weight 1 (lone (fun _ => true) 0 g) = (Cnorm2 (g false) + Cnorm2 (g true))%R.
Proof. reflexivity. Qed.
Definition tphase (a : R) (g : bool -> C) : bool -> C := fun v => if v then (Cexp a * g v)%C else g v.
Lemma cph_lone a g : cph a 1 0 (lone k2 1 g) = lone k2 1 (tphase a g).
Proof.
  apply functional_extensionality. intros b. unfold cph, dg, lone, k2, tphase. destruct (b 0), (b 1); cbn [andb]; ring.
Qed.
Lemma start2 : xst 0 (basis 2 zeros) = lone k2 1 (dbit false).
Proof.
  rewrite xst_basis by lia. apply functional_extensionality. intros b. unfold basis, lone, k2, dbit, setb, zeros. cbn.
  destruct (b 0), (b 1); auto.
Qed.

(** ** Bernstein-Vazirani *)
Lemma hh_z (z : C) (e : bool) v : hbit (fun w => if e then (if w then - hbit (fun u => z * dbit false u) w else hbit (fun u => z * dbit false u) w) else hbit (fun u => z * dbit false u) w)%C v = (z * dbit e v)%C.
Proof.
  destruct z as [a b]. pose proof (f_equal (Rmult a) sq2_sq) as A. pose proof (f_equal (Rmult b) sq2_sq) as B.
  unfold hbit, dbit. destruct e, v; cbn [Bool.eqb]; apply Ceq; cbn; lra.
Qed.

Lemma rprod_same n m s : rprod (fun j => Cnorm2 (dbit (s j) (m j))) (seq 0 n) = if same_bits n m s then 1%R else 0%R.
Proof.
  induction n as [|n IH]; [reflexivity|]. rewrite seq_S. unfold rprod in *. cbn [plus same_bits].
  assert (A : forall l, fold_right (fun j a => (Cnorm2 (dbit (s j) (m j)) * a)%R) 1%R (l ++ [n]) =
     (fold_right (fun j a => (Cnorm2 (dbit (s j) (m j)) * a)%R) 1%R l * Cnorm2 (dbit (s n) (m n)))%R).
  { induction l as [|j l IHl]; cbn [app fold_right]; [ring|]. rewrite IHl. ring. }
  rewrite A, IH. unfold dbit. destruct (Bool.eqb (m n) (s n)), (same_bits n m s); cbn [andb]; rewrite ?Cnorm2_0, ?Cnorm2_1; ring.
Qed.

Lemma ibv_run s n c m0 m : createIterativeBernsteinVazirani s n = Some c ->
  prob 2 n m (run_qc c (basis 2 zeros, m0)) = if same_bits n m s then 1%R else 0%R.
Proof.
  unfold createIterativeBernsteinVazirani. destruct (n =? 0) eqn:E0; [discriminate|]. destruct (bv_bits <? n); [discriminate|]. cbn [orb].
  intros E. injection E as <-. apply Nat.eqb_neq in E0. unfold run_qc. cbn [qc_ops qc_phase]. rewrite weight_phase. unfold ibv_ops.
  change (g1 gX 0 :: ?l) with ([g1 gX 0] ++ l). rewrite run_app, acts_x, start2. cbn [flat_map]. rewrite app_nil_r.
  set (pre := fun i => [g1 gH 1] ++ (if s i then [cg1 gZ 1 0] else []) ++ [g1 gH 1]).
  rewrite (flat_map_ext _ (round 1 n pre (fun i => i))).
  2: { intros i. unfold ibv_round, round, pre. rewrite <- !app_assoc. reflexivity. }
  rewrite (rounds_all 2 k2 1 n k2_set w2 pre (fun i _ v => dbit (s i) v) (fun i => i)).
  - apply rprod_same.
  - intros i z st _. assert (A : acts (pre i) (fun psi => hst 1 ((if s i then cph PI 1 0 else fun p => p) (hst 1 psi)))).
    { unfold pre. eapply acts_ext. { apply acts_app; [apply acts_h|]. apply acts_app; [|apply acts_h].
        instantiate (1 := if s i then cph PI 1 0 else fun p => p). destruct (s i); [apply acts_cz|apply acts_nil]. } auto. }
    rewrite (A _ _). f_equal. f_equal. rewrite hst_lone by apply k2_set. destruct (s i) eqn:S.
    + rewrite cph_lone, hst_lone by apply k2_set. apply lone_ext. intros v. rewrite <- hh_z. unfold hbit, tphase. rewrite Cexp_PI. ring.
    + rewrite hst_lone by apply k2_set. apply lone_ext. intros v. now rewrite <- hh_z.
  - auto.
  - auto.
  - intros c C. exists c. auto.
  - auto.
  - lia.
Qed.

(** ** Iterative QFT *)
Lemma cond_bit s j : cond_holds (CBit j 1 kEq) s = s j.
Proof. cbn. unfold regval. cbn. destruct (s j); reflexivity. Qed.
Lemma run_cc_off t ps q j psi s : run [cc1 t ps q j] (psi, s) = if s j then run [OStd {| o_type := t; o_par := ps; o_ctl := []; o_tgt := [q] |}] (psi, s) else [(psi, s)].
Proof.
  unfold cc1. rewrite run_one. cbn [run_op]. rewrite cond_bit. cbn [snd]. destruct (s j); [|reflexivity]. rewrite run_one. reflexivity.
Qed.
Lemma acts_ph t ps q a : single_matrix t ps = Some (m2 C1 C0 C0 (Cexp a)) ->
  acts [OStd {| o_type := t; o_par := ps; o_ctl := []; o_tgt := [q] |}] (dg (fun x => if x q then Cexp a else C1)).
Proof.
  intros E. eapply acts_ext; [apply acts_std, sem_single; eauto|]. intros psi. cbv beta. rewrite capply_m2, cop1_diag. reflexivity.
Qed.
Lemma run_seq l x psi s psi' : run [x] (psi, s) = [(psi', s)] -> run (x :: l) (psi, s) = run l (psi', s).
Proof. intros H. change (x :: l) with ([x] ++ l). rewrite run_app, H. cbn [flat_map]. now rewrite app_nil_r. Qed.

Definition k1 : bits -> bool := fun _ => true.
Lemma dg_dead z a : dg (fun x => if x 0 then Cexp a else C1) (lone k1 0 (fun v => z * dbit false v)%C) = lone k1 0 (fun v => z * dbit false v)%C.
Proof. apply functional_extensionality. intros b. unfold dg, lone, k1, dbit. destruct (b 0); cbn [Bool.eqb]; ring. Qed.
Lemma iqft_rot_dead n i j z s : run [iqft_rot n i j] (lone k1 0 (fun v => z * dbit false v)%C, s) = [(lone k1 0 (fun v => z * dbit false v)%C, s)].
Proof.
  unfold iqft_rot. destruct (j =? i); [|destruct (j =? i - 1)]; rewrite run_cc_off; destruct (s _); auto.
  - rewrite (acts_ph gS [] 0 (PI / 2)) by (rewrite Cexp_PI2; auto). now rewrite dg_dead.
  - rewrite (acts_ph gT [] 0 (PI / 4)) by (rewrite Cexp_PI4; auto). now rewrite dg_dead.
  - rewrite (acts_ph gP _ 0 (PI / 2 ^ (i - j + 1))) by auto. now rewrite dg_dead.
Qed.
Lemma iqft_rots n i l z s : run (map (iqft_rot n i) l) (lone k1 0 (fun v => z * dbit false v)%C, s) = [(lone k1 0 (fun v => z * dbit false v)%C, s)].
Proof. induction l as [|j l IH]; auto. cbn [map]. rewrite (run_seq _ _ _ _ _ (iqft_rot_dead n i j z s)). apply IH. Qed.
Lemma rprod_const c n : rprod (fun _ => c) (seq 0 n) = (c ^ n)%R.
Proof.
  unfold rprod. rewrite <- (seq_length n 0) at 2. generalize (seq 0 n). induction l as [|j l IH]; auto. cbn [fold_right length pow]. now rewrite IH.
Qed.

Lemma start1 : basis 1 zeros = lone k1 0 (dbit false).
Proof. apply functional_extensionality. intros b. unfold basis, lone, k1, dbit, zeros. cbn. destruct (b 0); auto. Qed.
Lemma iqft_run n m0 m : 0 < n -> prob 1 n m (run_qc (createIterativeQFT n) (basis 1 zeros, m0)) = ((/ 2) ^ n)%R.
Proof.
  intros P. unfold createIterativeQFT. destruct (Nat.eqb_spec n 0); [lia|]. unfold run_qc. cbn [plain_qc qc_ops qc_phase]. rewrite weight_phase, start1.
  set (pre := fun i => map (iqft_rot n i) (range 1 (i + 1)) ++ [g1 gH 0]).
  rewrite (flat_map_ext _ (round 0 n pre (fun i => n - 1 - i))).
  2: { intros i. unfold iqft_round, round, pre. rewrite <- !app_assoc. reflexivity. }
  rewrite (rounds_all 1 k1 0 n (fun _ _ => eq_refl) w1 pre (fun i _ v => RtoC sq2) (fun i => n - 1 - i)); auto; try lia.
  - rewrite (rprod_ext _ (fun _ => / 2)%R); [apply rprod_const|]. intros. rewrite <- sq2_sq. cbn. unfold Cnorm2. cbn. ring.
  - intros i z s I. unfold pre. rewrite run_app, iqft_rots. cbn [flat_map]. rewrite app_nil_r, acts_h, hst_lone by auto.
    f_equal. f_equal. apply lone_ext. intros v. unfold hbit, dbit. cbn [Bool.eqb]. ring.
  - intros c C. exists (n - 1 - c). lia.
Qed.

(** ** Quantum phase estimation *)
Lemma rot_sum2 i (x : bits) : fold_right (fun j a => (if x j then PI / 2 ^ (i - j) else 0) + a)%R 0%R (range 0 i) = ph i x.
Proof.
  rewrite range_0. induction i as [|i IH]; [reflexivity|]. rewrite seq_S, fold_sum_app. cbn [plus fold_right ph].
  rewrite <- IH. rewrite (fold_sum_ext _ (fun j => / 2 * (if x j then PI / 2 ^ (i - j) else 0))%R).
  - rewrite fold_sum_scal. replace (S i - i) with 1 by lia. cbn [pow]. destruct (x i); lra.
  - intros j J. apply in_seq in J. destruct (x j); [|lra]. replace (S i - j) with (S (i - j)) by lia. cbn [pow]. field. apply pow2_neq.
Qed.
Lemma fold_sum_opp {A} (f : A -> R) l : fold_right (fun j a => - f j + a)%R 0%R l = (- fold_right (fun j a => f j + a)%R 0%R l)%R.
Proof. induction l as [|a l IH]; cbn; [ring|]. rewrite IH. ring. Qed.

(** The amplitude of the outcome [v] of round [i] after the outcomes [s]. *)
Definition qamp (n : nat) (lambda : R) (i : nat) (s : store) (v : bool) : C :=
  (RtoC (/ 2) * (C1 + (if v then - C1 else C1) * Cexp (qpe_angle n i lambda - ph i s)))%C.

Lemma tphase_tphase a c g v : tphase a (tphase c g) v = tphase (c + a) g v.
Proof. unfold tphase. destruct v; auto. rewrite Cexp_add. ring. Qed.
Lemma run_cc_phases f l g s : run (map (fun j => cc1 gP [f j] 1 j) l) (lone k2 1 g, s) =
  [(lone k2 1 (tphase (fold_right (fun j a => (if s j then f j else 0) + a)%R 0%R l) g), s)].
Proof.
  revert g. induction l as [|j l IH]; intros g.
  - cbn. f_equal. f_equal. apply lone_ext. intros v. unfold tphase. rewrite Cexp_0. destruct v; ring.
  - cbn [map fold_right]. assert (E : run [cc1 gP [f j] 1 j] (lone k2 1 g, s) = [(lone k2 1 (tphase (if s j then f j else 0%R) g), s)]).
    { rewrite run_cc_off. destruct (s j).
      - rewrite (acts_ph gP _ 1 (f j)) by auto. f_equal. f_equal. apply functional_extensionality. intros b. unfold dg, lone, tphase. destruct (k2 b), (b 1); ring.
      - f_equal. f_equal. apply lone_ext. intros v. unfold tphase. rewrite Cexp_0. destruct v; ring. }
    rewrite (run_seq _ _ _ _ _ E), IH. f_equal. f_equal. apply lone_ext. intros v. apply tphase_tphase.
Qed.

Lemma iqpe_run lambda n c m0 m : createIterativeQPE lambda n = Some c ->
  prob 2 n m (run_qc c (basis 2 zeros, m0)) = rprod (fun j => Cnorm2 (qamp n lambda j m (m j))) (seq 0 n).
Proof.
  unfold createIterativeQPE. destruct (n =? 0) eqn:E0; [discriminate|]. destruct (64 <? n); [discriminate|]. cbn [orb].
  intros E. injection E as <-. apply Nat.eqb_neq in E0. unfold run_qc. cbn [qc_ops qc_phase]. rewrite weight_phase. unfold iqpe_ops.
  change (g1 gX 0 :: ?l) with ([g1 gX 0] ++ l). rewrite run_app, acts_x, start2. cbn [flat_map]. rewrite app_nil_r.
  set (pre := fun i => [g1 gH 1; cg1p gP (qpe_angle n i lambda) 1 0] ++ map (fun j => cc1 gP [(- PI / 2 ^ (i - j))%R] 1 j) (range 0 i) ++ [g1 gH 1]).
  rewrite (flat_map_ext _ (round 1 n pre (fun i => i))).
  2: { intros i. unfold iqpe_round, round, pre. rewrite <- !app_assoc. reflexivity. }
  rewrite (rounds_all 2 k2 1 n k2_set w2 pre (qamp n lambda) (fun i => i)); auto; try lia.
  - intros i z s I. unfold pre. change ([g1 gH 1; cg1p gP (qpe_angle n i lambda) 1 0]) with ([g1 gH 1] ++ [cg1p gP (qpe_angle n i lambda) 1 0]).
    rewrite <- !app_assoc. rewrite run_app, acts_h. cbn [flat_map]. rewrite app_nil_r, run_app, acts_cp. cbn [flat_map]. rewrite app_nil_r.
    rewrite hst_lone, cph_lone by apply k2_set. rewrite run_app, run_cc_phases. cbn [flat_map]. rewrite app_nil_r, acts_h, hst_lone by apply k2_set.
    f_equal. f_equal. apply lone_ext. intros v. unfold qamp. rewrite <- (rot_sum2 i s).
    rewrite (fold_sum_ext (fun j => if s j then - PI / 2 ^ (i - j) else 0)%R (fun j => - (if s j then PI / 2 ^ (i - j) else 0))%R).
    2: { intros j J. destruct (s j); [|lra]. field. apply pow2_neq. }
    rewrite fold_sum_opp. unfold hbit at 1. rewrite !tphase_tphase. unfold tphase, hbit, dbit. cbn [Bool.eqb].
    unfold Rminus. match goal with |- context[Cexp ?a] => generalize (Cexp a) end.
    assert (Q : (RtoC sq2 * RtoC sq2 = RtoC (/ 2))%C) by (apply Ceq; cbn; rewrite ?sq2_sq; ring).
    intros e. rewrite <- Q. destruct v; ring.
  - intros c C. exists c. auto.
  - intros i s s' v I H. unfold qamp. rewrite (ph_ext i s s') by auto. auto.
Qed.
