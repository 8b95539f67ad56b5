(** Measurement outcomes of the generated circuits; Bernstein-Vazirani. *)
From Coq Require Import Reals Lra List Arith Bool Lia NArith FunctionalExtensionality.
From Verif Require Import Cplx Qsem GateModel IRModel IRSpec OutcomeSpec SimNormProofs AlgoModel AlgoSpec AlgoBaseProofs AlgoStateProofs AlgoQftProofs.
Import ListNotations.
Local Open Scope nat_scope.

(** ** Norms *)
Lemma weight_from_zero n psi : forall b, (forall c, (forall q, n <= q -> c q = b q) -> psi c = C0) -> weight_from n psi b = 0%R.
Proof.
  induction n as [|n IH]; intros b H; cbn [weight_from].
  - rewrite H by auto. apply Cnorm2_0.
  - rewrite !IH; [ring| |]; intros c Hc; apply H; intros q Q; rewrite Hc by lia; apply setb_other; lia.
Qed.
Lemma weight_from_point n psi x : forall b,
  (forall c, (forall q, n <= q -> c q = b q) -> (exists q, q < n /\ c q <> x q) -> psi c = C0) ->
  weight_from n psi b = Cnorm2 (psi (fun q => if q <? n then x q else b q)).
Proof.
  induction n as [|n IH]; intros b H; cbn [weight_from]; [reflexivity|].
  assert (Z : weight_from n psi (setb b n (negb (x n))) = 0%R).
  { apply weight_from_zero. intros c Hc. apply H.
    - intros q Q. rewrite Hc by lia. apply setb_other. lia.
    - exists n. split; [lia|]. rewrite Hc, setb_same by lia. destruct (x n); discriminate. }
  assert (P : weight_from n psi (setb b n (x n)) = Cnorm2 (psi (fun q => if q <? S n then x q else b q))).
  { rewrite IH.
    - f_equal. f_equal. apply functional_extensionality. intros q. destruct (Nat.eq_dec q n) as [->|N].
      + rewrite (proj2 (Nat.ltb_ge n n)), (proj2 (Nat.ltb_lt n (S n))), setb_same by lia. auto.
      + rewrite setb_other by auto. destruct (Nat.ltb_spec q n), (Nat.ltb_spec q (S n)); auto; lia.
    - intros c Hc (q & Q & NE). apply H.
      + intros r R. rewrite Hc by lia. apply setb_other. lia.
      + exists q. split; [lia|auto]. }
  destruct (x n); cbn [negb] in Z; rewrite Z, P; ring.
Qed.
Definition mask (n : nat) (x : bits) : bits := fun q => if q <? n then x q else false.
Lemma weight_point n psi x : (forall c, (exists q, q < n /\ c q <> x q) -> psi c = C0) -> weight n psi = Cnorm2 (psi (mask n x)).
Proof. intros H. unfold weight, mask. apply weight_from_point. auto. Qed.
Lemma weight_zero n : weight n (fun _ => C0) = 0%R.
Proof. apply weight_from_zero. auto. Qed.

(** ** Branches without amplitude *)
Lemma run_zero l s x : In x (run l ((fun _ => C0), s)) -> fst x = (fun _ => C0).
Proof.
  assert (E : ((fun _ : bits => C0), s) = bscal C0 ((fun _ => C0), s)).
  { unfold bscal. cbn. f_equal. apply functional_extensionality. intros b. unfold sscal. ring. }
  rewrite E, run_scal. intros I. apply in_map_iff in I. destruct I as (y & <- & _). unfold bscal. cbn.
  apply functional_extensionality. intros b. unfold sscal. ring.
Qed.
Lemma prob_all_zero n k m l : (forall x, In x l -> fst x = (fun _ => C0)) -> prob n k m l = 0%R.
Proof.
  induction l as [|[p s] l IH]; intros H; auto. unfold prob in *. cbn [fold_right fst snd]. rewrite IH by (intros; apply H; right; auto).
  pose proof (H (p, s) (or_introl eq_refl)) as E. cbn in E. rewrite E, weight_zero. destruct (same_bits _ _ _); ring.
Qed.
Lemma prob_run_zero n k m l s : prob n k m (run l ((fun _ => C0), s)) = 0%R.
Proof. apply prob_all_zero. intros x. apply run_zero. Qed.
Lemma prob_one n k m psi s : prob n k m [(psi, s)] = if same_bits k s m then weight n psi else 0%R.
Proof. unfold prob. cbn. ring. Qed.
Lemma prob_flat {A} n k m (f : A -> list branch) l : prob n k m (flat_map f l) = fold_right (fun x a => prob n k m (f x) + a)%R 0%R l.
Proof. induction l as [|x l IH]; cbn [flat_map fold_right]; auto. now rewrite prob_app, IH. Qed.

Lemma same_bits_iff k m m' : same_bits k m m' = true <-> forall q, q < k -> m q = m' q.
Proof.
  induction k as [|k IH]; cbn [same_bits]; [split; auto; intros; lia|]. rewrite andb_true_iff, IH. split.
  - intros [E H] q Q. destruct (Nat.eq_dec q k) as [->|]; [now apply eqb_prop|apply H; lia].
  - intros H. rewrite H by lia. split; [apply eqb_reflx|]. intros; apply H; lia.
Qed.

(** ** Measuring several qubits *)
Definition matches (L : list (nat * nat)) (m : store) (b : bits) : bool := forallb (fun p => Bool.eqb (b (fst p)) (m (snd p))) L.
Definition settled (k : nat) (L : list (nat * nat)) (s m : store) : bool :=
  forallb (fun c => existsb (fun p => snd p =? c) L || Bool.eqb (s c) (m c)) (seq 0 k).
Definition cut (L : list (nat * nat)) (m : store) (psi : state) : state := fun b => if matches L m b then psi b else C0.

Lemma settled_iff k L s m : settled k L s m = true <-> forall c, c < k -> ~ In c (map snd L) -> s c = m c.
Proof.
  unfold settled. rewrite forallb_forall. split.
  - intros H c C N. specialize (H c ltac:(apply in_seq; lia)). apply orb_true_iff in H. destruct H as [H|H]; [|now apply eqb_prop].
    apply existsb_exists in H. destruct H as (p & P & E). apply Nat.eqb_eq in E. subst c. exfalso. apply N, in_map, P.
  - intros H c C. apply in_seq in C. apply orb_true_iff. destruct (existsb (fun p => snd p =? c) L) eqn:E; auto. right.
    rewrite H; [apply eqb_reflx|lia|]. intros I. apply in_map_iff in I. destruct I as (p & P1 & P2).
    rewrite <- not_true_iff_false in E. apply E. apply existsb_exists. exists p. split; auto. apply Nat.eqb_eq. auto.
Qed.

Lemma run_meas_cons q c K psi s : run (meas q c :: K) (psi, s) =
  run K (project q false psi, setb s c false) ++ run K (project q true psi, setb s c true).
Proof. cbn [run]. cbn [meas run_op combine measure_all measure1 flat_map fst snd app]. now rewrite app_nil_r. Qed.

Lemma prob_meas n k m L : NoDup (map snd L) -> (forall p, In p L -> snd p < k) -> forall psi s,
  prob n k m (run (map (fun p => meas (fst p) (snd p)) L) (psi, s)) = if settled k L s m then weight n (cut L m psi) else 0%R.
Proof.
  induction L as [|[q c] L IH]; intros ND B psi s.
  - cbn [map run]. rewrite prob_one. replace (settled k [] s m) with (same_bits k s m).
    + destruct (same_bits k s m); auto.
    + apply eq_iff_eq_true. rewrite same_bits_iff, settled_iff. cbn. intuition.
  - cbn [map fst snd] in ND |- *. inversion ND as [|? ? NI ND']; subst. rewrite run_meas_cons, prob_app, !IH; auto; try (intros; apply B; right; auto).
    assert (Cb : c < k) by (apply (B (q, c)); left; auto).
    assert (F : forall v, settled k L (setb s c v) m = Bool.eqb v (m c) && settled k ((q, c) :: L) s m).
    { intros v. apply eq_iff_eq_true. rewrite andb_true_iff, !settled_iff. cbn [map snd]. split.
      - intros H. split; [rewrite <- (H c), setb_same by auto; apply eqb_reflx|]. intros d D N.
        rewrite <- (H d), setb_other; auto; intros X; apply N; cbn; auto.
      - intros [E H] d D N. apply eqb_prop in E. destruct (Nat.eq_dec d c) as [->|NE]; [now rewrite setb_same|]. rewrite setb_other by auto.
        apply H; auto. intros [X|X]; auto. }
    rewrite !F. assert (P : forall v, v = m c -> weight n (cut L m (project q v psi)) = weight n (cut ((q, c) :: L) m psi)).
    { intros v ->. f_equal. apply functional_extensionality. intros b. unfold cut, matches, project. cbn [forallb fst snd].
      destruct (Bool.eqb (b q) (m c)); cbn [andb]; auto. destruct (forallb _ L); auto. }
    destruct (settled k ((q, c) :: L) s m); rewrite ?andb_true_r, ?andb_false_r; [|ring].
    destruct (m c) eqn:M; cbn [Bool.eqb]; rewrite (P _ eq_refl); ring.
Qed.

(** All qubits but some fixed ones are measured: what remains is one point. *)
Lemma weight_cut_full n L m psi x : (forall p, In p L -> fst p < n /\ x (fst p) = m (snd p)) ->
  (forall c, matches L m c = true -> (exists q, q < n /\ c q <> x q) -> psi c = C0) ->
  weight n (cut L m psi) = Cnorm2 (psi (mask n x)).
Proof.
  intros A Z. rewrite (weight_point n _ x).
  - unfold cut. replace (matches L m (mask n x)) with true; auto. symmetry. apply forallb_forall. intros p P. destruct (A p P) as [Q E].
    unfold mask. rewrite (proj2 (Nat.ltb_lt (fst p) n)) by auto. rewrite E. apply eqb_reflx.
  - intros c E. unfold cut. destruct (matches L m c) eqn:M; auto.
Qed.

(** ** Product states *)
Fixpoint prodst (n : nat) (f : nat -> bool -> C) : state := fun b =>
  match n with 0 => C1 | S k => (prodst k f b * f k (b k))%C end.
Definition updf (f : nat -> bool -> C) (q : nat) (g : bool -> C) : nat -> bool -> C := fun i => if i =? q then g else f i.
Lemma prodst_ext n f g b : (forall i v, i < n -> f i v = g i v) -> prodst n f b = prodst n g b.
Proof. induction n as [|n IH]; intros H; cbn; auto. rewrite IH, H by auto. auto. Qed.
Lemma prodst_bits n f b c : (forall q, q < n -> b q = c q) -> prodst n f b = prodst n f c.
Proof. induction n as [|n IH]; intros H; cbn; auto. rewrite IH, H by auto. auto. Qed.
(** The factor of one qubit. *)
Fixpoint rest (n q : nat) (f : nat -> bool -> C) (b : bits) : C :=
  match n with 0 => C1 | S k => (rest k q f b * (if k =? q then C1 else f k (b k)))%C end.
Lemma prodst_rest n q f b : prodst n f b = (rest n q f b * (if q <? n then f q (b q) else C1))%C.
Proof.
  induction n as [|n IH]; cbn [prodst rest]; [cbn; ring|]. rewrite IH. destruct (Nat.eqb_spec n q) as [->|N].
  - rewrite (proj2 (Nat.ltb_ge q q)), (proj2 (Nat.ltb_lt q (S q))) by lia. ring.
  - destruct (Nat.ltb_spec q n), (Nat.ltb_spec q (S n)); try lia; ring.
Qed.
Lemma rest_setb n q f b v : rest n q f (setb b q v) = rest n q f b.
Proof. induction n as [|n IH]; cbn [rest]; auto. rewrite IH. destruct (Nat.eqb_spec n q); auto. now rewrite setb_other. Qed.
Lemma rest_updf n q f g b : rest n q (updf f q g) b = rest n q f b.
Proof. induction n as [|n IH]; cbn [rest]; auto. rewrite IH. unfold updf. destruct (Nat.eqb_spec n q); auto. Qed.
Definition hbit (g : bool -> C) : bool -> C := fun v => (RtoC sq2 * (g false + (if v then - C1 else C1) * g true))%C.
Lemma hst_prod n q f : q < n -> hst q (prodst n f) = prodst n (updf f q (hbit (f q))).
Proof.
  intros Q. apply functional_extensionality. intros b. unfold hst. rewrite !(prodst_rest n q), !rest_setb, rest_updf.
  rewrite (proj2 (Nat.ltb_lt q n)) by auto. rewrite !setb_same. unfold updf, hbit. rewrite Nat.eqb_refl. ring.
Qed.
Lemma fold_h_prod n f a k : a <= k -> k <= n -> fold_left (fun p q => hst q p) (range a k) (prodst n f) =
  prodst n (fun i => if (a <=? i) && (i <? k) then hbit (f i) else f i).
Proof.
  intros A. induction k as [|k IH]; intros K.
  - rewrite range_nil by lia. cbn [fold_left]. apply functional_extensionality. intros b. apply prodst_ext. intros i v I.
    rewrite (proj2 (Nat.ltb_ge i 0)) by lia. now rewrite andb_false_r.
  - destruct (Nat.eq_dec a (S k)) as [->|N].
    + rewrite range_nil by lia. cbn [fold_left]. apply functional_extensionality. intros b. apply prodst_ext. intros i v I.
      destruct (Nat.leb_spec (S k) i), (Nat.ltb_spec i (S k)); cbn [andb]; auto; lia.
    + rewrite range_S by lia. rewrite fold_left_app, IH by lia. cbn [fold_left]. rewrite hst_prod by lia.
      apply functional_extensionality. intros b. apply prodst_ext. intros i v I. unfold updf. destruct (Nat.eqb_spec i k) as [->|NE].
      * rewrite (proj2 (Nat.ltb_ge k k)), andb_false_r, (proj2 (Nat.leb_le a k)), (proj2 (Nat.ltb_lt k (S k))) by lia. auto.
      * destruct (Nat.ltb_spec i k), (Nat.ltb_spec i (S k)); auto; lia.
Qed.
Lemma acts_hlayer a k : acts (hlayer a k) (fun psi => fold_left (fun p q => hst q p) (range a k) psi).
Proof. unfold hlayer. apply (acts_map _ hst). intros; apply acts_h. Qed.

Definition dbit (v : bool) : bool -> C := fun w => if Bool.eqb w v then C1 else C0.
Lemma basis_prod n x : basis n x = prodst n (fun q => dbit (x q)).
Proof.
  apply functional_extensionality. intros b. unfold basis. induction n as [|n IH]; [reflexivity|].
  rewrite seq_S, forallb_app. cbn [prodst forallb plus]. rewrite <- IH. unfold dbit. destruct (forallb _ (seq 0 n)), (Bool.eqb (b n) (x n)); cbn; ring.
Qed.
Lemma xst_basis n q x : q < n -> xst q (basis n x) = basis n (setb x q (negb (x q))).
Proof.
  intros Q. apply functional_extensionality. intros b. unfold xst, basis.
  rewrite (forallb_ext_in _ (fun r => Bool.eqb (b r) (setb x q (negb (x q)) r))); auto.
  intros r R. unfold setb. destruct (Nat.eqb_spec r q) as [->|]; auto. destruct (b q), (x q); auto.
Qed.
Lemma sq2_sq : (sq2 * sq2 = / 2)%R.
Proof. unfold sq2. rewrite <- Rinv_mult, sqrt_sqrt by lra. auto. Qed.
Lemma basis_mask n x y : basis n x (mask n y) = if same_bits n y x then C1 else C0.
Proof.
  unfold basis. replace (same_bits n y x) with (forallb (fun q => Bool.eqb (mask n y q) (x q)) (seq 0 n)); auto.
  apply eq_iff_eq_true. rewrite same_bits_iff, forallb_forall. unfold mask. split.
  - intros H q Q. specialize (H q ltac:(apply in_seq; lia)). rewrite (proj2 (Nat.ltb_lt q n)) in H by auto. now apply eqb_prop.
  - intros H q Q. apply in_seq in Q. rewrite (proj2 (Nat.ltb_lt q n)) by lia. rewrite H by lia. apply eqb_reflx.
Qed.
Lemma basis_out n x c : (exists q, q < n /\ c q <> x q) -> basis n x c = C0.
Proof.
  intros (q & Q & N). unfold basis. destruct (forallb _ _) eqn:E; auto. exfalso. apply N. rewrite forallb_forall in E. apply eqb_prop, E, in_seq. lia.
Qed.

(** ** Bernstein-Vazirani *)
Definition bvx (s : bitstring) : bits := fun q => if q =? 0 then true else s (q - 1).

Lemma fold_cz_prod n f l : (f 0 false = C0) -> (forall q, In q l -> 0 < q < n) -> NoDup l ->
  fold_left (fun p q => cph PI q 0 p) l (prodst n f) =
  prodst n (fun i => if existsb (Nat.eqb i) l then (fun v => if v then (- f i v)%C else f i v) else f i).
Proof.
  intros Z. revert f Z. induction l as [|q l IH]; intros f Z B ND; [reflexivity|]. cbn [fold_left]. inversion ND; subst.
  assert (E : cph PI q 0 (prodst n f) = prodst n (updf f q (fun v => if v then (- f q v)%C else f q v))).
  { destruct (B q (or_introl eq_refl)) as [B1 B2]. apply functional_extensionality. intros b. unfold cph, dg.
    rewrite !(prodst_rest n q), rest_updf, (proj2 (Nat.ltb_lt q n)) by auto. unfold updf. rewrite Nat.eqb_refl, Cexp_PI.
    destruct (b q); cbn [andb]; [|ring]. destruct (b 0) eqn:B0; [ring|].
    assert (R0 : forall k, 0 < k -> rest k q f b = C0).
    { induction k as [|k IHk]; intros K; [lia|]. cbn [rest]. destruct k as [|k]; [|rewrite IHk by lia; ring].
      destruct (Nat.eqb_spec 0 q); [lia|]. rewrite B0, Z. ring. }
    rewrite R0 by lia. ring. }
  rewrite E, IH; auto.
  - apply functional_extensionality. intros b. apply prodst_ext. intros i v I. cbn [existsb]. unfold updf.
    destruct (Nat.eqb_spec i q) as [->|NE]; cbn [orb]; auto.
    destruct (existsb (Nat.eqb q) l) eqn:X; auto. apply existsb_exists in X. destruct X as (r & R & E'). apply Nat.eqb_eq in E'. subst r. contradiction.
  - unfold updf. destruct (Nat.eqb_spec 0 q); auto. specialize (B q (or_introl eq_refl)). lia.
  - intros r R. apply B. right; auto.
Qed.

Lemma bv_oracle_map s nq : bv_oracle s nq = map (fun i => cg1 gZ i 0) (filter (fun i => s (i - 1)) (range 1 (nq + 1))).
Proof. unfold bv_oracle. induction (range 1 (nq + 1)) as [|i l IH]; cbn; auto. destruct (s (i - 1)); cbn; now rewrite IH. Qed.

Lemma bv_state s n : acts (g1 gX 0 :: hlayer 1 (n + 1) ++ bv_oracle s n ++ hlayer 1 (n + 1)) (fun psi =>
    fold_left (fun p q => hst q p) (range 1 (n + 1)) (fold_left (fun p q => cph PI q 0 p) (filter (fun i => s (i - 1)) (range 1 (n + 1)))
      (fold_left (fun p q => hst q p) (range 1 (n + 1)) (xst 0 psi)))).
Proof.
  eapply acts_ext. { apply acts_cons; [apply acts_x|]. apply acts_app; [apply acts_hlayer|]. apply acts_app; [|apply acts_hlayer].
    rewrite bv_oracle_map. apply (acts_map _ (fun q => cph PI q 0)). intros; apply acts_cz. }
  auto.
Qed.
Lemma bv_final s n : fold_left (fun p q => hst q p) (range 1 (n + 1)) (fold_left (fun p q => cph PI q 0 p) (filter (fun i => s (i - 1)) (range 1 (n + 1)))
      (fold_left (fun p q => hst q p) (range 1 (n + 1)) (xst 0 (basis (n + 1) zeros)))) = basis (n + 1) (bvx s).
Proof.
  rewrite xst_basis, basis_prod by lia. rewrite fold_h_prod by lia. rewrite fold_cz_prod.
  - rewrite fold_h_prod by lia. rewrite basis_prod. apply functional_extensionality. intros b. apply prodst_ext. intros i v I.
    destruct (Nat.eq_dec i 0) as [->|N].
    + cbn [Nat.leb andb]. replace (existsb (Nat.eqb 0) (filter (fun i => s (i - 1)) (range 1 (n + 1)))) with false; auto.
      symmetry. apply not_true_is_false. intros X. apply existsb_exists in X. destruct X as (r & R & E). apply filter_In in R. destruct R as [R _].
      apply range_In in R. apply Nat.eqb_eq in E. lia.
    + rewrite (proj2 (Nat.leb_le 1 i)), (proj2 (Nat.ltb_lt i (n + 1))) by lia. cbn [andb].
      replace (existsb (Nat.eqb i) (filter (fun i => s (i - 1)) (range 1 (n + 1)))) with (s (i - 1)).
      2: { apply eq_iff_eq_true. rewrite existsb_exists. split.
           - intros E. exists i. rewrite filter_In, range_In, Nat.eqb_refl. repeat split; auto; lia.
           - intros (r & R & E). apply filter_In in R. apply Nat.eqb_eq in E. subst. tauto. }
      unfold bvx. destruct (Nat.eqb_spec i 0); [lia|]. unfold setb. destruct (Nat.eqb_spec i 0); [lia|].
      pose proof sq2_sq as SQ. unfold hbit, dbit, zeros. destruct (s (i - 1)), v; cbn [Bool.eqb]; apply Ceq; cbn; nra.
  - rewrite (proj2 (Nat.leb_gt 1 0)) by lia. cbn [andb]. unfold setb, zeros, dbit. reflexivity.
  - intros q Q. apply filter_In in Q. destruct Q as [Q _]. apply range_In in Q. lia.
  - apply NoDup_filter, range_NoDup.
Qed.

Lemma weight_phase n p l k m : prob n k m (map (fun x => (sscal (Cexp p) (fst x), snd x)) l) = prob n k m l.
Proof.
  induction l as [|x l IH]; auto. unfold prob in *. cbn [map fold_right fst snd]. rewrite IH, weight_scal by apply Cexp_norm2. auto.
Qed.

Lemma bv_meas_map n : map (fun i => meas i (i - 1)) (range 1 (n + 1)) = map (fun p => meas (fst p) (snd p)) (map (fun i => (i, i - 1)) (range 1 (n + 1))).
Proof. now rewrite map_map. Qed.
Lemma snd_shift n : map snd (map (fun i => (i, i - 1)) (range 1 (n + 1))) = seq 0 n.
Proof.
  rewrite map_map. cbn [snd]. unfold range. replace (n + 1 - 1) with n by lia. rewrite <- seq_shift, map_map.
  rewrite (map_ext _ (fun i => i)) by (intros; lia). apply map_id.
Qed.
Lemma settled_full k L s m : map snd L = seq 0 k -> settled k L s m = true.
Proof. intros E. apply settled_iff. rewrite E. intros c C N. exfalso. apply N, in_seq. lia. Qed.

Lemma bv_run s n c m0 m : createBernsteinVazirani s n = Some c ->
  prob (n + 1) n m (run_qc c (basis (n + 1) zeros, m0)) = if same_bits n m s then 1%R else 0%R.
Proof.
  unfold createBernsteinVazirani. destruct (_ || _); [discriminate|]. intros E. injection E as <-.
  unfold run_qc. cbn [qc_ops qc_phase]. rewrite weight_phase. unfold bv_ops.
  replace (g1 gX 0 :: hlayer 1 (n + 1) ++ bv_oracle s n ++ hlayer 1 (n + 1) ++ map (fun i => meas i (i - 1)) (range 1 (n + 1)))
    with ((g1 gX 0 :: hlayer 1 (n + 1) ++ bv_oracle s n ++ hlayer 1 (n + 1)) ++ map (fun i => meas i (i - 1)) (range 1 (n + 1)))
    by (cbn [app]; now rewrite <- !app_assoc).
  rewrite run_app, bv_state, bv_final. cbn [flat_map]. rewrite app_nil_r, bv_meas_map, prob_meas.
  - rewrite settled_full by apply snd_shift.
    rewrite (weight_cut_full _ _ _ _ (bvx m)).
    + rewrite basis_mask. replace (same_bits (n + 1) (bvx m) (bvx s)) with (same_bits n m s).
      * destruct (same_bits n m s); [apply Cnorm2_1|apply Cnorm2_0].
      * apply eq_iff_eq_true. rewrite !same_bits_iff. unfold bvx. split.
        -- intros H q Q. destruct (Nat.eqb_spec q 0); auto. apply H. lia.
        -- intros H q Q. specialize (H (S q) ltac:(lia)). cbn in H. now rewrite Nat.sub_0_r in H.
    + intros p P. apply in_map_iff in P. destruct P as (i & <- & I). apply range_In in I. cbn [fst snd]. split; [lia|].
      unfold bvx. destruct (Nat.eqb_spec i 0); auto. lia.
    + intros d M (q & Q & N). apply basis_out. unfold matches in M. rewrite forallb_forall in M. destruct (Nat.eq_dec q 0) as [->|NQ].
      * exists 0. split; [lia|]. unfold bvx in *. cbn in *. auto.
      * exfalso. apply N. specialize (M (q, q - 1)). cbn [fst snd] in M. unfold bvx. destruct (Nat.eqb_spec q 0); [lia|].
        apply eqb_prop, M. apply in_map_iff. exists q. split; auto. apply range_In. lia.
  - rewrite snd_shift. apply seq_NoDup.
  - intros p P. assert (In (snd p) (seq 0 n)) by (rewrite <- (snd_shift n); now apply in_map). apply in_seq in H. lia.
Qed.
