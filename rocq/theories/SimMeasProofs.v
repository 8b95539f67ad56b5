(* Norms, and the measurement of one qubit of a decision diagram. *)
From Coq Require Import Reals Lra List Bool Arith Lia FunctionalExtensionality Permutation.
From Verif Require Import Cplx Qsem GateModel GateSpec GateProofs OpProofs IRModel IRSpec IRProofs OutcomeSpec OptModel
  OptDagProofs OptElideProofs OptResetProofs DDModel DDSpec DDProofs DDCanonProofs DDOpsProofs DDGateProofs DDProps
  SimModel SimOpProofs SimPermProofs SimLoopProofs.
Import ListNotations.
Local Open Scope R_scope.

(** ** Sums over the qubits below n *)
Fixpoint wsum (n : nat) (F : bits -> R) (b : bits) : R :=
  match n with O => F b | S k => wsum k F (setb b k false) + wsum k F (setb b k true) end.
Lemma wsum_sumq n F b : wsum n F b = sumq (rev (seq 0 n)) F b.
Proof. revert b. induction n as [|n IH]; intros b; auto. rewrite seq_S, rev_app_distr. cbn. now rewrite !IH. Qed.
Lemma weight_wsum n psi b : weight_from n psi b = wsum n (fun b => Cnorm2 (psi b)) b.
Proof. revert b. induction n as [|n IH]; intros b; cbn; auto. now rewrite !IH. Qed.
Lemma wsum_ext_in n F G : forall b, (forall c, (forall q, (n <= q)%nat -> c q = b q) -> F c = G c) -> wsum n F b = wsum n G b.
Proof.
  induction n as [|n IH]; intros b H; cbn; [apply H; auto|].
  f_equal; apply IH; intros c Q; apply H; intros q L; rewrite Q by lia; apply setb_other; lia.
Qed.
Lemma wsum_ext n F G b : (forall c, F c = G c) -> wsum n F b = wsum n G b.
Proof. intros H. apply wsum_ext_in. auto. Qed.
Lemma wsum_add n F G : forall b, wsum n (fun c => F c + G c) b = wsum n F b + wsum n G b.
Proof. induction n as [|n IH]; intros b; cbn; auto. rewrite !IH. ring. Qed.
Lemma wsum_scal n k F : forall b, wsum n (fun c => k * F c) b = k * wsum n F b.
Proof. induction n as [|n IH]; intros b; cbn; auto. rewrite !IH. ring. Qed.
Lemma wsum_zero n : forall b, wsum n (fun _ => 0) b = 0.
Proof. induction n as [|n IH]; intros b; cbn; auto. rewrite !IH. ring. Qed.
Lemma wsum_nonneg n F : (forall c, 0 <= F c) -> forall b, 0 <= wsum n F b.
Proof. intros H. induction n as [|n IH]; intros b; cbn; auto. pose proof (IH (setb b n false)). pose proof (IH (setb b n true)). lra. Qed.
Lemma weight_nonneg n psi : 0 <= weight n psi.
Proof. unfold weight. rewrite weight_wsum. apply wsum_nonneg. intros. apply Cnorm2_pos. Qed.
Lemma weight_sscal n c psi : weight n (sscal c psi) = Cnorm2 c * weight n psi.
Proof.
  unfold weight. rewrite !weight_wsum, <- wsum_scal. apply wsum_ext. intros b. unfold sscal. apply Cnorm2_mul.
Qed.
Lemma weight_split n q psi : weight n psi = weight n (project q false psi) + weight n (project q true psi).
Proof.
  unfold weight. rewrite !weight_wsum, <- wsum_add. apply wsum_ext. intros b. unfold project.
  destruct (b q); cbn [eqb]; rewrite Cnorm2_0; ring.
Qed.

(* renaming the qubits below n *)
Lemma sumq_pull (pi : nat -> nat) f qs : inj pi -> forall b,
  sumq (map pi qs) (fun b => f (fun x => b (pi x))) b = sumq qs f (fun x => b (pi x)).
Proof. intros I. induction qs as [|q qs IH]; intros b; cbn; auto. rewrite !IH, !setb_move by auto. auto. Qed.
Lemma permutes_seq n pi : permutes n pi -> Permutation (map pi (rev (seq 0 n))) (rev (seq 0 n)).
Proof.
  intros (I & L & _). apply NoDup_Permutation_bis.
  - apply NoDup_map_inj; auto. apply NoDup_rev, seq_NoDup.
  - rewrite map_length. auto.
  - intros x X. apply in_map_iff in X. destruct X as (y & <- & Y). apply in_rev in Y. apply -> in_rev. apply in_seq in Y. apply in_seq.
    split; [lia|]. apply L. lia.
Qed.
Lemma wsum_pull n pi f : permutes n pi -> wsum n (fun b => f (fun x => b (pi x))) (fun _ => false) = wsum n f (fun _ => false).
Proof.
  intros P. rewrite !wsum_sumq.
  rewrite <- (sumq_perm _ _ _ (permutes_seq n pi P)) by (apply NoDup_map_inj; [apply P|apply NoDup_rev, seq_NoDup]).
  rewrite sumq_pull by apply P. auto.
Qed.
Lemma weight_move n pi psi : permutes n pi -> weight n (move pi psi) = weight n psi.
Proof. intros P. unfold weight. rewrite !weight_wsum. apply (wsum_pull n pi (fun b => Cnorm2 (psi b)) P). Qed.

(** ** Canonical diagrams *)
Lemma vcan_wsum : forall t n w b, vcan n w t -> w <> C0 -> wsum n (fun c => Cnorm2 (vden t c)) b = 1.
Proof.
  induction t as [|q ws s IH]; intros n w b H W.
  - destruct H as [->|H]; [|tauto]. cbn. apply Cnorm2_1.
  - destruct H as (_ & -> & [U _] & H). cbn [wsum].
    assert (T : forall k, wsum q (fun c => Cnorm2 (vden (VNode q ws s) c)) (setb b q k) = Cnorm2 (ws k)).
    { intros k. rewrite (wsum_ext_in q _ (fun c => Cnorm2 (ws k) * Cnorm2 (vden (s k) c))).
      2:{ intros c A. cbn [vden]. rewrite (A q) by lia. rewrite setb_same. apply Cnorm2_mul. }
      rewrite wsum_scal. destruct (Ceq_dec (ws k) C0) as [Z|Z]; [rewrite Z, Cnorm2_0; ring|].
      rewrite (IH k q (ws k)) by auto. ring. }
    rewrite !T. auto.
Qed.
Lemma weight_veden n e : vcanon n e -> weight n (veden e) = Cnorm2 (fst e).
Proof.
  intros H. unfold weight. rewrite weight_wsum.
  rewrite (wsum_ext n _ (fun c => Cnorm2 (fst e) * Cnorm2 (vden (snd e) c))) by (intros; unfold veden; apply Cnorm2_mul).
  rewrite wsum_scal. destruct (Ceq_dec (fst e) C0) as [Z|Z]; [rewrite Z, Cnorm2_0; ring|].
  rewrite (vcan_wsum (snd e) n (fst e)) by auto. ring.
Qed.

(** ** The breadth-first search *)
Fixpoint pw (index : nat) (i : bool) (t : vtree) : R :=
  match t with
  | VT => 0
  | VNode v w s => if Nat.eqb v index then Cnorm2 (w i)
                   else Cnorm2 (w false) * pw index i (s false) + Cnorm2 (w true) * pw index i (s true)
  end.
Lemma pw_spec index i : forall t n w b, vcan n w t -> w <> C0 -> (index < n)%nat ->
  wsum n (fun c => Cnorm2 (project index i (vden t) c)) b = pw index i t.
Proof.
  induction t as [|q ws s IH]; intros n w b H W L.
  - destruct H as [->|H]; [lia|tauto].
  - destruct H as (_ & -> & _ & H). cbn [wsum pw]. destruct (Nat.eqb_spec q index) as [->|NE].
    + assert (T : forall k, wsum index (fun c => Cnorm2 (project index i (vden (VNode index ws s)) c)) (setb b index k)
        = if eqb k i then Cnorm2 (ws i) else 0).
      { intros k. rewrite (wsum_ext_in index _ (fun c => (if eqb k i then Cnorm2 (ws i) else 0) * Cnorm2 (vden (s i) c))).
        2:{ intros c A. unfold project. cbn [vden]. rewrite (A index) by lia. rewrite setb_same.
            destruct (eqb k i) eqn:E; [apply eqb_prop in E; subst; apply Cnorm2_mul|rewrite Cnorm2_0; ring]. }
        rewrite wsum_scal. destruct (eqb k i); [|ring]. destruct (Ceq_dec (ws i) C0) as [Z|Z]; [rewrite Z, Cnorm2_0; ring|].
        rewrite (vcan_wsum (s i) index (ws i)) by auto. ring. }
      rewrite !T. destruct i; cbn; ring.
    + assert (T : forall k, wsum q (fun c => Cnorm2 (project index i (vden (VNode q ws s)) c)) (setb b q k)
        = Cnorm2 (ws k) * pw index i (s k)).
      { intros k. rewrite (wsum_ext_in q _ (fun c => Cnorm2 (ws k) * Cnorm2 (project index i (vden (s k)) c))).
        2:{ intros c A. unfold project. cbn [vden]. rewrite (A q) by lia. rewrite setb_same.
            destruct (eqb (c index) i); [apply Cnorm2_mul|rewrite Cnorm2_0; ring]. }
        rewrite wsum_scal. destruct (Ceq_dec (ws k) C0) as [Z|Z]; [rewrite Z, Cnorm2_0; ring|].
        rewrite (IH k q (ws k)) by (auto; lia). auto. }
      rewrite !T. auto.
Qed.

Lemma azero_0 w : azero 0 w = true <-> w = C0.
Proof.
  unfold azero. split.
  - intros H. destruct (Rle_dec (Rabs (fst w)) 0) as [A|A]; [|discriminate]. destruct (Rle_dec (Rabs (snd w)) 0) as [B|B]; [|discriminate].
    pose proof (Rabs_pos (fst w)). pose proof (Rabs_pos (snd w)). apply Ceq; cbn.
    + destruct (Req_dec (fst w) 0) as [|N]; auto. apply Rabs_pos_lt in N. lra.
    + destruct (Req_dec (snd w) 0) as [|N]; auto. apply Rabs_pos_lt in N. lra.
  - intros ->. cbn. rewrite Rabs_R0. destruct (Rle_dec 0 0); [auto|lra].
Qed.
Lemma azero_0f w : azero 0 w = false <-> w <> C0.
Proof. rewrite <- azero_0. destruct (azero 0 w); split; intros; congruence. Qed.

Lemma pm_get_set m t p x : pm_get (pm_set m t p) x = if vtree_eq_dec t x then Some p else pm_get m x.
Proof.
  induction m as [|[y r] m IH]; cbn.
  - auto.
  - destruct (vtree_eq_dec y t) as [->|N]; cbn.
    + destruct (vtree_eq_dec t x); auto.
    + destruct (vtree_eq_dec y x) as [->|M]; [|exact IH]. destruct (vtree_eq_dec t x); congruence.
Qed.

Definition qsum (g : vtree -> R) (q : list vtree) : R := fold_right (fun t a => g t + a) 0 q.
Lemma qsum_app g a b : qsum g (a ++ b) = qsum g a + qsum g b.
Proof. unfold qsum. induction a as [|t a IH]; cbn; [ring|]. rewrite IH. ring. Qed.
Lemma qsum_ext g h q : (forall t, In t q -> g t = h t) -> qsum g q = qsum h q.
Proof. unfold qsum. induction q as [|t q IH]; cbn; intros H; auto. rewrite H, IH; auto. Qed.
Lemma qsum_one g h q t d : NoDup q -> In t q -> h t = g t + d -> (forall x, In x q -> x <> t -> h x = g x) -> qsum h q = qsum g q + d.
Proof.
  induction q as [|x q IH]; intros N I E O; [destruct I|]. inversion N; subst.
  change (qsum h (x :: q)) with (h x + qsum h q). change (qsum g (x :: q)) with (g x + qsum g q). destruct I as [->|I].
  - rewrite E. rewrite (qsum_ext h g q) by (intros y Y; apply O; [cbn; auto|intros ->; auto]). ring.
  - rewrite IH by (auto; intros; apply O; cbn; auto). rewrite O by (cbn; auto; intros ->; auto). ring.
Qed.

Definition nodeat (v : nat) (t : vtree) : Prop := exists w s, t = VNode v w s /\ vcan (S v) C1 t.
Definition nsum (q : list vtree) : nat := fold_right (fun t a => (tsize t + a)%nat) 0%nat q.
Lemma nsum_app a b : nsum (a ++ b) = (nsum a + nsum b)%nat.
Proof. unfold nsum. induction a as [|t a IH]; cbn; auto. rewrite IH. lia. Qed.

Section Bfs.
Context (index : nat).
Definition val (m : list (vtree * R)) (i : bool) (t : vtree) : R := pm_val m t * pw index i t.
Record bfs_inv (v : nat) (A B : list vtree) (m : list (vtree * R)) : Prop := {
  bi_nodup : NoDup (A ++ B);
  bi_A : Forall (nodeat v) A;
  bi_B : Forall (fun t => exists u, v = S u /\ nodeat u t) B;
  bi_in : forall t, In t (A ++ B) -> exists r, pm_get m t = Some r;
  bi_key : forall x r, pm_get m x = Some r -> (v <= S (vvar x))%nat /\ ((vvar x < v)%nat -> In x B) }.

Lemma pm_val_set m t p x : pm_val (pm_set m t p) x = if vtree_eq_dec t x then p else pm_val m x.
Proof. unfold pm_val. rewrite pm_get_set. destruct (vtree_eq_dec t x); auto. Qed.

Lemma push_spec v A B m pr w t : bfs_inv (S v) A B m -> (w <> C0 -> nodeat v t) ->
  exists B' m', bfs_push pr w t (A ++ B, m) = (A ++ B', m') /\ bfs_inv (S v) A B' m' /\
    (forall i, qsum (val m' i) (A ++ B') = qsum (val m i) (A ++ B) + pr * Cnorm2 w * pw index i t) /\
    (nsum (A ++ B') <= nsum (A ++ B) + tsize t)%nat /\ (w <> C0 -> B' <> []) /\ (B <> [] -> B' <> []).
Proof.
  intros V N. unfold bfs_push. destruct (azero 0 w) eqn:Z.
  - apply azero_0 in Z. exists B, m. split; [auto|]. split; [auto|]. split; [intros i; rewrite Z, Cnorm2_0; ring|]. split; [lia|].
    split; [tauto|auto].
  - apply azero_0f in Z. specialize (N Z). destruct N as (ws & s & -> & Cn). set (t := VNode v ws s) in *.
    destruct V as [ND HA HB HI HK]. destruct (pm_get m t) as [old|] eqn:G.
    + destruct (HK _ _ G) as [_ IB]. specialize (IB ltac:(cbn; lia)).
      exists B, (pm_set m t (old + pr * Cnorm2 w)). split; [auto|]. split; [|split; [|split; [lia|]]].
      * split; auto.
        -- intros x X. rewrite pm_get_set. destruct (vtree_eq_dec t x); eauto.
        -- intros x r X. rewrite pm_get_set in X. destruct (vtree_eq_dec t x) as [<-|]; [split; [cbn; lia|auto]|eauto].
      * intros i. apply (qsum_one _ _ _ t); auto.
        -- apply in_or_app. auto.
        -- unfold val. rewrite pm_val_set. destruct (vtree_eq_dec t t); [|tauto]. unfold pm_val. rewrite G. ring.
        -- intros x _ X. unfold val. rewrite pm_val_set. destruct (vtree_eq_dec t x); [subst; tauto|auto].
      * split; intros _ ->; destruct IB.
    + exists (B ++ [t]), (pm_set m t (pr * Cnorm2 w)). rewrite app_assoc. split; [auto|].
      assert (NI : ~ In t (A ++ B)) by (intros X; destruct (HI _ X); congruence).
      split; [|split; [|split; [|split; [intros _ X; destruct B; discriminate|intros _ X; destruct B; discriminate]]]].
      * split; auto.
        -- rewrite app_assoc. apply (Permutation_NoDup (Permutation_cons_append (A ++ B) t)). constructor; auto.
        -- apply Forall_app. split; auto. constructor; auto. exists v. split; auto. exists ws, s. auto.
        -- intros x X. rewrite pm_get_set. destruct (vtree_eq_dec t x); [eauto|]. rewrite app_assoc in X. apply in_app_or in X.
           destruct X as [X|[X|[]]]; [auto|congruence].
        -- intros x r X. rewrite pm_get_set in X. destruct (vtree_eq_dec t x) as [<-|].
           ++ split; [cbn; lia|]. intros _. apply in_or_app. cbn. auto.
           ++ destruct (HK _ _ X) as [K1 K2]. split; [auto|]. intros L. apply in_or_app. auto.
      * intros i. rewrite qsum_app. cbn [qsum fold_right]. unfold val at 2. rewrite pm_val_set. destruct (vtree_eq_dec t t); [|tauto].
        rewrite (qsum_ext _ (val m i)); [ring|]. intros x X. unfold val. rewrite pm_val_set. destruct (vtree_eq_dec t x); [subst; tauto|auto].
      * rewrite nsum_app. cbn [nsum fold_right]. lia.
Qed.

Lemma nodeat_child v w s i : vcan (S v) C1 (VNode v w s) -> w i <> C0 -> (0 < v)%nat -> nodeat (pred v) (s i).
Proof.
  intros (_ & _ & _ & H) W P. specialize (H i). destruct (s i) as [|u ws ss] eqn:E.
  - destruct H; [lia|tauto].
  - destruct H as (_ & -> & U & H). cbn. exists ws, ss. split; [auto|]. split; [apply C1_neq_C0|]. auto.
Qed.

Lemma bfs_spec : forall fuel v A B m, bfs_inv v A B m -> (nsum (A ++ B) <= fuel)%nat -> (index <= v)%nat -> A <> [] ->
  (B = [] \/ index < v)%nat ->
  exists q' m', bfs fuel index (A ++ B) m = DOk (q', m') /\ Forall (nodeat index) q' /\
    (forall i, qsum (val m' i) q' = qsum (val m i) (A ++ B)).
Proof.
  induction fuel as [|f IH]; intros v A B m V F L NA HB.
  { destruct A as [|t A]; [tauto|]. pose proof (bi_A _ _ _ _ V) as FA. inversion FA as [|? ? (w & s & -> & _) _]; subst. cbn in F. lia. }
  destruct A as [|t A]; [tauto|]. pose proof (bi_A _ _ _ _ V) as FA. inversion FA as [|? ? (w & s & -> & Cn) FA']; subst. clear FA.
  cbn [app bfs]. destruct (Nat.eqb_spec v index) as [->|NE].
  { destruct HB as [->|]; [|lia]. rewrite app_nil_r in *. exists (VNode index w s :: A), m. split; [auto|]. split; [|auto].
    constructor; auto. exists w, s. auto. }
  destruct v as [|v]; [lia|]. set (h := VNode (S v) w s) in *.
  assert (V0 : bfs_inv (S v) A B m).
  { destruct V as [ND HA HB' HI HK]. inversion ND; subst. split; auto. intros t T. apply HI. cbn. auto. }
  destruct (bi_in _ _ _ _ V h) as (pr0 & G); [cbn; auto|].
  assert (NB : forall B', bfs_inv (S v) A B' m -> True) by auto. clear NB.
  destruct (push_spec v A B m (pm_val m h) (w false) (s false) V0) as (B1 & m1 & P1 & V1 & S1 & F1 & N1 & N1').
  { intros W. apply (nodeat_child (S v) w s false Cn W); lia. }
  destruct (push_spec v A B1 m1 (pm_val m h) (w true) (s true) V1) as (B2 & m2 & P2 & V2 & S2 & F2 & N2 & N2').
  { intros W. apply (nodeat_child (S v) w s true Cn W); lia. }
  rewrite P1, P2.
  assert (NB : B2 <> []).
  { destruct Cn as (_ & _ & U & _). destruct (Ceq_dec (w false) C0) as [Z|Z]; [|auto]. destruct (Ceq_dec (w true) C0) as [Z'|Z']; [|auto].
    exfalso. destruct U as [U _]. revert U. rewrite Z, Z', !Cnorm2_0. lra. }
  assert (T : forall i, qsum (val m2 i) (A ++ B2) = qsum (val m i) (h :: A ++ B)).
  { intros i. rewrite S2, S1. change (qsum (val m i) (h :: A ++ B)) with (val m i h + qsum (val m i) (A ++ B)).
    unfold val at 2. unfold h at 4. cbn [pw]. replace (Nat.eqb (S v) index) with false by (symmetry; apply Nat.eqb_neq; auto). fold h. ring. }
  assert (F' : (nsum (A ++ B2) <= f)%nat).
  { assert (F0 : nsum ((h :: A) ++ B) = (S (tsize (s false) + tsize (s true)) + nsum (A ++ B))%nat) by reflexivity. rewrite F0 in F. clear - F F1 F2. lia. }
  destruct A as [|a A].
  - cbn [app] in *. rewrite <- (app_nil_r B2) in *.
    destruct (IH v B2 [] m2) as (q' & m' & E & Q & T'); auto; [|lia| |].
    + destruct V2 as [ND HA HB' HI HK]. cbn [app] in *. split; auto.
      * rewrite app_nil_r in *. revert HB'. apply Forall_impl. intros t (u & X & Y). injection X as <-. auto.
      * intros x r X. destruct (HK _ _ X) as [K1 K2]. split; [lia|]. intros Y. lia.
    + rewrite app_nil_r in NB. auto.
    + exists q', m'. split; [auto|]. split; [auto|]. intros i. rewrite T'. apply T.
  - destruct (IH (S v) (a :: A) B2 m2) as (q' & m' & E & Q & T'); auto; [discriminate|right; lia|].
    exists q', m'. split; [auto|]. split; [auto|]. intros i. rewrite T'. apply T.
Qed.

Lemma bfs_sum_qsum m i q : Forall (nodeat index) q -> bfs_sum m i q = qsum (val m i) q.
Proof.
  intros F. induction F as [|t q (w & s & -> & Cn) F IH]; [auto|].
  cbn [bfs_sum qsum fold_right]. unfold bfs_sum in IH. rewrite IH. unfold qsum. unfold val at 2. cbn [pw]. rewrite Nat.eqb_refl.
  destruct (azero 0 (w i)) eqn:Z; [apply azero_0 in Z; rewrite Z, Cnorm2_0|]; ring.
Qed.
End Bfs.

Theorem probabilities_spec n e index : vcanon n e -> fst e <> C0 -> (index < n)%nat ->
  determineMeasurementProbabilities e index
  = DOk (weight n (project index false (veden e)), weight n (project index true (veden e))).
Proof.
  intros Cn W L. destruct e as [we t]. cbn [fst snd] in *. unfold vcanon in Cn. cbn [fst snd] in Cn.
  assert (P : forall i, weight n (project index i (veden (we, t))) = Cnorm2 we * pw index i t).
  { intros i. unfold weight. rewrite weight_wsum. rewrite <- (pw_spec index i t n we (fun _ => false)) by auto. rewrite <- wsum_scal.
    apply wsum_ext. intros b. unfold project, veden. cbn [fst snd].
    destruct (eqb (b index) i); [apply Cnorm2_mul|rewrite Cnorm2_0; ring]. }
  rewrite !P. unfold determineMeasurementProbabilities. cbn [fst snd].
  destruct t as [|v w s]; [destruct Cn; [lia|tauto]|]. pose proof Cn as Cn'. destruct Cn as (_ & -> & U & K).
  set (h := VNode v w s) in *.
  assert (N : nodeat v h). { exists w, s. split; [auto|]. split; [apply C1_neq_C0|]. auto. }
  destruct (bfs_spec index (tsize h) v [h] [] [(h, Cnorm2 we)]) as (q & m & E & Q & T).
  - split.
    + cbn. constructor; [intros []|constructor].
    + constructor; auto.
    + constructor.
    + intros t [X|[]]. rewrite <- X. cbn [pm_get]. destruct (vtree_eq_dec h h); [eexists; reflexivity|tauto].
    + intros x r. cbn [pm_get]. destruct (vtree_eq_dec h x) as [X|]; [|discriminate]. intros _. rewrite <- X. cbn. split; lia.
  - cbn. lia.
  - lia.
  - discriminate.
  - auto.
  - cbn [app] in E. rewrite E. cbn [dbind]. rewrite !(bfs_sum_qsum index) by auto. rewrite !T. cbn [qsum fold_right app]. unfold val. cbn [pm_val pm_get].
    unfold pm_val. cbn [pm_get]. destruct (vtree_eq_dec h h); [|tauto]. rewrite !Rplus_0_r. auto.
Qed.

(** ** Collapsing *)
Definition pmat (i : bool) : mat := fun r c => match r, c with [a], [b] => if Bool.eqb a b && Bool.eqb a i then C1 else C0 | _, _ => C0 end.
Lemma pmat_act q i psi : capply [] (pmat i) [q] psi = project q i psi.
Proof.
  apply functional_extensionality. intros b. unfold capply, apply, project, csum, pmat. cbn [sat forallb length allb map app setl].
  pose proof (setb_id b q) as E. destruct (b q) eqn:B, i; cbn [Bool.eqb andb]; rewrite ?E; ring.
Qed.
Lemma collapse_spec n e index p mz : vcanon n e -> (index < n)%nat -> 0 < p ->
  exists r, performCollapsing n e index p mz = DOk r /\ vcanon n r /\
    veden r = sscal (RtoC (/ sqrt p)) (project index (negb mz) (veden e)).
Proof.
  intros Cn L P. unfold performCollapsing.
  destruct (C13_makeGateDD n n (pmat (negb mz)) [] index (le_n n)) as (g & G & Cg & Dg).
  { split; [constructor|]. split; [constructor|]. split; [constructor; auto|]. intros t _ []. }
  change (makeGateDD n (fun i j => if Bool.eqb i j && Bool.eqb i (negb mz) then C1 else C0) [] index = DOk g) in G.
  rewrite G. cbn [dbind]. destruct (mv_spec n g e Cg Cn) as (r & R & Cr & Dr). rewrite R. cbn [dbind].
  destruct (Rlt_dec 0 p); [|tauto]. eexists. split; [reflexivity|]. split; [apply vscal_canon; auto|].
  rewrite vscal_den, Dr, Dg, pmat_act. auto.
Qed.
Lemma collapse_zero n e index i : vcanon n e -> (index < n)%nat -> weight n (project index i (veden e)) = 0 ->
  project index i (veden e) = fun _ => C0.
Proof.
  intros Cn L W. destruct (C13_makeGateDD n n (pmat i) [] index (le_n n)) as (g & G & Cg & Dg).
  { split; [constructor|]. split; [constructor|]. split; [constructor; auto|]. intros t _ []. }
  destruct (mv_spec n g e Cg Cn) as (r & R & Cr & Dr). rewrite Dg, pmat_act in Dr. rewrite <- Dr in W |- *.
  rewrite weight_veden in W by auto. apply Cnorm2_zero in W. apply functional_extensionality. intros b.
  unfold veden. rewrite W. ring.
Qed.

(* C48 *)
Theorem measureOne_spec n e index : vcanon n e -> Cnorm2 (fst e) = 1 -> (index < n)%nat ->
  let p0 := weight n (project index false (veden e)) in
  let p1 := weight n (project index true (veden e)) in
  p0 + p1 = 1 /\ 0 <= p0 /\ 0 <= p1 /\
  exists r0 r1, measureOneCollapsing n e index = RFlip p0 (RRet r0) (RRet r1) /\
    (0 < p0 -> exists v, r0 = DOk (false, v) /\ vcanon n v /\ Cnorm2 (fst v) = 1 /\
       veden v = sscal (RtoC (/ sqrt p0)) (project index false (veden e))) /\
    (0 < p1 -> exists v, r1 = DOk (true, v) /\ vcanon n v /\ Cnorm2 (fst v) = 1 /\
       veden v = sscal (RtoC (/ sqrt p1)) (project index true (veden e))).
Proof.
  intros Cn W L p0 p1.
  assert (S1 : p0 + p1 = 1). { unfold p0, p1. rewrite <- weight_split, weight_veden by auto. auto. }
  split; [auto|]. split; [apply weight_nonneg|]. split; [apply weight_nonneg|].
  unfold measureOneCollapsing. rewrite (probabilities_spec n) by (auto; intros X; rewrite X, Cnorm2_0 in W; lra).
  cbn [rlift]. fold p0 p1. destruct (Req_EM_T (p0 + p1) 1); [|tauto]. rewrite S1.
  replace (p0 / 1) with p0 by field. do 2 eexists. split; [reflexivity|].
  assert (Q : forall p, 0 < p -> / sqrt p * / sqrt p * p = 1).
  { intros p P. pose proof (sqrt_lt_R0 p P) as SP. rewrite <- (sqrt_sqrt p) at 3 by lra. field. lra. }
  split; intros P.
  - destruct (collapse_spec n e index p0 true Cn L P) as (v & E & Cv & D). exists v. rewrite E. split; [auto|]. split; [auto|]. split; [|auto].
    rewrite <- (weight_veden n) by auto. rewrite D, weight_sscal, Cnorm2_RtoC. apply Q. auto.
  - destruct (collapse_spec n e index p1 false Cn L P) as (v & E & Cv & D). exists v. rewrite E. split; [auto|]. split; [auto|]. split; [|auto].
    rewrite <- (weight_veden n) by auto. rewrite D, weight_sscal, Cnorm2_RtoC. apply Q. auto.
Qed.
