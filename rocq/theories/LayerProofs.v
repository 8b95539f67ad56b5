(** Proofs about layers: the executable set and the counters. *)
From Coq Require Import List Arith ZArith Bool Lia Permutation.
From Verif Require Import GraphModel GraphProofs LayerModel LayerSpec.
Import ListNotations.

Definition exact_at (l : layer) (w : nat) : Prop := In w (exset l) <-> isExecutable l w = true.

Lemma existsb_mem v l : existsb (Nat.eqb v) l = true <-> In v l.
Proof.
  rewrite existsb_exists. split.
  - intros (x & A & B). apply Nat.eqb_eq in B. now subst.
  - intros A. exists v. split; auto. apply Nat.eqb_refl.
Qed.

Lemma update_verts l v : verts (updateExecutableSet l v) = verts l.
Proof.
  unfold updateExecutableSet. destruct (isExecutable l v), (existsb _ _); reflexivity.
Qed.

Lemma isExecutable_verts l l' w : verts l = verts l' -> isExecutable l w = isExecutable l' w.
Proof. unfold isExecutable. now intros ->. Qed.

Lemma update_exset l v w :
  In w (exset (updateExecutableSet l v)) <->
  (if Nat.eqb w v then isExecutable l v = true else In w (exset l)).
Proof.
  unfold updateExecutableSet.
  destruct (isExecutable l v) eqn:E; destruct (existsb (Nat.eqb v) (exset l)) eqn:M; simpl.
  - apply existsb_mem in M. destruct (Nat.eqb_spec w v); [subst; tauto|tauto].
  - destruct (Nat.eqb_spec w v); split; auto; intros [A|A]; auto; congruence.
  - rewrite filter_In. destruct (Nat.eqb_spec w v); simpl; split; auto; try discriminate; try tauto.
  - destruct (Nat.eqb_spec w v); [|tauto]. subst. split; [|discriminate].
    intros A. apply existsb_mem in A. congruence.
Qed.

Lemma update_nodup l v : NoDup (exset l) -> NoDup (exset (updateExecutableSet l v)).
Proof.
  intros N. unfold updateExecutableSet.
  destruct (isExecutable l v) eqn:E; destruct (existsb (Nat.eqb v) (exset l)) eqn:M; simpl; auto.
  - constructor; auto. intros A. apply existsb_mem in A. congruence.
  - now apply NoDup_filter.
Qed.

Lemma update_exact l v w :
  w = v \/ exact_at l w -> exact_at (updateExecutableSet l v) w.
Proof.
  unfold exact_at. intros H. rewrite update_exset.
  rewrite (isExecutable_verts (updateExecutableSet l v) l) by apply update_verts.
  destruct (Nat.eqb_spec w v); [subst; tauto|]. destruct H; [contradiction|auto].
Qed.

Lemma vmod_nth l v f w :
  nth_error (verts (vmod l v f)) w =
  if Nat.eqb w v then option_map f (nth_error (verts l) v) else nth_error (verts l) w.
Proof.
  unfold vmod. destruct (nth_error (verts l) v) eqn:E; simpl.
  - rewrite nth_error_upd; auto. apply nth_error_Some. congruence.
  - destruct (Nat.eqb_spec w v); subst; auto.
Qed.

Lemma vmod_len l v f : length (verts (vmod l v f)) = length (verts l).
Proof. unfold vmod. destruct (nth_error (verts l) v); simpl; auto. apply upd_length. Qed.

Lemma vmod_exset l v f : exset (vmod l v f) = exset l.
Proof. unfold vmod. destruct (nth_error (verts l) v); reflexivity. Qed.

Lemma vmod_exact l v f w : w <> v -> exact_at l w -> exact_at (vmod l v f) w.
Proof.
  unfold exact_at, isExecutable. rewrite vmod_exset, vmod_nth. intros N.
  apply Nat.eqb_neq in N. now rewrite N.
Qed.

Lemma vmod_exact_same l v f w :
  (forall x, vExecutable (f x) = vExecutable x) -> exact_at l w -> exact_at (vmod l v f) w.
Proof.
  unfold exact_at, isExecutable. rewrite vmod_exset, vmod_nth. intros H.
  destruct (Nat.eqb_spec w v); auto. subst.
  destruct (nth_error (verts l) v); simpl; auto. now rewrite H.
Qed.

Definition addc (d : Z) (x : vert) : vert := mkVert (thr x) (cnt x + d) (ensucc x) (dissucc x) (exd x).

Lemma addCounter_nth d l v w :
  nth_error (verts (addCounter d l v)) w =
  option_map (fun x => if Nat.eqb w v then addc d x else x) (nth_error (verts l) w).
Proof.
  unfold addCounter. rewrite update_verts, vmod_nth.
  destruct (Nat.eqb_spec w v); subst; auto. now destruct (nth_error (verts l) w).
Qed.

Lemma addCounter_exact d l v w : exact_at l w -> exact_at (addCounter d l v) w.
Proof.
  intros H. unfold addCounter. apply update_exact.
  destruct (Nat.eq_dec w v); auto. right. now apply vmod_exact.
Qed.

Lemma addCounter_nodup d l v : NoDup (exset l) -> NoDup (exset (addCounter d l v)).
Proof. intros. unfold addCounter. apply update_nodup. now rewrite vmod_exset. Qed.

Lemma addc_0 x : addc 0 x = x.
Proof. destruct x; unfold addc; simpl. f_equal. lia. Qed.

Lemma addc_addc a b x : addc a (addc b x) = addc (b + a) x.
Proof. unfold addc; simpl. f_equal. lia. Qed.

Definition cocc (js : list nat) (w : nat) : Z := Z.of_nat (count_occ Nat.eq_dec js w).

Lemma fold_counter d js l :
  (forall w, nth_error (verts (fold_left (addCounter d) js l)) w =
     option_map (addc (d * cocc js w)) (nth_error (verts l) w))
  /\ (NoDup (exset l) -> NoDup (exset (fold_left (addCounter d) js l)))
  /\ (forall w, exact_at l w -> exact_at (fold_left (addCounter d) js l) w).
Proof.
  revert l. induction js as [|j js IH]; intros l; simpl.
  - split; [|auto]. intros w. unfold cocc; simpl. rewrite Z.mul_0_r.
    destruct (nth_error (verts l) w); simpl; auto. now rewrite addc_0.
  - destruct (IH (addCounter d l j)) as (A & B & C). split; [|split].
    + intros w. rewrite A, addCounter_nth. destruct (nth_error (verts l) w); simpl; auto.
      unfold cocc. simpl. destruct (Nat.eq_dec j w).
      * subst. rewrite Nat.eqb_refl, addc_addc. do 2 f_equal. lia.
      * destruct (Nat.eqb_spec w j); [congruence|]. reflexivity.
    + intros N. apply B. now apply addCounter_nodup.
    + intros w H. apply C. now apply addCounter_exact.
Qed.

Definition net (x : vert) (v : nat) : Z := (cocc (ensucc x) v - cocc (dissucc x) v)%Z.

Definition from (p : list (nat * nat * Z)) (u : nat) : list (nat * nat * Z) :=
  filter (fun e => Nat.eqb (fst (fst e)) u) p.

Record Rel (l : layer) (s : lspec) : Prop := {
  r_len : length (verts l) = size s;
  r_nodup : NoDup (exset l);
  r_exact : forall v, exact_at l v;
  r_done : forall v x, nth_error (verts l) v = Some x -> (exd x = true <-> In v (done s));
  r_bal : forall v x, nth_error (verts l) v = Some x ->
            (thr x - cnt x)%Z = balance (pending s) v;
  r_net : forall u x, nth_error (verts l) u = Some x -> ~ In u (done s) ->
            forall v, net x v = balance (from (pending s) u) v
}.

Lemma rel_empty : Rel layer_empty lspec_empty.
Proof.
  constructor; simpl; auto; try (intros v; destruct v; discriminate); try (constructor; fail).
  - intros v. unfold exact_at, isExecutable. simpl. split; [tauto|]. destruct v; discriminate.
Qed.

Lemma rel_may l s v : Rel l s -> (isExecutable l v = true <-> may_execute s v).
Proof.
  intros R. unfold isExecutable, may_execute. split.
  - destruct (nth_error (verts l) v) as [x|] eqn:E; [|discriminate].
    unfold vExecutable. intros H. apply andb_true_iff in H. destruct H as [A B].
    apply Z.eqb_eq in B. apply negb_true_iff in A.
    split; [|split].
    + rewrite <- (r_len _ _ R). apply nth_error_Some. congruence.
    + intros C. apply (r_done _ _ R _ _ E) in C. congruence.
    + rewrite <- (r_bal _ _ R _ _ E). lia.
  - intros (A & B & C). destruct (nth_error (verts l) v) as [x|] eqn:E.
    2:{ apply nth_error_None in E. rewrite (r_len _ _ R) in E. lia. }
    unfold vExecutable. apply andb_true_iff. split.
    + apply negb_true_iff. destruct (exd x) eqn:F; auto.
      apply (r_done _ _ R _ _ E) in F. contradiction.
    + apply Z.eqb_eq. pose proof (r_bal _ _ R _ _ E). lia.
Qed.

Lemma balance_cons a b z p v :
  balance ((a, b, z) :: p) v = if Nat.eqb b v then (z + balance p v)%Z else balance p v.
Proof. reflexivity. Qed.

Lemma balance_fresh p v : (forall a b z, In (a, b, z) p -> b <> v) -> balance p v = 0%Z.
Proof.
  induction p as [|[[a b] z] p IH]; simpl; intros H; auto.
  destruct (Nat.eqb_spec b v).
  - exfalso. eapply H; eauto.
  - apply IH. intros. eapply H; eauto.
Qed.

Lemma filter_nil_iff {A} (f : A -> bool) l : (forall x, In x l -> f x = false) -> filter f l = [].
Proof.
  induction l as [|a l IH]; simpl; intros H; auto.
  rewrite (H a) by auto. apply IH. auto.
Qed.

(** The pending edges and the executed vertices are vertices of the graph. *)
Definition scoped (s : lspec) : Prop :=
  (forall a b z, In (a, b, z) (pending s) -> a < size s /\ b < size s)
  /\ (forall v, In v (done s) -> v < size s).

Lemma rel_create l s : scoped s -> Rel l s ->
  Rel (layer_create l) (mkSpec (S (size s)) (pending s) (done s)).
Proof.
  intros [Sc1 Sc2] R. unfold layer_create.
  set (l1 := mkLayer (verts l ++ [vnew]) (exset l)).
  assert (N : forall w, nth_error (verts (updateExecutableSet l1 (length (verts l)))) w =
      if Nat.ltb w (length (verts l)) then nth_error (verts l) w
      else if Nat.eqb w (length (verts l)) then Some vnew else None).
  { intros w. rewrite update_verts. unfold l1; simpl. apply nth_error_snoc. }
  constructor; cbn [size pending done].
  - rewrite update_verts. unfold l1; simpl. rewrite app_length, <- (r_len _ _ R). simpl. lia.
  - apply update_nodup. apply R.
  - intros v. apply update_exact. destruct (Nat.eq_dec v (length (verts l))); auto. right.
    pose proof (r_exact _ _ R v) as X. unfold exact_at in *. unfold l1 in *; simpl in *. rewrite X.
    unfold isExecutable. simpl. rewrite nth_error_snoc.
    destruct (Nat.ltb_spec v (length (verts l))); [tauto|].
    destruct (Nat.eqb_spec v (length (verts l))); [lia|].
    replace (nth_error (verts l) v) with (@None vert); [tauto|]. symmetry. now apply nth_error_None.
  - intros v x. rewrite N. destruct (Nat.ltb_spec v (length (verts l))).
    + apply R.
    + destruct (Nat.eqb_spec v (length (verts l))); [|discriminate]. intros Q; inversion Q; simpl.
      split; [discriminate|]. intros C. apply Sc2 in C. rewrite <- (r_len _ _ R) in C. lia.
  - intros v x. rewrite N. destruct (Nat.ltb_spec v (length (verts l))).
    + apply R.
    + destruct (Nat.eqb_spec v (length (verts l))); [|discriminate]. intros Q; inversion Q; simpl.
      symmetry. apply balance_fresh. intros a b z C. apply Sc1 in C. rewrite <- (r_len _ _ R) in C. lia.
  - intros u x. rewrite N. destruct (Nat.ltb_spec u (length (verts l))).
    + apply R.
    + destruct (Nat.eqb_spec u (length (verts l))); [|discriminate]. intros Q; inversion Q; simpl.
      intros _ v. unfold net; simpl. symmetry.
      replace (from (pending s) u) with (@nil (nat * nat * Z)); [reflexivity|].
      unfold from. symmetry. apply filter_nil_iff.
      intros [[a b] z] C. apply Sc1 in C. simpl. apply Nat.eqb_neq.
      rewrite <- (r_len _ _ R) in C. lia.
Qed.

Lemma rel_enable l s u v : u < size s -> v < size s -> Rel l s ->
  Rel (addEnabledSuccessor l u v) (mkSpec (size s) ((u, v, 1%Z) :: pending s) (done s)).
Proof.
  intros Hu Hv R. unfold addEnabledSuccessor.
  set (f := fun x => mkVert (thr x) (cnt x) (ensucc x ++ [v]) (dissucc x) (exd x)).
  set (g := fun x => mkVert (thr x + 1) (cnt x) (ensucc x) (dissucc x) (exd x)).
  set (l1 := vmod l u f). set (l2 := vmod l1 v g).
  assert (N : forall w, nth_error (verts (updateExecutableSet l2 v)) w =
      option_map (fun x => let y := if Nat.eqb w u then f x else x in
                           if Nat.eqb w v then g y else y) (nth_error (verts l) w)).
  { intros w. rewrite update_verts. unfold l2, l1. rewrite !vmod_nth.
    destruct (Nat.eqb_spec w v), (Nat.eqb_spec v u), (Nat.eqb_spec w u); subst; try congruence;
      try (destruct (nth_error (verts l) v); reflexivity);
      try (destruct (nth_error (verts l) u); reflexivity);
      destruct (nth_error (verts l) w); reflexivity. }
  constructor; cbn [size pending done].
  - rewrite update_verts. unfold l2, l1. rewrite !vmod_len. apply R.
  - apply update_nodup. unfold l2, l1. rewrite !vmod_exset. apply R.
  - intros w. apply update_exact. destruct (Nat.eq_dec w v); auto. right.
    unfold l2. apply vmod_exact; auto. unfold l1. apply vmod_exact_same; [reflexivity|apply R].
  - intros w x. rewrite N. destruct (nth_error (verts l) w) as [y|] eqn:E; cbn [option_map]; [|discriminate]; cbv zeta.
    intros Q; inversion Q; subst x. rewrite <- (r_done _ _ R _ _ E).
    destruct (Nat.eqb w u), (Nat.eqb w v); reflexivity.
  - intros w x. rewrite N. destruct (nth_error (verts l) w) as [y|] eqn:E; cbn [option_map]; [|discriminate]; cbv zeta.
    intros Q; inversion Q; subst x. pose proof (r_bal _ _ R _ _ E) as B.
    rewrite balance_cons, (Nat.eqb_sym v w).
    destruct (Nat.eqb w u), (Nat.eqb w v); cbn [thr cnt f g]; lia.
  - intros w x. rewrite N. destruct (nth_error (verts l) w) as [y|] eqn:E; cbn [option_map]; [|discriminate]; cbv zeta.
    intros Q ND k; inversion Q; subst x. pose proof (r_net _ _ R _ _ E ND k) as B.
    unfold net, from in *. cbn [filter fst snd]. rewrite (Nat.eqb_sym u w).
    assert (X : forall js, cocc (js ++ [v]) k = (cocc js k + (if Nat.eqb v k then 1 else 0))%Z).
    { intros js. unfold cocc. rewrite count_occ_app, Nat2Z.inj_add. simpl.
      destruct (Nat.eq_dec v k), (Nat.eqb_spec v k); try contradiction; reflexivity. }
    destruct (Nat.eqb w u), (Nat.eqb w v); rewrite ?balance_cons; unfold f, g;
      cbn [ensucc dissucc]; rewrite ?X;
      try destruct (Nat.eqb v k); lia.
Qed.

Lemma rel_disable l s u v : u < size s -> v < size s -> Rel l s ->
  Rel (addDisabledSuccessor l u v) (mkSpec (size s) ((u, v, (-1)%Z) :: pending s) (done s)).
Proof.
  intros Hu Hv R. unfold addDisabledSuccessor.
  set (f := fun x => mkVert (thr x) (cnt x) (ensucc x) (dissucc x ++ [v]) (exd x)).
  set (g := fun x => mkVert (thr x - 1) (cnt x) (ensucc x) (dissucc x) (exd x)).
  set (l1 := vmod l u f). set (l2 := vmod l1 v g).
  assert (N : forall w, nth_error (verts (updateExecutableSet l2 v)) w =
      option_map (fun x => let y := if Nat.eqb w u then f x else x in
                           if Nat.eqb w v then g y else y) (nth_error (verts l) w)).
  { intros w. rewrite update_verts. unfold l2, l1. rewrite !vmod_nth.
    destruct (Nat.eqb_spec w v), (Nat.eqb_spec v u), (Nat.eqb_spec w u); subst; try congruence;
      try (destruct (nth_error (verts l) v); reflexivity);
      try (destruct (nth_error (verts l) u); reflexivity);
      destruct (nth_error (verts l) w); reflexivity. }
  constructor; cbn [size pending done].
  - rewrite update_verts. unfold l2, l1. rewrite !vmod_len. apply R.
  - apply update_nodup. unfold l2, l1. rewrite !vmod_exset. apply R.
  - intros w. apply update_exact. destruct (Nat.eq_dec w v); auto. right.
    unfold l2. apply vmod_exact; auto. unfold l1. apply vmod_exact_same; [reflexivity|apply R].
  - intros w x. rewrite N. destruct (nth_error (verts l) w) as [y|] eqn:E; cbn [option_map]; [|discriminate]; cbv zeta.
    intros Q; inversion Q; subst x. rewrite <- (r_done _ _ R _ _ E).
    destruct (Nat.eqb w u), (Nat.eqb w v); reflexivity.
  - intros w x. rewrite N. destruct (nth_error (verts l) w) as [y|] eqn:E; cbn [option_map]; [|discriminate]; cbv zeta.
    intros Q; inversion Q; subst x. pose proof (r_bal _ _ R _ _ E) as B.
    rewrite balance_cons, (Nat.eqb_sym v w).
    destruct (Nat.eqb w u), (Nat.eqb w v); cbn [thr cnt f g]; lia.
  - intros w x. rewrite N. destruct (nth_error (verts l) w) as [y|] eqn:E; cbn [option_map]; [|discriminate]; cbv zeta.
    intros Q ND k; inversion Q; subst x. pose proof (r_net _ _ R _ _ E ND k) as B.
    unfold net, from in *. cbn [filter fst snd]. rewrite (Nat.eqb_sym u w).
    assert (X : forall js, cocc (js ++ [v]) k = (cocc js k + (if Nat.eqb v k then 1 else 0))%Z).
    { intros js. unfold cocc. rewrite count_occ_app, Nat2Z.inj_add. simpl.
      destruct (Nat.eq_dec v k), (Nat.eqb_spec v k); try contradiction; reflexivity. }
    destruct (Nat.eqb w u), (Nat.eqb w v); rewrite ?balance_cons; unfold f, g;
      cbn [ensucc dissucc]; rewrite ?X;
      try destruct (Nat.eqb v k); lia.
Qed.

Lemma balance_split p u v :
  balance p v = (balance (from p u) v
                 + balance (filter (fun e => negb (Nat.eqb (fst (fst e)) u)) p) v)%Z.
Proof.
  unfold from. induction p as [|[[a b] z] p IH]; simpl; auto.
  destruct (Nat.eqb a u); simpl; destruct (Nat.eqb b v); lia.
Qed.

Lemma from_filter p u w : w <> u ->
  from (filter (fun e => negb (Nat.eqb (fst (fst e)) u)) p) w = from p w.
Proof.
  intros N. unfold from. induction p as [|[[a b] z] p IH]; simpl; auto.
  destruct (Nat.eqb_spec a u); simpl.
  - destruct (Nat.eqb_spec a w); [congruence|auto].
  - destruct (Nat.eqb a w); [f_equal|]; auto.
Qed.

Lemma rel_execute l s v : Rel l s -> v < size s ->
  (may_execute s v /\ exists l', layer_execute l v = Ret l' /\ Rel l' (fire s v))
  \/ (~ may_execute s v /\ layer_execute l v = Exn l).
Proof.
  intros R Hv. unfold layer_execute.
  destruct (nth_error (verts l) v) as [x|] eqn:E.
  2:{ apply nth_error_None in E. rewrite (r_len _ _ R) in E. lia. }
  pose proof (rel_may _ _ v R) as M. unfold isExecutable in M. rewrite E in M.
  destruct (vExecutable x) eqn:X.
  2:{ right. split; auto. intros C. apply M in C. discriminate. }
  left. assert (May : may_execute s v) by now apply M.
  split; auto. eexists. split; [reflexivity|].
  set (f := fun x => mkVert (thr x) (cnt x) (ensucc x) (dissucc x) true).
  set (l1 := vmod l v f).
  destruct (fold_counter (-1) (dissucc x) l1) as (A1 & B1 & C1).
  change (addCounter (-1)) with decExecutableCounter in *.
  set (l2 := fold_left decExecutableCounter (dissucc x) l1) in *.
  destruct (fold_counter 1 (ensucc x) l2) as (A2 & B2 & C2).
  change (addCounter 1) with incExecutableCounter in *.
  set (l3 := fold_left incExecutableCounter (ensucc x) l2) in *.
  destruct May as (May1 & May2 & May3).
  assert (N : forall w, nth_error (verts (updateExecutableSet l3 v)) w =
     option_map (fun y => addc (net x w) (if Nat.eqb w v then f y else y)) (nth_error (verts l) w)).
  { intros w. rewrite update_verts, A2, A1. unfold l1. rewrite vmod_nth.
    destruct (Nat.eqb_spec w v).
    - subst w. rewrite E. cbn [option_map]. rewrite addc_addc. do 2 f_equal. unfold net. lia.
    - destruct (nth_error (verts l) w); cbn [option_map]; auto. rewrite addc_addc. do 2 f_equal. unfold net. lia. }
  pose proof (r_net _ _ R _ _ E May2) as NE.
  constructor; unfold fire; cbn [size pending done].
  - rewrite <- (r_len _ _ R). apply Nat.le_antisymm.
    + apply Nat.nlt_ge. intros L. apply nth_error_Some in L. rewrite N in L.
      apply L. destruct (nth_error (verts l) (length (verts l))) eqn:Q; auto.
      assert (length (verts l) < length (verts l)) by (apply nth_error_Some; congruence). lia.
    + apply Nat.nlt_ge. intros L. apply nth_error_Some in L. apply L.
      assert (Y : nth_error (verts (updateExecutableSet l3 v))
         (length (verts (updateExecutableSet l3 v))) = None) by (apply nth_error_None; lia).
      rewrite N in Y. destruct (nth_error (verts l) (length (verts (updateExecutableSet l3 v))));
        [discriminate|auto].
  - apply update_nodup. apply B2, B1. unfold l1. rewrite vmod_exset. apply R.
  - intros w. apply update_exact. destruct (Nat.eq_dec w v); auto. right. apply C2, C1.
    apply vmod_exact; auto. apply R.
  - intros w y. rewrite N. destruct (nth_error (verts l) w) as [y0|] eqn:F; simpl; [|discriminate].
    intros Q; inversion Q; subst y. simpl.
    destruct (Nat.eqb_spec w v); simpl.
    + split; auto.
    + rewrite (r_done _ _ R _ _ F). split; auto. intros [C|C]; auto. congruence.
  - intros w y. rewrite N. destruct (nth_error (verts l) w) as [y0|] eqn:F; simpl; [|discriminate].
    intros Q; inversion Q; subst y. simpl.
    pose proof (r_bal _ _ R _ _ F) as B. rewrite (balance_split _ v w), <- NE in B.
    destruct (Nat.eqb w v); simpl; lia.
  - intros w y. rewrite N. destruct (nth_error (verts l) w) as [y0|] eqn:F; simpl; [|discriminate].
    intros Q ND k; inversion Q; subst y.
    assert (w <> v) by (intros ->; apply ND; left; auto). rewrite from_filter by auto.
    rewrite <- (r_net _ _ R _ _ F) by (intros C; apply ND; right; auto).
    destruct (Nat.eqb_spec w v); [contradiction|]. reflexivity.
Qed.

Lemma scoped_step s o s' : scoped s -> lstep s o s' -> scoped s'.
Proof.
  intros [A B] H. inversion H; subst; unfold scoped; simpl.
  - split; intros; [apply A in H0; lia|apply B in H0; lia].
  - split; auto. intros a b z [C|C]; [inversion C; subst; auto|eauto].
  - split; auto. intros a b z [C|C]; [inversion C; subst; auto|eauto].
  - split.
    + intros a b z C. apply filter_In in C. destruct C. eauto.
    + intros w [C|C]; [subst; apply H0|auto].
  - split; auto.
Qed.

Lemma layer_run_ok ops : forall l s, Rel l s -> scoped s -> well_named (size s) ops ->
  exists l' s', layer_run ops l = Some l' /\ lsteps s ops s' /\ Rel l' s' /\ scoped s'.
Proof.
  induction ops as [|o ops IH]; intros l s R S W.
  - exists l, s. split; [reflexivity|]. split; [constructor|]. auto.
  - assert (K : exists l1 s1, lstep s o s1 /\ Rel l1 s1 /\ well_named (size s1) ops
       /\ (lop_apply l o = Ret l1 \/ lop_apply l o = Exn l1)).
    { destruct o as [|u v|u v|v]; simpl in W.
      - exists (layer_create l). eexists. split; [constructor|].
        split; [apply rel_create; auto|]. auto.
      - destruct W as (Hu & Hv & W). exists (addEnabledSuccessor l u v). eexists.
        split; [constructor; auto|]. split; [apply rel_enable; auto|]. auto.
      - destruct W as (Hu & Hv & W). exists (addDisabledSuccessor l u v). eexists.
        split; [constructor; auto|]. split; [apply rel_disable; auto|]. auto.
      - destruct W as (Hv & W).
        destruct (rel_execute _ _ v R Hv) as [[M (l' & A & B)]|[M A]].
        + exists l', (fire s v). split; [now constructor|]. auto.
        + exists l, s. split; [now constructor|]. auto. }
    destruct K as (l1 & s1 & A & B & C & D).
    destruct (IH l1 s1 B (scoped_step _ _ _ S A) C) as (l' & s' & E & F & G).
    exists l', s'. split; [|split; [econstructor; eauto|auto]].
    simpl. destruct D as [-> | ->]; auto.
Qed.

Lemma c55_exact ops :
  well_named 0 ops ->
  exists l s, layer_run ops layer_empty = Some l /\ lsteps lspec_empty ops s
    /\ NoDup (exset l)
    /\ (forall v, In v (exset l) <-> isExecutable l v = true)
    /\ (forall v, In v (exset l) <-> may_execute s v)
    /\ (forall v, v < size s ->
          (may_execute s v -> exists l', layer_execute l v = Ret l')
          /\ (~ may_execute s v -> layer_execute l v = Exn l)).
Proof.
  intros W.
  destruct (layer_run_ok ops layer_empty lspec_empty rel_empty) as (l & s & A & B & R & _); auto.
  { split; simpl; tauto. }
  exists l, s. split; auto. split; auto. split; [apply R|]. split; [apply R|]. split.
  - intros v. rewrite <- (rel_may _ _ v R). apply R.
  - intros v Hv. destruct (rel_execute _ _ v R Hv) as [[M (l' & X & _)]|[M X]]; split; intros; auto; try tauto.
    eauto.
Qed.
