(** backpropagateOutputPermutation yields a complete, consistent layout. *)
From Coq Require Import List Arith Bool Lia Permutation.
From Verif Require Import Cplx Qsem GateModel GateSpec OpProofs IRModel IRSpec IRProofs OptModel OptSem OptDagProofs OptProofs OptElideProofs.
Import ListNotations.
Local Open Scope list_scope.

(** The uncontrolled SWAPs in order, those in compound operations included. *)
Fixpoint swaps_of (o : cop) : list (nat * nat) :=
  match o with
  | OComp _ l => flat_map swaps_of l
  | _ => match is_plain_swap o with Some ab => [ab] | None => [] end
  end.
Definition swap_at (ab : nat * nat) (q : nat) : nat :=
  if Nat.eqb q (fst ab) then snd ab else if Nat.eqb q (snd ab) then fst ab else q.
(** Where the qubit that ends on [q] starts. *)
Definition trace (l : list cop) (q : nat) : nat := fold_right swap_at q (flat_map swaps_of l).

Lemma NoDup_app_intro {A} (l m : list A) : NoDup l -> NoDup m -> (forall x, In x l -> ~ In x m) -> NoDup (l ++ m).
Proof.
  induction 1 as [|a l N Hl IH]; simpl; auto. intros M D. constructor; [|apply IH; auto].
  rewrite in_app_iff. intros [I|I]; [contradiction|]. apply (D a); auto.
Qed.

Section B.
Variable pick : list nat -> nat.
Hypothesis pick_in : forall l, l <> [] -> In (pick l) l.
Variable n : nat.

Definition bstep (ab : nat * nat) (s : option (perm * list nat)) : option (perm * list nat) :=
  match s with Some s' => back_swap pick (fst ab) (snd ab) s' | None => None end.

Lemma back_op_eq o s : back_op pick o s = fold_right bstep (Some s) (swaps_of o).
Proof.
  revert s. induction o as [x|qs cs|qs|c o IH|cu l H] using cop_rect'; intros s; try reflexivity.
  - simpl. destruct x as [ty ps cs ts]. destruct ty; try reflexivity. destruct cs; try reflexivity.
    destruct ts as [|a [|b [|? ?]]]; reflexivity.
  - simpl. revert s. induction H as [|o l Ho Hl IHl]; intros s; simpl; auto.
    rewrite fold_right_app. rewrite IHl. destruct (fold_right bstep (Some s) (flat_map swaps_of l)) as [s'|].
    + apply Ho.
    + clear. induction (swaps_of o) as [|x l IH]; simpl; auto. now rewrite <- IH.
Qed.
Lemma back_ops_eq l s : back_ops pick l s = fold_right bstep (Some s) (flat_map swaps_of l).
Proof.
  induction l as [|o l IH]; simpl; auto. rewrite fold_right_app, IH.
  destruct (fold_right bstep (Some s) (flat_map swaps_of l)) as [s'|].
  - apply back_op_eq.
  - clear. induction (swaps_of o) as [|x l IH]; simpl; auto. now rewrite <- IH.
Qed.

Record binv (s : perm * list nat) : Prop := {
  b_keys : NoDup (map fst (fst s));
  b_lt : forall q, In q (map fst (fst s)) -> q < n;
  b_all : Permutation (map snd (fst s) ++ snd s) (seq 0 n)
}.

Lemma pset_none p q r : plookup p q = None -> pset p q r = p ++ [(q, r)].
Proof.
  induction p as [|[a b] p IH]; simpl; auto. destruct (Nat.eqb q a); [discriminate|]. intros H. now rewrite IH.
Qed.
Lemma pset_fst p q r x : plookup p q = Some x -> map fst (pset p q r) = map fst p.
Proof.
  induction p as [|[a b] p IH]; simpl; [discriminate|]. destruct (Nat.eqb q a); auto. intros H. simpl. now rewrite IH.
Qed.
Lemma pset_snd p q r x : plookup p q = Some x -> Permutation (x :: map snd (pset p q r)) (r :: map snd p).
Proof.
  induction p as [|[a b] p IH]; simpl; [discriminate|]. destruct (Nat.eqb q a); simpl.
  - intros H. inversion H; subst. apply perm_swap.
  - intros H. etransitivity; [apply perm_swap|]. etransitivity; [apply perm_skip; apply IH; auto|]. apply perm_swap.
Qed.
Lemma plookup_notin p q : plookup p q = None -> ~ In q (map fst p).
Proof. intros H I. apply plookup_some in I. destruct I as [r I]. congruence. Qed.

Lemma remove_perm z m : NoDup m -> In z m -> Permutation m (z :: remove_nat z m).
Proof.
  induction m as [|a m IH]; simpl; intros N I; [tauto|]. inversion N; subst. destruct I as [->|I].
  - rewrite Nat.eqb_refl. simpl. apply perm_skip.
    assert (E : remove_nat z m = m).
    { clear - H1. unfold remove_nat. induction m as [|b m IH]; simpl; auto. destruct (Nat.eqb_spec z b) as [->|NE]; simpl in *; [tauto|].
      rewrite IH; tauto. }
    now rewrite E.
  - destruct (Nat.eqb_spec z a) as [->|NE]; [tauto|]. simpl. etransitivity; [apply perm_skip; apply IH; auto|]. apply perm_swap.
Qed.

Lemma binv_len s : binv s -> length (fst s) + length (snd s) = n.
Proof. intros [_ _ P]. apply Permutation_length in P. rewrite app_length, map_length, seq_length in P. auto. Qed.
Lemma binv_nodup s : binv s -> NoDup (snd s).
Proof.
  intros [_ _ P]. assert (N : NoDup (map snd (fst s) ++ snd s)) by (eapply Permutation_NoDup; [symmetry; exact P|apply seq_NoDup]).
  revert N. generalize (map snd (fst s)). intros l. induction l; simpl; auto. intros N. inversion N; auto.
Qed.
(** If some key is missing, so is some value. *)
Lemma choose_ok s q w : binv s -> q < n -> plookup (fst s) q = None ->
  exists z m', choose pick w (snd s) = Some (z, m') /\ Permutation (snd s) (z :: m').
Proof.
  intros B L N. pose proof (binv_nodup s B) as ND. pose proof (binv_len s B) as LEN.
  assert (NE : snd s <> []).
  { intros E. rewrite E in LEN. simpl in LEN. pose proof (plookup_notin _ _ N) as NI.
    assert (X : length (q :: map fst (fst s)) <= length (seq 0 n)).
    { apply NoDup_incl_length; [constructor; auto; apply (b_keys _ B)|]. intros x [<-|I]; apply in_seq; [lia|].
      apply (b_lt _ B) in I. lia. }
    rewrite seq_length in X. simpl in X. rewrite map_length in X. lia. }
  unfold choose. destruct (memn w (snd s)) eqn:M.
  - eexists. eexists. split; [reflexivity|]. apply remove_perm; auto. now apply memn_In.
  - destruct (snd s) as [|a m] eqn:E; [congruence|]. rewrite <- E in *. eexists. eexists. split; [reflexivity|]. apply remove_perm; auto.
Qed.

Lemma back_swap_ok a b s : binv s -> a <> b -> a < n -> b < n ->
  exists s', back_swap pick a b s = Some s' /\ binv s' /\
    forall q x, plookup (fst s) q = Some x -> plookup (fst s') (swap_at (a, b) q) = Some x.
Proof.
  destruct s as [p m]. intros B N LA LB. unfold back_swap. pose proof B as [K L P]. cbn [fst snd] in *.
  destruct (plookup p a) as [x|] eqn:EA, (plookup p b) as [y|] eqn:EB.
  - eexists. split; [reflexivity|]. assert (EB' : plookup (pset p a y) b = Some y).
    { rewrite plookup_pset. destruct (Nat.eqb_spec b a); [congruence|auto]. }
    split.
    + split; cbn [fst snd].
      * now rewrite (pset_fst _ _ _ _ EB'), (pset_fst _ _ _ _ EA).
      * rewrite (pset_fst _ _ _ _ EB'), (pset_fst _ _ _ _ EA). auto.
      * rewrite <- P. apply Permutation_app_tail. apply (Permutation_cons_inv (a := y)).
        rewrite (pset_snd _ _ x _ EB'). apply (pset_snd _ _ y _ EA).
    + cbn [fst]. intros q z H. rewrite !plookup_pset. unfold swap_at. cbn [fst snd].
      destruct (Nat.eqb_spec q a) as [->|N1].
      * rewrite Nat.eqb_refl. congruence.
      * destruct (Nat.eqb_spec q b) as [->|N2].
        -- destruct (Nat.eqb_spec a b); [congruence|]. rewrite Nat.eqb_refl. congruence.
        -- destruct (Nat.eqb_spec q b); [congruence|]. destruct (Nat.eqb_spec q a); [congruence|auto].
  - destruct (choose_ok (p, m) b a B LB EB) as (z & m' & C & PM). cbn [snd] in *. rewrite C. eexists. split; [reflexivity|].
    assert (E1 : pset p b x = p ++ [(b, x)]) by now apply pset_none.
    assert (EA' : plookup (pset p b x) a = Some x).
    { rewrite plookup_pset. destruct (Nat.eqb_spec a b); [congruence|auto]. }
    split.
    + split; cbn [fst snd].
      * rewrite (pset_fst _ _ _ _ EA'), E1, map_app. simpl. apply (Permutation_NoDup (l := b :: map fst p)); [apply Permutation_cons_append|].
        constructor; auto. now apply plookup_notin.
      * rewrite (pset_fst _ _ _ _ EA'), E1, map_app. intros q I. apply in_app_or in I. destruct I as [I|[<-|[]]]; auto.
      * rewrite <- P, PM. rewrite <- Permutation_middle. apply (Permutation_app_tail m' (l' := z :: map snd p)).
        apply (Permutation_cons_inv (a := x)). rewrite (pset_snd _ _ z _ EA'), E1, map_app. simpl.
        rewrite (perm_swap z x). apply perm_skip. symmetry. apply Permutation_cons_append.
    + cbn [fst]. intros q v H. rewrite !plookup_pset. unfold swap_at. cbn [fst snd].
      destruct (Nat.eqb_spec q a) as [->|N1].
      * destruct (Nat.eqb_spec b a); [congruence|]. rewrite Nat.eqb_refl. congruence.
      * destruct (Nat.eqb_spec q b) as [->|N2]; [congruence|].
        destruct (Nat.eqb_spec q a); [congruence|]. destruct (Nat.eqb_spec q b); [congruence|auto].
  - destruct (choose_ok (p, m) a b B LA EA) as (z & m' & C & PM). cbn [snd] in *. rewrite C. eexists. split; [reflexivity|].
    assert (E1 : pset p a y = p ++ [(a, y)]) by now apply pset_none.
    assert (EB' : plookup (pset p a y) b = Some y).
    { rewrite plookup_pset. destruct (Nat.eqb_spec b a); [congruence|auto]. }
    split.
    + split; cbn [fst snd].
      * rewrite (pset_fst _ _ _ _ EB'), E1, map_app. simpl. apply (Permutation_NoDup (l := a :: map fst p)); [apply Permutation_cons_append|].
        constructor; auto. now apply plookup_notin.
      * rewrite (pset_fst _ _ _ _ EB'), E1, map_app. intros q I. apply in_app_or in I. destruct I as [I|[<-|[]]]; auto.
      * rewrite <- P, PM. rewrite <- Permutation_middle. apply (Permutation_app_tail m' (l' := z :: map snd p)).
        apply (Permutation_cons_inv (a := y)). rewrite (pset_snd _ _ z _ EB'), E1, map_app. simpl.
        rewrite (perm_swap z y). apply perm_skip. symmetry. apply Permutation_cons_append.
    + cbn [fst]. intros q v H. rewrite !plookup_pset. unfold swap_at. cbn [fst snd].
      destruct (Nat.eqb_spec q a) as [->|N1]; [congruence|].
      destruct (Nat.eqb_spec q b) as [->|N2].
      * destruct (Nat.eqb_spec a b); [congruence|]. rewrite Nat.eqb_refl. congruence.
      * destruct (Nat.eqb_spec q b); [congruence|]. destruct (Nat.eqb_spec q a); [congruence|auto].
  - eexists. split; [reflexivity|]. split; auto. cbn [fst]. intros q v H. unfold swap_at. cbn [fst snd].
    destruct (Nat.eqb_spec q a) as [->|N1]; [congruence|]. destruct (Nat.eqb_spec q b) as [->|N2]; [congruence|auto].
Qed.

Definition swap_ok (ab : nat * nat) : Prop := fst ab <> snd ab /\ fst ab < n /\ snd ab < n.
Lemma back_all l s : binv s -> Forall swap_ok l -> exists s', fold_right bstep (Some s) l = Some s' /\ binv s' /\
  forall q x, plookup (fst s) q = Some x -> plookup (fst s') (fold_right swap_at q l) = Some x.
Proof.
  intros B F. induction F as [|[a b] l (N & LA & LB) Fl IH]; simpl; [eauto|].
  destruct IH as (s1 & E & B1 & C1). rewrite E. simpl. destruct (back_swap_ok a b s1 B1 N LA LB) as (s2 & E2 & B2 & C2).
  exists s2. split; [auto|]. split; [auto|]. auto.
Qed.

Lemma fill_ok qs : forall s, binv s -> (forall q, In q qs -> q < n) -> exists p m, fill pick qs s = Some (p, m) /\ binv (p, m) /\
  (forall q x, plookup (fst s) q = Some x -> plookup p q = Some x) /\ (forall q, In q qs -> In q (map fst p)).
Proof.
  induction qs as [|q qs IH]; intros [p m] B L; simpl.
  - exists p, m. split; [auto|]. split; [auto|]. split; [auto|tauto].
  - destruct (plookup p q) as [x|] eqn:E.
    + destruct (IH (p, m) B) as (p' & m' & E' & B' & C' & K'); [intros; apply L; simpl; auto|].
      exists p', m'. split; [auto|]. split; [auto|]. split; [auto|]. intros y [<-|I]; auto. apply plookup_some. exists x. apply C'. auto.
    + destruct (choose_ok (p, m) q q B (L q (or_introl eq_refl)) E) as (z & m1 & C & PM). cbn [snd] in *. rewrite C.
      assert (B1 : binv (p ++ [(q, z)], m1)).
      { destruct B as [K LT P]. cbn [fst snd] in *. split; cbn [fst snd]; rewrite map_app; simpl.
        - apply (Permutation_NoDup (l := q :: map fst p)); [apply Permutation_cons_append|]. constructor; auto. now apply plookup_notin.
        - intros y I. apply in_app_or in I. destruct I as [I|[<-|[]]]; auto. apply L. simpl. auto.
        - rewrite <- P, PM. rewrite <- app_assoc. reflexivity. }
      destruct (IH _ B1) as (p' & m' & E' & B' & C' & K'); [intros; apply L; simpl; auto|].
      exists p', m'. split; [auto|]. split; [auto|].
      assert (LK : forall y, plookup (p ++ [(q, z)]) y = if Nat.eqb y q then Some z else plookup p y).
      { intros y. rewrite <- pset_none by auto. apply plookup_pset. }
      cbn [fst] in *. split.
      * intros y x H. apply C'. rewrite LK. destruct (Nat.eqb_spec y q); [congruence|auto].
      * intros y [<-|I]; auto. apply plookup_some. exists z. apply C'. now rewrite LK, Nat.eqb_refl.
Qed.

Lemma full_perm (l : list nat) : NoDup l -> (forall q, In q l -> q < n) -> n <= length l -> Permutation l (seq 0 n).
Proof.
  intros N L G. apply NoDup_Permutation_bis; auto.
  - rewrite seq_length. auto.
  - intros q I. apply in_seq. specialize (L q I). lia.
Qed.

Lemma start_inv out : NoDup (map fst out) -> NoDup (map snd out) -> (forall q x, In (q, x) out -> q < n /\ x < n) ->
  binv (out, filter (fun i => negb (memn i (map snd out))) (seq 0 n)).
Proof.
  intros K V L. split; cbn [fst snd]; auto.
  - intros q I. apply in_map_iff in I. destruct I as ((a & b) & <- & I). apply (L _ _ I).
  - apply NoDup_Permutation.
    + apply NoDup_app_intro; auto. { apply NoDup_filter, seq_NoDup. }
      intros x I J. apply filter_In in J. destruct J as [_ J]. rewrite (proj2 (memn_In x _) I) in J. discriminate.
    + apply seq_NoDup.
    + intros x. rewrite in_app_iff, filter_In, in_seq. split.
      * intros [I|[I _]]; auto. apply in_map_iff in I. destruct I as ((a & b) & <- & I). apply L in I. simpl. lia.
      * intros I. destruct (memn x (map snd out)) eqn:M; [left; now apply memn_In|right; auto].
Qed.

Lemma backpropagate_ok c : qc_n c = n -> NoDup (map fst (qc_out c)) -> NoDup (map snd (qc_out c)) ->
  (forall q x, In (q, x) (qc_out c) -> q < n /\ x < n) -> Forall swap_ok (flat_map swaps_of (qc_ops c)) ->
  exists c', backpropagate pick c = Some c' /\
    qc_ops c' = qc_ops c /\ qc_out c' = qc_out c /\ qc_n c' = qc_n c /\
    Permutation (map fst (qc_init c')) (seq 0 n) /\ Permutation (map snd (qc_init c')) (seq 0 n) /\
    forall q x, In (q, x) (qc_out c) -> plookup (qc_init c') (trace (qc_ops c) q) = Some x.
Proof.
  intros EN K V L F. unfold backpropagate. cbv zeta. rewrite EN. rewrite back_ops_eq.
  destruct (back_all _ _ (start_inv _ K V L) F) as ([p m] & E & B & C). match goal with |- context [fold_right bstep ?s ?l] => replace (fold_right bstep s l) with (Some (p, m)) by (symmetry; exact E) end. cbn [fst] in *.
  assert (C' : forall q x, In (q, x) (qc_out c) -> plookup p (trace (qc_ops c) q) = Some x).
  { intros q x I. apply C. now apply plookup_complete. }
  assert (FULL : forall p m, binv (p, m) -> n <= length p -> Permutation (map fst p) (seq 0 n) /\ Permutation (map snd p) (seq 0 n)).
  { intros p0 m0 B0 LE. pose proof (binv_len _ B0) as LEN. cbn [fst snd] in LEN. destruct B0 as [K0 L0 P0]. cbn [fst snd] in *.
    assert (m0 = []) by (destruct m0; auto; simpl in LEN; lia). subst m0. rewrite app_nil_r in P0. split; auto.
    apply full_perm; auto. now rewrite map_length. }
  destruct (Nat.eqb_spec (length p) n) as [LE|NE].
  - eexists. split; [reflexivity|]. cbn. destruct (FULL p m B) as [X Y]; [lia|]. repeat split; auto.
  - destruct (fill_ok (seq 0 n) (p, m) B) as (p' & m' & E' & B' & CC & KK); [intros q I; apply in_seq in I; lia|].
    rewrite E'. eexists. split; [reflexivity|]. cbn. destruct (FULL p' m' B') as [X Y].
    { pose proof (NoDup_incl_length (seq_NoDup n 0) KK) as Z. rewrite seq_length, map_length in Z. auto. }
    repeat split; auto.
Qed.
End B.
