(** Neutral-atom computations: proofs. *)
From Coq Require Import List Arith ZArith Bool Reals Lra Lia Permutation Sorted.
From Verif Require Import NAModel NASpec.
Import ListNotations.

(** ** Locations *)
Lemma loc_eq_iff a b : loc_eq a b = true <-> a = b.
Proof.
  unfold loc_eq. rewrite andb_true_iff, !Z.eqb_eq. destruct a, b; cbn. split; [intros [-> ->]; auto|intros [= -> ->]; auto].
Qed.
Lemma loc_lt_iff a b : loc_lt a b = true <-> (lx a < lx b)%Z \/ (lx a = lx b /\ ly a < ly b)%Z.
Proof. unfold loc_lt. rewrite orb_true_iff, andb_true_iff, !Z.ltb_lt, Z.eqb_eq. tauto. Qed.
Lemma loc_trich a b : loc_lt a b = false -> loc_lt b a = false -> a = b.
Proof.
  intros H1 H2. destruct a as [xa ya], b as [xb yb].
  assert (N1 : ~ loc_lt {| lx := xa; ly := ya |} {| lx := xb; ly := yb |} = true) by congruence.
  assert (N2 : ~ loc_lt {| lx := xb; ly := yb |} {| lx := xa; ly := ya |} = true) by congruence.
  rewrite loc_lt_iff in N1, N2. cbn in *. f_equal; lia.
Qed.

(** ** Sending *)
Lemma nth_combine {A B} (l : list A) (t : list B) a b : length l = length t ->
  (In (a, b) (combine l t) <-> exists i, nth_error l i = Some a /\ nth_error t i = Some b).
Proof.
  revert t. induction l as [|x l IH]; intros [|y t] L; cbn in *; try discriminate.
  - split; [tauto|]. intros [i [H _]]. now rewrite nth_error_nil in H || (destruct i; discriminate).
  - split.
    + intros [[= -> ->]|H]; [exists 0; auto|]. apply IH in H as [i H]; [|lia]. exists (S i). auto.
    + intros [[|i] [H1 H2]]; cbn in *; [left; congruence|]. right. apply IH; [lia|]. eauto.
Qed.
Lemma sends_in o a l : constructible o ->
  (sends o a l <-> exists t, op_targets o = Some t /\ In (a, l) (combine (op_atoms o) t)).
Proof.
  intros C. unfold sends. split.
  - intros (t & i & T & H). exists t. split; auto. apply nth_combine; eauto.
    destruct o as [l' [t'|]|l' t'|l' [t'|]|l'|]; cbn in *; congruence.
  - intros (t & T & H). apply nth_combine in H as [i H]. { exists t, i. tauto. }
    destruct o as [l' [t'|]|l' t'|l' [t'|]|l'|]; cbn in *; congruence.
Qed.
Lemma combine_fst_nodup {A B} (l : list A) (t : list B) : NoDup l -> NoDup (map fst (combine l t)).
Proof.
  intros N. revert t. induction N as [|a l H N IH]; intros [|y t]; cbn; try constructor; auto.
  intros X. apply in_map_iff in X as [[a' b] [<- X]]. apply in_combine_l in X. auto.
Qed.
Lemma move_all_other cur l a : (forall e, ~ In (a, e) l) -> move_all cur l a = cur a.
Proof.
  unfold move_all. revert cur. induction l as [|[b e] l IH]; intros cur H; cbn; auto.
  rewrite IH by (intros e' X; apply (H e'); cbn; auto). unfold set. destruct (Nat.eqb_spec a b) as [->|]; auto.
  exfalso. apply (H e). now left.
Qed.
Lemma move_all_in cur l a e : NoDup (map fst l) -> In (a, e) l -> move_all cur l a = Some e.
Proof.
  unfold move_all. revert cur. induction l as [|[b e'] l IH]; intros cur N H; cbn in *; [tauto|].
  apply NoDup_cons_iff in N as [N1 N2]. destruct H as [[= -> ->]|H]; [|auto].
  change (move_all (set cur a e) l a = Some e). rewrite move_all_other.
  - unfold set. now rewrite Nat.eqb_refl.
  - intros e2 X. apply N1. apply in_map_iff. exists (a, e2). auto.
Qed.

(** ** The checks *)
Lemma check_pair_ok cur a e1 b e2 : check_pair cur a e1 b e2 = None <->
  a <> b /\ keeps (at_or_origin cur a) (at_or_origin cur b) e1 e2.
Proof.
  unfold check_pair, keeps. set (s1 := at_or_origin cur a). set (s2 := at_or_origin cur b).
  destruct (Nat.eqb_spec a b) as [->|N]; [split; [discriminate|tauto]|].
  destruct (loc_eq e1 e2) eqn:E.
  { apply loc_eq_iff in E as ->. split; [discriminate|tauto]. }
  assert (E' : e1 <> e2) by (intros X; apply loc_eq_iff in X; congruence). clear E.
  rewrite !Z.geb_leb, !Z.gtb_ltb.
  destruct (Z.compare_spec (lx s1) (lx s2)) as [X|X|X], (Z.compare_spec (ly s1) (ly s2)) as [Y|Y|Y],
    (Z.compare_spec (lx e1) (lx e2)) as [U|U|U], (Z.compare_spec (ly e1) (ly e2)) as [V|V|V];
  repeat (first
    [ rewrite (proj2 (Z.eqb_eq _ _)) by lia | rewrite (proj2 (Z.eqb_neq _ _)) by lia
    | rewrite (proj2 (Z.ltb_lt _ _)) by lia | rewrite (proj2 (Z.ltb_ge _ _)) by lia
    | rewrite (proj2 (Z.leb_le _ _)) by lia | rewrite (proj2 (Z.leb_gt _ _)) by lia ]); cbn [andb negb];
  try (split; [discriminate|intros (_ & _ & A & B); discriminate]); tauto.
Qed.
Lemma check_row_ok cur a e l : check_row cur a e l = None <->
  forall b e2, In (b, e2) l -> a <> b /\ keeps (at_or_origin cur a) (at_or_origin cur b) e e2.
Proof.
  induction l as [|[b e2] l IH]; cbn; [split; auto; tauto|].
  destruct (check_pair cur a e b e2) eqn:E.
  - split; [discriminate|]. intros H. specialize (H b e2 (or_introl eq_refl)). apply check_pair_ok in H. congruence.
  - apply check_pair_ok in E. rewrite IH. split; intros H.
    + intros b' e' [[= <- <-]|X]; auto.
    + intros; apply H; auto.
Qed.
Lemma keeps_sym s1 s2 e1 e2 : keeps s1 s2 e1 e2 -> keeps s2 s1 e2 e1.
Proof.
  intros (A & B & D). repeat split; auto.
  - rewrite (Z.compare_antisym (lx s1)), (Z.compare_antisym (lx e1)). now f_equal.
  - rewrite (Z.compare_antisym (ly s1)), (Z.compare_antisym (ly e1)). now f_equal.
Qed.
Lemma check_all_ok cur l : check_all cur l = None <->
  NoDup (map fst l) /\ forall a e1 b e2, In (a, e1) l -> In (b, e2) l -> a <> b ->
    keeps (at_or_origin cur a) (at_or_origin cur b) e1 e2.
Proof.
  induction l as [|[a e] l IH]; cbn [check_all map].
  - split; [intros _; split; [constructor|cbn; tauto]|auto].
  - destruct (check_row cur a e l) eqn:E.
    + split; [discriminate|]. intros [N H]. apply NoDup_cons_iff in N as [N1 N2].
      assert (check_row cur a e l = None); [|congruence]. apply check_row_ok. intros b e2 X.
      assert (a <> b). { intros ->. apply N1. apply in_map_iff. exists (b, e2). auto. }
      split; auto. apply (H a e b e2); cbn; auto.
    + pose proof (proj1 (check_row_ok _ _ _ _) E) as R. rewrite IH. split; intros [N H]; (split; [|]).
      * constructor; auto. intros X. apply in_map_iff in X as [[b e2] [X1 X2]]. cbn in X1. subst b. apply R in X2. tauto.
      * intros a' e1 b e2 [[= <- <-]|X] [[= <- <-]|Y] D; auto; [tauto|now apply R|]. apply keeps_sym. now apply R.
      * now apply NoDup_cons_iff in N.
      * intros a' e1 b e2 X Y. apply H; cbn; auto.
Qed.
Lemma existsb_in a l : existsb (Nat.eqb a) l = true <-> In a l.
Proof. rewrite existsb_exists. split; [intros (x & I & E); apply Nat.eqb_eq in E; congruence|intros I; exists a; rewrite Nat.eqb_refl; auto]. Qed.
Lemma all_new_ok used l : all_new used l = true <-> NoDup l /\ forall a, In a l -> ~ In a used.
Proof.
  revert used. induction l as [|a l IH]; intros used; cbn [all_new].
  - split; [intros _; split; [constructor|cbn; tauto]|auto].
  - destruct (existsb (Nat.eqb a) used) eqn:E.
    + apply existsb_in in E. split; [discriminate|]. intros [_ H]. exfalso. apply (H a); cbn; auto.
    + assert (E' : ~ In a used) by (rewrite <- existsb_in; congruence). rewrite IH. split; intros [N H].
      * split; [constructor; auto; intros X; apply (H a X); now left|]. intros b [<-|X]; auto. intros Y. apply (H b X). now right.
      * apply NoDup_cons_iff in N as [N1 N2]. split; auto. intros b X [<-|Y]; [auto|]. apply (H b); cbn; auto.
Qed.

(** ** Histories *)
Lemma split_snoc {A} (l : list A) x pre o post : l ++ [x] = pre ++ o :: post ->
  (post = [] /\ pre = l /\ o = x) \/ exists post', post = post' ++ [x] /\ l = pre ++ o :: post'.
Proof.
  intros H. destruct post as [|p post] using rev_ind.
  - apply app_inj_tail in H as [-> ->]. auto.
  - clear IHpost. right. exists post. rewrite app_comm_cons, app_assoc in H. apply app_inj_tail in H as [-> ->]. auto.
Qed.
Lemma loaded_snoc ops o a : loaded (ops ++ [o]) a <-> loads o a \/ (loaded ops a /\ ~ stores o a).
Proof.
  unfold loaded. split.
  - intros (pre & o' & post & E & L & S). apply split_snoc in E as [(-> & -> & ->)|(post' & -> & ->)]; auto.
    right. split; [|apply S; apply in_app_iff; cbn; auto]. exists pre, o', post'. repeat split; auto. intros x X. apply S, in_app_iff. auto.
  - intros [L|[(pre & o' & post & -> & L & S) N]].
    + exists ops, o, []. repeat split; auto.
    + exists pre, o', (post ++ [o]). rewrite <- app_assoc. repeat split; auto.
      intros x X. apply in_app_iff in X as [X|[<-|[]]]; auto.
Qed.
Lemma located_snoc init ops o a l : located init (ops ++ [o]) a l <->
  sends o a l \/ (located init ops a l /\ forall l', ~ sends o a l').
Proof.
  unfold located. split.
  - intros [(pre & o' & post & E & L & S)|[I S]].
    + apply split_snoc in E as [(-> & -> & ->)|(post' & -> & ->)]; auto. right. split.
      * left. exists pre, o', post'. repeat split; auto. intros x l' X. apply S, in_app_iff. auto.
      * intros l'. apply S, in_app_iff. cbn; auto.
    + right. split; [right; split; auto; intros x l' X; apply S, in_app_iff; auto|]. intros l'. apply S, in_app_iff. cbn; auto.
  - intros [L|[[(pre & o' & post & -> & L & S)|[I S]] N]].
    + left. exists ops, o, []. repeat split; auto.
    + left. exists pre, o', (post ++ [o]). rewrite <- app_assoc. repeat split; auto.
      intros x l' X. apply in_app_iff in X as [X|[<-|[]]]; auto.
    + right. split; auto. intros x l' X. apply in_app_iff in X as [X|[<-|[]]]; auto.
Qed.

(** The variables of [validate] describe the history. *)
Definition tracks (init : lmap) (ops : list naop) (cur : lmap) (sh : list atom) : Prop :=
  (forall a, In a sh <-> loaded ops a)
  /\ (forall a l, located init ops a l <-> cur a = Some l).

Section Step.
Variables (init : lmap) (pre : list naop) (cur : lmap) (sh : list atom) (o : naop).
Hypothesis T : tracks init pre cur sh.
Hypothesis CO : constructible o.
Hypothesis PL : forall a, In a (op_atoms o) -> exists l, cur a = Some l.

Lemma targets_ok t : op_targets o = Some t ->
  (check_all cur (combine (op_atoms o) t) = None <->
   NoDup (op_atoms o) /\ forall a b s1 s2 e1 e2, a <> b -> sends o a e1 -> sends o b e2 ->
    located init pre a s1 -> located init pre b s2 -> keeps s1 s2 e1 e2).
Proof.
  intros E. rewrite check_all_ok.
  assert (LEN : length (op_atoms o) = length t) by (destruct o as [l' [t'|]|l' t'|l' [t'|]|l'|]; cbn in *; congruence).
  assert (MF : map fst (combine (op_atoms o) t) = op_atoms o).
  { clear - LEN. revert t LEN. induction (op_atoms o) as [|x l IH]; intros [|y t] L; cbn in *; try discriminate; auto. f_equal. apply IH. lia. }
  rewrite MF.
  assert (SE : forall a l, sends o a l <-> In (a, l) (combine (op_atoms o) t)).
  { intros a l. rewrite sends_in by auto. split; [intros (t' & E' & H); congruence|eauto]. }
  split; intros [N H]; split; auto.
  - intros a b s1 s2 e1 e2 D S1 S2 L1 L2. apply (proj2 T) in L1, L2. apply SE in S1, S2.
    specialize (H a e1 b e2 S1 S2 D). unfold at_or_origin in H. now rewrite L1, L2 in H.
  - intros a e1 b e2 S1 S2 D.
    assert (I1 := in_combine_l _ _ _ _ S1). assert (I2 := in_combine_l _ _ _ _ S2).
    destruct (PL a I1) as [l1 C1], (PL b I2) as [l2 C2]. unfold at_or_origin. rewrite C1, C2.
    apply (H a b l1 l2); auto; try (apply SE; auto); apply (proj2 T); auto.
Qed.
Lemma no_targets : op_targets o = None -> forall a l, ~ sends o a l.
Proof. intros E a l (t & i & X & _). congruence. Qed.

Lemma moved_ok t : op_targets o = Some t -> NoDup (op_atoms o) -> forall a l,
  (located init (pre ++ [o]) a l <-> move_all cur (combine (op_atoms o) t) a = Some l).
Proof.
  intros E N a l. rewrite located_snoc.
  assert (SE : forall a l, sends o a l <-> In (a, l) (combine (op_atoms o) t)).
  { intros a' l'. rewrite sends_in by auto. split; [intros (t' & E' & H); congruence|eauto]. }
  assert (ND := combine_fst_nodup (op_atoms o) t N).
  destruct (in_dec Nat.eq_dec a (map fst (combine (op_atoms o) t))) as [I|I].
  - apply in_map_iff in I as [[a' e] [X I]]. cbn in X. subst a'. rewrite (move_all_in _ _ _ _ ND I). split.
    + intros [S|[_ S]]; [|exfalso; apply (S e), SE; auto]. apply SE in S.
      pose proof (move_all_in cur _ _ _ ND I). pose proof (move_all_in cur _ _ _ ND S). congruence.
    + intros [= <-]. left. now apply SE.
  - assert (NI : forall e, ~ In (a, e) (combine (op_atoms o) t)) by (intros e X; apply I, in_map_iff; exists (a, e); auto).
    rewrite move_all_other by auto. rewrite <- (proj2 T). split; [intros [S|[L _]]; auto; apply SE in S; exfalso; eapply NI; eauto|].
    intros L. right. split; auto. intros l' S. apply SE in S. eapply NI; eauto.
Qed.

(** The part of [validate_op] common to the shuttling operations. *)
Definition shuttle (sh' : list atom) : naerr + lmap * list atom :=
  match op_targets o with
  | Some t =>
      match check_all cur (combine (op_atoms o) t) with
      | Some x => inl x
      | None => inr (move_all cur (combine (op_atoms o) t), sh')
      end
  | None => inr (cur, sh')
  end.
Definition geometry : Prop :=
  (op_targets o <> None -> NoDup (op_atoms o)) /\
  forall a b s1 s2 e1 e2, a <> b -> sends o a e1 -> sends o b e2 ->
    located init pre a s1 -> located init pre b s2 -> keeps s1 s2 e1 e2.
Lemma shuttle_ok sh' : (forall a, In a sh' <-> loaded (pre ++ [o]) a) ->
  match shuttle sh' with
  | inl _ => ~ geometry
  | inr (cur', sh'') => geometry /\ tracks init (pre ++ [o]) cur' sh''
  end.
Proof.
  intros SH. unfold shuttle, geometry. destruct (op_targets o) as [t|] eqn:E.
  - destruct (check_all cur (combine (op_atoms o) t)) eqn:K.
    + intros [G1 G2]. pose proof (proj2 (targets_ok t E)) as X. rewrite K in X. discriminate X. split; auto. apply G1. discriminate.
    + apply (targets_ok t E) in K as [N K]. split; [split; auto|]. split; auto. apply (moved_ok t E N).
  - split; [split; [congruence|]|split; auto].
    + intros a b s1 s2 e1 e2 _ S. now apply no_targets in S.
    + intros a l. rewrite located_snoc, <- (proj2 T). split; [intros [S|[L _]]; auto; now apply no_targets in S|].
      intros L. right. split; auto. now apply no_targets.
Qed.
Lemma all_loaded l : existsb (fun a => negb (existsb (Nat.eqb a) sh)) l = false <-> forall a, In a l -> loaded pre a.
Proof.
  rewrite <- not_true_iff_false, existsb_exists. split.
  - intros H a I. apply (proj1 T). apply existsb_in. destruct (existsb (Nat.eqb a) sh) eqn:E; auto. exfalso. apply H. exists a. rewrite E. auto.
  - intros H (a & I & E). apply H, (proj1 T), existsb_in in I. rewrite I in E. discriminate.
Qed.
End Step.

Lemma geometry_iff init pre o : legal init pre o <->
  (forall a, loads o a -> ~ loaded pre a) /\ match o with Move l _ | Store l _ => forall a, In a l -> loaded pre a | _ => True end
  /\ ((exists l, o = Local l) -> NoDup (op_atoms o)) /\ geometry init pre o.
Proof.
  split.
  - intros [A B D E]. split; [auto|split; [auto|split; [auto|split; auto]]].
  - intros (A & B & D & E & F). split; auto. intros [X|X]; auto.
Qed.
Lemma step_ok init pre cur sh o : tracks init pre cur sh -> constructible o ->
  (forall a, In a (op_atoms o) -> exists l, cur a = Some l) ->
  match validate_op cur sh o with
  | inl _ => ~ legal init pre o
  | inr (cur', sh') => legal init pre o /\ tracks init (pre ++ [o]) cur' sh'
  end.
Proof.
  intros T CO PL. pose proof (shuttle_ok init pre cur sh o T CO PL) as S. unfold shuttle in S. pose proof (geometry_iff init pre o) as GI.
  assert (FL : forall a : atom, False -> ~ loaded pre a) by tauto.
  destruct o as [l t|l t|l t|l|]; cbn [validate_op]; cbn [op_targets op_atoms loads] in *.
  - destruct (existsb (fun a => existsb (Nat.eqb a) sh) l) eqn:E.
    + intros L0. apply GI in L0 as (L & _). apply existsb_exists in E as (a & I & E). apply existsb_in in E. apply (proj1 T) in E. now apply (L a).
    + specialize (S (l ++ sh)).
      assert (SH : forall a, In a (l ++ sh) <-> loaded (pre ++ [Load l t]) a).
      { intros a. rewrite in_app_iff, loaded_snoc, (proj1 T). cbn. tauto. }
      specialize (S SH).
      assert (LD : forall a, In a l -> ~ loaded pre a).
      { intros a I L. apply (proj1 T) in L. apply existsb_in in L.
        assert (existsb (fun a => existsb (Nat.eqb a) sh) l = true); [apply existsb_exists; eauto|congruence]. }
      assert (NL : (exists l0, Load l t = Local l0) -> NoDup l) by (intros [? X]; discriminate).
      destruct t as [t|]; [destruct (check_all _ _)|]; tauto.
  - destruct (existsb (fun a => negb (existsb (Nat.eqb a) sh)) l) eqn:E.
    + intros L0. apply GI in L0 as (_ & L & _). apply (proj2 (all_loaded init pre cur sh T l)) in L. congruence.
    + pose proof (proj1 (all_loaded init pre cur sh T l) E) as E'. specialize (S sh).
      assert (SH : forall a, In a sh <-> loaded (pre ++ [Move l t]) a).
      { intros a. rewrite loaded_snoc, (proj1 T). cbn. tauto. }
      specialize (S SH).
      assert (NL : (exists l0, Move l t = Local l0) -> NoDup l) by (intros [? X]; discriminate).
      destruct (check_all _ _); tauto.
  - destruct (existsb (fun a => negb (existsb (Nat.eqb a) sh)) l) eqn:E.
    + intros L0. apply GI in L0 as (_ & L & _). apply (proj2 (all_loaded init pre cur sh T l)) in L. congruence.
    + pose proof (proj1 (all_loaded init pre cur sh T l) E) as E'. specialize (S (filter (fun a => negb (existsb (Nat.eqb a) l)) sh)).
      assert (SH : forall a, In a (filter (fun a => negb (existsb (Nat.eqb a) l)) sh) <-> loaded (pre ++ [Store l t]) a).
      { intros a. rewrite filter_In, negb_true_iff, <- not_true_iff_false, existsb_in, loaded_snoc, (proj1 T). cbn. tauto. }
      specialize (S SH).
      assert (NL : (exists l0, Store l t = Local l0) -> NoDup l) by (intros [? X]; discriminate).
      destruct t as [t|]; [destruct (check_all _ _)|]; tauto.
  - pose proof (all_new_ok [] l) as A. specialize (S sh). destruct (all_new [] l).
    + assert (SH : forall a, In a sh <-> loaded (pre ++ [Local l]) a) by (intros a; rewrite loaded_snoc, (proj1 T); cbn; tauto).
      specialize (S SH). assert (NoDup l) by tauto. tauto.
    + intros L0. apply GI in L0 as (_ & _ & L & _). assert (false = true); [|discriminate]. apply A. split; [apply L; eauto|auto].
  - specialize (S sh). assert (SH : forall a, In a sh <-> loaded (pre ++ [Global]) a) by (intros a; rewrite loaded_snoc, (proj1 T); cbn; tauto).
    specialize (S SH). assert (NL : (exists l0, Global = Local l0) -> NoDup (@nil atom)) by (intros [? X]; discriminate). tauto.
Qed.

(** ** The whole history *)
Lemma move_all_total cur l a : (exists x, cur a = Some x) -> exists x, move_all cur l a = Some x.
Proof.
  unfold move_all. revert cur. induction l as [|[b e] l IH]; intros cur H; cbn; auto.
  apply IH. unfold set. destruct (Nat.eqb a b); eauto.
Qed.
Lemma validate_op_total cur sh o cur' sh' a : validate_op cur sh o = inr (cur', sh') ->
  (exists x, cur a = Some x) -> exists x, cur' a = Some x.
Proof.
  intros V H. assert (M := fun l => move_all_total cur l a H).
  destruct o as [l [t|]|l t|l [t|]|l|]; unfold validate_op in V; cbn [op_targets op_atoms] in V;
  repeat match type of V with context [if ?b then _ else _] => destruct b end; try discriminate;
  try (destruct (check_all _ _); [discriminate|]); injection V as <- _; auto.
Qed.
Lemma validate_ops_ok init ops : forall pre cur sh k,
  tracks init pre cur sh -> (forall a l, init a = Some l -> exists x, cur a = Some x) ->
  (forall o, In o ops -> constructible o /\ forall a, In a (op_atoms o) -> exists l, init a = Some l) ->
  match validate_ops k cur sh ops with
  | None => forall p o q, ops = p ++ o :: q -> legal init (pre ++ p) o
  | Some (n, _) => exists p o q, ops = p ++ o :: q /\ n = (k + length p + 1)%nat /\ ~ legal init (pre ++ p) o
      /\ forall p' o' q', p = p' ++ o' :: q' -> legal init (pre ++ p') o'
  end.
Proof.
  induction ops as [|o ops IH]; intros pre cur sh k T G P; cbn [validate_ops].
  - intros p o q X. destruct p; discriminate.
  - destruct (P o (or_introl eq_refl)) as [CO PL].
    assert (ST := step_ok init pre cur sh o T CO (fun a I => let (l, E) := PL a I in G a l E)).
    destruct (validate_op cur sh o) as [x|[cur' sh']] eqn:V.
    + exists [], o, ops. cbn [app length]. rewrite app_nil_r. split; [auto|split; [lia|split; [auto|]]]. intros p' o' q' X. destruct p'; discriminate.
    + destruct ST as [L T'].
      specialize (IH (pre ++ [o]) cur' sh' (S k) T' (fun a l E => validate_op_total _ _ _ _ _ a V (G a l E)) (fun x I => P x (or_intror I))).
      destruct (validate_ops (S k) cur' sh' ops) as [[n x]|].
      * destruct IH as (p & o' & q & -> & N & IL & LG). exists (o :: p), o', q. cbn [app length]. rewrite <- app_assoc in IL. cbn [app] in IL.
        split; [auto|split; [lia|split; [auto|]]]. intros [|p0 p'] o2 q' X; cbn [app] in X; injection X as <- X.
        -- now rewrite app_nil_r.
        -- specialize (LG p' o2 q' X). now rewrite <- app_assoc in LG.
      * intros [|p0 p] o' q X; cbn [app] in X; injection X as <- X; [now rewrite app_nil_r|].
        specialize (IH p o' q X). now rewrite <- app_assoc in IH.
Qed.
Lemma tracks_nil init : tracks init [] init [].
Proof.
  split.
  - intros a. split; [intros []|]. intros (pre & o & post & E & _). destruct pre; discriminate.
  - intros a l. split; [|intros E; right; split; auto].
    intros [(pre & o & post & E & _)|[I _]]; auto. destruct pre; discriminate.
Qed.

(** ** Locations after an operation *)
Lemma find_combine (l : list (atom * loc)) a e : NoDup (map fst l) -> In (a, e) l -> find (fun p => Nat.eqb (fst p) a) l = Some (a, e).
Proof.
  induction l as [|[b x] l IH]; cbn; [tauto|]. intros N [[= -> ->]|I].
  - now rewrite Nat.eqb_refl.
  - apply NoDup_cons_iff in N as [N1 N2]. destruct (Nat.eqb_spec b a) as [->|]; auto. exfalso. apply N1, in_map_iff. exists (a, e). auto.
Qed.
Lemma target_of_ok init pre o a l : constructible o -> (op_targets o <> None -> NoDup (op_atoms o)) ->
  located init pre a l -> located init (pre ++ [o]) a (target_of a o l).
Proof.
  intros CO N L. rewrite located_snoc. unfold target_of. destruct (op_targets o) as [t|] eqn:E.
  - destruct (find _ _) as [[b e]|] eqn:F.
    + left. apply find_some in F as [F1 F2]. cbn [fst snd] in *. apply Nat.eqb_eq in F2 as ->. apply sends_in; auto. eauto.
    + right. split; auto. intros l' S. apply sends_in in S as (t' & E' & S); auto. rewrite E in E'. injection E' as <-.
      apply (find_none _ _ F) in S. cbn in S. now rewrite Nat.eqb_refl in S.
  - right. split; auto. intros l' (t & i & X & _). congruence.
Qed.
Lemma location_loop_ok init a ops : forall pre k l, located init pre a l ->
  (forall o, In o ops -> constructible o /\ (op_targets o <> None -> NoDup (op_atoms o))) ->
  located init (pre ++ firstn (S k) ops) a (location_loop a l k ops).
Proof.
  induction ops as [|o ops IH]; intros pre k l L P; cbn [location_loop firstn].
  - rewrite app_nil_r. exact L.
  - destruct (P o (or_introl eq_refl)) as [CO N]. assert (L' := target_of_ok init pre o a l CO N L).
    destruct k as [|k]; auto. specialize (IH (pre ++ [o]) k _ L' (fun x I => P x (or_intror I))). now rewrite <- app_assoc in IH.
Qed.

(** ** Straight lines *)
Lemma along_lt s1 s2 e1 e2 t : (s1 < s2)%Z -> (e1 < e2)%Z -> (0 <= t <= 1)%R ->
  ((1 - t) * IZR s1 + t * IZR e1 < (1 - t) * IZR s2 + t * IZR e2)%R.
Proof.
  intros A B T. apply IZR_lt in A, B.
  assert (0 <= (1 - t) * (IZR s2 - IZR s1))%R by (apply Rmult_le_pos; lra).
  assert (0 <= t * (IZR e2 - IZR e1))%R by (apply Rmult_le_pos; lra).
  destruct (Rle_lt_dec t 0).
  - assert (t = 0%R) as -> by lra. lra.
  - assert (0 < t * (IZR e2 - IZR e1))%R by (apply Rmult_lt_0_compat; lra). lra.
Qed.
Lemma keeps_apart s1 s2 e1 e2 t : keeps s1 s2 e1 e2 -> (0 <= t <= 1)%R -> s1 <> s2 -> along s1 e1 t <> along s2 e2 t.
Proof.
  intros (_ & X & Y) T N. unfold along. intros [= HX HY].
  destruct (Z.compare_spec (lx s1) (lx s2)) as [A|A|A]; symmetry in X.
  - destruct (Z.compare_spec (ly s1) (ly s2)) as [B|B|B]; symmetry in Y.
    + apply N. destruct s1, s2; cbn in *; congruence.
    + apply Z.compare_lt_iff in Y. pose proof (along_lt _ _ _ _ t B Y T). lra.
    + apply Z.compare_gt_iff in Y. pose proof (along_lt _ _ _ _ t B Y T). lra.
  - apply Z.compare_lt_iff in X. pose proof (along_lt _ _ _ _ t A X T). lra.
  - apply Z.compare_gt_iff in X. pose proof (along_lt _ _ _ _ t A X T). lra.
Qed.

(** ** The printed initial locations *)
Definition below (p q : loc * atom) : Prop := loc_lt (fst p) (fst q) = true.
Lemma map_emplace_perm m l a : ~ In l (map fst m) -> Permutation (map_emplace m l a) ((l, a) :: m).
Proof.
  induction m as [|[l' a'] m IH]; intros N; cbn; auto.
  destruct (loc_lt l l') eqn:E; auto. destruct (loc_lt l' l) eqn:E'.
  - rewrite IH by (cbn in N; tauto). constructor.
  - exfalso. apply N. left. cbn. symmetry. now apply loc_trich.
Qed.
Lemma map_emplace_hd m l a p : HdRel below p m -> loc_lt (fst p) l = true -> HdRel below p (map_emplace m l a).
Proof.
  intros H L. destruct m as [|[l' a'] m]; cbn; [constructor; auto|]. inversion H; subst.
  destruct (loc_lt l l'); [constructor; auto|]. destruct (loc_lt l' l); constructor; auto.
Qed.
Lemma map_emplace_sorted m l a : Sorted below m -> Sorted below (map_emplace m l a).
Proof.
  induction 1 as [|[l' a'] m S IH H]; cbn; [repeat constructor|].
  destruct (loc_lt l l') eqn:E; [constructor; [constructor; auto|constructor; auto]|].
  destruct (loc_lt l' l) eqn:E'; constructor; auto. now apply map_emplace_hd.
Qed.
Lemma asc_ok (l : list (atom * loc)) : forall m, Sorted below m -> NoDup (map snd l) ->
  (forall x, In x (map snd l) -> ~ In x (map fst m)) ->
  Sorted below (fold_left (fun m p => map_emplace m (snd p) (fst p)) l m)
  /\ Permutation (fold_left (fun m p => map_emplace m (snd p) (fst p)) l m) (map (fun p => (snd p, fst p)) l ++ m).
Proof.
  induction l as [|[a x] l IH]; intros m S N D; cbn [fold_left map app]; [auto|]. cbn [fst snd map] in *.
  apply NoDup_cons_iff in N as [N1 N2].
  assert (P := map_emplace_perm m x a (D x (or_introl eq_refl))).
  destruct (IH (map_emplace m x a)) as [S' P']; auto using map_emplace_sorted.
  - intros y I X. apply in_map_iff in X as [[y' a'] [E X]]. cbn in E. subst y'. apply (Permutation_in _ P) in X as [[= -> ->]|X]; [auto|].
    apply (D y (or_intror I)), in_map_iff. exists (y, a'). auto.
  - split; auto. rewrite P', P. symmetry. apply Permutation_middle.
Qed.
