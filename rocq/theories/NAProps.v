(** C77, C78: neutral-atom computations. *)
From Coq Require Import List Arith ZArith Bool Reals Lra Lia Permutation Sorted.
From Verif Require Import NAModel NASpec NAProofs.
Import ListNotations.

(** C77: [validate] accepts exactly the computations with as many initial
    locations as atoms in which every operation is legal at its place. *)
Theorem C77_validate c : placed c ->
  (validate c = None <-> na_atoms c = length (na_init c) /\ legal_all (lookup (na_init c)) (na_ops c)).
Proof.
  intros P. unfold validate, legal_all.
  pose proof (validate_ops_ok (lookup (na_init c)) (na_ops c) [] (lookup (na_init c)) [] 1 (tracks_nil _) ltac:(eauto) P) as V.
  destruct (Nat.eqb_spec (na_atoms c) (length (na_init c))) as [E|E]; cbn [negb]; [|split; [discriminate|tauto]].
  destruct (validate_ops _ _ _ _) as [[n x]|]; [|split; auto].
  split; [discriminate|]. intros [_ H]. exfalso. destruct V as (p & o & q & X & _ & N & _). apply N, (H p o q X).
Qed.
Print Assumptions C77_validate.

(** C77: the number in the error message is that of the first illegal operation
    (the first operation has number 2). *)
Theorem C77_first_error c n x : placed c -> validate c = Some (n, x) -> x <> TooFewLocations \/ n <> 0 ->
  exists p o q, na_ops c = p ++ o :: q /\ n = length p + 2
    /\ legal_all (lookup (na_init c)) p /\ ~ legal (lookup (na_init c)) p o.
Proof.
  intros P. unfold validate.
  pose proof (validate_ops_ok (lookup (na_init c)) (na_ops c) [] (lookup (na_init c)) [] 1 (tracks_nil _) ltac:(eauto) P) as V.
  destruct (negb _). { intros [= <- <-] [H|H]; congruence. }
  intros E _. rewrite E in V. destruct V as (p & o & q & X & N & IL & LG). exists p, o, q. split; [auto|split; [lia|split; [exact LG|exact IL]]].
Qed.
Print Assumptions C77_first_error.

(** C77: two atoms that are moved by the same operation of a valid computation
    along straight lines, from different places, never meet. *)
Theorem C77_no_collision c pre o post a b s1 s2 e1 e2 t : placed c -> validate c = None ->
  na_ops c = pre ++ o :: post -> a <> b -> sends o a e1 -> sends o b e2 ->
  located (lookup (na_init c)) pre a s1 -> located (lookup (na_init c)) pre b s2 -> s1 <> s2 ->
  (0 <= t <= 1)%R -> along s1 e1 t <> along s2 e2 t.
Proof.
  intros P V E D S1 S2 L1 L2 N T. apply C77_validate in V as [_ V]; auto.
  apply keeps_apart; auto. apply (legal_keeps _ _ _ (V pre o post E) a b); auto.
Qed.
Print Assumptions C77_no_collision.

(** C77: getLocationOfAtomAfterOperation returns the place of the atom after the
    operation in a valid computation. *)
Theorem C77_location c a k l : placed c -> validate c = None ->
  getLocationOfAtomAfterOperation c a k = Some l ->
  located (lookup (na_init c)) (firstn (S k) (na_ops c)) a l.
Proof.
  intros P V. apply C77_validate in V as [_ V]; auto. unfold getLocationOfAtomAfterOperation.
  destruct (lookup (na_init c) a) as [l0|] eqn:I; [|discriminate]. intros [= <-].
  apply (location_loop_ok (lookup (na_init c)) a (na_ops c) [] k l0); [right; split; auto|].
  intros o H. split; [apply (P o H)|]. apply in_split in H as (p & q & H). intros X. apply (legal_once _ _ _ (V p o q H)). auto.
Qed.
Print Assumptions C77_location.

(** C77: [toString] lists every atom with its initial location once, in the
    order of the locations, if no two atoms share a location. *)
Theorem C77_printed c : NoDup (map snd (na_init c)) ->
  Sorted (fun p q => loc_lt (fst p) (fst q) = true) (initialLocationsAsc c)
  /\ Permutation (initialLocationsAsc c) (map (fun p => (snd p, fst p)) (na_init c)).
Proof.
  intros N. unfold initialLocationsAsc. destruct (asc_ok (na_init c) [] ltac:(constructor) N) as [S P].
  - intros x _ [].
  - rewrite app_nil_r in P. split; auto.
Qed.
Print Assumptions C77_printed.

Definition at_ (x y : Z) : loc := {| lx := x; ly := y |}.
Definition four : list (atom * loc) := [(0, at_ 0 0); (1, at_ 1 0); (2, at_ 0 2); (3, at_ 1 2)].
(** Two atoms are loaded, moved and stored, as in the unit tests. *)
Example C77_example : validate {| na_atoms := 4; na_init := four; na_ops :=
  [Load [0; 1] (Some [at_ 0 1; at_ 1 1]); Move [0; 1] [at_ 4 1; at_ 5 1]; Store [0; 1] (Some [at_ 4 0; at_ 5 0]); Local [2; 3]; Global] |} = None.
Proof. reflexivity. Qed.
Example C77_example_bad : validate {| na_atoms := 4; na_init := four; na_ops :=
  [Load [1; 2] None; Move [1; 2] [at_ 0 1; at_ 1 3]] |} = Some (3, ColumnOrderNotPreserved).
Proof. reflexivity. Qed.

(** "The relative order of loaded atoms is preserved" (NAComputation.hpp:166) is
    checked within one operation only: a single atom may be moved past another
    loaded one. *)
Theorem C77_order_refuted : exists c pre o post a b s1 s2 e1,
  placed c /\ validate c = None /\ na_ops c = pre ++ o :: post
  /\ loaded pre a /\ loaded pre b /\ sends o a e1 /\ (forall l, ~ sends o b l)
  /\ located (lookup (na_init c)) pre a s1 /\ located (lookup (na_init c)) pre b s2
  /\ (lx s1 < lx s2)%Z /\ (lx e1 > lx s2)%Z.
Proof.
  exists {| na_atoms := 4; na_init := four; na_ops := [Load [0; 1] None; Move [0] [at_ 7 0]] |},
    [Load [0; 1] None], (Move [0] [at_ 7 0]), [], 0, 1, (at_ 0 0), (at_ 1 0), (at_ 7 0).
  split; [|split; [reflexivity|split; [reflexivity|]]].
  - intros o H. cbn in H. destruct H as [<-|[<-|[]]]; cbn; (split; [auto|]); intros a H; cbn; intuition subst; cbn; eauto.
  - assert (NS : forall x l, ~ sends (Load [0; 1] None) x l) by (intros x l (t & i & X & _); discriminate).
    repeat split.
    + exists [], (Load [0; 1] None), []. repeat split; cbn; auto.
    + exists [], (Load [0; 1] None), []. repeat split; cbn; auto.
    + exists [at_ 7 0], 0. auto.
    + intros l (t & i & _ & X & _). destruct i as [|[|i]]; discriminate.
    + right. split; auto. intros o' l' [<-|[]]; auto.
    + right. split; auto. intros o' l' [<-|[]]; auto.
Qed.
Print Assumptions C77_order_refuted.
(** Two atoms may end up in the same place, and the same atom may be loaded
    twice by one operation. *)
Theorem C77_same_place_refuted : exists c a b l, placed c /\ validate c = None /\ a <> b
  /\ located (lookup (na_init c)) (na_ops c) a l /\ located (lookup (na_init c)) (na_ops c) b l.
Proof.
  exists {| na_atoms := 4; na_init := four; na_ops := [Load [0] None; Move [0] [at_ 1 0]] |}, 0, 1, (at_ 1 0).
  split; [|split; [reflexivity|split; [discriminate|split]]].
  - intros o H. cbn in H. destruct H as [<-|[<-|[]]]; cbn; (split; [auto|]); intros a H; cbn; intuition subst; cbn; eauto.
  - left. exists [Load [0] None], (Move [0] [at_ 1 0]), []. repeat split; auto. exists [at_ 1 0], 0. auto.
  - right. split; auto. intros o' l' [<-|[<-|[]]] (t & i & X & Y & _); [discriminate|]. destruct i as [|[|i]]; discriminate.
Qed.
Print Assumptions C77_same_place_refuted.
Theorem C77_load_twice_refuted : exists c l t, placed c /\ validate c = None /\ In (Load l t) (na_ops c) /\ ~ NoDup l.
Proof.
  exists {| na_atoms := 4; na_init := four; na_ops := [Load [0; 0] None] |}, [0; 0], None.
  split; [|split; [reflexivity|split; [now left|]]].
  - intros o [<-|[]]; cbn; (split; [auto|]); intros a H; cbn; intuition subst; cbn; eauto.
  - intros H. apply NoDup_cons_iff in H as [H _]. apply H. now left.
Qed.
Print Assumptions C77_load_twice_refuted.
(** [toString] loses atoms that share their initial location. *)
Theorem C77_printed_refuted : exists c a l, validate c = None /\ In (a, l) (na_init c) /\ ~ In (l, a) (initialLocationsAsc c).
Proof.
  exists {| na_atoms := 2; na_init := [(0, at_ 0 0); (1, at_ 0 0)]; na_ops := [] |}, 1, (at_ 0 0).
  split; [reflexivity|split; [cbn; auto|]]. cbn. intros [X|[]]. discriminate.
Qed.
Print Assumptions C77_printed_refuted.

(** C78: [==], [!=], [<], [>] and [<=] are one total order (by columns, then by
    rows)... *)
Definition before (a b : loc) : Prop := (lx a < lx b)%Z \/ (lx a = lx b /\ ly a < ly b)%Z.
Theorem C78_order_partial a b :
  (loc_eq a b = true <-> a = b) /\ (loc_ne a b = true <-> a <> b)
  /\ (loc_lt a b = true <-> before a b) /\ (loc_gt a b = true <-> before b a)
  /\ (loc_le a b = true <-> before a b \/ a = b).
Proof.
  assert (E := loc_eq_iff a b). unfold loc_ne, loc_gt, loc_le, loc_ge, before. rewrite !negb_true_iff, !loc_lt_iff.
  split; [auto|split; [rewrite <- E; destruct (loc_eq a b); split; congruence|split; [tauto|split; [tauto|]]]].
  rewrite <- not_true_iff_false, loc_lt_iff. destruct a as [xa ya], b as [xb yb]; cbn. split.
  - intros H. destruct (Z.eq_dec xa xb), (Z.eq_dec ya yb); subst; auto; left; lia.
  - intros [H|[= -> ->]]; lia.
Qed.
Print Assumptions C78_order_partial.
(** ... and it is transitive, irreflexive and total. *)
Theorem C78_total a b d :
  loc_lt a a = false /\ (loc_lt a b = true -> loc_lt b d = true -> loc_lt a d = true)
  /\ (loc_lt a b = true \/ a = b \/ loc_lt b a = true).
Proof.
  repeat split.
  - apply not_true_iff_false. rewrite loc_lt_iff. lia.
  - rewrite !loc_lt_iff. lia.
  - destruct (loc_lt a b) eqn:E, (loc_lt b a) eqn:F; auto. right. left. now apply loc_trich.
Qed.
Print Assumptions C78_total.
(** [>=] is not its converse: it is [<=]. *)
Theorem C78_ge_refuted : exists a b, before b a /\ loc_ge a b = false.
Proof. exists (at_ 1 0), (at_ 0 0). split; [left; cbn; lia|reflexivity]. Qed.
Print Assumptions C78_ge_refuted.
Example C78_example : loc_lt (at_ 0 5) (at_ 1 0) = true /\ loc_lt (at_ 1 0) (at_ 1 2) = true.
Proof. split; reflexivity. Qed.
