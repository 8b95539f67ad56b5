(** Random Clifford circuits: layers. *)
From Coq Require Import Reals List Arith Bool NArith Lia FunctionalExtensionality.
From Verif Require Import Cplx Qsem GateModel GateSpec IRModel IRSpec IRProofs AlgoModel AlgoBaseProofs CircSpec CliffordSpec CliffordModel CliffordProofs CliffordMainProofs.
Import ListNotations.

Lemma half m s : s <= 1 -> (S (S m) - s) / 2 = (S m - s) / 2 + (if Nat.eqb (m mod 2) s then 1 else 0).
Proof.
  intros L. pose proof (Nat.div_mod m 2 ltac:(discriminate)) as D. pose proof (Nat.mod_upper_bound m 2 ltac:(discriminate)) as U.
  destruct (Nat.eqb_spec (m mod 2) s) as [<-|N].
  - assert (E : S (S m) - m mod 2 = (m / 2 + 1) * 2 /\ S m - m mod 2 = 1 + (m / 2) * 2) by lia. destruct E as [-> ->]. rewrite Nat.div_add, Nat.div_mul by discriminate. change (1 / 2) with 0. lia.
  - rewrite Nat.add_0_r. assert (E : S (S m) - s = 1 + (m / 2 + (1 - s)) * 2 /\ S m - s = (m / 2 + (1 - s)) * 2) by lia. destruct E as [-> ->]. rewrite Nat.div_add, Nat.div_mul by discriminate. reflexivity.
Qed.
Lemma pairs_filter m s : s <= 1 -> pairs (S m) s = filter (fun i => Nat.eqb (i mod 2) s) (seq 0 m).
Proof.
  intros L. induction m as [|m IH].
  - destruct s as [|[|s]]; [reflexivity|reflexivity|lia].
  - rewrite seq_S, filter_app, <- IH. unfold pairs. rewrite half by auto. cbn [filter Nat.add].
    destruct (Nat.eqb_spec (m mod 2) s) as [E|N]; [|now rewrite Nat.add_0_r, app_nil_r].
    rewrite Nat.add_1_r, seq_S, map_app. cbn [map Nat.add]. f_equal. f_equal.
    pose proof (Nat.div_mod m 2 ltac:(discriminate)) as D.
    rewrite E in D. replace (S m - s) with (1 + (m / 2) * 2) by lia. rewrite Nat.div_add by discriminate. change (1 / 2) with 0. lia.
Qed.
Lemma layer_eq nq l draw k : 2 <= nq ->
  layer nq l draw k = map (fun p => OComp false (clifford2 (draw (k + fst p)) (snd p) (S (snd p)))) (numbered (bricks nq l)).
Proof.
  intros L. unfold layer, numbered, bricks. destruct (Nat.eqb_spec nq 1); [lia|]. destruct (Nat.eqb_spec nq 2) as [->|N].
  - cbn. now rewrite Nat.add_0_r.
  - cbv zeta. destruct nq as [|m]; [lia|]. replace (S m - 1) with m by lia. cbn [orb].
    assert (U : l mod 2 < 2) by (apply Nat.mod_upper_bound; discriminate).
    replace (if Nat.eqb (l mod 2) 0 then 0 else 1) with (l mod 2) by (destruct (Nat.eqb_spec (l mod 2) 0); lia).
    rewrite pairs_filter by lia. reflexivity.
Qed.
Lemma seq_shift_k k n : seq k n = map (fun i => k + i) (seq 0 n).
Proof. induction n as [|n IH]; auto. now rewrite !seq_S, map_app, IH. Qed.
Lemma combine_app {A B} (a a' : list A) (b b' : list B) : length a = length b -> combine (a ++ a') (b ++ b') = combine a b ++ combine a' b'.
Proof. revert b. induction a as [|x a IH]; intros [|y b] L; try discriminate; auto. cbn. f_equal. apply IH. now injection L. Qed.
Lemma combine_map_l {A B D} (f : A -> D) (a : list A) (b : list B) : combine (map f a) b = map (fun p => (f (fst p), snd p)) (combine a b).
Proof. revert b. induction a as [|x a IH]; intros [|y b]; auto. cbn. now rewrite IH. Qed.
Lemma numbered_length {A} (l : list A) : length (numbered l) = length l.
Proof. unfold numbered. rewrite combine_length, seq_length. lia. Qed.
Lemma layers_eq nq draw : 2 <= nq -> forall n l k,
  layers nq n l draw k = map (fun p => OComp false (clifford2 (draw (k + fst p)) (snd p) (S (snd p)))) (numbered (flat_map (bricks nq) (seq l n))).
Proof.
  intros L. induction n as [|n IH]; intros l k; [reflexivity|]. cbn [layers seq flat_map]. cbv zeta. rewrite IH, layer_eq, map_length, numbered_length by auto.
  unfold numbered. rewrite app_length, seq_app, combine_app by now rewrite seq_length. rewrite map_app. f_equal.
  rewrite (seq_shift_k (0 + _)), combine_map_l, map_map. apply map_ext. intros [i q]. cbn [fst snd]. do 2 f_equal. f_equal. lia.
Qed.
Lemma layers1_eq draw : forall n l k, layers 1 n l draw k = map (fun i => OComp false (clifford1 (draw (k + i)))) (seq 0 n).
Proof.
  induction n as [|n IH]; intros l k; [reflexivity|]. cbn [layers]. cbv zeta. rewrite IH. unfold layer. cbn [Nat.eqb length app]. cbn [seq map]. rewrite Nat.add_0_r. f_equal.
  rewrite <- seq_shift, map_map. apply map_ext. intros i. do 2 f_equal. f_equal. lia.
Qed.
Lemma acts_comp cu l f : acts l f -> acts [OComp cu l] f.
Proof. intros A psi m. rewrite run_one, run_comp. apply A. Qed.
Definition good (nq : nat) (l : list cop) : Prop := exists U, acts l U /\ clifford_op nq U.
Lemma good_all nq l : (forall o, In o l -> good nq [o]) -> good nq l.
Proof.
  induction l as [|o l IH]; intros H.
  - exists (fun psi => psi). split; [apply acts_nil|apply clifford_id].
  - destruct (H o (or_introl eq_refl)) as (U & A & CU). destruct IH as (V & B & CV); [intros; apply H; now right|].
    exists (fun psi => V (U psi)). split; [now apply acts_cons|now apply clifford_comp].
Qed.
Lemma numbered_in {A} (l : list A) p : In p (numbered l) -> In (snd p) l.
Proof. destruct p as [i x]. intros I. now apply in_combine_r in I. Qed.
Lemma bricks_lt nq l i : In i (bricks nq l) -> S i < nq.
Proof. intros I. apply filter_In in I as [I _]. apply in_seq in I. lia. Qed.
Lemma layers_good nq n l draw k : 1 <= nq -> good nq (layers nq n l draw k).
Proof.
  intros L. apply good_all. intros o I. destruct (Nat.eq_dec nq 1) as [->|N].
  - rewrite layers1_eq in I. apply in_map_iff in I as (i & <- & _). exists (lift 0 1 (gmaps (code1 (draw (k + i))))).
    split; [|apply one_clifford; [discriminate|apply code1_oneside]]. apply acts_comp. rewrite (code1_ok 1). now apply interps_ok.
  - rewrite layers_eq in I by lia. apply in_map_iff in I as (p & <- & I). apply numbered_in in I. apply in_flat_map in I as (l' & _ & I). apply bricks_lt in I.
    exists (lift (snd p) (S (snd p)) (gmaps (code2 (draw (k + fst p))))). split; [|apply two_clifford; lia].
    apply acts_comp. rewrite code2_ok. apply interps_ok. lia.
Qed.
Lemma interp_uses a b g q : uses (interp a b g) q -> q = a \/ q = b.
Proof.
  intros H. destruct g as [[]|[]|[]|[]|[]|[]|[]]; cbn [interp side negb] in H; inversion H; subst; cbn in *; intuition; try congruence; match goal with X : (_, _) = (_, _) |- _ => injection X; intros; subst; auto end.
Qed.
