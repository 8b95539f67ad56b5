(* The parts of ZXDiagram::concat: copying vertices, adding edges, removing the old outputs. *)
From Coq Require Import Reals QArith Qreals ZArith Bool List Arith Lia Lra Permutation FunctionalExtensionality.
From Verif Require Import Cplx Qsem PiModel ZXModel ZXSpec ZXPhaseProofs ZXSemProofs ZXUpdProofs ZXUpd3Proofs ZXRuleProofs ZXRule2Proofs ZXRule3Proofs ZXBuildProofs ZXDiscProofs ZXCompSpec.
Import ListNotations.
Local Close Scope Q_scope.
Local Open Scope nat_scope.

Lemma cprod_flat {A B} (l : list A) (g : A -> list B) f : cprod (flat_map g l) f = cprod l (fun a => cprod (g a) f).
Proof. induction l; cbn; auto. now rewrite cprod_app, IHl. Qed.
Lemma NoDup_app_intro {A} (l m : list A) : NoDup l -> NoDup m -> (forall a, In a l -> ~ In a m) -> NoDup (l ++ m).
Proof. induction 1; cbn; auto. intros M D. constructor; [rewrite in_app_iff; intros [I|I]; [tauto|]|]; [apply (D x); auto|]. apply IHNoDup; auto. Qed.
Lemma nodup_flat {A B} (l : list A) (g : A -> list B) : NoDup l -> (forall a, In a l -> NoDup (g a)) ->
  (forall a a' b, In a l -> In a' l -> In b (g a) -> In b (g a') -> a = a') -> NoDup (flat_map g l).
Proof.
  induction 1 as [|a l N D IH]; cbn; intros G E; [constructor|]. apply NoDup_app_intro.
  - apply G. now left.
  - apply IH; auto. intros; eapply E; eauto.
  - intros b I J. apply in_flat_map in J as (a' & I' & J). rewrite (E a a' b) in N; auto.
Qed.

Section Concat.
Variable rho : nat -> R.
Notation wx := (wx rho).

(* ---- adding a list of edges ------------------------------------------------------------------------------------------ *)
Definition add3 (d : diag) (t : nat * nat * bool) : diag := let '(a, b, h) := t in addEdge d a b h.
Definition adds (l : list (nat * nat * bool)) (d : diag) : diag := fold_left add3 l d.
Definition joins (l : list (nat * nat * bool)) (u v : nat) : Prop := exists h, In (u, v, h) l \/ In (v, u, h) l.
Record adds_ok (l : list (nat * nat * bool)) (d d' : diag) : Prop := {
  ad_z : zwf d'; ad_b : book d'; ad_f : frame d d'; ad_v : forall u, d_verts d' u = d_verts d u;
  ad_row : forall u, (forall v, ~ joins l u v) -> d_edges d' u = d_edges d u;
  ad_hv : forall u v h, hv d' u v = Some h -> hv d u v = Some h \/ In (u, v, h) l \/ In (v, u, h) l;
  ad_wx : forall ex x, (forall a b h, In (a, b, h) l -> ex a = false /\ ex b = false) ->
    wx ex d' x = (wx ex d x * cprod l (fun t => let '(a, b, h) := t in wgt (eh d a b h) (x a) (x b)))%C
}.
Lemma adds_spec l : forall d, zwf d -> book d -> NoDup (map fst l) ->
  (forall a b h, In (a, b, h) l -> a <> b /\ live d a = true /\ live d b = true /\ hv d a b = None /\ ~ In (b, a) (map fst l)) -> adds_ok l d (adds l d).
Proof.
  induction l as [|[[a b] h] l IH]; intros d Z B N H.
  - cbn. constructor; auto using frame_refl. intros. cbn. ring.
  - cbn [map fst] in N. inversion N as [|? ? N1 N2]; subst. destruct (H a b h) as (Nab & La & Lb & Hab & Rab); [now left|].
    assert (Hba : hv d b a = None) by (rewrite <- hv_sym; auto).
    pose proof (frame_addEdge d a b h) as F. set (d1 := addEdge d a b h) in *.
    destruct (IH d1) as [A1 A2 A3 A4 A5 A6 A7]; auto.
    { now apply addEdge_zwf. } { now apply addEdge_book. }
    { intros u v k I. destruct (H u v k) as (Q1 & Q2 & Q3 & Q4 & Q5); [now right|]. rewrite !(f_live _ _ F). unfold d1. rewrite addEdge_hv by auto.
      assert (P : on_pair a b u v = false).
      { apply not_true_iff_false. intros P. unfold on_pair in P. apply orb_true_iff in P as [P|P]; apply andb_true_iff in P as [P1 P2]; apply Nat.eqb_eq in P1, P2; subst.
        - apply N1. now apply (in_map fst) in I.
        - apply Q5. cbn. now left. }
      rewrite P. repeat split; auto. intros J. apply Q5. cbn. now right. }
    change (adds ((a, b, h) :: l) d) with (adds l d1). constructor; auto.
    + now apply (frame_trans _ d1).
    + intros u J. rewrite A5.
      * unfold d1. rewrite addEdge_edges by auto. destruct (Nat.eqb_spec u a) as [->|]; [|destruct (Nat.eqb_spec u b) as [->|]; auto]; exfalso.
        -- apply (J b). exists h. cbn. auto.
        -- apply (J a). exists h. cbn. auto.
      * intros v (k & K). apply (J v). exists k. cbn. tauto.
    + intros u v k E. destruct (A6 u v k E) as [E1|[E1|E1]]; [|cbn; auto|cbn; auto]. unfold d1 in E1. rewrite addEdge_hv in E1 by auto.
      destruct (on_pair a b u v) eqn:P; [|now left]. injection E1 as ->. unfold on_pair in P.
      apply orb_true_iff in P as [P|P]; apply andb_true_iff in P as [P1 P2]; apply Nat.eqb_eq in P1, P2; subst; cbn; auto.
    + intros ex x X. rewrite A7 by (intros; apply (X a0 b0 h0); now right). destruct (X a b h) as [Xa Xb]; [now left|].
      unfold d1. rewrite addEdge_wx by auto. cbn [cprod].
      rewrite (cprod_ext l _ (fun t => let '(a, b, h) := t in wgt (eh d a b h) (x a) (x b))); [ring|]. intros [[u v] k] _. now rewrite (f_eh _ _ _ _ _ F).
Qed.

(* ---- removing a list of vertices -------------------------------------------------------------------------------------- *)
Record rems_ok (l : list nat) (d d' : diag) : Prop := {
  rm_z : zwf d'; rm_b : book d -> book d'; rm_ph : phases_ok d -> phases_ok d'; rm_in : d_in d' = d_in d; rm_out : d_out d' = d_out d; rm_gp : d_gphase d' = d_gphase d;
  rm_live : forall u, live d' u = live d u && negb (memb u l);
  rm_verts : forall u, ~ In u l -> d_verts d' u = d_verts d u;
  rm_hv : forall u w, live d u = true -> ~ In u l -> hv d' u w = if memb w l then None else hv d u w;
  rm_wx : forall ex x, wx ex d' x = wx (fun u => ex u || memb u l) d x
}.
Lemma rems_spec l : forall d, zwf d -> NoDup l -> (forall v, In v l -> live d v = true) -> rems_ok l d (fold_left removeVertex l d).
Proof.
  induction l as [|v l IH]; intros d Z N H; cbn [fold_left].
  - constructor; auto; intros; cbn.
    + now rewrite andb_true_r.
    + apply wx_ex_ext. intros; now rewrite orb_false_r.
  - inversion N as [|? ? N1 N2]; subst. assert (Lv : live d v = true) by (apply H; now left). pose proof (remove_vertex rho d v Z Lv) as R. set (d1 := removeVertex d v) in *.
    destruct (IH d1) as [A1 A2 A2' A3 A4 A5 A6 A7 A8 A9]; auto.
    { apply R. }
    { intros u I. rewrite (rv_live _ _ _ _ R), H by (now right). cbn. apply negb_true_iff, Nat.eqb_neq. intros ->. tauto. }
    assert (L1 : forall u, u <> v -> live d u = true -> live d1 u = true).
    { intros u Nu L. rewrite (rv_live _ _ _ _ R), L. cbn. apply negb_true_iff. now apply Nat.eqb_neq. }
    constructor; auto.
    + intros B. apply A2, R, B.
    + intros P. apply A2'. now apply phok_removeVertex.
    + now rewrite A3, (rv_in _ _ _ _ R).
    + now rewrite A4, (rv_out _ _ _ _ R).
    + now rewrite A5, (rv_gp _ _ _ _ R).
    + intros u. rewrite A6, (rv_live _ _ _ _ R). cbn [memb existsb]. change (existsb (Nat.eqb u) l) with (memb u l). destruct (live d u), (u =? v), (memb u l); auto.
    + intros u I. cbn in I. rewrite A7 by tauto. apply (rv_verts _ _ _ _ R). intros ->; tauto.
    + intros u w L I. cbn in I. assert (Nu : u <> v) by (intros ->; tauto). rewrite A8 by (auto; tauto). cbn [memb existsb]. change (existsb (Nat.eqb w) l) with (memb w l).
      destruct (memb w l); [now rewrite orb_true_r|]. rewrite orb_false_r. destruct (Nat.eqb_spec w v) as [->|].
      * apply hv_none. rewrite (rv_edges _ _ _ _ R) by auto. intros J. apply in_map_iff in J as (e & E & J). apply filter_In in J as [_ J]. rewrite E, Nat.eqb_refl in J. discriminate.
      * now apply (rv_hv _ _ _ _ R).
    + intros ex x. rewrite A9, (rv_wx _ _ _ _ R). apply wx_ex_ext. intros u. unfold plus. cbn [memb existsb]. change (existsb (Nat.eqb u) l) with (memb u l). destruct (ex u), (u =? v), (memb u l); auto.
Qed.

(* ---- copying the vertices --------------------------------------------------------------------------------------------- *)
Section Copy.
Variables (d e : diag).
Hypothesis Wd : wf d.
Hypothesis We : wf e.
Definition own (i : nat) : bool := live e i && negb (memb i (d_in e)).
Record cv_ok (l : list nat) (d1 : diag) (m : nat -> nat) : Prop := {
  cv_z : zwf d1; cv_b : book d1; cv_ph : phases_ok d1; cv_in : d_in d1 = d_in d; cv_out : d_out d1 = d_out d; cv_gp : d_gphase d1 = d_gphase d;
  cv_new : forall i, In i l -> own i = true -> live d (m i) = false /\ d_verts d1 (m i) = d_verts e i /\ d_edges d1 (m i) = [];
  cv_inj : forall i j, In i l -> In j l -> own i = true -> own j = true -> m i = m j -> i = j;
  cv_live : forall u, live d1 u = true <-> live d u = true \/ exists i, In i l /\ own i = true /\ u = m i;
  cv_old : forall u, live d u = true -> d_verts d1 u = d_verts d u /\ d_edges d1 u = d_edges d u;
  cv_wx : forall ex x, (forall u, live d u = false -> ex u = false) ->
    wx ex d1 x = (wx ex d x * cprod (filter own l) (fun i => if isBoundary e i then C1 else phw rho e i (fun k => x (m k))))%C
}.
Definition cv_step (s : diag * (nat -> nat)) (i : nat) : diag * (nat -> nat) :=
  let '(d', m) := s in
  match d_verts e i with
  | Some a => if memb i (d_in e) then (d', m) else let '(d1, v) := addVertex d' a in (d1, zupd m i v)
  | None => (d', m)
  end.
Lemma cv_spec l : NoDup l -> let s := fold_left cv_step l (d, fun _ => 0) in cv_ok l (fst s) (snd s).
Proof.
  cbv zeta. rewrite <- (rev_involutive l). generalize (rev l). clear l. intros l N. apply NoDup_rev in N. rewrite rev_involutive in N.
  induction N as [|i l N1 N2 IH]; cbn [rev].
  - cbn. destruct Wd. constructor; auto; try (intros; contradiction).
    + intros u. split; auto. intros [H|(i & [] & _)]; auto.
    + intros. cbn. ring.
  - rewrite fold_left_app. cbn [fold_left]. set (s := fold_left cv_step (rev l) (d, fun _ : nat => 0)) in *. destruct s as [d' m]. cbn [fst snd] in IH.
    set (l' := rev l) in *. assert (N1' : ~ In i l') by (unfold l'; now rewrite <- in_rev). clearbody l'.
    unfold cv_step. destruct (d_verts e i) as [a|] eqn:E; cycle 1.
    { assert (O : own i = false) by (unfold own, live; now rewrite E). destruct IH. constructor; auto; cbn [fst snd].
      - intros j J O'. apply in_app_iff in J as [J|[->|[]]]; auto. congruence.
      - intros j k J K Oj Ok Q. apply in_app_iff in J as [J|[->|[]]]; [|congruence]. apply in_app_iff in K as [K|[->|[]]]; [|congruence]. auto.
      - intros u. rewrite cv_live0. split; intros [H|(j & J & O' & H)]; auto.
        + right. exists j. rewrite in_app_iff. auto.
        + apply in_app_iff in J as [J|[->|[]]]; [right; now exists j|congruence].
      - intros ex x X. rewrite filter_app. cbn [filter]. rewrite O, app_nil_r. auto. }
    destruct (memb i (d_in e)) eqn:M.
    { assert (O : own i = false) by (unfold own; now rewrite M, andb_false_r). destruct IH. constructor; auto; cbn [fst snd].
      - intros j J O'. apply in_app_iff in J as [J|[->|[]]]; auto. congruence.
      - intros j k J K Oj Ok Q. apply in_app_iff in J as [J|[->|[]]]; [|congruence]. apply in_app_iff in K as [K|[->|[]]]; [|congruence]. auto.
      - intros u. rewrite cv_live0. split; intros [H|(j & J & O' & H)]; auto.
        + right. exists j. rewrite in_app_iff. auto.
        + apply in_app_iff in J as [J|[->|[]]]; [right; now exists j|congruence].
      - intros ex x X. rewrite filter_app. cbn [filter]. rewrite O, app_nil_r. auto. }
    assert (O : own i = true) by (unfold own, live; now rewrite E, M).
    destruct IH as [I1 I2 I3 I4 I5 I6 I7 I8 I9 I10 I11]. pose proof (add_vertex rho d' a I1 I2) as A. destruct (addVertex d' a) as [d1 v]. cbn [fst snd] in *.
    assert (Old : forall u, live d' u = true -> u <> v) by (intros u; apply (av_neq rho _ _ _ _ _ A)).
    assert (Mo : forall j, In j l' -> own j = true -> live d' (m j) = true) by (intros j J Oj; apply I9; right; now exists j).
    assert (Mz : forall j, In j l' -> zupd m i v j = m j).
    { intros j J. unfold zupd. destruct (Nat.eqb_spec j i) as [->|]; auto. contradiction. }
    assert (Mi : zupd m i v i = v) by (unfold zupd; now rewrite Nat.eqb_refl).
    constructor; try (apply A).
    + apply (av_phok rho _ _ _ _ A); auto. pose proof (w_ph _ We i) as P. unfold live, vphase in P. rewrite E in P. auto.
    + rewrite (av_in _ _ _ _ _ A). auto.
    + rewrite (av_out _ _ _ _ _ A). auto.
    + rewrite (av_gp _ _ _ _ _ A). auto.
    + intros j J Oj. apply in_app_iff in J as [J|[<-|[]]].
      * rewrite Mz by auto. destruct (I7 j J Oj) as (Q1 & Q2 & Q3). assert (m j <> v) by (apply Old; auto). rewrite (av_verts _ _ _ _ _ A), (av_edges _ _ _ _ _ A) by auto. auto.
      * rewrite Mi, (av_data _ _ _ _ _ A), (av_row _ _ _ _ _ A). split; [|auto]. apply not_true_iff_false. intros Q. apply (Old v); auto. apply I9. auto.
    + intros j k J K Oj Ok Q. apply in_app_iff in J as [J|[<-|[]]]; apply in_app_iff in K as [K|[<-|[]]]; auto.
      * rewrite (Mz j), (Mz k) in Q by auto. now apply I8.
      * rewrite Mi, (Mz j) in Q by auto. exfalso. apply (Old (m j)); auto.
      * rewrite Mi, (Mz k) in Q by auto. exfalso. apply (Old (m k)); auto.
    + intros u. rewrite (av_live _ _ _ _ _ A), orb_true_iff, I9, Nat.eqb_eq. split.
      * intros [[H|(j & J & Oj & ->)]| ->]; auto; right; [exists j|exists i]; rewrite in_app_iff, ?Mi; [rewrite Mz by auto|]; cbn; auto.
      * intros [H|(j & J & Oj & ->)]; auto. apply in_app_iff in J as [J|[<-|[]]]; [|now right]. left. right. exists j. now rewrite Mz.
    + intros u L. assert (u <> v) by (apply Old, I9; auto). rewrite (av_verts _ _ _ _ _ A), (av_edges _ _ _ _ _ A) by auto. auto.
    + intros ex x X. rewrite (av_wx _ _ _ _ _ A), I11 by auto. rewrite filter_app. cbn [filter]. rewrite O, cprod_app. cbn [cprod].
      assert (Xv : ex v = false). { apply X. apply not_true_iff_false. intros Q. apply (Old v); auto. apply I9. auto. }
      rewrite Xv. cbn [orb].
      assert (Bi : isBoundary e i = vtype_eqb (v_type a) VBoundary) by (unfold isBoundary, vty; now rewrite E).
      assert (Pi : phw rho e i (fun k => x (zupd m i v k)) = if x v then pexp rho (v_phase a) else C1) by (unfold phw, vphase; now rewrite E, Mi).
      rewrite Bi, Pi.
      rewrite (cprod_ext (filter own l') (fun i0 => if isBoundary e i0 then C1 else phw rho e i0 (fun k => x (m k))) (fun i0 => if isBoundary e i0 then C1 else phw rho e i0 (fun k => x (zupd m i v k)))).
      * destruct (vtype_eqb (v_type a) VBoundary); ring.
      * intros j J. apply filter_In in J as [J _]. unfold phw. now rewrite Mz.
Qed.
End Copy.
End Concat.
