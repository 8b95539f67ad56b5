(* Removal of the parts of a diagram that no input or output is connected to. *)
From Coq Require Import Reals QArith Qreals ZArith Bool List Arith Lia Lra Permutation FunctionalExtensionality.
From Verif Require Import Cplx Qsem PiModel ZXModel ZXSpec ZXUpdSpec ZXPhaseProofs ZXSemProofs ZXUpdProofs ZXUpd2Proofs ZXUpd3Proofs ZXRuleProofs ZXRule2Proofs ZXRule3Proofs ZXGadgetProofs ZXGraphProofs ZXBookProofs ZXSimpProofs.
Import ListNotations.
Local Close Scope Q_scope.
Local Open Scope nat_scope.

Definition isIO (d : diag) (v : nat) : Prop := In v (d_in d) \/ In v (d_out d).
Inductive reach (d : diag) : nat -> Prop :=
| r_io v : isIO d v -> reach d v
| r_edge v w : In w (map fst (d_edges d v)) -> reach d w -> reach d v.
Lemma io_b d v : memb v (d_in d) || memb v (d_out d) = true <-> isIO d v.
Proof. rewrite orb_true_iff, !memb_In. reflexivity. Qed.
Lemma rb_true d fuel : forall vis st, reach_boundary fuel d vis st = Some true -> exists w, In w st /\ reach d w.
Proof.
  induction fuel as [|f IH]; cbn [reach_boundary]; intros vis st E; [discriminate|]. destruct st as [|w st]; [discriminate|]. destruct (memb w vis).
  - destruct (IH _ _ E) as (u & I & R). exists u. split; [now right|auto].
  - destruct (memb w (d_in d) || memb w (d_out d)) eqn:B; [exists w; split; [now left|]; apply r_io; now apply io_b|]. destruct (IH _ _ E) as (u & I & R). apply in_app_iff in I as [I|I].
    + rewrite <- in_rev in I. exists w. split; [now left|]. eapply r_edge; eauto.
    + exists u. split; [now right|auto].
Qed.
Lemma rb_false d fuel : forall vis st, (forall u, In u vis -> ~ isIO d u /\ forall n, In n (map fst (d_edges d u)) -> In n vis \/ In n st) ->
  reach_boundary fuel d vis st = Some false -> exists V : list nat, (forall u, In u vis \/ In u st -> In u V) /\ forall u, In u V -> ~ isIO d u /\ forall n, In n (map fst (d_edges d u)) -> In n V.
Proof.
  induction fuel as [|f IH]; cbn [reach_boundary]; intros vis st H E; [discriminate|]. destruct st as [|w st].
  - exists vis. split; [intros u [|[]]; auto|]. intros u I. destruct (H u I) as [A B]. split; auto. intros n N. destruct (B n N) as [|[]]. auto.
  - destruct (memb w vis) eqn:M.
    + apply memb_In in M. destruct (IH vis st) as (V & A & B); auto.
      * intros u I. destruct (H u I) as [X Y]. split; auto. intros n N. destruct (Y n N) as [|[<-|]]; auto.
      * exists V. split; auto. intros u [I|[<-|I]]; apply A; auto.
    + destruct (memb w (d_in d) || memb w (d_out d)) eqn:B; [discriminate|]. destruct (IH (w :: vis) (rev (map fst (d_edges d w)) ++ st)) as (V & A & C); auto.
      * intros u [<-|I].
        -- split; [rewrite <- io_b; congruence|]. intros n N. right. apply in_app_iff. left. now rewrite <- in_rev.
        -- destruct (H u I) as [X Y]. split; auto. intros n N. destruct (Y n N) as [|[<-|]]; cbn; auto. right. apply in_app_iff. auto.
      * exists V. split; auto. intros u [I|[<-|I]]; apply A; cbn; auto. right. apply in_app_iff. auto.
Qed.
Lemma ctb_ok fuel d v r : connectedToBoundary fuel d v = Some r -> (r = true <-> reach d v).
Proof.
  unfold connectedToBoundary. intros E. destruct r; split; auto.
  - intros _. destruct (rb_true _ _ _ _ E) as (w & [<-|[]] & R). exact R.
  - discriminate.
  - intros R. destruct (rb_false d fuel [] [v] (fun u (F : In u []) => match F with end) E) as (V & A & B). exfalso. assert (I : In v V) by (apply A; cbn; auto). clear - R I B. induction R as [v H|v w Ed R IH].
    + now apply (B v I).
    + apply IH. now apply (B v I).
Qed.

Section Disc.
Variable rho : nat -> R.
Notation wx := (wx rho).
Notation same_map := (same_map rho).
(* d' is d without the vertices in S *)
Record without (d : diag) (S : nat -> bool) (d' : diag) : Prop := {
  wo_wf : wf d'; wo_in : d_in d' = d_in d; wo_out : d_out d' = d_out d;
  wo_live : forall u, live d' u = live d u && negb (S u);
  wo_vty : forall u, S u = false -> vty d' u = vty d u;
  wo_row : forall u, live d u = true -> S u = false -> forall w, In w (map fst (d_edges d' u)) <-> In w (map fst (d_edges d u)) /\ S w = false;
  wo_wx : forall ex x, wx ex d' x = wx (fun u => ex u || S u) d x; wo_gp : d_gphase d' = d_gphase d
}.
Lemma without_refl d : wf d -> without d none d.
Proof.
  intros W. constructor; auto.
  - intros u. cbn. now rewrite andb_true_r.
  - intros u _ _ w. cbn. tauto.
  - intros ex x. apply wx_ex_ext. intros v. unfold none. now rewrite orb_false_r.
Qed.
Lemma without_remove d S d' v : without d S d' -> live d' v = true -> isBoundary d' v = false -> without d (plus S v) (removeVertex d' v).
Proof.
  intros O L B. pose proof (wo_wf _ _ _ O) as W. pose proof (remove_vertex rho d' v (w_z _ W) L) as R. constructor.
  - now apply remove_wf'.
  - rewrite (rv_in _ _ _ _ R). apply (wo_in _ _ _ O).
  - rewrite (rv_out _ _ _ _ R). apply (wo_out _ _ _ O).
  - intros u. rewrite (rv_live _ _ _ _ R), (wo_live _ _ _ O). unfold plus. rewrite negb_orb. now rewrite andb_assoc.
  - intros u E. unfold plus in E. apply orb_false_iff in E as [E1 E2]. apply Nat.eqb_neq in E2. unfold vty. rewrite (rv_verts _ _ _ _ R) by auto. now apply (wo_vty _ _ _ O).
  - intros u Lu E w. unfold plus in E. apply orb_false_iff in E as [E1 E2]. apply Nat.eqb_neq in E2.
    assert (Lu' : live d' u = true) by (rewrite (wo_live _ _ _ O), Lu, E1; reflexivity). rewrite (rv_edges _ _ _ _ R) by auto.
    pose proof (wo_row _ _ _ O u Lu E1 w) as Q. unfold plus. rewrite orb_false_iff, Nat.eqb_neq. split.
    + intros I. apply in_map_iff in I as (e & <- & I). apply filter_In in I as [I N]. apply negb_true_iff, Nat.eqb_neq in N. apply (in_map fst) in I. apply Q in I. tauto.
    + intros (I & Sw & N). assert (J : In w (map fst (d_edges d' u))) by (apply Q; tauto). apply in_map_iff in J as (e & <- & J). apply in_map. apply filter_In. split; auto. now apply negb_true_iff, Nat.eqb_neq.
  - intros ex x. rewrite (rv_wx _ _ _ _ R), (wo_wx _ _ _ O). apply wx_ex_ext. intros u. unfold plus. now destruct (ex u), (S u), (u =? v).
  - rewrite (rv_gp _ _ _ _ R). apply (wo_gp _ _ _ O).
Qed.
Lemma without_reach d S d' : wf d -> without d S d' -> (forall u, live d u = true -> S u = true -> ~ reach d u) -> forall u, live d u = true -> S u = false -> (reach d' u <-> reach d u).
Proof.
  intros W O H u L E. split; intros R.
  - induction R as [v I|v w I R IH]; [apply r_io; unfold isIO in *; now rewrite <- (wo_in _ _ _ O), <- (wo_out _ _ _ O)|].
    apply (wo_row _ _ _ O v L E) in I as [I Sw]. apply (r_edge d v w I). apply IH; auto. apply in_map_iff in I as ([x h] & Ex & I). cbn in Ex. subst x. destruct (z_sym d (w_z _ W) v w h L I); tauto.
  - induction R as [v I|v w I R IH]; [apply r_io; unfold isIO in *; now rewrite (wo_in _ _ _ O), (wo_out _ _ _ O)|].
    assert (Lw : live d w = true). { apply in_map_iff in I as ([x h] & Ex & I). cbn in Ex. subst x. destruct (z_sym d (w_z _ W) v w h L I); tauto. }
    assert (Sw : S w = false). { destruct (S w) eqn:Q; auto. exfalso. now apply (H w Lw Q). }
    apply (r_edge d' v w); auto. apply (wo_row _ _ _ O v L E). auto.
Qed.
Lemma disc_fold fuel d : wf d -> io_all d -> forall l S d' r, without d S d' -> (forall u, live d u = true -> S u = true -> ~ reach d u) ->
  fold_left (fun od v => match od with None => None | Some d' => if negb (live d' v) then Some d' else match connectedToBoundary fuel d' v with None => None | Some true => Some d' | Some false => Some (removeVertex d' v) end end) l (Some d') = Some r ->
  exists S', without d S' r /\ (forall u, live d u = true -> S' u = true -> ~ reach d u) /\ (forall u, S u = true -> S' u = true) /\ forall u, In u l -> live d u = true -> ~ reach d u -> S' u = true.
Proof.
  intros W IA. induction l as [|v l IH]; intros S d' r O H E; cbn [fold_left] in E; [injection E as <-; exists S; repeat (split; auto); intros u []|].
  destruct (live d' v) eqn:L; cbn [negb] in E.
  - assert (LS : live d v = true /\ S v = false). { rewrite (wo_live _ _ _ O) in L. apply andb_true_iff in L as [A B]. apply negb_true_iff in B. auto. } destruct LS as [Lv Sv].
    destruct (connectedToBoundary fuel d' v) as [[|]|] eqn:C.
    + destruct (IH S d' r O H E) as (S' & O' & H' & M & F). exists S'. repeat (split; auto). intros u [<-|I] Lu NR; auto. exfalso. apply NR. apply (without_reach d S d' W O H v Lv Sv). now apply (ctb_ok fuel d' v true C).
    + assert (NR : ~ reach d v). { intros R. apply (without_reach d S d' W O H v Lv Sv) in R. apply (ctb_ok fuel d' v false C) in R. discriminate. }
      assert (B : isBoundary d' v = false). { destruct (isBoundary d' v) eqn:B; auto. exfalso. apply NR, r_io, IA; auto. unfold isBoundary in *. now rewrite (wo_vty _ _ _ O) in B. }
      destruct (IH (plus S v) (removeVertex d' v) r) as (S' & O' & H' & M & F); auto; [now apply without_remove| |].
      * intros u Lu Q. unfold plus in Q. apply orb_true_iff in Q as [Q|Q]; auto. apply Nat.eqb_eq in Q. now subst.
      * exists S'. repeat (split; auto); [intros u Q; apply M; unfold plus; now rewrite Q|]. intros u [<-|I] Lu Nu; auto. apply M. unfold plus. now rewrite Nat.eqb_refl, orb_true_r.
    + exfalso. clear - E. induction l as [|w l IHl]; cbn in E; [discriminate|auto].
  - destruct (IH S d' r O H E) as (S' & O' & H' & M & F). exists S'. repeat (split; auto). intros u [<-|I] Lu NR; auto. apply M. rewrite (wo_live _ _ _ O), Lu in L. cbn in L. now apply negb_false_iff in L.
Qed.
(* splitting the weight along a closed set *)
Lemma wx_closed d (S : nat -> bool) x : zwf d -> (forall u w h, live d u = true -> hv d u w = Some h -> S w = S u) -> wx none d x = (wx S d x * wx (fun u => negb (S u)) d x)%C.
Proof.
  intros Zd H. unfold ZXSemProofs.wx.
  assert (Pv : pv rho none d x = (pv rho S d x * pv rho (fun u => negb (S u)) d x)%C).
  { unfold pv. rewrite <- cprod_mul. apply cprod_ext. intros u _. unfold none. cbn [negb]. rewrite andb_true_r. destruct (inner d u), (S u); cbn; ring. }
  assert (Pe : pe none d x = (pe S d x * pe (fun u => negb (S u)) d x)%C).
  { unfold pe. rewrite <- dprod_mul. apply dprod_ext. intros i j _ _ _. unfold eg, none. cbn [negb]. rewrite !andb_true_r. destruct (live d i) eqn:Li, (live d j) eqn:Lj; cbn [andb]; try ring.
    unfold ew. destruct (hv d i j) as [h|] eqn:E; [|destruct (S i), (S j); cbn; ring]. rewrite (H i j h Li E). destruct (S i); cbn; ring. }
  rewrite Pv, Pe. ring.
Qed.
(* the sum depends only on the bits that are not summed *)
Lemma vsum_dep vs : forall (f : bits -> C) (K : nat -> Prop) b b', (forall x y, (forall v, K v -> x v = y v) -> f x = f y) -> (forall v, K v -> ~ In v vs -> b v = b' v) -> vsum vs f b = vsum vs f b'.
Proof.
  induction vs as [|v vs IH]; intros f K b b' H E; cbn [vsum]; [apply H; intros; apply E; auto|].
  f_equal; apply (IH f K); auto; intros u Ku N; (destruct (Nat.eq_dec u v) as [->|Nu]; [now rewrite !setb_same|rewrite !setb_other by auto; apply E; auto; cbn; intros [Q|Q]; [now apply Nu|tauto]]).
Qed.
Lemma removeDisconnected_ok fuel d d' : wf d -> io_all d -> (exists b, den rho d b <> C0) -> removeDisconnectedSpiders fuel d = Some d' -> wf d' /\ same_map d d'.
Proof.
  intros W IA (b0 & Nz) E. pose proof (w_z d W) as Zd. unfold removeDisconnectedSpiders in E.
  destruct (disc_fold fuel d W IA _ none d d' (without_refl d W) (fun u _ Q => False_ind _ (Bool.diff_false_true Q)) E) as (S & O & H & _ & F). split; [apply (wo_wf _ _ _ O)|].
  assert (F' : forall u, live d u = true -> ~ reach d u -> S u = true). { intros u L N. apply F; auto. apply in_seq. pose proof (live_lt d u Zd L). lia. }
  assert (Cl : forall u w h, live d u = true -> hv d u w = Some h -> S w = S u).
  { assert (G : forall u w h, live d u = true -> hv d u w = Some h -> S u = true -> S w = true).
    { intros u w h L X Su. destruct (zwf_hv d u w h Zd L X) as (Lw & _ & X'). apply F'; auto. intros R. apply (H u L Su). apply (r_edge d u w); auto. apply hv_In' in X. apply (in_map fst) in X. exact X. }
    intros u w h L X. destruct (zwf_hv d u w h Zd L X) as (Lw & _ & X'). destruct (S u) eqn:Su; [now apply (G u w h)|]. destruct (S w) eqn:Sw; auto. rewrite <- Su. symmetry. now apply (G w u h). }
  assert (Bd : forall u, live d u = true -> S u = true -> isBoundary d u = false).
  { intros u L Su. destruct (isBoundary d u) eqn:B; auto. exfalso. apply (H u L Su). apply r_io. now apply IA. }
  set (vs := filter S (interior d)). set (g := fun x => wx (fun u => negb (S u)) d x). set (kp := vsum vs g b0).
  assert (K : forall x, vsum vs (wx none d) x = (kp * wx S d x)%C).
  { intros x.
    assert (Q : forall ws y, (forall u, In u ws -> S u = true) -> vsum ws (wx none d) y = (wx S d y * vsum ws g y)%C).
    { induction ws as [|w ws IH]; intros y Hw; cbn [vsum]; [now apply wx_closed|].
      assert (Q : forall s, wx S d (setb y w s) = wx S d y). { intros s. apply wx_ext. intros u _ Su. apply setb_other. intros ->. rewrite Hw in Su by (now left). discriminate. }
      rewrite !IH by (intros; apply Hw; now right). rewrite !Q. ring. }
    rewrite Q by (intros u I; apply filter_In in I; tauto). transitivity (vsum vs g x * wx S d x)%C; [ring|]. f_equal. unfold kp. apply (vsum_dep vs g (fun u => live d u = true /\ S u = true)).
    - intros y z A. unfold g. apply wx_ext. intros u L Su. apply A. split; auto. now apply negb_false_iff in Su.
    - intros u [L Su] N. exfalso. apply N. apply filter_In. split; auto. rewrite interior_In by auto. unfold inner. rewrite L. now rewrite Bd. }
  assert (Kz : kp <> C0).
  { intros Q. apply Nz. unfold den. rewrite (vsum_ext _ _ (wx none d)) by (intros; now apply weight_wx).
    rewrite (vsum_same (interior d) (filter (fun u => negb (S u)) (interior d) ++ vs)).
    - rewrite vsum_app. rewrite (vsum_ext _ _ (fun x => (C0 * wx S d x)%C)) by (intros x; now rewrite K, Q). rewrite vsum_scale. ring.
    - apply interior_nodup.
    - apply NoDup_app'; try apply NoDup_filter, interior_nodup. intros u A B. apply filter_In in A as [_ A], B as [_ B]. rewrite B in A. discriminate.
    - intros u. unfold vs. rewrite in_app_iff, !filter_In. destruct (S u); cbn; intuition discriminate. }
  apply (conclude rho d d' vs [] kp); auto.
  - apply (w_z _ (wo_wf _ _ _ O)).
  - apply (wo_in _ _ _ O).
  - apply (wo_out _ _ _ O).
  - apply NoDup_filter, interior_nodup.
  - constructor.
  - intros v I. apply filter_In in I as [I _]. now apply interior_In in I.
  - intros v N I. split; [|intros []]. assert (Sv : S v = false). { destruct (S v) eqn:Q; auto. exfalso. apply N. apply filter_In. split; auto. now apply interior_In. }
    unfold inner in *. rewrite (wo_live _ _ _ O), Sv. unfold isBoundary in *. rewrite (wo_vty _ _ _ O) by auto. apply andb_true_iff in I as [-> ->]. reflexivity.
  - intros v _ I. unfold inner in I. rewrite (wo_live _ _ _ O) in I. apply andb_true_iff in I as [I1 I2]. apply andb_true_iff in I1 as [I1 I3]. apply negb_true_iff in I3. unfold isBoundary in I2. rewrite (wo_vty _ _ _ O) in I2 by auto.
    split; [unfold inner, isBoundary; now rewrite I1|]. intros Q. apply filter_In in Q as [_ Q]. congruence.
  - intros x. cbn [vsum]. rewrite K, (wo_wx _ _ _ O). f_equal.
Qed.
End Disc.
