(* Boundary pivoting and gadget pivoting. *)
From Coq Require Import Reals QArith Qreals ZArith Bool List Arith Lia Lra Permutation FunctionalExtensionality.
From Verif Require Import Cplx Qsem PiModel ZXModel ZXSpec ZXPhaseProofs ZXSemProofs ZXUpdProofs ZXUpd2Proofs ZXUpd3Proofs ZXRuleProofs ZXRule2Proofs.
Import ListNotations.
Local Close Scope Q_scope.
Local Open Scope nat_scope.

Section Rules3.
Variable rho : nat -> R.
Notation wx := (wx rho).
Notation same_map := (same_map rho).

(* changing the phase of one vertex *)
Lemma chph_wx d d' v ex x : zwf d -> frame d d' -> (forall u, d_edges d' u = d_edges d u) -> (forall u, u <> v -> d_verts d' u = d_verts d u) ->
  live d v = true -> isBoundary d v = false -> ex v = false ->
  wx ex d' x = (wx ex d x * (if x v then pexp rho (vphase d' v) * / pexp rho (vphase d v) else C1))%C.
Proof.
  intros Z F E V L B Ex. unfold ZXSemProofs.wx.
  assert (Pe : pe ex d' x = pe ex d x).
  { unfold pe. rewrite (f_size _ _ F). apply dprod_ext. intros i j _ _ _. unfold eg, ew. rewrite !(f_live _ _ F). rewrite (hv_edges d d') by auto. destruct (hv d i j); auto. now rewrite (f_eh _ _ _ _ _ F). }
  rewrite Pe. assert (P : pv rho ex d' x = (pv rho ex d x * (if x v then pexp rho (vphase d' v) * / pexp rho (vphase d v) else C1))%C); [|rewrite P; ring].
  unfold pv. rewrite (f_size _ _ F).
  rewrite <- (cprod_at (seq 0 (d_size d)) v (fun _ => if x v then pexp rho (vphase d' v) * / pexp rho (vphase d v) else C1)%C) by (auto using seq_NoDup; apply in_seq; pose proof (live_lt d v Z L); lia).
  rewrite <- cprod_mul. apply cprod_ext. intros u _. rewrite (f_inner _ _ _ F). unfold ZXSemProofs.phw. destruct (Nat.eqb_spec u v) as [->|N].
  - unfold inner. rewrite L, B, Ex. cbn [andb negb]. destruct (x v); [|ring]. field. apply pexp_neq0.
  - unfold vphase. rewrite V by auto. destruct (inner d u && negb (ex u)); ring.
Qed.
Lemma frame_setPhase d v p : frame d (setPhase d v p).
Proof.
  unfold setPhase, mod_vertex. constructor; auto; intros u; unfold live, vty; cbn; unfold zupd; destruct (Nat.eqb_spec u v) as [->|]; auto; now destruct (d_verts d v).
Qed.
Lemma setPhase_other d v p u : u <> v -> d_verts (setPhase d v p) u = d_verts d u.
Proof. intros H. unfold setPhase, mod_vertex. cbn. now apply zupd_neq. Qed.
Lemma setPhase_vphase d v p u : live d v = true -> vphase (setPhase d v p) u = if u =? v then p else vphase d u.
Proof. intros L. unfold live in L. unfold vphase, setPhase, mod_vertex. cbn. unfold zupd. destruct (Nat.eqb_spec u v) as [->|]; auto. destruct (d_verts d v); cbn; congruence. Qed.
Lemma setPhase_zwf d v p : zwf d -> zwf (setPhase d v p).
Proof. apply zwf_rows; auto using frame_setPhase. Qed.
Lemma setPhase_book d v p : book d -> book (setPhase d v p).
Proof. intros B. apply (frame_book d); auto using frame_setPhase. rewrite (dsum_rows d); auto using frame_setPhase. Qed.
Lemma setPhase_phok d v p : live d v = true -> phases_ok d -> ph_ok p -> phases_ok (setPhase d v p).
Proof. intros Lv H P u L. rewrite (f_live _ _ (frame_setPhase d v p)) in L. rewrite setPhase_vphase by auto. destruct (Nat.eqb_spec u v) as [->|]; auto. Qed.

(* ---- splitting off a phase gadget ---------------------------------------------------------------------------------------- *)
(* what is common to the two preparations of a pivot *)
Record prep (d : diag) (v : nat) (d' : diag) : Prop := {
  pr_wf : wf d'; pr_same : same_map d d';
  pr_live : forall u, live d u = true -> live d' u = true;
  pr_vty : forall u, live d u = true -> vty d' u = vty d u;
  pr_row : forall u, live d u = true -> u <> v -> isBoundary d u = false -> d_edges d' u = d_edges d u;
  pr_ph : forall u, live d u = true -> u <> v -> vphase d' u = vphase d u;
  pr_hv : forall u, live d u = true -> isBoundary d u = false -> hv d' v u = hv d v u
}.
Lemma prep_refl d v : wf d -> prep d v d.
Proof. intros W. constructor; auto. apply same_map_refl. Qed.
Lemma prep_trans d1 d2 d3 v : prep d1 v d2 -> prep d2 v d3 -> prep d1 v d3.
Proof.
  intros A B. constructor.
  - apply (pr_wf _ _ _ B).
  - eapply same_map_trans; [apply (pr_same _ _ _ A)|apply (pr_same _ _ _ B)].
  - intros u L. apply (pr_live _ _ _ B), (pr_live _ _ _ A), L.
  - intros u L. rewrite (pr_vty _ _ _ B) by (now apply (pr_live _ _ _ A)). now apply (pr_vty _ _ _ A).
  - intros u L N Bd. rewrite (pr_row _ _ _ B); auto; [now apply (pr_row _ _ _ A)|now apply (pr_live _ _ _ A)|]. unfold isBoundary in *. now rewrite (pr_vty _ _ _ A).
  - intros u L N. rewrite (pr_ph _ _ _ B); auto; [now apply (pr_ph _ _ _ A)|now apply (pr_live _ _ _ A)].
  - intros u L Bd. rewrite (pr_hv _ _ _ B); [now apply (pr_hv _ _ _ A)|now apply (pr_live _ _ _ A)|]. unfold isBoundary in *. now rewrite (pr_vty _ _ _ A).
Qed.
Lemma row_live d v n : zwf d -> live d v = true -> In n (map fst (d_edges d v)) -> live d n = true.
Proof. intros Z L I. apply in_map_iff in I as ([m h] & <- & I). now destruct (z_sym d Z v m h L I). Qed.
Lemma fresh_none d d' a w v : zwf d -> av_ok rho d a d' w -> live d v = true -> hv d' v w = None.
Proof.
  intros Z A L. assert (v <> w) by (intros ->; pose proof (av_fresh _ _ _ _ _ A); congruence). apply hv_none. rewrite (av_edges _ _ _ _ _ A) by auto. intros I. apply (row_live d v w) in I; auto.
  pose proof (av_fresh _ _ _ _ _ A). congruence.
Qed.
Lemma av_vty d a d' w u : av_ok rho d a d' w -> u <> w -> vty d' u = vty d u.
Proof. intros A N. unfold vty. now rewrite (av_verts _ _ _ _ _ A). Qed.
Lemma av_vph d a d' w u : av_ok rho d a d' w -> u <> w -> vphase d' u = vphase d u.
Proof. intros A N. unfold vphase. now rewrite (av_verts _ _ _ _ _ A). Qed.
Lemma av_neq d a d' w u : av_ok rho d a d' w -> live d u = true -> u <> w.
Proof. intros A L ->. pose proof (av_fresh _ _ _ _ _ A). congruence. Qed.
Lemma av_phok d a d' w : av_ok rho d a d' w -> phases_ok d -> ph_ok (v_phase a) -> phases_ok d'.
Proof.
  intros A H P u L. destruct (Nat.eq_dec u w) as [->|N]; [unfold vphase; now rewrite (av_data _ _ _ _ _ A)|]. rewrite (av_vph _ _ _ _ _ A N). apply H.
  rewrite (av_live _ _ _ _ _ A) in L. apply orb_true_iff in L as [L|L]; auto. apply Nat.eqb_eq in L. congruence.
Qed.
Lemma phok_addEdge d a b h : phases_ok d -> phases_ok (addEdge d a b h).
Proof. intros H. apply (phok_verts d); auto. Qed.
Lemma extractGadget_ok d v : wf d -> live d v = true -> vty d v = VZ ->
  prep d v (extractGadget d v) /\ p_isPauli (vphase (extractGadget d v) v) = true /\
  exists w, d_edges (extractGadget d v) v = d_edges d v ++ [(w, true)] /\ vty (extractGadget d v) w = VZ.
Proof.
  intros W L T. pose proof (w_z d W) as Zd. unfold extractGadget. destruct (d_verts d v) as [a|] eqn:Ev; [|unfold live in L; rewrite Ev in L; discriminate].
  assert (Pa : v_phase a = vphase d v) by (unfold vphase; now rewrite Ev).
  pose proof (add_vertex rho d (mkV (v_qubit a) (v_phase a) VZ) Zd (w_b d W)) as A1. destruct (addVertex d (mkV (v_qubit a) (v_phase a) VZ)) as [d1 ph]. cbn [fst snd] in A1.
  pose proof (add_vertex rho d1 (mkV (v_qubit a) p_zero VZ) (av_zwf _ _ _ _ _ A1) (av_book _ _ _ _ _ A1)) as A2. destruct (addVertex d1 (mkV (v_qubit a) p_zero VZ)) as [d2 idv]. cbn [fst snd] in A2.
  assert (N1 : v <> ph) by (eapply av_neq; eauto). assert (L1 : live d1 v = true) by (rewrite (av_live _ _ _ _ _ A1), L; auto).
  assert (N2 : v <> idv) by (eapply av_neq; eauto). assert (L2 : live d2 v = true) by (rewrite (av_live _ _ _ _ _ A2), L1; auto).
  assert (Lp1 : live d1 ph = true) by (rewrite (av_live _ _ _ _ _ A1), Nat.eqb_refl; apply orb_true_r).
  assert (N3 : ph <> idv) by (eapply av_neq; eauto). assert (Lp2 : live d2 ph = true) by (rewrite (av_live _ _ _ _ _ A2), Lp1; auto).
  assert (Li2 : live d2 idv = true) by (rewrite (av_live _ _ _ _ _ A2), Nat.eqb_refl; apply orb_true_r).
  set (d3 := setPhase d2 v (p_const 0)). pose proof (frame_setPhase d2 v (p_const 0)) as F3. fold d3 in F3.
  assert (Z3 : zwf d3) by (apply setPhase_zwf, (av_zwf _ _ _ _ _ A2)). assert (B3 : book d3) by (apply setPhase_book, (av_book _ _ _ _ _ A2)).
  assert (E3 : forall u, d_edges d3 u = d_edges d2 u) by reflexivity.
  assert (X1 : hv d3 v idv = None). { rewrite (hv_edges d2 d3) by auto. apply (fresh_none d1 d2 _ idv v (av_zwf _ _ _ _ _ A1) A2 L1). }
  set (d4 := addEdge d3 v idv true). pose proof (frame_addEdge d3 v idv true) as F4. fold d4 in F4.
  assert (Z4 : zwf d4) by (apply addEdge_zwf; auto; now rewrite (f_live _ _ F3)). assert (B4 : book d4) by (apply addEdge_book; auto; now rewrite (f_live _ _ F3)).
  assert (X2 : hv d4 idv ph = None).
  { unfold d4. rewrite addEdge_hv; auto. 2:{ rewrite hv_sym; auto; now rewrite (f_live _ _ F3). }
    unfold on_pair. rewrite (proj2 (Nat.eqb_neq idv v)), (proj2 (Nat.eqb_neq ph v)) by auto. rewrite andb_false_r. cbn [orb andb].
    apply hv_none. rewrite E3. rewrite (av_row _ _ _ _ _ A2). intros []. }
  set (d5 := addEdge d4 idv ph true). pose proof (frame_addEdge d4 idv ph true) as F5. fold d5 in F5.
  assert (F34 : frame d2 d5) by (eapply frame_trans; [exact F3|]; eapply frame_trans; eauto).
  assert (Lall : forall u, live d5 u = live d u || (u =? ph) || (u =? idv)). { intros u. rewrite (f_live _ _ F34), (av_live _ _ _ _ _ A2), (av_live _ _ _ _ _ A1). reflexivity. }
  assert (Tall : forall u, live d u = true -> vty d5 u = vty d u).
  { intros u Lu. rewrite (f_vty _ _ F34). assert (u <> ph) by (eapply av_neq; eauto). assert (live d1 u = true) by (rewrite (av_live _ _ _ _ _ A1), Lu; auto).
    assert (u <> idv) by (eapply av_neq; eauto). rewrite (av_vty _ _ _ _ _ A2), (av_vty _ _ _ _ _ A1); auto. }
  assert (Tp : vty d5 ph = VZ). { rewrite (f_vty _ _ F34), (av_vty _ _ _ _ _ A2) by auto. unfold vty. now rewrite (av_data _ _ _ _ _ A1). }
  assert (Ti : vty d5 idv = VZ). { rewrite (f_vty _ _ F34). unfold vty. now rewrite (av_data _ _ _ _ _ A2). }
  assert (Z5 : zwf d5). { apply addEdge_zwf; auto; rewrite (f_live _ _ F4), (f_live _ _ F3); auto. }
  assert (Row : forall u, live d u = true -> d_edges d5 u = if u =? v then d_edges d v ++ [(idv, true)] else d_edges d u).
  { intros u Lu. assert (Np : u <> ph) by (eapply av_neq; eauto). assert (live d1 u = true) by (rewrite (av_live _ _ _ _ _ A1), Lu; auto). assert (Ni : u <> idv) by (eapply av_neq; eauto).
    unfold d5. rewrite addEdge_edges by auto. rewrite (proj2 (Nat.eqb_neq _ _) Np), (proj2 (Nat.eqb_neq _ _) Ni). unfold d4. rewrite addEdge_edges by auto.
    rewrite (proj2 (Nat.eqb_neq _ _) Ni). rewrite !E3. destruct (Nat.eqb_spec u v) as [->|]; rewrite (av_edges _ _ _ _ _ A2), (av_edges _ _ _ _ _ A1) by auto; auto. }
  assert (Vph5 : forall u, vphase d5 u = if u =? v then p_const 0 else vphase d2 u). { intros u. change (vphase d5 u) with (vphase d3 u). unfold d3. rewrite setPhase_vphase by auto. reflexivity. }
  assert (SM : same_map d d5).
  { apply (conclude rho d d5 [] [ph; idv] C1); auto using C1_neq_C0.
    - rewrite (f_in _ _ F34), (av_in _ _ _ _ _ A2). apply (av_in _ _ _ _ _ A1).
    - rewrite (f_out _ _ F34), (av_out _ _ _ _ _ A2). apply (av_out _ _ _ _ _ A1).
    - constructor.
    - constructor; [intros [E|[]]; congruence|]. constructor; [intros []|constructor].
    - intros u [<-|[<-|[]]]; unfold inner; rewrite Lall, Nat.eqb_refl, VZ_bnd, ?orb_true_r by auto; auto.
    - intros u _ Iu. unfold inner in *. apply andb_true_iff in Iu as [Lu Bu]. rewrite Lall, Lu. unfold isBoundary in *. rewrite Tall by auto. split; auto.
      assert (u <> ph) by (eapply av_neq; eauto). assert (live d1 u = true) by (rewrite (av_live _ _ _ _ _ A1), Lu; auto). assert (u <> idv) by (eapply av_neq; eauto). intros [E|[E|[]]]; congruence.
    - intros u Nu Iu. split; [|intros []]. unfold inner in *. apply andb_true_iff in Iu as [Lu Bu]. rewrite Lall in Lu.
      rewrite (proj2 (Nat.eqb_neq u ph)), (proj2 (Nat.eqb_neq u idv)), !orb_false_r in Lu by (intros ->; apply Nu; cbn; auto). rewrite Lu. unfold isBoundary in *. now rewrite Tall in Bu.
    - intros x. cbn [vsum].
      assert (S : forall s t, wx none d5 (setb (setb x ph s) idv t) =
        (wx none d x * ((if x v then / pexp rho (vphase d v) else C1) * (if s then pexp rho (vphase d v) else C1) * (wgt true (x v) t * wgt true t s)))%C).
      { intros s t. unfold d5. rewrite addEdge_wx; auto; try (rewrite (f_live _ _ F4), (f_live _ _ F3); auto). fold d5.
        assert (Eh1 : eh d4 idv ph true = true). { unfold eh. rewrite <- !(f_isX _ _ _ F5). now rewrite !VZ_isX. } rewrite Eh1.
        unfold d4. rewrite addEdge_wx; auto; try (rewrite (f_live _ _ F3); auto). fold d4.
        assert (Eh2 : eh d3 v idv true = true). { unfold eh. rewrite <- !(f_isX _ _ _ F4), <- !(f_isX _ _ _ F5). rewrite !VZ_isX; auto. now rewrite Tall. } rewrite Eh2.
        rewrite (chph_wx d2 d3 v); auto; try apply (av_zwf _ _ _ _ _ A2). 2:{ intros u Nu. now apply setPhase_other. }
        2:{ rewrite <- (f_bnd _ _ _ F34). unfold isBoundary. now rewrite Tall, T. }
        rewrite (av_wx _ _ _ _ _ A2), (av_wx _ _ _ _ _ A1). cbn [none orb v_type vtype_eqb v_phase].
        assert (Wd : wx none d (setb (setb x ph s) idv t) = wx none d x).
        { apply wx_ext. intros u Lu _. assert (live d1 u = true) by (rewrite (av_live _ _ _ _ _ A1), Lu; auto). rewrite !setb_other; auto; try (eapply av_neq; eauto). }
        rewrite Wd. rewrite (pexp_zero rho p_zero) by reflexivity. assert (P3 : vphase d3 v = p_const 0) by (unfold d3; rewrite setPhase_vphase, Nat.eqb_refl; auto).
        rewrite P3, pexp_const0. assert (P2 : vphase d2 v = vphase d v) by (rewrite (av_vph _ _ _ _ _ A2), (av_vph _ _ _ _ _ A1); auto). rewrite P2, Pa.
        rewrite !setb_get, !Nat.eqb_refl. rewrite !(proj2 (Nat.eqb_neq _ _)) by auto. destruct (x v), s, t; ring. }
      rewrite !S. transitivity (wx none d x * ((if x v then / pexp rho (vphase d v) else C1) * ((wgt true false (x v) * wgt true false false + wgt true true (x v) * wgt true true false) +
         pexp rho (vphase d v) * (wgt true false (x v) * wgt true false true + wgt true true (x v) * wgt true true true))))%C.
      + rewrite !compose_wgt. cbn [xorb]. rewrite !wgt_false. destruct (x v); cbn [eqb]; [field; apply pexp_neq0|ring].
      + rewrite !(wgt_sym true (x v)). ring. }
  split; [|split].
  - constructor; auto.
    + constructor; auto.
      * apply addEdge_book; auto; rewrite (f_live _ _ F4), (f_live _ _ F3); auto.
      * intros u Lu Bu. rewrite Lall in Lu. assert (Np : u <> ph) by (intros ->; rewrite VZ_bnd in Bu; auto; discriminate). assert (Ni : u <> idv) by (intros ->; rewrite VZ_bnd in Bu; auto; discriminate).
        rewrite (proj2 (Nat.eqb_neq _ _) Np), (proj2 (Nat.eqb_neq _ _) Ni), !orb_false_r in Lu. unfold isBoundary in Bu. rewrite Tall in Bu by auto.
        unfold degree. rewrite Row by auto. destruct (Nat.eqb_spec u v) as [->|]; [rewrite T in Bu; discriminate|]. apply (w_d d W u Lu Bu).
      * intros u Hu. rewrite (f_in _ _ F34), (f_out _ _ F34), (av_in _ _ _ _ _ A2), (av_out _ _ _ _ _ A2), (av_in _ _ _ _ _ A1), (av_out _ _ _ _ _ A1) in Hu.
        destruct (w_io d W u Hu) as [Lu Bu]. rewrite Lall, Lu. unfold isBoundary. rewrite Tall by auto. auto.
      * apply phok_addEdge, phok_addEdge. apply setPhase_phok; auto using ph_ok_const0. apply (av_phok _ _ _ _ A2); [|apply ph_ok_zero]. apply (av_phok _ _ _ _ A1); [apply (w_ph d W)|].
        cbn [v_phase]. rewrite Pa. apply (w_ph d W v L).
    + intros u Lu. now rewrite Lall, Lu.
    + intros u Lu Nu _. rewrite Row by auto. now rewrite (proj2 (Nat.eqb_neq _ _) Nu).
    + intros u Lu Nu. rewrite Vph5, (proj2 (Nat.eqb_neq _ _) Nu). assert (live d1 u = true) by (rewrite (av_live _ _ _ _ _ A1), Lu; auto).
      rewrite (av_vph _ _ _ _ _ A2), (av_vph _ _ _ _ _ A1); auto; eapply av_neq; eauto.
    + intros u Lu _. unfold hv, getEdge. rewrite Row by auto. rewrite Nat.eqb_refl, find_app. destruct (find _ (d_edges d v)) eqn:Q; auto. cbn.
      assert (live d1 u = true) by (rewrite (av_live _ _ _ _ _ A1), Lu; auto). assert (u <> idv) by (eapply av_neq; eauto). rewrite (proj2 (Nat.eqb_neq idv u)); auto.
  - rewrite Vph5, Nat.eqb_refl. reflexivity.
  - exists idv. split; [rewrite Row by auto; now rewrite Nat.eqb_refl|auto].
Qed.

(* ---- putting a vertex between a boundary and its neighbour --------------------------------------------------------------- *)
Lemma cut_edges d a b u : d_edges (cutEdge d a b) u = if u =? a then filter (fun e => negb (fst e =? b)) (d_edges d a) else if u =? b then filter (fun e => negb (fst e =? a)) (d_edges d b) else d_edges d u.
Proof. reflexivity. Qed.
Lemma insert_commutes d a v to h : v <> to -> v <> snd (addVertex d a) -> to <> snd (addVertex d a) -> 
  (d_deleted d = [] -> snd (addVertex d a) = d_size d) ->
  removeEdge (addEdge (addEdge (fst (addVertex d a)) v (snd (addVertex d a)) true) to (snd (addVertex d a)) h) v to =
  addEdge (addEdge (fst (addVertex (cutEdge d v to) a)) v (snd (addVertex d a)) true) to (snd (addVertex d a)) h /\ snd (addVertex (cutEdge d v to) a) = snd (addVertex d a).
Proof.
  intros N Nv Nt Sz. split.
  - rewrite removeEdge_cut by auto. set (w := snd (addVertex d a)) in *.
    assert (E : forall u, d_edges (fst (addVertex d a)) u = if u =? w then [] else d_edges d u).
    { intros u. unfold w, addVertex in *. destruct (d_deleted d); cbn [fst snd d_edges] in *; unfold zupd; auto. cbn. rewrite Sz by auto. reflexivity. }
    assert (E' : forall u, d_edges (fst (addVertex (cutEdge d v to) a)) u = if u =? w then [] else d_edges (cutEdge d v to) u).
    { intros u. unfold w, addVertex in *. change (d_deleted (cutEdge d v to)) with (d_deleted d). destruct (d_deleted d); cbn [fst snd d_edges] in *; unfold zupd; auto.
      change (d_size (cutEdge d v to)) with (d_size d). cbn in Sz. rewrite Sz by auto. reflexivity. }
    assert (R : d_edges (cutEdge (addEdge (addEdge (fst (addVertex d a)) v w true) to w h) v to) = d_edges (addEdge (addEdge (fst (addVertex (cutEdge d v to) a)) v w true) to w h)).
    { apply functional_extensionality. intros u. rewrite cut_edges. rewrite !addEdge_edges by auto. rewrite !E, !E', !cut_edges.
      rewrite !Nat.eqb_refl. rewrite ?(proj2 (Nat.eqb_neq v w)), ?(proj2 (Nat.eqb_neq to w)), ?(proj2 (Nat.eqb_neq to v)), ?(proj2 (Nat.eqb_neq v to)), ?(proj2 (Nat.eqb_neq w v)), ?(proj2 (Nat.eqb_neq w to)) by auto.
      destruct (Nat.eqb_spec u v) as [->|Uv].
      - rewrite (proj2 (Nat.eqb_neq v to)) by auto. rewrite filter_app. cbn [filter fst]. rewrite (proj2 (Nat.eqb_neq w to)), (proj2 (Nat.eqb_neq v w)) by auto. reflexivity.
      - destruct (Nat.eqb_spec u to) as [->|Ut]; auto. rewrite filter_app. cbn [filter fst]. rewrite (proj2 (Nat.eqb_neq w v)), ?(proj2 (Nat.eqb_neq to w)) by auto. reflexivity. }
    assert (X : forall d1 d2 : diag, d_size d1 = d_size d2 -> d_verts d1 = d_verts d2 -> d_edges d1 = d_edges d2 -> d_deleted d1 = d_deleted d2 -> d_in d1 = d_in d2 -> d_out d1 = d_out d2 ->
      d_nv d1 = d_nv d2 -> d_ne d1 = d_ne d2 -> d_gphase d1 = d_gphase d2 -> d1 = d2). { clear. intros [] [] ; cbn. congruence. }
    apply X; auto; clear - d; unfold addVertex; change (d_deleted (cutEdge d v to)) with (d_deleted d); destruct (d_deleted d); try reflexivity;
    cbn [fst d_ne addEdge pushHalf set_ne set_edges cutEdge removeHalfEdge d_edges d_size]; lia.
  - unfold addVertex. change (d_deleted (cutEdge d v to)) with (d_deleted d). destruct (d_deleted d); reflexivity.
Qed.
Definition ei_step (q : Z) (v : nat) := fun (d' : diag) (e : edge) => let '(to, h) := e in
        if negb (isBoundary d' to) then d'
        else
          let '(d1, w) := addVertex d' (mkV q (p_const 0) VZ) in
          removeEdge (addEdge (addEdge d1 v w true) to w (negb h)) v to.
Lemma insert_ok d q v to h : wf d -> live d v = true -> vty d v = VZ -> In (to, h) (d_edges d v) -> isBoundary d to = true ->
  let d' := ei_step q v d (to, h) in
  prep d v d' /\ (vphase d' v = vphase d v) /\ exists w, live d w = false /\ d_edges d' v = filter (fun e => negb (fst e =? to)) (d_edges d v) ++ [(w, true)] /\ vty d' w = VZ.
Proof.
  intros W L T I Bt. pose proof (w_z d W) as Zd. cbn zeta. unfold ei_step. rewrite Bt. cbn [negb].
  destruct (z_sym d Zd v to h L I) as (Lt & N & It). assert (Hv : hv d v to = Some h) by (apply hv_In; auto; now apply (z_nodup d Zd)).
  pose proof (add_vertex rho d (mkV q (p_const 0) VZ) Zd (w_b d W)) as A. set (a := mkV q (p_const 0) VZ) in *.
  assert (Nv : v <> snd (addVertex d a)) by (eapply av_neq; eauto). assert (Nt : to <> snd (addVertex d a)) by (eapply av_neq; eauto).
  assert (Sz : d_deleted d = [] -> snd (addVertex d a) = d_size d).
  { intros D. unfold addVertex. rewrite D. cbn. rewrite (book_nv d (w_b d W)). unfold vcount.
    assert (Q : zsum (seq 0 (d_size d)) (fun v0 => if live d v0 then 1%Z else 0%Z) = Z.of_nat (d_size d)); [|rewrite Q; apply Nat2Z.id].
    rewrite <- (seq_length (d_size d) 0) at 2. rewrite zsum_len. apply zsum_ext. intros u U. apply in_seq in U. destruct (live d u) eqn:Lu; auto. exfalso.
    assert (In u (d_deleted d)); [|rewrite D in *; auto]. apply (b_del d (w_b d W)). unfold live in Lu. destruct (d_verts d u); [discriminate|]. split; auto. lia. }
  destruct (insert_commutes d a v to (negb h) N Nv Nt Sz) as (E & Es). destruct (addVertex d a) as [d1 w] eqn:Ea. cbn [fst snd] in *. rewrite E. clear E.
  set (e0 := cutEdge d v to) in *. assert (Z0 : zwf e0) by (now apply cut_zwf). assert (B0 : book e0) by (apply (cut_book d v to h); auto; apply (w_b d W)). pose proof (frame_cut d v to) as F0. fold e0 in F0.
  pose proof (add_vertex rho e0 a Z0 B0) as A0. rewrite Es in A0. set (e1 := fst (addVertex e0 a)) in *. clearbody e1. clear Es.
  assert (L0v : live e0 v = true) by (now rewrite (f_live _ _ F0)). assert (L0t : live e0 to = true) by (now rewrite (f_live _ _ F0)).
  assert (L1 : forall u, live e1 u = live d u || (u =? w)). { intros u. rewrite (av_live _ _ _ _ _ A0), (f_live _ _ F0). reflexivity. }
  assert (X1 : hv e1 v w = None) by (apply (fresh_none e0 e1 a w v Z0 A0 L0v)).
  assert (X2 : hv e1 to w = None) by (apply (fresh_none e0 e1 a w to Z0 A0 L0t)).
  set (e2 := addEdge e1 v w true). pose proof (frame_addEdge e1 v w true) as F2. fold e2 in F2.
  assert (Lw : live e1 w = true) by (rewrite L1, Nat.eqb_refl; apply orb_true_r). assert (Lv : live e1 v = true) by (rewrite L1, L; auto). assert (Lto : live e1 to = true) by (rewrite L1, Lt; auto).
  assert (Z2 : zwf e2) by (apply addEdge_zwf; auto; apply (av_zwf _ _ _ _ _ A0)). assert (B2 : book e2) by (apply addEdge_book; auto; [apply (av_zwf _ _ _ _ _ A0)|apply (av_book _ _ _ _ _ A0)]).
  assert (X3 : hv e2 to w = None).
  { unfold e2. rewrite addEdge_hv; auto. 2:{ rewrite hv_sym; auto. apply (av_zwf _ _ _ _ _ A0). }
    unfold on_pair. rewrite (proj2 (Nat.eqb_neq to v)), (proj2 (Nat.eqb_neq to w)) by auto. exact X2. }
  set (e3 := addEdge e2 to w (negb h)). pose proof (frame_addEdge e2 to w (negb h)) as F3. fold e3 in F3.
  assert (F : frame e1 e3) by (eapply frame_trans; eauto).
  assert (L2w : live e2 w = true) by (now rewrite (f_live _ _ F2)). assert (L2t : live e2 to = true) by (now rewrite (f_live _ _ F2)).
  assert (Z3 : zwf e3) by (now apply addEdge_zwf). assert (B3 : book e3) by (now apply addEdge_book).
  assert (Lall : forall u, live e3 u = live d u || (u =? w)) by (intros u; rewrite (f_live _ _ F); apply L1).
  assert (Tall : forall u, live d u = true -> vty e3 u = vty d u).
  { intros u Lu. rewrite (f_vty _ _ F). assert (u <> w) by (eapply av_neq; eauto). rewrite (av_vty _ _ _ _ _ A0) by auto. apply (f_vty _ _ F0). }
  assert (Tw : vty e3 w = VZ). { rewrite (f_vty _ _ F). unfold vty. now rewrite (av_data _ _ _ _ _ A0). }
  assert (Pall : forall u, live d u = true -> vphase e3 u = vphase d u).
  { intros u Lu. change (vphase e3 u) with (vphase e1 u). assert (u <> w) by (eapply av_neq; eauto). rewrite (av_vph _ _ _ _ _ A0) by auto. reflexivity. }
  assert (Row : forall u, live d u = true -> d_edges e3 u = if u =? v then filter (fun e => negb (fst e =? to)) (d_edges d v) ++ [(w, true)]
     else if u =? to then filter (fun e => negb (fst e =? v)) (d_edges d to) ++ [(w, negb h)] else d_edges d u).
  { intros u Lu. assert (Nw : u <> w) by (eapply av_neq; eauto). unfold e3. rewrite addEdge_edges by auto. unfold e2. rewrite !addEdge_edges by auto.
    rewrite (proj2 (Nat.eqb_neq _ _) Nw). rewrite (av_edges _ _ _ _ _ A0 u Nw), ?(av_edges _ _ _ _ _ A0 v Nv), ?(av_edges _ _ _ _ _ A0 to Nt). unfold e0. rewrite !cut_edges. rewrite !Nat.eqb_refl.
    rewrite (proj2 (Nat.eqb_neq to v)), (proj2 (Nat.eqb_neq to w)) by auto.
    destruct (Nat.eqb_spec u to) as [->|Nto].
    - rewrite (proj2 (Nat.eqb_neq to v)) by auto. reflexivity.
    - destruct (Nat.eqb_spec u v) as [->|]; auto. }
  split; [|split].
  - constructor; auto.
    + constructor; auto.
      * intros u Lu Bu. rewrite Lall in Lu. assert (Nw : u <> w) by (intros ->; rewrite VZ_bnd in Bu; auto; discriminate). rewrite (proj2 (Nat.eqb_neq _ _) Nw), orb_false_r in Lu.
        unfold isBoundary in Bu. rewrite Tall in Bu by auto. unfold degree. rewrite Row by auto. destruct (Nat.eqb_spec u v) as [->|]; [rewrite T in Bu; discriminate|].
        pose proof (w_d d W u Lu Bu) as D. unfold degree in D. destruct (Nat.eqb_spec u to) as [->|]; [|exact D].
        pose proof (length_filter_one _ v h (z_nodup d Zd to Lt) It). rewrite app_length. cbn [length]. lia.
      * intros u Hu. rewrite (f_in _ _ F), (f_out _ _ F), (av_in _ _ _ _ _ A0), (av_out _ _ _ _ _ A0) in Hu. change (d_in e0) with (d_in d) in Hu. change (d_out e0) with (d_out d) in Hu.
        destruct (w_io d W u Hu) as [Lu Bu]. rewrite Lall, Lu. unfold isBoundary. rewrite Tall by auto. auto.
      * apply phok_addEdge, phok_addEdge. apply (av_phok _ _ _ _ A0); [|apply ph_ok_const0]. apply (phok_verts d); [reflexivity|apply (w_ph d W)].
    + apply (conclude rho d e3 [] [w] C1); auto using C1_neq_C0.
      * rewrite (f_in _ _ F), (av_in _ _ _ _ _ A0). reflexivity.
      * rewrite (f_out _ _ F), (av_out _ _ _ _ _ A0). reflexivity.
      * constructor.
      * constructor; [intros []|constructor].
      * intros u [<-|[]]. unfold inner. rewrite Lall, Nat.eqb_refl, VZ_bnd, orb_true_r by auto. auto.
      * intros u _ Iu. unfold inner in *. apply andb_true_iff in Iu as [Lu Bu]. rewrite Lall, Lu. unfold isBoundary in *. rewrite Tall by auto. split; auto.
        intros [E|[]]. apply (av_neq _ _ _ _ _ A Lu). auto.
      * intros u Nu Iu. split; [|intros []]. unfold inner in *. apply andb_true_iff in Iu as [Lu Bu]. rewrite Lall in Lu.
        rewrite (proj2 (Nat.eqb_neq u w)), !orb_false_r in Lu by (intros ->; apply Nu; cbn; auto). rewrite Lu. unfold isBoundary in *. now rewrite Tall in Bu.
      * intros x. cbn [vsum].
        assert (S : forall s, wx none e3 (setb x w s) = (wx none e0 x * (wgt true s (x v) * wgt (negb h) s (x to)))%C).
        { intros s. unfold e3. rewrite addEdge_wx; auto. fold e3.
          assert (Eh1 : eh e2 to w (negb h) = negb h). { unfold eh. rewrite <- !(f_isX _ _ _ F3). rewrite (VZ_isX _ w) by auto. unfold isX. rewrite Tall by auto. unfold isBoundary in Bt. destruct (vty d to); cbn; destruct h; auto; discriminate. }
          rewrite Eh1. unfold e2. rewrite addEdge_wx; auto; [|apply (av_zwf _ _ _ _ _ A0)]. fold e2.
          assert (Eh2 : eh e1 v w true = true). { unfold eh. rewrite <- !(f_isX _ _ _ F). rewrite !VZ_isX; auto. now rewrite Tall. }
          rewrite Eh2. rewrite (av_wx _ _ _ _ _ A0). cbn [none orb v_type vtype_eqb v_phase a]. rewrite pexp_const0.
          assert (W0 : wx none e0 (setb x w s) = wx none e0 x). { apply wx_ext. intros u Lu _. apply setb_other. intros <-. rewrite (av_fresh _ _ _ _ _ A0) in Lu. discriminate. }
          rewrite W0. rewrite !setb_get, !Nat.eqb_refl. rewrite !(proj2 (Nat.eqb_neq _ _)) by auto. rewrite !(wgt_sym _ (x v)), !(wgt_sym _ (x to)). destruct s; ring. }
        rewrite !S. rewrite (cut_wx rho none d v to h) by auto. fold e0.
        transitivity (wx none e0 x * (wgt true false (x v) * wgt (negb h) false (x to) + wgt true true (x v) * wgt (negb h) true (x to)))%C; [|ring].
        rewrite compose_wgt. do 2 f_equal. unfold eh. rewrite (VZ_isX d v) by auto. unfold isX, isBoundary in *. destruct (vty d to); try discriminate. now destruct h.
    + intros u Lu. now rewrite Lall, Lu.
    + intros u Lu Nu Bu. rewrite Row by auto. rewrite (proj2 (Nat.eqb_neq _ _) Nu). destruct (Nat.eqb_spec u to) as [->|]; auto. congruence.
    + intros u Lu Bu. unfold hv, getEdge. rewrite Row by auto. rewrite Nat.eqb_refl, find_app, find_filter.
      assert (u <> w) by (eapply av_neq; eauto). assert (u <> to) by congruence. rewrite (proj2 (Nat.eqb_neq u to)) by auto.
      destruct (find _ (d_edges d v)) eqn:Q; auto. cbn. rewrite (proj2 (Nat.eqb_neq w u)); auto.
  - now apply Pall.
  - exists w. split; [apply (av_fresh _ _ _ _ _ A)|]. split; auto. rewrite Row by auto. now rewrite Nat.eqb_refl.
Qed.
Lemma ei_loop q v l : forall d, wf d -> live d v = true -> vty d v = VZ -> NoDup (map fst l) -> (forall e, In e l -> In e (d_edges d v)) ->
  (forall e, In e (d_edges d v) -> (snd e = true /\ vty d (fst e) = VZ) \/ (isBoundary d (fst e) = true /\ In e l)) ->
  let d2 := fold_left (ei_step q v) l d in
  prep d v d2 /\ vphase d2 v = vphase d v /\ (forall e, In e (d_edges d2 v) -> snd e = true /\ vty d2 (fst e) = VZ).
Proof.
  induction l as [|[to h] l IH]; intros d W L T ND HI HR; cbn zeta; cbn [fold_left].
  - split; [now apply prep_refl|]. split; auto. intros e I. destruct (HR e I) as [|[_ []]]; auto.
  - cbn [map fst] in ND. inversion ND as [|? ? NI ND']; subst. pose proof (w_z d W) as Zd. destruct (isBoundary d to) eqn:Bt.
    + destruct (insert_ok d q v to h W L T (HI _ (or_introl eq_refl)) Bt) as (P1 & Ph1 & w & Fw & Row & Tw). set (d1 := ei_step q v d (to, h)) in *.
      assert (Lr : forall e, In e (d_edges d v) -> live d (fst e) = true) by (intros e I; apply (row_live d v); auto; now apply in_map).
      destruct (IH d1) as (P2 & Ph2 & R2); auto.
      * apply (pr_wf _ _ _ P1).
      * now apply (pr_live _ _ _ P1).
      * now rewrite (pr_vty _ _ _ P1).
      * intros e I. rewrite Row. apply in_app_iff. left. apply filter_In. split; [apply HI; now right|]. apply negb_true_iff, Nat.eqb_neq. intros E. apply NI. rewrite <- E. now apply in_map.
      * intros e I. rewrite Row in I. apply in_app_iff in I as [I|[<-|[]]]; [|now left]. apply filter_In in I as [I Ne]. apply negb_true_iff, Nat.eqb_neq in Ne.
        unfold isBoundary. rewrite (pr_vty _ _ _ P1) by auto. destruct (HR e I) as [Q|[Q [E|I']]]; auto. subst e. cbn in Ne. congruence.
      * split; [now apply (prep_trans d d1)|]. split; [congruence|auto].
    + assert (E : ei_step q v d (to, h) = d) by (unfold ei_step; now rewrite Bt). rewrite E. apply IH; auto.
      * intros e I. apply HI. now right.
      * intros e I. destruct (HR e I) as [Q|[Q [E'|I']]]; auto. subst e. cbn in Q. congruence.
Qed.
Lemma ensureInterior_ok d v : wf d -> live d v = true -> vty d v = VZ ->
  (forall e, In e (d_edges d v) -> (snd e = true /\ vty d (fst e) = VZ) \/ isBoundary d (fst e) = true) ->
  prep d v (ensureInterior d v) /\ vphase (ensureInterior d v) v = vphase d v /\ (forall e, In e (d_edges (ensureInterior d v) v) -> snd e = true /\ vty (ensureInterior d v) (fst e) = VZ).
Proof.
  intros W L T H. unfold ensureInterior. destruct (d_verts d v) as [a|] eqn:Ev; [|unfold live in L; rewrite Ev in L; discriminate].
  apply (ei_loop (v_qubit a) v (d_edges d v) d); auto.
  - apply (z_nodup d (w_z d W) v L).
  - intros e I. destruct (H e I); auto.
Qed.
Lemma ensurePauli_ok d v : wf d -> live d v = true -> vty d v = VZ ->
  (forall e, In e (d_edges d v) -> (snd e = true /\ vty d (fst e) = VZ) \/ isBoundary d (fst e) = true) ->
  prep d v (ensurePauliVertex d v) /\ p_isPauli (vphase (ensurePauliVertex d v) v) = true /\
  (forall e, In e (d_edges (ensurePauliVertex d v) v) -> snd e = true /\ vty (ensurePauliVertex d v) (fst e) = VZ).
Proof.
  intros W L T H. unfold ensurePauliVertex, extractPauliGadget, isPauliV. destruct (p_isPauli (vphase d v)) eqn:P.
  - destruct (ensureInterior_ok d v W L T H) as (A & B & D). split; auto. split; auto. now rewrite B.
  - destruct (extractGadget_ok d v W L T) as (A & B & w & Row & Tw). set (d1 := extractGadget d v) in *.
    assert (Lr : forall e, In e (d_edges d v) -> live d (fst e) = true) by (intros e I; apply (row_live d v); auto using w_z; now apply in_map).
    destruct (ensureInterior_ok d1 v) as (A2 & B2 & D2).
    + apply (pr_wf _ _ _ A).
    + now apply (pr_live _ _ _ A).
    + now rewrite (pr_vty _ _ _ A).
    + intros e I. rewrite Row in I. apply in_app_iff in I as [I|[<-|[]]]; [|now left]. unfold isBoundary. rewrite (pr_vty _ _ _ A) by auto. apply H, I.
    + split; [now apply (prep_trans d d1)|]. split; [now rewrite B2|auto].
Qed.
Lemma checkPivot_inv d v0 v1 : checkPivot d v0 v1 = true -> v0 <> v1 /\ vty d v0 = VZ /\ vty d v1 = VZ /\ hv d v0 v1 = Some true /\
  (forall e, In e (d_edges d v0) -> (snd e = true /\ vty d (fst e) = VZ) \/ isBoundary d (fst e) = true) /\
  (forall e, In e (d_edges d v1) -> (snd e = true /\ vty d (fst e) = VZ) \/ isBoundary d (fst e) = true).
Proof.
  unfold checkPivot. intros H. apply andb_true_iff in H as [H _]. apply andb_true_iff in H as [H R1]. apply andb_true_iff in H as [H R0]. apply andb_true_iff in H as [H G].
  apply andb_true_iff in H as [H T1]. apply andb_true_iff in H as [N T0]. apply negb_true_iff in N, R0, R1. apply Nat.eqb_neq in N.
  assert (X : forall l, existsb (invalidPivotEdge d) l = false -> forall e, In e l -> (snd e = true /\ vty d (fst e) = VZ) \/ isBoundary d (fst e) = true).
  { intros l E e I. assert (Q : invalidPivotEdge d e = false). { destruct (invalidPivotEdge d e) eqn:Q; auto. assert (existsb (invalidPivotEdge d) l = true) by (apply existsb_exists; eauto). congruence. }
    unfold invalidPivotEdge in Q. unfold isBoundary. destruct (vtype_eqb (vty d (fst e)) VBoundary); auto. left. cbn [negb] in Q. rewrite andb_true_r in Q. apply orb_false_iff in Q as [Q1 Q2].
    apply negb_false_iff in Q1, Q2. split; auto. now apply vtype_Z. }
  split; auto. split; [now apply vtype_Z|]. split; [now apply vtype_Z|]. split; [|split; now apply X].
  unfold hv. destruct (getEdge d v0 v1) as [[w [|]]|]; cbn in *; auto; discriminate.
Qed.
Lemma pivot_ok d v0 v1 : wf d -> live d v0 = true -> checkPivot d v0 v1 = true -> wf (pivot d v0 v1) /\ same_map d (pivot d v0 v1).
Proof.
  intros W L0 K. apply checkPivot_inv in K as (N & T0 & T1 & E & R0 & R1). pose proof (w_z d W) as Zd. destruct (zwf_hv d v0 v1 true Zd L0 E) as (L1 & _ & E').
  assert (Lr : forall v, live d v = true -> forall e, In e (d_edges d v) -> live d (fst e) = true) by (intros v Lv e I; apply (row_live d v); auto; now apply in_map).
  destruct (ensurePauli_ok d v0 W L0 T0 R0) as (A & PA & RA). unfold pivot. set (d1 := ensurePauliVertex d v0) in *.
  assert (L1' : live d1 v1 = true) by (now apply (pr_live _ _ _ A)). assert (T1' : vty d1 v1 = VZ) by (now rewrite (pr_vty _ _ _ A)).
  assert (L0' : live d1 v0 = true) by (now apply (pr_live _ _ _ A)). assert (T0' : vty d1 v0 = VZ) by (now rewrite (pr_vty _ _ _ A)).
  destruct (ensurePauli_ok d1 v1 (pr_wf _ _ _ A) L1' T1') as (B & PB & RB).
  { rewrite (pr_row _ _ _ A) by (auto using VZ_bnd). intros e I. unfold isBoundary. rewrite (pr_vty _ _ _ A) by (eapply Lr; [|eauto]; auto). apply (R1 e I). }
  set (d2 := ensurePauliVertex d1 v1) in *.
  assert (Row0 : d_edges d2 v0 = d_edges d1 v0) by (apply (pr_row _ _ _ B); auto using VZ_bnd).
  destruct (pivotPauli_gen rho d2 v0 v1) as (C & D); auto.
  - apply (pr_wf _ _ _ B).
  - now apply (pr_live _ _ _ B).
  - now rewrite (pr_vty _ _ _ B).
  - now rewrite (pr_vty _ _ _ B).
  - now rewrite (pr_ph _ _ _ B).
  - rewrite (hv_edges d1 d2) by auto. rewrite (pr_hv _ _ _ A); auto using VZ_bnd.
  - rewrite Row0. intros e I. rewrite (pr_vty _ _ _ B); auto. apply (row_live d1 v0); auto; [apply (w_z _ (pr_wf _ _ _ A))|now apply in_map].
  - split; auto. eapply same_map_trans; [apply (pr_same _ _ _ A)|]. eapply same_map_trans; [apply (pr_same _ _ _ B)|]. exact D.
Qed.
Lemma interior_valid d v : isInterior d v = true -> (forall e, In e (d_edges d v) -> (snd e = true /\ vty d (fst e) = VZ) \/ isBoundary d (fst e) = true) ->
  forall e, In e (d_edges d v) -> snd e = true /\ vty d (fst e) = VZ.
Proof.
  intros H R e I. unfold isInterior in H. rewrite forallb_forall in H. specialize (H e I). apply andb_true_iff in H as [_ H]. apply vtype_Z in H.
  destruct (R e I) as [|B]; auto. unfold isBoundary in B. rewrite H in B. discriminate.
Qed.
Lemma pivotGadget_ok d v0 v1 : wf d -> live d v0 = true -> checkPivotGadget d v0 v1 = true -> wf (pivotGadget d v0 v1) /\ same_map d (pivotGadget d v0 v1).
Proof.
  intros W L0 K. unfold checkPivotGadget in K. apply andb_true_iff in K as [K KP]. apply andb_true_iff in K as [K I1]. apply andb_true_iff in K as [X I0].
  apply checkPivot_inv in KP as (N & T0 & T1 & E & R0 & R1). pose proof (w_z d W) as Zd. destruct (zwf_hv d v0 v1 true Zd L0 E) as (L1 & _ & E').
  pose proof (interior_valid d v0 I0 R0) as V0. pose proof (interior_valid d v1 I1 R1) as V1.
  assert (Lr : forall v, live d v = true -> forall e, In e (d_edges d v) -> live d (fst e) = true) by (intros v Lv e I; apply (row_live d v); auto; now apply in_map).
  unfold pivotGadget. unfold isPauliV in *.
  assert (Ext : forall a b, live d a = true -> live d b = true -> a <> b -> vty d a = VZ -> vty d b = VZ -> p_isPauli (vphase d b) = true ->
     (forall e, In e (d_edges d a) -> snd e = true /\ vty d (fst e) = VZ) -> (forall e, In e (d_edges d b) -> snd e = true /\ vty d (fst e) = VZ) ->
     let d1 := extractGadget d a in prep d a d1 /\ p_isPauli (vphase d1 a) = true /\ p_isPauli (vphase d1 b) = true /\
       (forall e, In e (d_edges d1 a) -> snd e = true /\ vty d1 (fst e) = VZ) /\ (forall e, In e (d_edges d1 b) -> snd e = true /\ vty d1 (fst e) = VZ)).
  { intros a b La Lb Nab Ta Tb Pb Va Vb. cbn zeta. destruct (extractGadget_ok d a W La Ta) as (A & PA & w & Row & Tw). split; [auto|]. split; auto. split; [rewrite (pr_ph _ _ _ A); auto|]. split.
    - intros e I. rewrite Row in I. apply in_app_iff in I as [I|[<-|[]]]; auto. rewrite (pr_vty _ _ _ A) by (apply (Lr a La e I)). auto.
    - rewrite (pr_row _ _ _ A) by auto using VZ_bnd. intros e I. rewrite (pr_vty _ _ _ A) by (apply (Lr b Lb e I)). auto. }
  destruct (p_isPauli (vphase d v0)) eqn:P0.
  - destruct (Ext v1 v0 L1 L0 (not_eq_sym N) T1 T0 P0 V1 V0) as (A & Q1 & Q0 & U1 & U0). set (d1 := extractGadget d v1) in *.
    destruct (pivotPauli_gen rho d1 v0 v1) as (C & D); auto.
    + apply (pr_wf _ _ _ A).
    + now apply (pr_live _ _ _ A).
    + now rewrite (pr_vty _ _ _ A).
    + now rewrite (pr_vty _ _ _ A).
    + rewrite (hv_edges d d1); auto. apply (pr_row _ _ _ A); auto using VZ_bnd.
    + split; auto. eapply same_map_trans; [apply (pr_same _ _ _ A)|exact D].
  - assert (P1 : p_isPauli (vphase d v1) = true) by (destruct (p_isPauli (vphase d v1)); auto).
    destruct (Ext v0 v1 L0 L1 N T0 T1 P1 V0 V1) as (A & Q0 & Q1 & U0 & U1). set (d1 := extractGadget d v0) in *.
    destruct (pivotPauli_gen rho d1 v0 v1) as (C & D); auto.
    + apply (pr_wf _ _ _ A).
    + now apply (pr_live _ _ _ A).
    + now rewrite (pr_vty _ _ _ A).
    + now rewrite (pr_vty _ _ _ A).
    + rewrite (pr_hv _ _ _ A); auto using VZ_bnd.
    + split; auto. eapply same_map_trans; [apply (pr_same _ _ _ A)|exact D].
Qed.
End Rules3.
