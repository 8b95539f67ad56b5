(* Removal and creation of vertices. *)
From Coq Require Import Reals QArith Qreals ZArith Bool List Arith Lia Lra Permutation FunctionalExtensionality.
From Verif Require Import Cplx Qsem PiModel PiProps ZXModel ZXSpec ZXPhaseProofs ZXSemProofs ZXUpdProofs ZXUpd2Proofs.
Import ListNotations.
Local Close Scope Q_scope.
Local Open Scope nat_scope.

Lemma memb_In v l : memb v l = true <-> In v l.
Proof. unfold memb. rewrite existsb_exists. split; [intros (w & I & E); apply Nat.eqb_eq in E; now subst|intros I; exists v; now rewrite Nat.eqb_refl]. Qed.
Lemma memb_false v l : memb v l = false <-> ~ In v l.
Proof. rewrite <- memb_In. destruct (memb v l); split; congruence. Qed.
Lemma filter_filter {A} (p : A -> bool) l : filter p (filter p l) = filter p l.
Proof. induction l; cbn; auto. destruct (p a) eqn:E; cbn; rewrite ?E, IHl; auto. Qed.
Lemma zsum_mem n l : NoDup l -> (forall u, In u l -> u < n) -> zsum (seq 0 n) (fun u => if memb u l then 1%Z else 0%Z) = Z.of_nat (length l).
Proof.
  induction l as [|a l IH]; intros N B.
  - cbn. now apply zsum_zero.
  - inversion N; subst. rewrite zsum_ext with (g := fun u => ((if (u =? a)%nat then 1 else 0) + (if memb u l then 1 else 0))%Z).
    + rewrite zsum_add, zsum_at, IH by (auto; try (intros; apply B; cbn; auto); apply B; cbn; auto). cbn [length]. lia.
    + intros u _. cbn. fold (memb u l). destruct (Nat.eqb_spec u a) as [->|]; cbn; [|destruct (memb u l); auto].
      destruct (memb a l) eqn:M; auto. apply memb_In in M. tauto.
Qed.
Definition strip (v : nat) := fold_left (fun d' (e : edge) => let d1 := removeHalfEdge d' (fst e) v in set_ne d1 (d_ne d1 - 1)).
Lemma strip_frame v l d : frame d (strip v l d) /\ d_verts (strip v l d) = d_verts d /\ d_ne (strip v l d) = (d_ne d - Z.of_nat (length l))%Z /\
  forall u, d_edges (strip v l d) u = if memb u (map fst l) then filter (fun e => negb (fst e =? v)) (d_edges d u) else d_edges d u.
Proof.
  revert d. induction l as [|[w k] l IH]; intros d.
  - cbn. split; [apply frame_refl|]. split; auto. split; auto. lia.
  - cbn [strip fold_left fst]. fold (strip v l). set (d1 := set_ne _ _). destruct (IH d1) as (F & V & Ne & E).
    assert (F1 : frame d d1) by (constructor; auto). split; [eapply frame_trans; eauto|]. split; [now rewrite V|]. split.
    + rewrite Ne. unfold d1. cbn [length d_ne set_ne removeHalfEdge set_edges]. lia.
    + intros u. rewrite E. unfold d1. cbn [d_edges set_ne removeHalfEdge set_edges map memb existsb fst]. unfold zupd. fold (memb u (map fst l)).
      destruct (Nat.eqb_spec u w) as [->|]; cbn [orb].
      * destruct (memb w (map fst l)); auto. apply filter_filter.
      * reflexivity.
Qed.

Section Upd3.
Variable rho : nat -> R.
Notation wx := (wx rho).

Record rv_ok (d : diag) (v : nat) (d' : diag) : Prop := {
  rv_zwf : zwf d'; rv_book : book d -> book d';
  rv_size : d_size d' = d_size d; rv_in : d_in d' = d_in d; rv_out : d_out d' = d_out d; rv_gp : d_gphase d' = d_gphase d;
  rv_live : forall u, live d' u = live d u && negb (u =? v);
  rv_verts : forall u, u <> v -> d_verts d' u = d_verts d u;
  rv_edges : forall u, live d u = true -> u <> v -> d_edges d' u = filter (fun e => negb (fst e =? v)) (d_edges d u);
  rv_stale : d_edges d' v = d_edges d v;
  rv_hv : forall u w, live d u = true -> u <> v -> w <> v -> hv d' u w = hv d u w;
  rv_wx : forall ex x, wx ex d' x = wx (plus ex v) d x
}.
Lemma remove_vertex d v : zwf d -> live d v = true -> rv_ok d v (removeVertex d v).
Proof.
  intros Z L. unfold removeVertex. set (d0 := mkD _ _ _ _ _ _ _ _ _). fold (strip v). destruct (strip_frame v (d_edges d v) d0) as (F & V & Ne & E).
  set (d' := strip v (d_edges d v) d0) in *.
  assert (S : d_size d' = d_size d) by apply (f_size _ _ F).
  assert (Lv : forall u, live d' u = live d u && negb (u =? v)).
  { intros u. rewrite (f_live _ _ F). unfold d0, live. cbn. unfold zupd. destruct (u =? v); cbn; [now rewrite andb_false_r|now rewrite andb_true_r]. }
  assert (Vt : forall u, u <> v -> d_verts d' u = d_verts d u). { intros u U. rewrite V. unfold d0. cbn. now apply zupd_neq. }
  assert (Ed : forall u, live d u = true -> u <> v -> d_edges d' u = filter (fun e => negb (fst e =? v)) (d_edges d u)).
  { intros u Lu U. rewrite E. change (d_edges d0 u) with (d_edges d u). destruct (memb u (map fst (d_edges d v))) eqn:M; auto.
    symmetry. apply filter_none. intros I. apply memb_false in M. apply M. apply in_map_iff in I as ([w k] & Ew & I). cbn in Ew. subst w.
    destruct (z_sym d Z u v k Lu I) as (_ & _ & I'). apply (in_map fst) in I'. auto. }
  assert (NV : ~ In v (map fst (d_edges d v))).
  { intros I. apply in_map_iff in I as ([w k] & Ew & I). cbn in Ew. subst w. destruct (z_sym d Z v v k L I) as (_ & N & _). congruence. }
  assert (Hv : forall u w, live d u = true -> u <> v -> w <> v -> hv d' u w = hv d u w).
  { intros u w Lu U W. unfold hv, getEdge. rewrite Ed by auto. rewrite find_filter. apply Nat.eqb_neq in W. now rewrite W. }
  assert (Zw : zwf d').
  { apply zwf_intro.
    - intros u U. destruct (Nat.eq_dec u v) as [->|Nu]; [rewrite V; unfold d0; cbn; apply zupd_eq|]. rewrite Vt by auto. apply Z. now rewrite <- S.
    - intros u Lu. rewrite Lv in Lu. apply andb_true_iff in Lu as [Lu Nu]. apply negb_true_iff, Nat.eqb_neq in Nu. rewrite Ed by auto. apply NoDup_map_filter, Z; auto.
    - intros u w h Lu H. rewrite Lv in Lu. apply andb_true_iff in Lu as [Lu Nu]. apply negb_true_iff, Nat.eqb_neq in Nu.
      assert (W : w <> v). { intros ->. unfold hv, getEdge in H. rewrite Ed in H by auto. rewrite find_filter, Nat.eqb_refl in H. discriminate. }
      rewrite Hv in H by auto. destruct (zwf_hv d u w h Z Lu H) as (Lw & N & H'). split; [rewrite Lv, Lw; apply Nat.eqb_neq in W; now rewrite W|]. split; auto. now rewrite Hv. }
  constructor; auto.
  - intros B. apply book_intro.
    + rewrite (f_del _ _ F). unfold d0. cbn. constructor; [|apply B]. intros I. apply (b_del d B) in I as [_ I]. unfold live in L. rewrite I in L. discriminate.
    + intros u. rewrite (f_del _ _ F), S, V. unfold d0. cbn. unfold zupd. destruct (Nat.eqb_spec u v) as [->|].
      * pose proof (live_lt d v Z L). tauto.
      * rewrite (b_del d B). intuition congruence.
    + rewrite (f_nv _ _ F). unfold d0. cbn [d_nv]. rewrite (book_nv d B). unfold vcount. rewrite S.
      rewrite (zsum_ext _ (fun u => if live d u then 1%Z else 0%Z) (fun u => ((if live d' u then 1 else 0) + (if (u =? v)%nat then 1 else 0))%Z)).
      * rewrite zsum_add, zsum_at by (now apply live_lt). lia.
      * intros u _. rewrite Lv. destruct (Nat.eqb_spec u v) as [->|]; [rewrite L; auto|]. rewrite andb_true_r. lia.
    + rewrite Ne. change (d_ne d0) with (d_ne d). pose proof (book_ne d B) as NE.
      assert (DS : (dsum d = dsum d' + (Z.of_nat (length (d_edges d v)) + Z.of_nat (length (d_edges d v))))%Z); [|lia].
      assert (A1 : zsum (seq 0 (d_size d)) (fun u => if u =? v then Z.of_nat (length (d_edges d v)) else 0%Z) = Z.of_nat (length (d_edges d v))) by (apply zsum_at; now apply live_lt).
      assert (A2 : zsum (seq 0 (d_size d)) (fun u => if memb u (map fst (d_edges d v)) then 1%Z else 0%Z) = Z.of_nat (length (d_edges d v))).
      { rewrite zsum_mem, map_length; auto. now apply Z. intros u I. apply in_map_iff in I as ([w k] & Ew & I). cbn in Ew. subst w. destruct (z_sym d Z v u k L I) as (Lu' & _). now apply live_lt. }
      rewrite <- A1 at 1. rewrite <- A2. unfold dsum. rewrite S.
      rewrite <- !zsum_add. apply zsum_ext. intros u _. rewrite Lv. unfold degree. destruct (Nat.eqb_spec u v) as [->|Nu].
      * rewrite L. cbn [andb negb]. apply memb_false in NV. rewrite NV. lia.
      * rewrite andb_true_r. destruct (live d u) eqn:Lu.
        -- rewrite Ed by auto. destruct (memb u (map fst (d_edges d v))) eqn:M.
           ++ apply memb_In, in_map_iff in M as ([w k] & Ew & M). cbn in Ew. subst w. destruct (z_sym d Z v u k L M) as (_ & _ & M').
                 rewrite (length_filter_one _ _ _ (z_nodup d Z u Lu) M'). lia.
           ++ rewrite filter_none; [lia|]. intros I. apply memb_false in M. apply M. apply in_map_iff in I as ([w k] & Ew & I). cbn in Ew. subst w.
                 destruct (z_sym d Z u v k Lu I) as (_ & _ & I'). apply (in_map fst) in I'. auto.
        -- destruct (memb u (map fst (d_edges d v))) eqn:M; [|lia]. apply memb_In, in_map_iff in M as ([w k] & Ew & M). cbn in Ew. subst w.
              destruct (z_sym d Z v u k L M) as (Lu' & _). congruence.
  - apply (f_in _ _ F).
  - apply (f_out _ _ F).
  - apply (f_gp _ _ F).
  - rewrite E. change (d_edges d0 v) with (d_edges d v). apply memb_false in NV. now rewrite NV.
  - intros ex x. unfold ZXSemProofs.wx, pv, pe. rewrite S. f_equal.
    + apply cprod_ext. intros u _. unfold inner, plus. rewrite Lv. destruct (Nat.eqb_spec u v) as [->|Nu].
      * cbn. rewrite orb_true_r. cbn. rewrite !andb_false_r. reflexivity.
      * rewrite orb_false_r, andb_true_r. unfold isBoundary, vty, phw, vphase. now rewrite Vt.
    + apply dprod_ext. intros i j _ _ _. unfold eg, plus. rewrite !Lv. destruct (Nat.eqb_spec i v) as [->|Ni]; [cbn; now rewrite !andb_false_r, ?orb_true_r; cbn; rewrite ?andb_false_r|].
      destruct (Nat.eqb_spec j v) as [->|Nj]; [cbn; rewrite !andb_false_r, ?orb_true_r; cbn; now rewrite ?andb_false_r|].
      rewrite !orb_false_r, !andb_true_r. destruct (live d i) eqn:Li, (live d j) eqn:Lj; cbn; auto. destruct (ex i), (ex j); cbn; auto.
      unfold ew. rewrite Hv by auto. destruct (hv d i j); auto. unfold eh, isX, vty. now rewrite !Vt.
Qed.

(* ---- new vertices ---------------------------------------------------------------------------------------------- *)
Record av_ok (d : diag) (a : vdata) (d' : diag) (w : nat) : Prop := {
  av_zwf : zwf d'; av_book : book d'; av_fresh : live d w = false; av_live : forall u, live d' u = live d u || (u =? w);
  av_verts : forall u, u <> w -> d_verts d' u = d_verts d u; av_data : d_verts d' w = Some a;
  av_edges : forall u, u <> w -> d_edges d' u = d_edges d u; av_row : d_edges d' w = [];
  av_in : d_in d' = d_in d; av_out : d_out d' = d_out d; av_gp : d_gphase d' = d_gphase d;
  av_wx : forall ex x, wx ex d' x = (wx ex d x * (if ex w || vtype_eqb (v_type a) VBoundary then C1 else if x w then pexp rho (v_phase a) else C1))%C
}.
Lemma seq_split_prod n f : cprod (seq 0 (S n)) f = (cprod (seq 0 n) f * f n)%C.
Proof. rewrite seq_S, cprod_app. cbn. ring. Qed.
Lemma add_vertex d a : zwf d -> book d -> av_ok d a (fst (addVertex d a)) (snd (addVertex d a)).
Proof.
  intros Zd B. unfold addVertex.
  assert (Gen : forall n w del, live d w = false -> w < n -> (forall u, n <= u -> d_verts d u = None) -> (n = d_size d \/ (n = S (d_size d) /\ w = d_size d)) -> NoDup del ->
    (forall u, In u del <-> u < n /\ u <> w /\ d_verts d u = None) ->
    av_ok d a (mkD n (zupd (d_verts d) w (Some a)) (zupd (d_edges d) w []) del (d_in d) (d_out d) (d_nv d + 1) (d_ne d) (d_gphase d)) w).
  { intros n w del Lw Wn Out Hn Nd Hd. set (d' := mkD _ _ _ _ _ _ _ _ _).
    assert (Lv : forall u, live d' u = live d u || (u =? w)). { intros u. unfold d', live. cbn. unfold zupd. destruct (u =? w); [now rewrite orb_true_r|now rewrite orb_false_r]. }
    assert (NW : forall u h, live d u = true -> In (w, h) (d_edges d u) -> False). { intros u h Lu I. destruct (z_sym d Zd u w h Lu I) as (L' & _). congruence. }
    assert (Sm : forall (f g : nat -> Z), (forall u, u <> w -> f u = g u) -> g w = 0%Z -> (d_size d < n -> g (d_size d) = 0%Z) -> zsum (seq 0 n) f = (zsum (seq 0 (d_size d)) g + f w)%Z).
    { intros f g FG Gw Gn. rewrite (zsum_ext _ f (fun u => (g u + (if (u =? w)%nat then f w else 0))%Z)).
      - rewrite zsum_add, zsum_at by auto. f_equal. destruct Hn as [->|[-> _]]; auto. rewrite seq_S, zsum_app. cbn. rewrite Gn by lia. lia.
      - intros u _. destruct (Nat.eqb_spec u w) as [->|]; [lia|]. rewrite FG by auto. lia. }
    assert (OutS : d_verts d (d_size d) = None) by (apply (z_out d Zd); lia).
    constructor; auto.
    - constructor.
      + intros u U. unfold d'. cbn in *. rewrite zupd_neq by lia. auto.
      + intros u. rewrite Lv. unfold d'. cbn. unfold zupd. destruct (Nat.eqb_spec u w) as [->|]; [intros _; constructor|]. rewrite orb_false_r. apply Zd.
      + intros u t h. rewrite !Lv. unfold d'. cbn. unfold zupd. destruct (Nat.eqb_spec u w) as [->|]; [intros _ []|]. rewrite orb_false_r. intros Lu I.
        destruct (z_sym d Zd u t h Lu I) as (Lt & N & I'). rewrite Lt. split; auto. split; auto. destruct (Nat.eqb_spec t w) as [->|]; auto. congruence.
    - apply book_intro; auto.
      + intros u. unfold d'. cbn. unfold zupd. rewrite Hd. destruct (Nat.eqb_spec u w) as [->|]; intuition congruence.
      + unfold d' at 1. cbn [d_nv]. rewrite (book_nv d B). unfold vcount. change (d_size d') with n. rewrite (Sm _ (fun u => if live d u then 1%Z else 0%Z)).
        * rewrite Lv, Nat.eqb_refl, orb_true_r. lia.
        * intros u U. rewrite Lv. apply Nat.eqb_neq in U. now rewrite U, orb_false_r.
        * now rewrite Lw.
        * intros _. unfold live. now rewrite OutS.
      + unfold d' at 1. cbn [d_ne]. rewrite (book_ne d B). unfold dsum. change (d_size d') with n. rewrite (Sm _ (fun u => if live d u then Z.of_nat (degree d u) else 0%Z)).
        * rewrite Lv, Nat.eqb_refl, orb_true_r. unfold degree, d'. cbn. rewrite zupd_eq. cbn. lia.
        * intros u U. rewrite Lv. pose proof U as U'. apply Nat.eqb_neq in U. rewrite U, orb_false_r. unfold degree, d'. cbn. now rewrite zupd_neq.
        * now rewrite Lw.
        * intros _. unfold live. now rewrite OutS.
    - intros u U. unfold d'. cbn. now apply zupd_neq.
    - unfold d'. cbn. apply zupd_eq.
    - intros u U. unfold d'. cbn. now apply zupd_neq.
    - unfold d'. cbn. apply zupd_eq.
    - intros ex x. unfold ZXSemProofs.wx.
      assert (Vt : forall u, u <> w -> d_verts d' u = d_verts d u) by (intros u U; unfold d'; cbn; now apply zupd_neq).
      assert (Dt : d_verts d' w = Some a) by (unfold d'; cbn; apply zupd_eq).
      assert (Pm : forall (f g : nat -> C), (forall u, u <> w -> f u = g u) -> g w = C1 -> (d_size d < n -> g (d_size d) = C1) -> cprod (seq 0 n) f = (cprod (seq 0 (d_size d)) g * f w)%C).
      { intros f g FG Gw Gn. rewrite (cprod_ext _ f (fun u => (g u * (if u =? w then f u else C1))%C)).
        - rewrite cprod_mul, (cprod_at (seq 0 n) w f) by (auto using seq_NoDup; apply in_seq; lia). f_equal. destruct Hn as [->|[-> _]]; auto. rewrite seq_split_prod, Gn by lia. ring.
        - intros u _. destruct (Nat.eqb_spec u w) as [->|]; [rewrite Gw; ring|]. rewrite FG by auto. ring. }
      assert (P : pv rho ex d' x = (pv rho ex d x * (if ex w || vtype_eqb (v_type a) VBoundary then C1 else if x w then pexp rho (v_phase a) else C1))%C).
      { unfold pv. change (d_size d') with n. rewrite (Pm _ (fun v => if inner d v && negb (ex v) then phw rho d v x else C1)).
        - f_equal. unfold inner, phw, isBoundary, vty, vphase. rewrite Lv, Nat.eqb_refl, orb_true_r, Dt. destruct (vtype_eqb (v_type a) VBoundary), (ex w); auto.
        - intros u U. unfold inner, phw, isBoundary, vty, vphase. rewrite Lv. rewrite Vt by auto. apply Nat.eqb_neq in U. now rewrite U, orb_false_r.
        - unfold inner. now rewrite Lw.
        - intros _. unfold inner, live. now rewrite OutS. }
      assert (E : pe ex d' x = pe ex d x).
      { unfold pe. change (d_size d') with n.
        assert (EQ : forall i j, eg ex d' x i j = eg ex d x i j).
        { intros i j. unfold eg. rewrite !Lv. destruct (Nat.eqb_spec i w) as [->|Ni].
          - rewrite orb_true_r, Lw. cbn [andb]. assert (H : hv d' w j = None) by (unfold hv, getEdge, d'; cbn; now rewrite zupd_eq). unfold ew. rewrite H. now destruct (_ && _).
          - rewrite orb_false_r. destruct (live d i) eqn:Li; cbn [andb]; auto. destruct (Nat.eqb_spec j w) as [->|Nj].
            + rewrite orb_true_r, Lw. cbn [andb]. assert (H : hv d' i w = None).
              { rewrite (hv_edges d) by (unfold d'; cbn; now apply zupd_neq). destruct (hv d i w) eqn:H; auto. destruct (zwf_hv d i w _ Zd Li H) as (L' & _). congruence. }
              unfold ew. rewrite H. now destruct (_ && _).
            + rewrite orb_false_r. unfold ew. rewrite (hv_edges d) by (unfold d'; cbn; now apply zupd_neq). destruct (hv d i j); auto. unfold eh, isX, vty. now rewrite !Vt. }
        rewrite (dprod_ext n (eg ex d' x) (eg ex d x)) by auto. destruct Hn as [->|[-> _]]; auto. unfold dprod. rewrite seq_split_prod.
        assert (O : forall i, eg ex d x (d_size d) i = C1) by (intros i; unfold eg, live; now rewrite OutS).
        rewrite (cprod_one (seq 0 (S (d_size d))) (fun j => if d_size d <? j then _ else C1)) by (intros j _; rewrite O; now destruct (d_size d <? j)).
        transitivity (cprod (seq 0 (d_size d)) (fun i => cprod (seq 0 (S (d_size d))) (fun j => if i <? j then eg ex d x i j else C1))); [ring|].
        apply cprod_ext. intros i _. rewrite seq_split_prod. rewrite eg_sym, O by auto. destruct (i <? d_size d); ring. }
      rewrite P, E. ring. }
  destruct (d_deleted d) as [|v rest] eqn:D.
  - cbn [fst snd].
    assert (All : forall v, v < d_size d -> live d v = true). { intros v V. unfold live. destruct (d_verts d v) eqn:E; auto. exfalso. assert (I : In v (d_deleted d)) by (apply (b_del d B); auto). rewrite D in I. destruct I. }
    assert (NV : Z.to_nat (d_nv d) = d_size d).
    { rewrite (book_nv d B). unfold vcount. rewrite (zsum_ext _ _ (fun _ => 1%Z)) by (intros v V; apply in_seq in V; rewrite All by lia; auto). rewrite <- zsum_len, seq_length. apply Nat2Z.id. }
    rewrite NV. apply Gen; auto.
    + unfold live. rewrite (z_out d Zd); auto.
    + intros u U. apply (z_out d Zd). lia.
    + constructor.
    + intros u. split; [intros []|]. intros (U1 & U2 & U3). exfalso. assert (u < d_size d) by lia. apply All in H. unfold live in H. rewrite U3 in H. discriminate.
  - cbn [fst snd]. pose proof (b_nodup d B) as N. rewrite D in N. inversion N; subst.
    assert (Iv : v < d_size d /\ d_verts d v = None) by (apply (b_del d B); rewrite D; cbn; auto). destruct Iv as [V1 V2]. apply Gen; auto.
    + unfold live. now rewrite V2.
    + apply Zd.
    + intros u. split.
      * intros I. assert (J : In u (d_deleted d)) by (rewrite D; cbn; auto). apply (b_del d B) in J as [J1 J2]. split; auto. split; auto. intros ->. tauto.
      * intros (U1 & U2 & U3). assert (J : In u (d_deleted d)) by (apply (b_del d B); auto). rewrite D in J. destruct J as [J|J]; auto. congruence.
Qed.
End Upd3.
