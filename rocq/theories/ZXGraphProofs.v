(* Turning X spiders into Z spiders. *)
From Coq Require Import Reals QArith Qreals ZArith Bool List Arith Lia Lra Permutation FunctionalExtensionality.
From Verif Require Import Cplx Qsem PiModel ZXModel ZXSpec ZXPhaseProofs ZXSemProofs ZXUpdProofs ZXUpd2Proofs ZXUpd3Proofs ZXRuleProofs ZXRule2Proofs ZXRule3Proofs ZXGadgetProofs.
Import ListNotations.
Local Close Scope Q_scope.
Local Open Scope nat_scope.

Section Graph.
Variable rho : nat -> R.
Notation wx := (wx rho).
Notation same_map := (same_map rho).

Record gl_ok (d d' : diag) : Prop := {
  gl_zwf : zwf d'; gl_size : d_size d' = d_size d; gl_live : forall u, live d' u = live d u;
  gl_in : d_in d' = d_in d; gl_out : d_out d' = d_out d; gl_gp : d_gphase d' = d_gphase d; gl_del : d_deleted d' = d_deleted d;
  gl_nv : d_nv d' = d_nv d; gl_ne : d_ne d' = d_ne d; gl_ph : forall u, vphase d' u = vphase d u; gl_bnd : forall u, isBoundary d' u = isBoundary d u;
  gl_row : forall u, map fst (d_edges d' u) = map fst (d_edges d u); gl_wx : forall ex x, wx ex d' x = wx ex d x;
  gl_X : forall u, isX d u = false -> isX d' u = false
}.
Lemma gl_refl d : zwf d -> gl_ok d d. Proof. intros Z. constructor; auto. Qed.
Lemma gl_trans d1 d2 d3 : gl_ok d1 d2 -> gl_ok d2 d3 -> gl_ok d1 d3.
Proof. intros [] []. constructor; auto; try congruence; intros; congruence. Qed.
Lemma gl_book d d' : gl_ok d d' -> book d -> book d'.
Proof.
  intros G B. assert (Dg : forall u, degree d' u = degree d u). { intros u. unfold degree. rewrite <- (map_length fst (d_edges d u)), <- (gl_row _ _ G u). symmetry. apply map_length. }
  assert (Gv : getVertices d' = getVertices d). { unfold getVertices. rewrite (gl_size _ _ G). apply filter_ext, (gl_live _ _ G). }
  constructor.
  - rewrite (gl_del _ _ G). apply (b_nodup d B).
  - intros v. rewrite (gl_del _ _ G), (gl_size _ _ G). rewrite (b_del d B v). pose proof (gl_live _ _ G v) as L. unfold live in L. destruct (d_verts d' v), (d_verts d v); split; intros [? ?]; split; auto; congruence.
  - rewrite (gl_nv _ _ G), Gv. apply (b_nv d B).
  - rewrite (gl_ne _ _ G), Gv, (b_ne d B). clear -Dg. induction (getVertices d) as [|u l IH]; cbn; auto. now rewrite Dg, IH.
Qed.
Lemma gl_wf d d' : gl_ok d d' -> wf d -> wf d'.
Proof.
  intros G W. assert (Dg : forall u, degree d' u = degree d u). { intros u. unfold degree. rewrite <- (map_length fst (d_edges d u)), <- (gl_row _ _ G u). symmetry. apply map_length. }
  constructor.
  - apply (gl_zwf _ _ G).
  - apply (gl_book _ _ G), (w_b d W).
  - intros u L B. rewrite Dg. rewrite (gl_live _ _ G) in L. rewrite (gl_bnd _ _ G) in B. apply (w_d d W u L B).
  - intros u I. rewrite (gl_in _ _ G), (gl_out _ _ G) in I. rewrite (gl_live _ _ G), (gl_bnd _ _ G). apply (w_io d W u I).
  - intros u L. rewrite (gl_ph _ _ G). rewrite (gl_live _ _ G) in L. apply (w_ph d W u L).
Qed.
Lemma gl_den d d' : zwf d -> gl_ok d d' -> forall b, den rho d' b = den rho d b.
Proof.
  intros Zd G b. unfold den. rewrite (gl_gp _ _ G). f_equal.
  assert (In : interior d' = interior d). { unfold interior. rewrite (gl_size _ _ G). apply filter_ext. intros u. unfold inner. now rewrite (gl_live _ _ G), (gl_bnd _ _ G). }
  rewrite In. apply vsum_ext. intros x. rewrite !weight_wx by (auto; apply (gl_zwf _ _ G)). apply (gl_wx _ _ G).
Qed.

Lemma toggle_back_edges v es : forall d, NoDup (map fst es) -> forall u,
  d_edges (toggle_back d v es) u = if memb u (map fst es) then toggle_first v (d_edges d u) else d_edges d u.
Proof.
  unfold toggle_back. induction es as [|e es IH]; cbn [fold_left map]; intros d N u; auto. inversion N; subst. rewrite IH by auto. cbn [memb existsb].
  unfold toggleEdgePtr. cbn [d_edges set_edges]. change (existsb (Nat.eqb u) (map fst es)) with (memb u (map fst es)). destruct (Nat.eqb_spec u (fst e)) as [->|Ne]; cbn [orb].
  - rewrite (proj2 (memb_false _ _)) by auto. apply zupd_eq.
  - rewrite zupd_neq by auto. reflexivity.
Qed.
Lemma toggle_back_same v es : forall d, d_size (toggle_back d v es) = d_size d /\ d_verts (toggle_back d v es) = d_verts d /\ d_deleted (toggle_back d v es) = d_deleted d /\
  d_in (toggle_back d v es) = d_in d /\ d_out (toggle_back d v es) = d_out d /\ d_nv (toggle_back d v es) = d_nv d /\ d_ne (toggle_back d v es) = d_ne d /\ d_gphase (toggle_back d v es) = d_gphase d.
Proof. unfold toggle_back. induction es as [|e es IH]; intros d; [repeat split; reflexivity|]. cbn [fold_left]. destruct (IH (toggleEdgePtr d (fst e) v)) as (-> & -> & -> & -> & -> & -> & -> & ->). repeat split; reflexivity. Qed.
Lemma find_negb (l : list edge) u : option_map snd (find (fun e => fst e =? u) (map (fun e => (fst e, negb (snd e))) l)) = option_map negb (option_map snd (find (fun e => fst e =? u) l)).
Proof. induction l as [|e l IH]; cbn; auto. now destruct (fst e =? u). Qed.

Lemma graphlike_step d v : zwf d -> gl_ok d (graphlike_vertex d v) /\ isX (graphlike_vertex d v) v = negb (live d v).
Proof.
  intros Zd. unfold graphlike_vertex. destruct (d_verts d v) as [a|] eqn:Va.
  2:{ split; [now apply gl_refl|]. unfold isX, vty, live. now rewrite Va. }
  assert (L : live d v = true) by (unfold live; now rewrite Va).
  destruct (v_type a) eqn:Ta; try (split; [now apply gl_refl|unfold isX, vty, live; rewrite Va, Ta; reflexivity]).
  pose proof (z_nodup d Zd v L) as Nd. set (de := set_edges d _). destruct (toggle_back_same v (d_edges d v) de) as (S1 & S2 & S3 & S4 & S5 & S6 & S7 & S8).
  pose proof (toggle_back_edges v (d_edges d v) de Nd) as Ed. set (dt := toggle_back de v (d_edges d v)) in *.
  assert (Nv : memb v (map fst (d_edges d v)) = false). { apply memb_false. intros I. apply in_map_iff in I as ([w h] & E & I). cbn in E. subst w. destruct (z_sym d Zd v v h L I) as (_ & Q & _). congruence. }
  set (d' := setType dt v VZ).
  assert (Vo : forall u, u <> v -> d_verts d' u = d_verts d u). { intros u Nu. unfold d', setType, mod_vertex. cbn [d_verts set_verts]. rewrite zupd_neq by auto. now rewrite S2. }
  assert (Vv : d_verts d' v = Some (mkV (v_qubit a) (v_phase a) VZ)). { unfold d', setType, mod_vertex. cbn [d_verts set_verts]. rewrite zupd_eq, S2. cbn. now rewrite Va. }
  assert (Ll : forall u, live d' u = live d u). { intros u. unfold live. destruct (Nat.eq_dec u v) as [->|Nu]; [now rewrite Vv, Va|now rewrite Vo]. }
  assert (Row : forall u, d_edges d' u = if u =? v then map (fun e => (fst e, negb (snd e))) (d_edges d v) else if memb u (map fst (d_edges d v)) then toggle_first v (d_edges d u) else d_edges d u).
  { intros u. change (d_edges d' u) with (d_edges dt u). rewrite Ed. unfold de. cbn [d_edges set_edges]. destruct (Nat.eqb_spec u v) as [->|Nu]; [now rewrite Nv, zupd_eq|]. now rewrite zupd_neq. }
  assert (Rf : forall u, map fst (d_edges d' u) = map fst (d_edges d u)).
  { intros u. rewrite Row. destruct (Nat.eqb_spec u v) as [->|Nu]; [rewrite map_map; now apply map_ext|]. destruct (memb u (map fst (d_edges d v))); auto. apply map_toggle. }
  assert (Hv : forall u w, live d u = true -> hv d' u w = if (u =? v) || (w =? v) then option_map negb (hv d u w) else hv d u w).
  { intros u w Lu. unfold hv, getEdge. rewrite Row. destruct (Nat.eqb_spec u v) as [->|Nu]; cbn [orb]; [apply find_negb|].
    destruct (memb u (map fst (d_edges d v))) eqn:M.
    - rewrite find_toggle. destruct (Nat.eqb_spec w v) as [->|Nw]; cbn; [|reflexivity]. destruct (find (fun e => fst e =? v) (d_edges d u)) as [[x h]|]; reflexivity.
    - destruct (Nat.eqb_spec w v) as [->|Nw]; auto. destruct (find (fun e => fst e =? v) (d_edges d u)) as [[x h]|] eqn:F; auto. exfalso.
      apply memb_false in M. apply M. pose proof F as F'. apply find_fst in F'. cbn in F'. subst x. apply find_some in F as [F _]. destruct (z_sym d Zd u v h Lu F) as (_ & _ & J). apply (in_map fst) in J. exact J. }
  assert (Ty : forall u, vty d' u = if u =? v then VZ else vty d u). { intros u. unfold vty. destruct (Nat.eqb_spec u v) as [->|Nu]; [now rewrite Vv|now rewrite Vo]. }
  assert (Tv : vty d v = VX) by (unfold vty; now rewrite Va).
  assert (Bd : forall u, isBoundary d' u = isBoundary d u). { intros u. unfold isBoundary. rewrite Ty. destruct (Nat.eqb_spec u v) as [->|Nu]; auto. now rewrite Tv. }
  assert (Xx : forall u, isX d' u = if u =? v then false else isX d u). { intros u. unfold isX. rewrite Ty. now destruct (u =? v). }
  assert (Ph : forall u, vphase d' u = vphase d u). { intros u. unfold vphase. destruct (Nat.eq_dec u v) as [->|Nu]; [now rewrite Vv, Va|now rewrite Vo]. }
  assert (Sz : d_size d' = d_size d) by exact S1.
  split; [|rewrite Xx, Nat.eqb_refl, L; reflexivity].
  constructor; auto.
  - apply zwf_intro.
    + intros u Lu. rewrite Sz in Lu. pose proof (z_out d Zd u Lu) as Q. destruct (Nat.eq_dec u v) as [->|Nu]; [congruence|now rewrite Vo].
    + intros u Lu. rewrite Rf. rewrite Ll in Lu. now apply (z_nodup d Zd).
    + intros u w h Lu E. rewrite Ll in Lu. rewrite Hv in E by auto. assert (X : exists k, hv d u w = Some k) by (destruct ((u =? v) || (w =? v)); destruct (hv d u w); try discriminate; eauto). destruct X as [k X].
      destruct (zwf_hv d u w k Zd Lu X) as (Lw & Nw & X'). rewrite Ll. split; auto. split; auto. rewrite Hv by auto. rewrite X' , orb_comm. rewrite X in E. exact E.
  - intros ex x. unfold ZXSemProofs.wx. f_equal.
    + unfold pv. rewrite Sz. apply cprod_ext. intros u _. unfold inner. rewrite Ll, Bd. unfold phw. now rewrite Ph.
    + unfold pe. rewrite Sz. apply dprod_ext. intros i j _ _ Nij. unfold eg. rewrite !Ll. destruct (live d i) eqn:Li; cbn [andb]; auto. destruct (live d j) eqn:Lj; cbn [andb]; auto.
      destruct (_ && _); auto. unfold ew. rewrite Hv by auto. destruct (hv d i j) as [h|]; [|destruct (_ || _); auto].
      assert (E : eh d' i j (if (i =? v) || (j =? v) then negb h else h) = eh d i j h).
      { unfold eh. rewrite !Xx. destruct (Nat.eqb_spec i v) as [->|Ni]; cbn [orb].
        - unfold isX at 2. rewrite Tv. rewrite (proj2 (Nat.eqb_neq j v)) by auto. cbn. now destruct h, (isX d j).
        - destruct (Nat.eqb_spec j v) as [->|Nj]; auto. unfold isX at 3. rewrite Tv. cbn. now destruct h, (isX d i). }
      rewrite <- E. destruct (_ || _); reflexivity.
  - intros u Xu. rewrite Xx. now destruct (u =? v).
Qed.
Lemma graphlike_fold l : forall d, zwf d -> gl_ok d (fold_left graphlike_vertex l d) /\ forall v, In v l -> live d v = true -> isX (fold_left graphlike_vertex l d) v = false.
Proof.
  induction l as [|v l IH]; cbn [fold_left]; intros d Zd; [split; [now apply gl_refl|intros _ []]|].
  destruct (graphlike_step d v Zd) as [G X]. destruct (IH _ (gl_zwf _ _ G)) as [G' X']. split; [eapply gl_trans; eauto|]. intros u [<-|I] Lu.
  - apply (gl_X _ _ G'). now rewrite X, Lu.
  - apply X'; auto. now rewrite (gl_live _ _ G).
Qed.
(* toGraphlike leaves no X spider and does not change the map *)
Lemma toGraphlike_gl d : zwf d -> gl_ok d (toGraphlike d) /\ graphlike (toGraphlike d).
Proof.
  intros Zd. destruct (graphlike_fold (seq 0 (d_size d)) d Zd) as [G X]. split; auto. intros u Lu. fold (toGraphlike d) in X. rewrite (gl_live _ _ G) in Lu. apply X; auto. apply in_seq. pose proof (live_lt d u Zd Lu). lia.
Qed.
Lemma toGraphlike_ok d : wf d -> wf (toGraphlike d) /\ graphlike (toGraphlike d) /\ same_map d (toGraphlike d).
Proof.
  intros W. destruct (toGraphlike_gl d (w_z d W)) as [G Gl]. split; [now apply (gl_wf d)|]. split; auto. split; [apply (gl_in _ _ G)|]. split; [apply (gl_out _ _ G)|].
  exists C1. split; [apply C1_neq_C0|]. intros b. rewrite (gl_den d _ (w_z d W) G). ring.
Qed.
End Graph.
