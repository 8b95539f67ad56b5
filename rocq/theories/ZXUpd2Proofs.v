(* Parallel-aware edges, removal and creation of vertices. *)
From Coq Require Import Reals QArith Qreals ZArith Bool List Arith Lia Lra Permutation FunctionalExtensionality.
From Verif Require Import Cplx Qsem PiModel PiProps ZXModel ZXSpec ZXPhaseProofs ZXSemProofs ZXUpdProofs.
Import ListNotations.
Local Close Scope Q_scope.
Local Open Scope nat_scope.

Section Upd2.
Variable rho : nat -> R.
Notation wx := (wx rho).

Record pa_ok (d : diag) (a b : nat) (h : bool) (d' : diag) : Prop := {
  pa_frame : frame d d'; pa_zwf : zwf d'; pa_book : book d -> book d';
  pa_edges : forall u, u <> a -> u <> b -> d_edges d' u = d_edges d u;
  pa_hv : forall u v, on_pair a b u v = false -> hv d' u v = hv d u v;
  pa_verts : forall u, u <> a -> d_verts d' u = d_verts d u;
  pa_len : forall u, isBoundary d u = true -> u <> a -> u <> b -> degree d' u = degree d u;
  pa_none : a <> b -> hv d a b = None -> d' = addEdge d a b h;
  pa_wx : exists c, c <> C0 /\ forall ex x, ex a = false -> ex b = false -> wx ex d' x = (c * (wx ex d x * wgt (eh d a b h) (x a) (x b)))%C
}.
Lemma sqrt2_pos : (0 < sqrt 2)%R.
Proof. apply sqrt_lt_R0. lra. Qed.
Lemma rt2_neq0 : RtoC (sqrt 2) <> C0.
Proof. pose proof sqrt2_pos. apply RtoC_neq0. lra. Qed.
Lemma rt2_inv : (RtoC (sqrt 2) * RtoC (/ sqrt 2))%C = C1.
Proof. pose proof sqrt2_pos. rewrite <- RtoC_mul, Rinv_r by lra. reflexivity. Qed.
Lemma wgt_true x y : wgt true x y = (RtoC (/ sqrt 2) * (if x && y then - C1 else C1))%C.
Proof. unfold wgt. destruct (x && y); [rewrite RtoC_opp|]; ring. Qed.
Lemma wgt_false x y : wgt false x y = if eqb x y then C1 else C0.
Proof. reflexivity. Qed.
Lemma parallel_aware d a b h : zwf d -> live d a = true -> live d b = true -> (a = b -> isBoundary d a = false) ->
  (hv d a b <> None -> isBoundary d a = false /\ isBoundary d b = false) -> pa_ok d a b h (addEdgeParallelAware d a b h).
Proof.
  intros Z La Lb Self Bd. unfold addEdgeParallelAware. destruct (Nat.eqb_spec a b) as [->|N].
  - specialize (Self eq_refl). rewrite Self. cbn [negb andb]. destruct h.
    + constructor; auto using frame_addPhase, addPhase_zwf, addPhase_book.
      * intros u U. now apply addPhase_other.
      * intros; congruence.
      * exists (RtoC (sqrt 2)). split; [apply rt2_neq0|]. intros ex x Ea _. rewrite addPhase_wx, pexp_pi by auto. unfold eh. rewrite xorb_nilpotent, wgt_true, andb_diag. cbn [xorb].
        destruct (x b); pose proof rt2_inv as I.
        -- transitivity ((RtoC (sqrt 2) * RtoC (/ sqrt 2)) * (wx ex d x * - C1))%C; [rewrite I|]; ring.
        -- transitivity ((RtoC (sqrt 2) * RtoC (/ sqrt 2)) * wx ex d x)%C; [rewrite I|]; ring.
    + constructor; auto using frame_refl. intros; congruence. exists C1. split; [apply C1_neq_C0|]. intros ex x _ _. unfold eh. rewrite xorb_nilpotent. cbn [xorb]. rewrite wgt_false, eqb_reflx. ring.
  - destruct (getEdge d a b) as [[w h']|] eqn:G.
    2: { assert (E : hv d a b = None) by (unfold hv; now rewrite G). constructor; auto using frame_addEdge, addEdge_zwf.
         - intros B. now apply addEdge_book.
         - intros u A B. rewrite addEdge_edges by auto. apply Nat.eqb_neq in A, B. now rewrite A, B.
         - intros u v P. rewrite addEdge_hv by (auto; rewrite <- hv_sym; auto). now rewrite P.
         - intros u _ A B. unfold degree. rewrite addEdge_edges by auto. apply Nat.eqb_neq in A, B. now rewrite A, B.
         - exists C1. split; [apply C1_neq_C0|]. intros ex x Ea Eb. rewrite addEdge_wx by auto. ring. }
    assert (E : hv d a b = Some h') by (unfold hv; now rewrite G). assert (NE : hv d a b <> None) by congruence. destruct (Bd NE) as [Ba Bb]. rewrite Ba, Bb. cbn [orb].
    destruct (zwf_hv d a b h' Z La E) as (_ & _ & E').
    assert (Cut : wgt (eh d a b h') = wgt true -> wgt (eh d a b h) = wgt true -> pa_ok d a b h (let d1 := removeHalfEdge (eraseEdgePtr d a b) b a in set_ne d1 (d_ne d1 - 1))).
    { intros W' W. rewrite eraseEdge_cut by (auto; now apply Z). constructor; auto using frame_cut, cut_zwf.
      - intros B. eapply cut_book; eauto.
      - intros u A B. cbn. apply Nat.eqb_neq in A, B. now rewrite A, B.
      - intros u v P. rewrite cut_hv by auto. now rewrite P.
      - intros u _ A B. unfold degree. cbn. apply Nat.eqb_neq in A, B. now rewrite A, B.
      - intros; congruence.
      - exists (RtoC (sqrt 2) * RtoC (sqrt 2))%C. split; [apply Cmul_neq0; apply rt2_neq0|]. intros ex x Ea Eb. rewrite (cut_wx rho ex d a b h' x) by auto. rewrite W', W, wgt_true.
        pose proof rt2_inv as I. transitivity ((RtoC (sqrt 2) * RtoC (/ sqrt 2)) * (RtoC (sqrt 2) * RtoC (/ sqrt 2)) * wx ex (cutEdge d a b) x)%C; [rewrite I; ring|]. destruct (x a && x b); ring. }
    assert (Flip : wgt (eh d a b h') = wgt true -> wgt (eh d a b h) = wgt false -> pa_ok d a b h (addPhase (toggleEdgePtr (toggleEdgePtr d a b) b a) a p_pi)).
    { intros W' W. change (toggleEdgePtr (toggleEdgePtr d a b) b a) with (flipEdge d a b). pose proof (frame_flip d a b) as F. constructor.
      - eapply frame_trans; [apply F|apply frame_addPhase].
      - now apply addPhase_zwf, flip_zwf.
      - intros B. now apply addPhase_book, flip_book.
      - intros u A B. rewrite addPhase_edges, flip_edges by auto. apply Nat.eqb_neq in A, B. now rewrite A, B.
      - intros u v P. rewrite addPhase_hv, flip_hv by auto. now rewrite P.
      - intros u U. rewrite addPhase_other by auto. reflexivity.
      - intros u _ A B. unfold degree. rewrite addPhase_edges, flip_edges by auto. apply Nat.eqb_neq in A, B. now rewrite A, B.
      - intros; congruence.
      - exists (RtoC (sqrt 2)). split; [apply rt2_neq0|]. intros ex x Ea Eb. rewrite addPhase_wx, pexp_pi by (auto using flip_zwf; rewrite ?(f_live _ _ F), ?(f_bnd _ _ _ F); auto).
        rewrite (flip_wx rho ex d a b h') by auto. rewrite (cut_wx rho ex d a b h' x) by auto.
        assert (Q : eh d a b (negb h') = negb (eh d a b h')) by (unfold eh; now rewrite !negb_xorb_l). rewrite Q.
        assert (T : eh d a b h' = true). { destruct (eh d a b h'); auto. exfalso. apply (f_equal (fun f => f true false)) in W'. cbn in W'. apply (f_equal fst) in W'. cbn in W'. pose proof (Rinv_0_lt_compat _ sqrt2_pos). lra. }
        rewrite T in *. cbn [negb]. rewrite W. pose proof rt2_inv as I. rewrite wgt_true, !wgt_false.
        transitivity ((RtoC (sqrt 2) * RtoC (/ sqrt 2)) * (wx ex (cutEdge d a b) x * (if eqb (x a) (x b) then C1 else C0) * (if x a then - C1 else C1)))%C; [rewrite I; ring|].
        destruct (x a), (x b); cbn [eqb andb]; ring. }
    assert (Ph : wgt (eh d a b h') = wgt false -> wgt (eh d a b h) = wgt true -> pa_ok d a b h (addPhase d a p_pi)).
    { intros W' W. constructor; auto using frame_addPhase, addPhase_zwf, addPhase_book.
      - intros u U. now apply addPhase_other.
      - intros; congruence.
      - exists (RtoC (sqrt 2)). split; [apply rt2_neq0|]. intros ex x Ea Eb. rewrite addPhase_wx, pexp_pi by auto. rewrite (cut_wx rho ex d a b h' x) by auto. rewrite W, W', wgt_true, wgt_false. pose proof rt2_inv as I.
        transitivity ((RtoC (sqrt 2) * RtoC (/ sqrt 2)) * (wx ex (cutEdge d a b) x * (if eqb (x a) (x b) then C1 else C0) * (if x a then - C1 else C1)))%C; [rewrite I; ring|].
        destruct (x a), (x b); cbn [eqb andb]; ring. }
    assert (Same : wgt (eh d a b h') = wgt false -> wgt (eh d a b h) = wgt false -> pa_ok d a b h d).
    { intros W' W. constructor; auto using frame_refl.
      - intros; congruence.
      - exists C1. split; [apply C1_neq_C0|]. intros ex x Ea Eb. rewrite (cut_wx rho ex d a b h' x) by auto. rewrite W, W', wgt_false. destruct (eqb (x a) (x b)); ring. }
    unfold isBoundary in Ba, Bb. unfold eh, isX in *.
    destruct (vty d a), (vty d b); cbn [vtype_eqb] in *; try discriminate; destruct h', h; cbn [xorb] in *; auto.
Qed.
End Upd2.
