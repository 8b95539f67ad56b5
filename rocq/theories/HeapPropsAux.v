From Coq Require Import List Arith Bool Lia Permutation.
From Verif Require Import MemModel MemProofs HeapModel HeapSpec HeapProofs.
Import ListNotations.

Lemma run_inv cfg evs st : cfg_ok cfg -> clean cfg evs (hinit cfg) ->
  hrun cfg evs (hinit cfg) = Some st -> Inv cfg st.
Proof.
  intros H C R. destruct (inv_run cfg H evs (hinit cfg) (inv_init cfg H) C) as (st' & E & I).
  rewrite R in E. inversion E; subst; auto.
Qed.

Lemma c02_partial cfg evs st v es fl p s1 :
  cfg_ok cfg -> clean cfg evs (hinit cfg) -> hrun cfg evs (hinit cfg) = Some st ->
  allocNode v es fl (hs st) = Some (p, s1) -> nref (hheap s1 p) = 0.
Proof.
  intros H C R A. pose proof (run_inv _ _ _ H C R) as I.
  destruct (alloc_ok cfg st v es fl I) as (p' & s' & E & Hp & _ & Hh & _).
  rewrite A in E. inversion E; subst. rewrite Hh, upd_same. reflexivity.
Qed.

Definition ex_cfg : config :=
  {| c_hash := fun es => length es; c_nvars := 3; c_nbuckets := 2; c_cmpflags := false;
     c_maxref := 100; c_gclimit := 10; c_initalloc := 4 |}.

Lemma ex_cfg_ok : cfg_ok ex_cfg.
Proof. unfold cfg_ok, ex_cfg; simpl. lia. Qed.

Definition c02_history : list hev :=
  [EMake 0 [(1, None); (2, None)] 0;       (* slot 0: garbage *)
   EMake 0 [(3, None); (4, None)] 0;       (* slot 1 *)
   EInc (Some (0, 1));                     (* held, count 1 *)
   EReset;
   EMake 0 [(5, None); (6, None)] 0;       (* slot 0 *)
   EMake 1 [(7, Some (0, 0)); (8, None)] 0;(* slot 1: stale count 1 *)
   EInc (Some (0, 1));                     (* hold the new root *)
   EGC true].                              (* frees its successor *)

Lemma c02_refuted :
  exists cfg evs st r a,
    cfg_ok cfg /\ hrun cfg evs (hinit cfg) = Some st
    /\ In r (holds st) /\ reach (hheap (hs st)) r a
    /\ ~ In a (live (htab (hs st))) /\ In a (available (hmm (hs st))).
Proof.
  exists ex_cfg, c02_history.
  destruct (hrun ex_cfg c02_history (hinit ex_cfg)) as [st|] eqn:E;
    [|vm_compute in E; discriminate].
  exists st, (0,1), (0,0).
  assert (E2 : match hrun ex_cfg c02_history (hinit ex_cfg) with
               | Some st => holds st = [(0,1)] /\ ne (hheap (hs st) (0,1)) = [(7, Some (0,0)); (8, None)]
                            /\ live (htab (hs st)) = [(0,1)] /\ available (hmm (hs st)) = [(0,0)]
               | None => False end) by (vm_compute; auto).
  rewrite E in E2. destruct E2 as (E2 & E3 & E4 & E5).
  split; [vm_compute; lia|]. split; auto. rewrite E2, E4, E5.
  split; [simpl; auto|]. split.
  - econstructor; [exists 7; rewrite E3; simpl; auto|constructor].
  - split; [|simpl; auto]. simpl. intros [F|[]]. inversion F.
Qed.

Lemma c03_unique cfg evs st a b :
  cfg_ok cfg -> no_reset evs -> hrun cfg evs (hinit cfg) = Some st ->
  In a (live (htab (hs st))) -> In b (live (htab (hs st))) ->
  same_node cfg (hheap (hs st) a) (hheap (hs st) b) -> a = b.
Proof.
  intros H N R. pose proof (run_inv _ _ _ H (no_reset_clean cfg _ N _) R) as I.
  apply (v_uniq _ _ I).
Qed.

Lemma c03_make cfg evs st v es fl :
  cfg_ok cfg -> no_reset evs -> hrun cfg evs (hinit cfg) = Some st ->
  v < c_nvars cfg ->
  (forall w c, In (w, Some c) es ->
      In c (live (htab (hs st))) /\ nv (hheap (hs st) c) < v) ->
  exists a s', makeNode cfg v es fl (hs st) = Some (a, s')
    /\ In a (live (htab s'))
    /\ same_node cfg (hheap s' a) (mkNode v es fl 0)
    /\ (forall b, In b (live (htab (hs st))) ->
          In b (live (htab s')) /\ hheap s' b = hheap (hs st) b)
    /\ (forall b, In b (live (htab (hs st))) ->
          same_node cfg (hheap (hs st) b) (mkNode v es fl 0) ->
          a = b /\ htab s' = htab (hs st)
          /\ exists p, ~ In p (live (htab (hs st))) /\ hd_error (available (hmm s')) = Some p)
    /\ NoDup (available (hmm s') ++ live (htab s')).
Proof.
  intros H N R Hv Hes. pose proof (run_inv _ _ _ H (no_reset_clean cfg _ N _) R) as I.
  assert (Hok : edges_ok (hs st) v es = true).
  { unfold edges_ok. apply forallb_forall. intros [w [c|]] Hin; cbn [snd]; auto.
    destruct (Hes w c Hin) as [A B]. apply is_live_spec in A. rewrite A.
    apply Nat.ltb_lt in B. rewrite B. reflexivity. }
  destruct (inv_make cfg H st v es fl I Hv Hok) as (a & s' & E & I' & Ha & Hs & Hst & Hcase).
  exists a, s'. split; auto. split; auto. split; auto. split; auto. split.
  - intros b Hb Hsb.
    assert (Hab : a = b).
    { apply (v_uniq _ _ I'); cbn [hs]; auto. { apply Hst; auto. }
      rewrite (proj2 (Hst b Hb)).
      destruct Hs as (A1 & A2 & A3), Hsb as (B1 & B2 & B3).
      repeat split; try congruence. intros Hc. rewrite A3, B3; auto. }
    split; auto. subst b. destruct Hcase as [(C1 & C2 & p & C3 & C4)|[C1 _]]; [|tauto].
    split; auto. exists p. split; auto. rewrite C4. reflexivity.
  - apply (i_nodup _ _ (v_mm _ _ I')).
Qed.

Lemma c04_protected cfg evs1 evs2 st1 r :
  cfg_ok cfg -> no_reset evs1 -> no_reset evs2 ->
  hrun cfg evs1 (hinit cfg) = Some st1 ->
  held_throughout cfg r evs2 st1 ->
  exists st2, hrun cfg evs2 st1 = Some st2
   /\ (forall a, reach (hheap (hs st1)) r a ->
        In a (live (htab (hs st2)))
        /\ content (hheap (hs st2) a) = content (hheap (hs st1) a))
   /\ (forall d, unfold_dd d (hheap (hs st2)) (Some r) = unfold_dd d (hheap (hs st1)) (Some r)).
Proof.
  intros H N1 N2 R Hh.
  pose proof (run_inv _ _ _ H (no_reset_clean cfg _ N1 _) R) as I.
  destruct (inv_run cfg H evs2 st1 I (no_reset_clean cfg _ N2 _)) as (st2 & E & I2).
  exists st2. split; auto. pose proof (run_stable cfg H evs2 st1 st2 r I N2 Hh E) as S.
  split; auto. intros d. apply unfold_same.
  intros a b Hab Hr. inversion Hab; subst. apply S; auto.
Qed.

Lemma c04_total cfg evs :
  cfg_ok cfg -> no_reset evs -> exists st, hrun cfg evs (hinit cfg) = Some st.
Proof.
  intros H N. destruct (inv_run cfg H evs _ (inv_init cfg H) (no_reset_clean cfg _ N _))
    as (st & E & _). eauto.
Qed.

Lemma c05_precise cfg evs st :
  cfg_ok cfg -> no_reset evs -> hrun cfg evs (hinit cfg) = Some st ->
  unsaturated cfg st ->
  forall a, In a (live (htab (snd (garbageCollect cfg true (hs st)))))
       <-> exists r, In r (holds st) /\ reach (hheap (hs st)) r a.
Proof.
  intros H N R U a. pose proof (run_inv _ _ _ H (no_reset_clean cfg _ N _) R) as I.
  rewrite (gc_forced_live cfg st I). split.
  - intros [A B]. eapply positive_reachable; eauto.
  - intros (r & Hr & Hre). eapply reach_live; eauto.
Qed.

Lemma c05_balanced cfg evs st :
  cfg_ok cfg -> no_reset evs -> hrun cfg evs (hinit cfg) = Some st ->
  unsaturated cfg st -> holds st = [] ->
  live (htab (snd (garbageCollect cfg true (hs st)))) = [].
Proof.
  intros H N R U Hh.
  destruct (live _) as [|a l] eqn:E; auto. exfalso.
  destruct (proj1 (c05_precise cfg evs st H N R U a)) as (r & Hr & _).
  - rewrite E; left; auto.
  - rewrite Hh in Hr. destruct Hr.
Qed.
