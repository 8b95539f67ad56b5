From Coq Require Import List Arith Bool Lia.
From Verif Require Import MemModel MemProofs.
Import ListNotations.

Lemma c01_get_never_aliases :
  forall n ops, 0 < n ->
  exists m out a m',
    mrun ops (mm_init n, []) = Some (m, out)
    /\ mm_get m = Some (a, m') /\ ~ In a out.
Proof.
  intros n ops H. destruct (mrun_total n ops H) as (m & out & Hr & I).
  destruct (mm_get_ok _ _ I) as (a & m' & Hg & _ & Hn).
  exists m, out, a, m'. auto.
Qed.

Lemma c01_statistics_exact :
  forall n ops m out, 0 < n ->
  mrun ops (mm_init n, []) = Some (m, out) ->
  NoDup out
  /\ numUsed (stats m) = length out
  /\ numAvailableForReuse (stats m) = length (available m)
  /\ numUsed (stats m) + numAvailableForReuse (stats m)
     + getNumAvailableFromChunks (stats m) = numAllocated (stats m)
  /\ getNumAvailableFromChunks (stats m) = last (chunks m) 0 - chunkIt m
  /\ numUsed (stats m) <= peakNumUsed (stats m).
Proof.
  intros n ops m out H Hr. destruct (mrun_total n ops H) as (m1 & out1 & Hr1 & I).
  rewrite Hr in Hr1. inversion Hr1; subst m1 out1.
  destruct I as [Hne Hpos Hcur Hcv Hnd Hu Hre Ha Ht Hp].
  unfold getNumAvailableFromChunks, getTotalNumAvailable.
  pose proof (sum_removelast _ Hne).
  repeat split; auto; try lia. eapply NoDup_app_r; eauto.
Qed.

Lemma c01_entries_in_bounds :
  forall n ops m out a, 0 < n ->
  mrun ops (mm_init n, []) = Some (m, out) -> In a out ->
  fst a < length (chunks m) /\ snd a < nth (fst a) (chunks m) 0.
Proof.
  intros n ops m out a H Hr Hi. destruct (mrun_total n ops H) as (m1 & out1 & Hr1 & I).
  rewrite Hr in Hr1. inversion Hr1; subst m1 out1.
  destruct I as [Hne Hpos Hcur Hcv _ _ _ _ _ _].
  assert (0 < length (chunks m)) by (destruct (chunks m); simpl; [congruence|lia]).
  destruct (Hcv a (or_intror Hi)) as [[H1 H2]|[H1 H2]]; split; try lia.
  rewrite H1. rewrite last_nth in Hcur. lia.
Qed.

Lemma c01_zero_initial_size : exists n, mrun [Get] (mm_init n, []) = None.
Proof. exists 0. reflexivity. Qed.
