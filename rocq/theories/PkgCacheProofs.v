From Coq Require Import List Arith Bool Lia Permutation.
From Verif Require Import MemModel MemProofs HeapModel HeapSpec HeapProofs PkgCacheModel PkgCacheSpec.
Import ListNotations.

Section P.
Variable cfg : kind -> config.
Hypothesis Hcfg : forall k, cfg_ok (cfg k).

Definition entry_ok (s : pst) (t : table) (c : centry) : Prop :=
  (forall k a, In (k, a) (e_nodes c) ->
      In k (table_kinds t) /\ In a (live (htab (hs (heapOf s k)))))
  /\ (forall n, In n (e_nums c) -> table_has_numbers t = true /\ In n (n_live (nums s))).

Record PInv (s : pst) : Prop := {
  p_heap : forall k, Inv (cfg k) (heapOf s k);
  p_cache : forall t, forgotten t = false -> forall c, In c (cache s t) -> entry_ok s t c }.

Lemma pinv_init : PInv (pinit cfg).
Proof.
  constructor.
  - intros k. apply inv_init, Hcfg.
  - intros t _ c [].
Qed.

Lemma kind_eqb_spec a b : kind_eqb a b = true <-> a = b.
Proof. destruct a, b; simpl; split; congruence. Qed.

Lemma mentions_ok_spec s t c : mentions_ok s t c = true -> entry_ok s t c.
Proof.
  unfold mentions_ok. rewrite andb_true_iff. intros [H1 H2]. split.
  - intros k a Hin. rewrite forallb_forall in H1. specialize (H1 _ Hin).
    cbn [fst snd] in H1. apply andb_true_iff in H1. destruct H1 as [A B].
    apply existsb_exists in A. destruct A as (k' & Hk & E). apply kind_eqb_spec in E. subst.
    apply is_live_spec in B. auto.
  - intros n Hn. destruct (table_has_numbers t).
    + rewrite forallb_forall in H2. specialize (H2 _ Hn).
      apply existsb_exists in H2. destruct H2 as (m & Hm & E). apply Nat.eqb_eq in E. subst. auto.
    + destruct (e_nums c); [destruct Hn|discriminate].
Qed.

(** Heap steps other than collection and reset keep stored nodes stored. *)
Lemma step_keeps_live k st e st' :
  Inv (cfg k) st -> hstep (cfg k) st e = Some st' ->
  (forall f, e <> EGC f) -> e <> EReset ->
  Inv (cfg k) st' /\ forall a, In a (live (htab (hs st))) -> In a (live (htab (hs st'))).
Proof.
  intros I E Hg Hr.
  destruct (inv_step (cfg k) (Hcfg k) st e I) as (st1 & E1 & I1). { intros ->; congruence. }
  rewrite E in E1. inversion E1; subst st1. split; auto.
  intros a Ha. unfold hstep in E.
  destruct e as [v es fl|v es fl|[b|]|[b|]|force|]; try congruence.
  - destruct (Nat.ltb v (c_nvars (cfg k)) && edges_ok (hs st) v es) eqn:Ev.
    + apply andb_true_iff in Ev. destruct Ev as [E2 E3]. apply Nat.ltb_lt in E2.
      destruct (inv_make (cfg k) (Hcfg k) st v es fl I E2 E3) as (b & s' & Em & _ & _ & _ & Hst & _).
      rewrite Em in E. inversion E; subst; cbn [hs]. apply Hst; auto.
    + inversion E; subst; auto.
  - destruct (Nat.ltb v (c_nvars (cfg k)) && edges_ok (hs st) v es) eqn:Ev.
    + destruct (inv_dropped (cfg k) st v es fl I) as (s' & Em & _ & Ht & _).
      rewrite Em in E. inversion E; subst; cbn [hs]. rewrite Ht; auto.
    + inversion E; subst; auto.
  - destruct (is_live (hs st) b); [|inversion E; subst; auto].
    destruct (incRef _ _ _ _); inversion E; subst; auto.
  - destruct (existsb (addr_eqb b) (holds st)); [|inversion E; subst; auto].
    destruct (decRef _ _ _ _); inversion E; subst; auto.
Qed.

Lemma gc_heap_spec k force st :
  Inv (cfg k) st ->
  Inv (cfg k) (snd (gc_heap cfg k force st))
  /\ (fst (gc_heap cfg k force st) = 0 ->
      forall a, In a (live (htab (hs st))) ->
                In a (live (htab (hs (snd (gc_heap cfg k force st)))))).
Proof.
  intros I. unfold gc_heap. cbn [fst snd]. split; [apply inv_gc; auto|].
  cbn [hs]. unfold garbageCollect. destruct (_ || _); cbn [fst snd htab]; auto.
  intros Hz a Ha. rewrite live_sweep. apply filter_In. split; auto.
  destruct (alive (hheap (hs st)) a) eqn:E; auto. exfalso.
  assert (Hd : In a (dead (hheap (hs st)) (htab (hs st)))).
  { unfold dead. apply filter_In. rewrite E. auto. }
  assert (Hlen : length (dead (hheap (hs st)) (htab (hs st))) <= hentries (hs st)).
  { rewrite (v_ent _ _ I).
    rewrite (Permutation_length (filter_partition_perm (alive (hheap (hs st))) (live (htab (hs st))))).
    rewrite app_length. unfold dead. lia. }
  destruct (dead _ _); [destruct Hd|]. simpl in *. lia.
Qed.

Lemma filter_length_eq {A} (f : A -> bool) l :
  length l <= length (filter f l) -> filter f l = l.
Proof.
  induction l as [|x l IH]; simpl; auto.
  assert (length (filter f l) <= length l).
  { clear. induction l; simpl; auto. destruct (f a); simpl; lia. }
  destruct (f x); simpl; intros; [f_equal; apply IH; lia|lia].
Qed.

Lemma num_gc_spec force t :
  fst (num_gc force t) = 0 -> forall n, In n (n_live t) -> In n (n_live (snd (num_gc force t))).
Proof.
  unfold num_gc. destruct (_ || _); cbn [fst snd n_live]; auto.
  intros H n Hn. rewrite filter_length_eq; auto. lia.
Qed.

Lemma ltb0_false n : Nat.ltb 0 n = false -> n = 0.
Proof. intros H. apply Nat.ltb_ge in H. lia. Qed.

Lemma pinv_gc force s : PInv s -> PInv (pkg_gc cfg force s).
Proof.
  intros [Ph Pc]. unfold pkg_gc. destruct (_ && _); [constructor; auto|].
  set (rc := num_gc force (nums s)).
  set (force' := if Nat.ltb 0 (fst rc) then true else force).
  destruct (gc_heap_spec KV force' _ (Ph KV)) as [V1 V2].
  destruct (gc_heap_spec KM force' _ (Ph KM)) as [M1 M2].
  destruct (gc_heap_spec KD force' _ (Ph KD)) as [D1 D2].
  set (rv := gc_heap cfg KV force' (heapOf s KV)) in *.
  set (rm := gc_heap cfg KM force' (heapOf s KM)) in *.
  set (rd := gc_heap cfg KD force' (heapOf s KD)) in *.
  constructor; cbn [heapOf cache nums].
  - intros [| |]; assumption.
  - intros t Hf c Hc.
    destruct (cleared _ _ _ _ t) eqn:E; [destruct Hc|].
    destruct (Pc t Hf c Hc) as [C1 C2].
    unfold cleared in E. rewrite !orb_false_iff in E. destruct E as [[[EV EM] ED] EC].
    split.
    + intros k a Ha. destruct (C1 k a Ha) as [Hk Hl]. split; auto. cbn [heapOf].
      destruct k.
      * apply V2; auto. apply ltb0_false.
        destruct t; simpl in Hk, Hf; try discriminate Hf;
          repeat (destruct Hk as [Hk|Hk]; try discriminate Hk); try contradiction Hk;
          rewrite andb_true_r in EV; auto.
      * apply M2; auto. apply ltb0_false.
        destruct t; simpl in Hk, Hf; try discriminate Hf;
          repeat (destruct Hk as [Hk|Hk]; try discriminate Hk); try contradiction Hk;
          rewrite andb_true_r in EM; auto.
      * apply D2; auto. apply ltb0_false.
        destruct t; simpl in Hk, Hf; try discriminate Hf;
          repeat (destruct Hk as [Hk|Hk]; try discriminate Hk); try contradiction Hk;
          rewrite andb_true_r in ED; auto.
    + intros n Hn. destruct (C2 n Hn) as [Ht Hl]. split; auto. cbn [nums].
      apply num_gc_spec; auto. apply ltb0_false. fold rc.
      destruct t; simpl in Ht; try discriminate Ht; rewrite andb_true_r in EC; auto.
Qed.

Lemma pinv_step s e : PInv s -> exists s', pstep cfg s e = Some s' /\ PInv s'.
Proof.
  intros P. destruct e as [k ev|t c|l r|force]; cbn [pstep].
  - assert (Hgen : (forall f, ev <> EGC f) -> ev <> EReset ->
       exists s', match hstep (cfg k) (heapOf s k) ev with
             | Some h => Some {| heapOf := set_heap (heapOf s) k h;
                                 nums := nums s; cache := cache s |}
             | None => None
             end = Some s' /\ PInv s').
    { intros H1 H2.
      destruct (inv_step (cfg k) (Hcfg k) (heapOf s k) ev (p_heap _ P k)) as (h & E & _).
      { intros ->; congruence. }
      rewrite E. eexists. split; [reflexivity|].
      destruct (step_keeps_live k _ _ _ (p_heap _ P k) E H1 H2) as [I' L'].
      constructor; cbn [heapOf cache nums].
      - intros k'. unfold set_heap. destruct (kind_eqb k k') eqn:Ek.
        + apply kind_eqb_spec in Ek; subst; auto.
        + apply (p_heap _ P).
      - intros t Hf c Hc. destruct (p_cache _ P t Hf c Hc) as [C1 C2]. split; auto.
        intros k' a Ha. destruct (C1 k' a Ha) as [A B]. split; auto.
        cbn [heapOf]. unfold set_heap. destruct (kind_eqb k k') eqn:Ek; auto.
        apply kind_eqb_spec in Ek; subst; auto. }
    destruct ev; try (apply Hgen; discriminate); eauto.
  - destruct (mentions_ok s t c) eqn:E; [|eauto].
    apply mentions_ok_spec in E. eexists. split; [reflexivity|].
    constructor; cbn [heapOf cache nums]; [apply (p_heap _ P)|].
    intros t' Hf c' Hc'.
    assert (Hold : In c' (cache s t') -> entry_ok s t' c') by (apply (p_cache _ P); auto).
    assert (Heq : t = t' -> c = c' -> entry_ok s t' c') by (intros; subst; auto).
    destruct t, t'; try exact (Hold Hc');
      (destruct Hc' as [Hc'|Hc']; [exact (Heq eq_refl Hc')|exact (Hold Hc')]).
  - eexists. split; [reflexivity|]. constructor; cbn [heapOf cache nums]; [apply (p_heap _ P)|].
    intros t Hf c Hc. destruct (p_cache _ P t Hf c Hc) as [C1 C2]. split; auto.
    intros n Hn. destruct (C2 n Hn). split; auto. cbn [nums n_live]. apply in_app_iff; auto.
  - eexists. split; [reflexivity|]. apply pinv_gc; auto.
Qed.

Lemma pinv_run evs : forall s, PInv s -> exists s', prun cfg evs s = Some s' /\ PInv s'.
Proof.
  induction evs as [|e evs IH]; intros s P; cbn [prun]; eauto.
  destruct (pinv_step s e P) as (s1 & -> & P1). auto.
Qed.

Lemma c07_fresh evs s t :
  prun cfg evs (pinit cfg) = Some s -> forgotten t = false -> fresh_table s t.
Proof.
  intros H Hf. destruct (pinv_run evs _ pinv_init) as (s' & E & P).
  rewrite H in E. inversion E; subst. intros c Hc.
  destruct (p_cache _ P t Hf c Hc) as [C1 C2]. split.
  - intros k a Ha. apply C1; auto.
  - intros n Hn. apply C2; auto.
Qed.
End P.

(** Refutation for the forgotten tables. *)
Definition pc_cfg (k : kind) : config :=
  {| c_hash := fun es => length es; c_nvars := 3; c_nbuckets := 2; c_cmpflags := false;
     c_maxref := 100; c_gclimit := 10; c_initalloc := 4 |}.

Lemma pc_cfg_ok k : cfg_ok (pc_cfg k).
Proof. unfold cfg_ok; simpl; lia. Qed.

Definition forgotten_kind (t : table) : kind :=
  match t with matrixAddMagnitudes => KM | _ => KV end.

(** Create a node, use it as operand of a cached operation, let it be collected,
    create a different node: it receives the same address. *)
Definition stale_history (t : table) : list pev :=
  let k := forgotten_kind t in
  [PHeap k (EMake 0 [(1, None); (2, None)] 0);
   PInsert t {| e_nodes := [(k, (0,0))]; e_nums := [] |};
   PGC true;
   PHeap k (EMake 0 [(3, None); (4, None)] 0)].

Lemma c07_refuted t : forgotten t = true ->
  (exists s c k a, prun pc_cfg (firstn 3 (stale_history t)) (pinit pc_cfg) = Some s
     /\ In c (cache s t) /\ In (k, a) (e_nodes c) /\ ~ In a (live (htab (hs (heapOf s k)))))
  /\ (exists s1 s2 c k a,
        prun pc_cfg (firstn 2 (stale_history t)) (pinit pc_cfg) = Some s1
        /\ prun pc_cfg (stale_history t) (pinit pc_cfg) = Some s2
        /\ In c (cache s1 t) /\ In c (cache s2 t) /\ In (k, a) (e_nodes c)
        /\ In a (live (htab (hs (heapOf s1 k)))) /\ In a (live (htab (hs (heapOf s2 k))))
        /\ ne (hheap (hs (heapOf s1 k)) a) <> ne (hheap (hs (heapOf s2 k)) a)).
Proof.
  intros Hf. split.
  - destruct t; try discriminate Hf;
      (eexists _, {| e_nodes := [(_, (0,0))]; e_nums := [] |}, _, (0,0);
       split; [vm_compute; reflexivity|]; split; [vm_compute; left; reflexivity|];
       split; [left; reflexivity|]; vm_compute; tauto).
  - destruct t; try discriminate Hf;
      (eexists _, _, {| e_nodes := [(_, (0,0))]; e_nums := [] |}, _, (0,0);
       split; [vm_compute; reflexivity|]; split; [vm_compute; reflexivity|];
       split; [vm_compute; left; reflexivity|]; split; [vm_compute; left; reflexivity|];
       split; [left; reflexivity|]; split; [vm_compute; left; reflexivity|];
       split; [vm_compute; left; reflexivity|]; vm_compute; discriminate).
Qed.
