From Coq Require Import List Arith Bool Lia Permutation.
From Verif Require Import MemModel MemProofs HeapModel HeapSpec.
Import ListNotations.

(** * Basics *)

Lemma upd_same h a n : upd h a n a = n.
Proof. unfold upd. rewrite addr_eqb_refl. reflexivity. Qed.

Lemma upd_other h a n b : a <> b -> upd h a n b = h b.
Proof. intros H. unfold upd. apply addr_eqb_neq in H. rewrite H. reflexivity. Qed.

Lemma opt_addr_eqb_spec a b : opt_addr_eqb a b = true <-> a = b.
Proof.
  destruct a as [a|], b as [b|]; simpl; try (split; congruence).
  rewrite addr_eqb_spec. split; congruence.
Qed.

Lemma edge_eqb_spec x y : edge_eqb x y = true <-> x = y.
Proof.
  unfold edge_eqb. rewrite andb_true_iff, Nat.eqb_eq, opt_addr_eqb_spec.
  destruct x, y; simpl; split; [intros [-> ->]; auto | inversion 1; auto].
Qed.

Lemma edges_eqb_spec l1 : forall l2, edges_eqb l1 l2 = true <-> l1 = l2.
Proof.
  induction l1 as [|x l1 IH]; intros [|y l2]; simpl; try (split; congruence).
  rewrite andb_true_iff, edge_eqb_spec, IH. split; [intros [-> ->]; auto | inversion 1; auto].
Qed.

Lemma MInv_perm m l1 l2 : Permutation l1 l2 -> MInv m l1 -> MInv m l2.
Proof.
  intros P [Hne Hpos Hcur Hcv Hnd Hu Hr Ha Ht Hp].
  assert (Hlen := Permutation_length P).
  constructor; auto; try lia.
  - intros a [H|H]; apply Hcv; auto. right. eapply Permutation_in; [symmetry|]; eauto.
  - eapply Permutation_NoDup; [|exact Hnd]. apply Permutation_app_head; assumption.
Qed.

Lemma remove_addr_head a l : ~ In a l -> remove_addr a (a :: l) = l.
Proof.
  intros H. unfold remove_addr; simpl. rewrite addr_eqb_refl; simpl.
  apply remove_addr_notin; assumption.
Qed.

Lemma MInv_return_list d : forall m rest,
  MInv m (d ++ rest) -> MInv (fold_left (fun m a => mm_return a m) d m) rest.
Proof.
  induction d as [|a d IH]; intros m rest I; simpl in *; auto.
  apply IH. assert (Hn := NoDup_app_r _ _ (i_nodup _ _ I)).
  inversion Hn; subst.
  rewrite <- (remove_addr_head a (d ++ rest)) by assumption.
  apply mm_return_ok; auto. left; reflexivity.
Qed.

Lemma filter_partition_perm {A} (f : A -> bool) l :
  Permutation l (filter (fun a => negb (f a)) l ++ filter f l).
Proof.
  induction l as [|x l IH]; simpl; auto.
  destruct (f x); simpl.
  - apply Permutation_cons_app. assumption.
  - constructor. assumption.
Qed.

Lemma in_live T a :
  In a (live T) <-> exists v k, In a (nth k (nth v T []) []).
Proof.
  unfold live. rewrite in_concat. split.
  - intros [b [Hb Ha]]. apply in_concat in Hb. destruct Hb as [t [Ht Hb]].
    apply (In_nth _ _ []) in Ht. destruct Ht as [v [Hv <-]].
    apply (In_nth _ _ []) in Hb. destruct Hb as [k [Hk <-]].
    eauto.
  - intros [v [k H]].
    exists (nth k (nth v T []) []). split; auto.
    apply in_concat. exists (nth v T []). split.
    + destruct (Nat.lt_ge_cases v (length T)) as [L|L]; [apply nth_In; auto|].
      rewrite (nth_overflow T) in H by auto. destruct k; destruct H.
    + destruct (Nat.lt_ge_cases k (length (nth v T []))) as [L|L]; [apply nth_In; auto|].
      rewrite nth_overflow in H by auto. destruct H.
Qed.

Lemma set_nth_length {A} n (x : A) l : length (set_nth n x l) = length l.
Proof. revert n; induction l; intros [|n]; simpl; auto. Qed.

Lemma nth_set_nth {A} n (x d : A) l m :
  n < length l -> nth m (set_nth n x l) d = if Nat.eqb n m then x else nth m l d.
Proof.
  revert n m; induction l as [|y l IH]; simpl; intros n m H; [lia|].
  destruct n as [|n], m as [|m]; simpl; auto. apply IH; lia.
Qed.

Lemma concat_set_nth {A} n (b : list A) x l :
  n < length l -> b = x :: nth n l [] ->
  Permutation (concat (set_nth n b l)) (x :: concat l).
Proof.
  revert n; induction l as [|y l IH]; simpl; intros n H E; [lia|].
  destruct n as [|n]; simpl in *.
  - subst. simpl. apply Permutation_refl.
  - rewrite IH by (auto; lia). symmetry. apply Permutation_middle.
Qed.

Lemma live_push T v k p t b :
  v < length T -> k < length (nth v T []) ->
  t = nth v T [] -> b = nth k t [] ->
  Permutation (live (set_nth v (set_nth k (p :: b) t) T)) (p :: live T).
Proof.
  intros Hv Hk -> ->. unfold live.
  revert v Hv Hk; induction T as [|t T IH]; simpl; intros v Hv Hk; [lia|].
  destruct v as [|v]; simpl in *.
  - rewrite !concat_app. rewrite concat_set_nth by auto. reflexivity.
  - rewrite !concat_app. rewrite IH by (auto; lia).
    symmetry. apply Permutation_middle.
Qed.

Lemma filter_concat {A} (f : A -> bool) l :
  concat (map (filter f) l) = filter f (concat l).
Proof.
  induction l as [|x l IH]; simpl; auto. rewrite filter_app, IH. reflexivity.
Qed.

Lemma live_sweep h T : live (sweep h T) = filter (alive h) (live T).
Proof.
  unfold live, sweep. rewrite <- concat_map. apply filter_concat.
Qed.

Lemma nth_map_d {A B} (f : A -> B) l n d d' :
  f d = d' -> nth n (map f l) d' = f (nth n l d).
Proof. intros <-. apply map_nth. Qed.

Lemma nth_sweep h T v k :
  nth k (nth v (sweep h T) []) [] = filter (alive h) (nth k (nth v T []) []).
Proof.
  unfold sweep. rewrite (nth_map_d _ _ _ []) by reflexivity.
  rewrite (nth_map_d _ _ _ []) by reflexivity. reflexivity.
Qed.

(** * Counting references *)

Fixpoint cntc (a : addr) (es : list edge) : nat :=
  match es with
  | [] => 0
  | e :: r => (if opt_addr_eqb (snd e) (Some a) then 1 else 0) + cntc a r
  end.

Fixpoint cnth (a : addr) (l : list addr) : nat :=
  match l with
  | [] => 0
  | b :: r => (if addr_eqb b a then 1 else 0) + cnth a r
  end.

Definition one_at (a b : addr) : nat := if addr_eqb a b then 1 else 0.

Definition contrib (h : heap) (p b : addr) : nat :=
  if Nat.eqb (nref (h p)) 0 then 0 else cntc b (ne (h p)).

Fixpoint parents (h : heap) (L : list addr) (b : addr) : nat :=
  match L with
  | [] => 0
  | p :: r => contrib h p b + parents h r b
  end.

Lemma cntc_pos a es : 0 < cntc a es <-> exists w, In (w, Some a) es.
Proof.
  induction es as [|[w o] es IH]; simpl.
  - split; [lia|intros [? []]].
  - destruct (opt_addr_eqb o (Some a)) eqn:E.
    + apply opt_addr_eqb_spec in E. subst. split; [|lia]. intros _. exists w. auto.
    + rewrite IH. split; intros [w' H]; exists w'; auto.
      destruct H as [H|H]; auto. inversion H; subst.
      rewrite (proj2 (opt_addr_eqb_spec _ _) eq_refl) in E. discriminate.
Qed.

Lemma cnth_pos a l : 0 < cnth a l <-> In a l.
Proof.
  induction l as [|b l IH]; simpl; [split; [lia|tauto]|].
  destruct (addr_eqb b a) eqn:E.
  - apply addr_eqb_spec in E. subst. split; [auto|lia].
  - apply addr_eqb_neq in E. rewrite IH. split; [auto|intros [?|?]; congruence].
Qed.

Lemma parents_pos h L b :
  0 < parents h L b <-> exists p, In p L /\ 0 < nref (h p) /\ child h p b.
Proof.
  induction L as [|p L IH]; simpl.
  - split; [lia|intros [? [[] _]]].
  - unfold contrib. destruct (Nat.eqb_spec (nref (h p)) 0) as [E|E].
    + rewrite IH. split; intros (q & Hq & Hr & Hc); exists q; repeat split; auto.
      destruct Hq as [->|Hq]; auto. lia.
    + split.
      * intros H. destruct (Nat.eq_dec (cntc b (ne (h p))) 0) as [E2|E2].
        -- destruct (proj1 IH) as (q & Hq & Hr & Hc); [lia|]. exists q; auto.
        -- exists p. repeat split; auto; [lia|]. apply cntc_pos. lia.
      * intros (q & [->|Hq] & Hr & Hc).
        -- apply cntc_pos in Hc. lia.
        -- assert (0 < parents h L b) by (apply IH; eauto). lia.
Qed.

Lemma parents_perm h L1 L2 b : Permutation L1 L2 -> parents h L1 b = parents h L2 b.
Proof. induction 1; simpl; lia. Qed.

Lemma parents_ext h h' L b :
  (forall p, In p L -> contrib h p b = contrib h' p b) -> parents h L b = parents h' L b.
Proof.
  induction L as [|p L IH]; simpl; intros H; [reflexivity|f_equal; auto].
Qed.

Lemma contrib_upd_other h a n p b : a <> p -> contrib (upd h a n) p b = contrib h p b.
Proof. intros H. unfold contrib. rewrite upd_other by auto. reflexivity. Qed.

Lemma parents_upd_notin h a n L b :
  ~ In a L -> parents (upd h a n) L b = parents h L b.
Proof.
  intros H. apply parents_ext. intros p Hp. apply contrib_upd_other. congruence.
Qed.

Lemma parents_upd h a n L b :
  NoDup L -> In a L ->
  parents (upd h a n) L b + contrib h a b = parents h L b + contrib (upd h a n) a b.
Proof.
  induction L as [|p L IH]; simpl; intros Hn Hi; [destruct Hi|].
  inversion Hn; subst.
  destruct (addr_eq_dec a p) as [->|Hne].
  - rewrite parents_upd_notin by auto. lia.
  - destruct Hi as [->|Hi]; [congruence|].
    rewrite (contrib_upd_other h a n p b) by auto.
    specialize (IH H2 Hi). lia.
Qed.

Lemma parents_filter_alive h L b : parents h (filter (alive h) L) b = parents h L b.
Proof.
  induction L as [|p L IH]; simpl; auto.
  unfold alive at 1. destruct (Nat.eqb (nref (h p)) 0) eqn:E; simpl; rewrite IH; auto.
  unfold contrib. rewrite E. reflexivity.
Qed.

(** * Reference counting invariants *)

Definition same_content (h h' : heap) : Prop := forall a, content (h' a) = content (h a).

Lemma same_content_refl h : same_content h h.
Proof. intros a; reflexivity. Qed.

Lemma same_content_trans h1 h2 h3 :
  same_content h1 h2 -> same_content h2 h3 -> same_content h1 h3.
Proof. intros H1 H2 a. rewrite H2; apply H1. Qed.

Lemma content_nv n m : content n = content m -> nv n = nv m.
Proof. unfold content; inversion 1; auto. Qed.
Lemma content_ne n m : content n = content m -> ne n = ne m.
Proof. unfold content; inversion 1; auto. Qed.
Lemma content_nflags n m : content n = content m -> nflags n = nflags m.
Proof. unfold content; inversion 1; auto. Qed.

Lemma same_content_set_ref h a r : same_content h (upd h a (set_ref (h a) r)).
Proof.
  intros b. destruct (addr_eq_dec a b) as [->|H].
  - rewrite upd_same. reflexivity.
  - rewrite upd_other by auto. reflexivity.
Qed.

(** Levels decrease along edges, successors are stored. *)
Definition wfh (h : heap) (L : list addr) : Prop :=
  forall a c w, In a L -> In (w, Some c) (ne (h a)) -> In c L /\ nv (h c) < nv (h a).

Lemma wfh_same h h' L : same_content h h' -> wfh h L -> wfh h' L.
Proof.
  intros S W a c w Ha Hc. rewrite (content_ne _ _ (S a)) in Hc.
  rewrite (content_nv _ _ (S a)), (content_nv _ _ (S c)). eauto.
Qed.

Section Counting.
Variable cfg : config.
Notation M := (c_maxref cfg).

Definition RInc (h : heap) (L : list addr) (ext pend : addr -> nat) : Prop :=
  (forall a, In a L ->
     nref (h a) = M \/ nref (h a) + pend a = ext a + parents h L a)
  /\ (forall a, nref (h a) <= M)
  /\ (forall a, ~ In a L -> nref (h a) = 0).

Definition RDec (h : heap) (L : list addr) (ext pend : addr -> nat) : Prop :=
  (forall a, In a L ->
     nref (h a) = M \/ nref (h a) = ext a + parents h L a + pend a)
  /\ (forall a, nref (h a) <= M)
  /\ (forall a, ~ In a L -> nref (h a) = 0).

Lemma inc_fold f L ext :
  (forall a h pend, wfh h L -> In a L -> nv (h a) + 2 <= f ->
     RInc h L ext (fun b => pend b + one_at a b) ->
     exists h', incRef cfg f (Some a) h = Some h' /\ same_content h h' /\ RInc h' L ext pend) ->
  1 <= f ->
  forall es h pend, wfh h L ->
   (forall w c, In (w, Some c) es -> In c L /\ nv (h c) + 2 <= f) ->
   RInc h L ext (fun b => pend b + cntc b es) ->
   exists h', fold_left (fun acc (e : edge) =>
                match acc with None => None | Some h' => incRef cfg f (snd e) h' end)
                es (Some h) = Some h' /\ same_content h h' /\ RInc h' L ext pend.
Proof.
  intros IH Hf. induction es as [|[w o] es IHes]; intros h pend W Hes R; cbn [fold_left].
  - exists h. split; [reflexivity|]. split; [apply same_content_refl|].
    destruct R as (R1 & R2 & R3). split; [|auto].
    intros a Ha. destruct (R1 a Ha) as [?|E]; auto. right. simpl in E. lia.
  - destruct o as [c|]; cbn [snd].
    + destruct (Hes w c (or_introl eq_refl)) as [Hc Hl].
      destruct (IH c h (fun b => pend b + cntc b es) W Hc Hl) as (h1 & -> & S1 & R1).
      { destruct R as (R1 & R2 & R3). split; [|auto].
        intros a Ha. destruct (R1 a Ha) as [?|E]; auto. right. revert E.
        unfold one_at. simpl. lia. }
      destruct (IHes h1 pend) as (h2 & E2 & S2 & R2); auto.
      { eapply wfh_same; eauto. }
      { intros w' c' H'. rewrite (content_nv _ _ (S1 c')). apply (Hes w' c'). right; auto. }
      exists h2. split; [exact E2|]. split; [eapply same_content_trans; eauto|auto].
    + destruct f as [|f']; [lia|]. cbn [incRef].
      apply IHes; auto.
      intros w' c' H'. apply (Hes w' c'). right; auto.
Qed.

Lemma inc_ok L ext : NoDup L -> 0 < M ->
  forall f a h pend, wfh h L -> In a L -> nv (h a) + 2 <= f ->
   RInc h L ext (fun b => pend b + one_at a b) ->
   exists h', incRef cfg f (Some a) h = Some h' /\ same_content h h' /\ RInc h' L ext pend.
Proof.
  intros HL HM. induction f as [|f IH]; intros a h pend W Ha Hf R; [lia|].
  cbn [incRef]. destruct R as (R1 & R2 & R3).
  destruct (Nat.eqb_spec (nref (h a)) M) as [E|E].
  - exists h. split; [reflexivity|]. split; [apply same_content_refl|].
    split; [|auto]. intros b Hb. destruct (addr_eq_dec a b) as [->|Hne]; auto.
    destruct (R1 b Hb) as [?|Eq]; auto. right.
    unfold one_at in Eq. apply addr_eqb_neq in Hne. rewrite Hne in Eq. lia.
  - rewrite upd_same. cbn [set_ref nref ne].
    set (h1 := upd h a (set_ref (h a) (S (nref (h a))))).
    assert (Sc : same_content h h1) by apply same_content_set_ref.
    assert (Hcontr : forall b, parents h1 L b
              = parents h L b + if Nat.eqb (S (nref (h a))) 1 then cntc b (ne (h a)) else 0).
    { intros b. pose proof (parents_upd h a (set_ref (h a) (S (nref (h a)))) L b HL Ha) as P.
      fold h1 in P. unfold contrib in P. unfold h1 in P at 2 3. rewrite upd_same in P.
      cbn [set_ref nref ne] in P.
      destruct (nref (h a)) as [|r]; cbn in *; lia. }
    assert (HR : RInc h1 L ext
       (fun b => pend b + if Nat.eqb (S (nref (h a))) 1 then cntc b (ne (h a)) else 0)).
    { split; [|split].
      - intros b Hb. rewrite Hcontr. specialize (R1 b Hb). unfold one_at in R1.
        destruct (addr_eq_dec a b) as [<-|Hne].
        + rewrite addr_eqb_refl in R1. unfold h1. rewrite upd_same. cbn [set_ref nref].
          right. destruct R1; lia.
        + unfold h1. rewrite upd_other by auto. apply addr_eqb_neq in Hne.
          rewrite Hne in R1. destruct R1; [left; auto|right; lia].
      - intros b. destruct (addr_eq_dec a b) as [<-|Hne]; unfold h1.
        + rewrite upd_same. cbn [set_ref nref]. specialize (R2 a). lia.
        + rewrite upd_other by auto. auto.
      - intros b Hb. unfold h1. rewrite upd_other by congruence. auto. }
    assert (Hh1 : nref (h1 a) = S (nref (h a))) by (unfold h1; rewrite upd_same; reflexivity).
    destruct (Nat.eqb (S (nref (h a))) 1) eqn:E1.
    + destruct (inc_fold f L ext) with (es := ne (h a)) (h := h1) (pend := pend)
        as (h2 & E2 & S2 & RR2); auto.
      * lia.
      * eapply wfh_same; eauto.
      * intros w c Hc. destruct (W a c w Ha Hc) as [Hin Hlt]. split; auto.
        rewrite (content_nv _ _ (Sc c)). lia.
      * exists h2. split; [exact E2|]. split; [eapply same_content_trans; eauto|auto].
    + exists h1. split; [reflexivity|]. split; [auto|].
      destruct HR as (HR1 & HR2 & HR3). split; [|auto].
      intros b Hb. destruct (HR1 b Hb) as [?|Eq]; auto. right. lia.
Qed.

Lemma dec_fold f L ext :
  (forall a h pend, wfh h L -> In a L -> nv (h a) + 2 <= f ->
     RDec h L ext (fun b => pend b + one_at a b) ->
     exists h', decRef cfg f (Some a) h = Some h' /\ same_content h h' /\ RDec h' L ext pend) ->
  1 <= f ->
  forall es h pend, wfh h L ->
   (forall w c, In (w, Some c) es -> In c L /\ nv (h c) + 2 <= f) ->
   RDec h L ext (fun b => pend b + cntc b es) ->
   exists h', fold_left (fun acc (e : edge) =>
                match acc with None => None | Some h' => decRef cfg f (snd e) h' end)
                es (Some h) = Some h' /\ same_content h h' /\ RDec h' L ext pend.
Proof.
  intros IH Hf. induction es as [|[w o] es IHes]; intros h pend W Hes R; cbn [fold_left].
  - exists h. split; [reflexivity|]. split; [apply same_content_refl|].
    destruct R as (R1 & R2 & R3). split; [|auto].
    intros a Ha. destruct (R1 a Ha) as [?|E]; auto. right. simpl in E. lia.
  - destruct o as [c|]; cbn [snd].
    + destruct (Hes w c (or_introl eq_refl)) as [Hc Hl].
      destruct (IH c h (fun b => pend b + cntc b es) W Hc Hl) as (h1 & -> & S1 & R1).
      { destruct R as (R1 & R2 & R3). split; [|auto].
        intros a Ha. destruct (R1 a Ha) as [?|E]; auto. right. revert E.
        unfold one_at. simpl. lia. }
      destruct (IHes h1 pend) as (h2 & E2 & S2 & R2); auto.
      { eapply wfh_same; eauto. }
      { intros w' c' H'. rewrite (content_nv _ _ (S1 c')). apply (Hes w' c'). right; auto. }
      exists h2. split; [exact E2|]. split; [eapply same_content_trans; eauto|auto].
    + destruct f as [|f']; [lia|]. cbn [decRef].
      apply IHes; auto.
      intros w' c' H'. apply (Hes w' c'). right; auto.
Qed.

Lemma dec_ok L ext : NoDup L -> 0 < M ->
  forall f a h pend, wfh h L -> In a L -> nv (h a) + 2 <= f ->
   RDec h L ext (fun b => pend b + one_at a b) ->
   exists h', decRef cfg f (Some a) h = Some h' /\ same_content h h' /\ RDec h' L ext pend.
Proof.
  intros HL HM. induction f as [|f IH]; intros a h pend W Ha Hf R; [lia|].
  cbn [decRef]. destruct R as (R1 & R2 & R3).
  destruct (Nat.eqb_spec (nref (h a)) M) as [E|E].
  - exists h. split; [reflexivity|]. split; [apply same_content_refl|].
    split; [|auto]. intros b Hb. destruct (addr_eq_dec a b) as [->|Hne]; auto.
    destruct (R1 b Hb) as [?|Eq]; auto. right.
    unfold one_at in Eq. apply addr_eqb_neq in Hne. rewrite Hne in Eq. lia.
  - destruct (nref (h a)) as [|r] eqn:Er.
    { exfalso. destruct (R1 a Ha) as [?|Eq]; [congruence|].
      unfold one_at in Eq. rewrite addr_eqb_refl in Eq. lia. }
    rewrite upd_same. cbn [set_ref nref ne].
    set (h1 := upd h a (set_ref (h a) r)).
    assert (Sc : same_content h h1) by apply same_content_set_ref.
    assert (Hcontr : forall b, parents h1 L b + (if Nat.eqb r 0 then cntc b (ne (h a)) else 0)
              = parents h L b).
    { intros b. pose proof (parents_upd h a (set_ref (h a) r) L b HL Ha) as P.
      fold h1 in P. unfold contrib in P. unfold h1 in P at 2 3. rewrite upd_same in P.
      cbn [set_ref nref ne] in P. rewrite Er in P.
      destruct r as [|r]; cbn in *; lia. }
    assert (HR : RDec h1 L ext
       (fun b => pend b + if Nat.eqb r 0 then cntc b (ne (h a)) else 0)).
    { split; [|split].
      - intros b Hb. specialize (Hcontr b). specialize (R1 b Hb). unfold one_at in R1.
        destruct (addr_eq_dec a b) as [<-|Hne].
        + rewrite addr_eqb_refl in R1. unfold h1 at 1 2. rewrite upd_same. cbn [set_ref nref].
          right. destruct R1; lia.
        + unfold h1 at 1 2. rewrite upd_other by auto. apply addr_eqb_neq in Hne.
          rewrite Hne in R1. destruct R1; [left; auto|right; lia].
      - intros b. destruct (addr_eq_dec a b) as [<-|Hne]; unfold h1.
        + rewrite upd_same. cbn [set_ref nref]. specialize (R2 a). lia.
        + rewrite upd_other by auto. auto.
      - intros b Hb. unfold h1. rewrite upd_other by congruence. auto. }
    destruct (Nat.eqb r 0) eqn:E1.
    + destruct (dec_fold f L ext) with (es := ne (h a)) (h := h1) (pend := pend)
        as (h2 & E2 & S2 & RR2); auto.
      * lia.
      * eapply wfh_same; eauto.
      * intros w c Hc. destruct (W a c w Ha Hc) as [Hin Hlt]. split; auto.
        rewrite (content_nv _ _ (Sc c)). lia.
      * exists h2. split; [exact E2|]. split; [eapply same_content_trans; eauto|auto].
    + exists h1. split; [reflexivity|]. split; [auto|].
      destruct HR as (HR1 & HR2 & HR3). split; [|auto].
      intros b Hb. destruct (HR1 b Hb) as [?|Eq]; auto. right. lia.
Qed.

(** * The global invariant *)

Notation same_node := (HeapSpec.same_node cfg).

Record Inv (st : hst) : Prop := {
  v_len : length (htab (hs st)) = c_nvars cfg;
  v_blen : forall v, v < c_nvars cfg ->
           length (nth v (htab (hs st)) []) = c_nbuckets cfg;
  v_mm : MInv (hmm (hs st)) (live (htab (hs st)));
  v_place : forall v k a, In a (nth k (nth v (htab (hs st)) []) []) ->
            nv (hheap (hs st) a) = v /\ key cfg (ne (hheap (hs st) a)) = k;
  v_uniq : forall a b, In a (live (htab (hs st))) -> In b (live (htab (hs st))) ->
           same_node (hheap (hs st) a) (hheap (hs st) b) -> a = b;
  v_wf : wfh (hheap (hs st)) (live (htab (hs st)));
  v_ref : RInc (hheap (hs st)) (live (htab (hs st)))
               (fun a => cnth a (holds st)) (fun _ => 0);
  v_hold : forall a, In a (holds st) -> In a (live (htab (hs st)));
  v_ent : hentries (hs st) = length (live (htab (hs st))) }.

Hypothesis Hcfg : cfg_ok cfg.

Lemma key_lt es : key cfg es < c_nbuckets cfg.
Proof. destruct Hcfg as (H & _). unfold key. apply Nat.mod_upper_bound. lia. Qed.

Lemma nth_repeat_d {A} (x : A) n m d : nth n (repeat x m) d = x \/ nth n (repeat x m) d = d.
Proof.
  destruct (Nat.lt_ge_cases n m).
  - left. revert m H; induction n; intros [|m] H; simpl; auto; try lia. apply IHn; lia.
  - right. apply nth_overflow. rewrite repeat_length. auto.
Qed.

Lemma live_empty n m : live (repeat (repeat [] m) n) = [].
Proof.
  unfold live. induction n as [|n IH]; simpl; auto.
  rewrite concat_app. rewrite IH, app_nil_r. clear. induction m; simpl; auto.
Qed.

Lemma inv_init : Inv (hinit cfg).
Proof.
  destruct Hcfg as (Hb & Hm & Ha).
  constructor; simpl; rewrite ?live_empty; simpl; auto; try tauto.
  - apply repeat_length.
  - intros v Hv. destruct (nth_repeat_d (repeat (@nil addr) (c_nbuckets cfg)) v (c_nvars cfg) []) as [->|E].
    + apply repeat_length.
    + exfalso. assert (In (nth v (repeat (repeat (@nil addr) (c_nbuckets cfg)) (c_nvars cfg)) [])
                 (repeat (repeat [] (c_nbuckets cfg)) (c_nvars cfg))).
      { apply nth_In. rewrite repeat_length. auto. }
      apply repeat_spec in H. rewrite E in H. destruct (c_nbuckets cfg); [lia|discriminate].
  - apply minv_init; auto.
  - intros v k a H. exfalso.
    assert (Hx : In a (live (repeat (repeat [] (c_nbuckets cfg)) (c_nvars cfg)))).
    { apply in_live. eauto. }
    rewrite live_empty in Hx. destruct Hx.
  - intros a c w [].
  - split; [|split]; simpl; auto; try lia; try (intros a []; fail).
Qed.

(** Search *)
Lemma nodesAreEqual_spec p q :
  nodesAreEqual cfg p q = true <->
  ne p = ne q /\ (c_cmpflags cfg = true -> nflags p = nflags q).
Proof.
  unfold nodesAreEqual. rewrite andb_true_iff, edges_eqb_spec.
  destruct (c_cmpflags cfg).
  - rewrite Nat.eqb_eq. intuition.
  - intuition congruence.
Qed.

Lemma searchTable_some h p bk b :
  searchTable cfg h p bk = Some b ->
  In b bk /\ nodesAreEqual cfg (h p) (h b) = true.
Proof.
  induction bk as [|c bk IH]; simpl; [discriminate|].
  destruct (nodesAreEqual cfg (h p) (h c)) eqn:E.
  - inversion 1; subst. auto.
  - intros H. destruct (IH H). auto.
Qed.

Lemma searchTable_none h p bk :
  searchTable cfg h p bk = None ->
  forall b, In b bk -> nodesAreEqual cfg (h p) (h b) = false.
Proof.
  induction bk as [|c bk IH]; simpl; [intros _ b []|].
  destruct (nodesAreEqual cfg (h p) (h c)) eqn:E; [discriminate|].
  intros H b [<-|Hb]; auto.
Qed.

Lemma is_live_spec s a : is_live s a = true <-> In a (live (htab s)).
Proof. apply existsb_in. Qed.

Lemma edges_ok_spec s v es :
  edges_ok s v es = true ->
  forall w c, In (w, Some c) es -> In c (live (htab s)) /\ nv (hheap s c) < v.
Proof.
  unfold edges_ok. rewrite forallb_forall. intros H w c Hc.
  specialize (H _ Hc). simpl in H. apply andb_true_iff in H.
  rewrite is_live_spec, Nat.ltb_lt in H. exact H.
Qed.

(** allocation of a fresh entry *)
Lemma alloc_ok st v es fl :
  Inv st -> exists p s1,
    allocNode v es fl (hs st) = Some (p, s1)
    /\ ~ In p (live (htab (hs st)))
    /\ MInv (hmm s1) (p :: live (htab (hs st)))
    /\ hheap s1 = upd (hheap (hs st)) p (mkNode v es fl 0)
    /\ htab s1 = htab (hs st) /\ hentries s1 = hentries (hs st).
Proof.
  intros I. unfold allocNode.
  destruct (mm_get_ok _ _ (v_mm _ I)) as (p & m' & -> & Hm & Hp).
  eexists _, _. split; [reflexivity|]. simpl. split; [exact Hp|]. split; [exact Hm|]. split; [|split; reflexivity].
  destruct (v_ref _ I) as (_ & _ & H3). rewrite H3 by auto. reflexivity.
Qed.

Lemma RInc_fresh h L ext p n :
  ~ In p L -> nref n = 0 -> wfh h L -> RInc h L ext (fun _ => 0) ->
  RInc (upd h p n) L ext (fun _ => 0).
Proof.
  intros Hp Hn W (R1 & R2 & R3). split; [|split].
  - intros a Ha. rewrite upd_other by congruence. rewrite parents_upd_notin by auto. auto.
  - intros a. destruct (addr_eq_dec p a) as [<-|H]; [rewrite upd_same; lia|].
    rewrite upd_other by auto. auto.
  - intros a Ha. destruct (addr_eq_dec p a) as [<-|H]; [rewrite upd_same; auto|].
    rewrite upd_other by auto. auto.
Qed.

Lemma wfh_upd_fresh h L p n : ~ In p L -> wfh h L -> wfh (upd h p n) L.
Proof.
  intros Hp W a c w Ha Hc. rewrite upd_other in Hc by congruence.
  destruct (W a c w Ha Hc) as [Hin Hl]. split; auto.
  rewrite !upd_other by congruence. auto.
Qed.

(** After writing a fresh entry that is not in the table and handing it back. *)
Lemma inv_drop st p s1 v es fl :
  Inv st ->
  ~ In p (live (htab (hs st))) ->
  MInv (hmm s1) (p :: live (htab (hs st))) ->
  hheap s1 = upd (hheap (hs st)) p (mkNode v es fl 0) ->
  htab s1 = htab (hs st) -> hentries s1 = hentries (hs st) ->
  Inv {| hs := {| hmm := mm_return p (hmm s1); hheap := hheap s1; htab := htab s1;
                  hentries := hentries s1; hgclimit := hgclimit s1 |};
         holds := holds st |}.
Proof.
  intros I Hp Hm Hh Ht He.
  constructor; cbn [hs holds hmm hheap htab hentries hgclimit]; rewrite ?Hh, ?Ht.
  - apply (v_len _ I).
  - apply (v_blen _ I).
  - rewrite <- (remove_addr_head p (live (htab (hs st)))) by auto.
    apply mm_return_ok; auto. left; reflexivity.
  - intros w k a Ha.
    assert (In a (live (htab (hs st)))) by (apply in_live; eauto).
    rewrite upd_other by congruence. apply (v_place _ I); auto.
  - intros a b Ha Hb. rewrite !upd_other by congruence. apply (v_uniq _ I); auto.
  - apply wfh_upd_fresh; auto. apply (v_wf _ I).
  - apply RInc_fresh; auto; [apply (v_wf _ I)|apply (v_ref _ I)].
  - apply (v_hold _ I).
  - rewrite He. apply (v_ent _ I).
Qed.

Lemma inv_make st v es fl :
  Inv st -> v < c_nvars cfg -> edges_ok (hs st) v es = true ->
  exists a s', makeNode cfg v es fl (hs st) = Some (a, s')
    /\ Inv {| hs := s'; holds := holds st |}
    /\ In a (live (htab s'))
    /\ same_node (hheap s' a) (mkNode v es fl 0)
    /\ (forall b, In b (live (htab (hs st))) ->
          In b (live (htab s')) /\ hheap s' b = hheap (hs st) b)
    /\ ((In a (live (htab (hs st))) /\ htab s' = htab (hs st)
          /\ exists p, ~ In p (live (htab (hs st)))
              /\ available (hmm s') = p :: match available (hmm (hs st)) with
                                           | [] => [] | _ :: r => r end)
        \/ (~ In a (live (htab (hs st)))
            /\ Permutation (live (htab s')) (a :: live (htab (hs st))))).
Proof.
  intros I Hv Hes. unfold makeNode. rewrite (proj2 (Nat.ltb_lt _ _) Hv).
  destruct (alloc_ok st v es fl I) as (p & s1 & Hal & Hp & Hm & Hh & Ht & He).
  assert (Hav : available (hmm s1) = match available (hmm (hs st)) with [] => [] | _ :: r => r end).
  { unfold allocNode in Hal. destruct (mm_get (hmm (hs st))) as [[q m']|] eqn:Eg; [|discriminate].
    inversion Hal; subst; simpl. unfold mm_get in Eg.
    destruct (available (hmm (hs st))) eqn:Ea.
    - destruct (entryAvailableInChunk (hmm (hs st))); unfold getEntryFromChunk in Eg;
        match type of Eg with (if ?c then _ else _) = _ => destruct c end;
        inversion Eg; subst; simpl; auto.
    - inversion Eg; subst; reflexivity. }
  rewrite Hal. unfold lookup.
  assert (Hn : hheap s1 p = mkNode v es fl 0) by (rewrite Hh; apply upd_same).
  rewrite Hn. cbn [nv ne].
  set (k := key cfg es). set (tv := nth v (htab s1) []).
  assert (Hlive : forall b, In b (live (htab (hs st))) -> hheap s1 b = hheap (hs st) b).
  { intros b Hb. rewrite Hh. apply upd_other. congruence. }
  destruct (searchTable cfg (hheap s1) p (nth k tv [])) as [b|] eqn:E.
  - apply searchTable_some in E. destruct E as [Hb Eq].
    unfold tv in Hb. rewrite Ht in Hb.
    assert (Hbl : In b (live (htab (hs st)))) by (apply in_live; eauto).
    assert (Hpb : addr_eqb p b = false) by (apply addr_eqb_neq; congruence).
    rewrite Hpb. eexists _, _. split; [reflexivity|].
    split; [eapply inv_drop; eauto|]. cbn [htab hheap hmm].
    rewrite Ht. split; [auto|]. split.
    { rewrite Hn in Eq. apply nodesAreEqual_spec in Eq. cbn [ne nflags] in Eq.
      destruct (v_place _ I v k b Hb) as [Hbv _].
      destruct Eq as [Eq1 Eq2]. unfold HeapSpec.same_node. cbn [nv ne nflags].
      rewrite (Hlive b Hbl). rewrite (Hlive b Hbl) in Eq1, Eq2.
      repeat split; auto. intros Hc. symmetry; auto. }
    split; [intros c Hc; split; auto|].
    left. split; auto. split; auto. exists p. split; auto.
    cbn [mm_return available]. rewrite Hav. reflexivity.
  - assert (Hno := searchTable_none _ _ _ E).
    assert (Hvl : v < length (htab s1)) by (rewrite Ht, (v_len _ I); auto).
    assert (Hkl : k < length (nth v (htab s1) [])).
    { rewrite Ht. rewrite (v_blen _ I) by auto. apply key_lt. }
    assert (P : Permutation
       (live (set_nth v (set_nth k (p :: nth k tv []) tv) (htab s1)))
       (p :: live (htab (hs st)))).
    { rewrite <- Ht. apply live_push; auto. }
    eexists _, _. split; [reflexivity|]. cbn [htab hheap hmm].
    assert (Hin : forall a, In a (live (set_nth v (set_nth k (p :: nth k tv []) tv) (htab s1)))
                  <-> a = p \/ In a (live (htab (hs st)))).
    { intros a. split; intros H.
      - apply (Permutation_in _ P) in H. destruct H; auto.
      - apply (Permutation_in _ (Permutation_sym P)). destruct H; [left|right]; auto. }
    assert (Hnotchild : forall a, In a (live (htab (hs st))) -> ~ child (hheap (hs st)) a p).
    { intros a Ha [w Hw]. destruct (v_wf _ I a p w Ha Hw). auto. }
    assert (Hes' := edges_ok_spec _ _ _ Hes).
    split; [|split; [|split; [|split]]].
    + constructor; cbn [hs holds hmm hheap htab hentries hgclimit].
      * rewrite set_nth_length, Ht. apply (v_len _ I).
      * intros w Hw. rewrite nth_set_nth by auto.
        destruct (Nat.eqb_spec v w) as [<-|Hne].
        -- rewrite set_nth_length. unfold tv. rewrite Ht. apply (v_blen _ I); auto.
        -- rewrite Ht. apply (v_blen _ I); auto.
      * eapply MInv_perm; [apply Permutation_sym; exact P|exact Hm].
      * intros w k' a Ha. rewrite nth_set_nth in Ha by auto.
        assert (Hcase : In a (nth k' (nth w (htab (hs st)) []) []) \/ (a = p /\ w = v /\ k' = k)).
        { destruct (Nat.eqb_spec v w) as [<-|Hne].
          - rewrite nth_set_nth in Ha by auto.
            destruct (Nat.eqb_spec k k') as [<-|Hnek].
            + destruct Ha as [<-|Ha]; [right; auto|left]. unfold tv in Ha. rewrite Ht in Ha. auto.
            + left. unfold tv in Ha. rewrite Ht in Ha. auto.
          - left. rewrite Ht in Ha. auto. }
        destruct Hcase as [Hc|(-> & -> & ->)].
        -- assert (In a (live (htab (hs st)))) by (apply in_live; eauto).
           rewrite Hlive by auto. apply (v_place _ I); auto.
        -- rewrite Hn. auto.
      * assert (Hfreshneq : forall b, In b (live (htab (hs st))) ->
                   same_node (hheap s1 p) (hheap s1 b) -> False).
        { intros b Hb (S1 & S2 & S3). rewrite Hn in S1, S2, S3. cbn [nv ne nflags] in *.
          destruct (proj1 (in_live _ _) Hb) as (w & k' & Hbk).
          destruct (v_place _ I _ _ _ Hbk) as [P1 P2].
          rewrite (Hlive b Hb) in S1, S2, S3.
          assert (Hb2 : In b (nth k tv [])).
          { unfold tv. rewrite Ht. unfold k. rewrite S2. rewrite S1. rewrite P1, P2. auto. }
          specialize (Hno b Hb2).
          assert (Ht2 : nodesAreEqual cfg (hheap s1 p) (hheap s1 b) = true).
          { apply nodesAreEqual_spec. rewrite Hn, (Hlive b Hb). cbn [ne nflags]. auto. }
          congruence. }
        intros a b Ha Hb Hs. apply Hin in Ha. apply Hin in Hb.
        destruct Ha as [->|Ha], Hb as [->|Hb]; auto.
        -- exfalso. eauto.
        -- exfalso. apply (Hfreshneq a Ha). destruct Hs as (A1 & A2 & A3).
           repeat split; auto. intros; symmetry; auto.
        -- rewrite (Hlive a Ha), (Hlive b Hb) in Hs. apply (v_uniq _ I); auto.
      * intros a c w Ha Hc. rewrite Hin in *.
        destruct Ha as [->|Ha].
        -- rewrite Hn in Hc |- *. cbn [ne nv] in *.
           destruct (Hes' w c Hc) as [H1 H2]. split; auto. rewrite Hlive; auto.
        -- rewrite (Hlive a Ha) in *. destruct (v_wf _ I a c w Ha Hc) as [H1 H2].
           split; auto. rewrite (Hlive c H1). auto.
      * destruct (v_ref _ I) as (R1 & R2 & R3).
        assert (Hpar : forall b, parents (hheap s1)
            (live (set_nth v (set_nth k (p :: nth k tv []) tv) (htab s1))) b
            = parents (hheap (hs st)) (live (htab (hs st))) b).
        { intros b. rewrite (parents_perm _ _ _ _ P). cbn [parents].
          unfold contrib at 1. rewrite Hn. cbn [nref Nat.eqb]. rewrite Hh.
          rewrite parents_upd_notin by auto. reflexivity. }
        split; [|split].
        -- intros a Ha. rewrite Hpar. apply Hin in Ha. destruct Ha as [->|Ha].
           ++ right. rewrite Hn. cbn [nref].
              assert (Z1 : cnth p (holds st) = 0).
              { destruct (Nat.eq_dec (cnth p (holds st)) 0); auto. exfalso. apply Hp.
                apply (v_hold _ I). apply cnth_pos. lia. }
              assert (Z2 : parents (hheap (hs st)) (live (htab (hs st))) p = 0).
              { destruct (Nat.eq_dec (parents (hheap (hs st)) (live (htab (hs st))) p) 0) as [|Z]; auto.
                exfalso. destruct (proj1 (parents_pos (hheap (hs st)) (live (htab (hs st))) p)) as (q & Q1 & Q2 & Q3).
                - lia.
                - eapply Hnotchild; eauto. }
              lia.
           ++ rewrite (Hlive a Ha). auto.
        -- intros a. rewrite Hh. destruct (addr_eq_dec p a) as [<-|H]; [rewrite upd_same; simpl; lia|].
           rewrite upd_other by auto. auto.
        -- intros a Ha. rewrite Hin in Ha. rewrite Hh.
           rewrite upd_other by (intros ->; tauto). apply R3. tauto.
      * intros a Ha. apply Hin. right. apply (v_hold _ I); auto.
      * rewrite He, (v_ent _ I). rewrite (Permutation_length P). reflexivity.
    + apply Hin. auto.
    + rewrite Hn. unfold HeapSpec.same_node; auto.
    + intros b Hb. split; [apply Hin; auto|auto].
    + right. auto.
Qed.

Lemma inv_dropped st v es fl :
  Inv st -> exists s', makeDropped v es fl (hs st) = Some s'
    /\ Inv {| hs := s'; holds := holds st |}
    /\ htab s' = htab (hs st)
    /\ (forall b, In b (live (htab (hs st))) -> hheap s' b = hheap (hs st) b).
Proof.
  intros I. unfold makeDropped.
  destruct (alloc_ok st v es fl I) as (p & s1 & -> & Hp & Hm & Hh & Ht & He).
  eexists. split; [reflexivity|]. split; [eapply inv_drop; eauto|].
  cbn [htab hheap]. split; auto.
  intros b Hb. rewrite Hh. apply upd_other. congruence.
Qed.

Lemma same_node_same h h' a b :
  same_content h h' -> same_node (h' a) (h' b) -> same_node (h a) (h b).
Proof.
  intros S (A & B & C). unfold HeapSpec.same_node.
  rewrite <- (content_nv _ _ (S a)), <- (content_nv _ _ (S b)),
          <- (content_ne _ _ (S a)), <- (content_ne _ _ (S b)),
          <- (content_nflags _ _ (S a)), <- (content_nflags _ _ (S b)). auto.
Qed.

Lemma inv_with_heap st h' holds' :
  Inv st -> same_content (hheap (hs st)) h' ->
  RInc h' (live (htab (hs st))) (fun a => cnth a holds') (fun _ => 0) ->
  (forall a, In a holds' -> In a (live (htab (hs st)))) ->
  Inv {| hs := with_heap (hs st) h'; holds := holds' |}.
Proof.
  intros I S R Hh. constructor; cbn [hs holds with_heap hmm hheap htab hentries].
  - apply (v_len _ I).
  - apply (v_blen _ I).
  - apply (v_mm _ I).
  - intros v k a Ha. rewrite (content_nv _ _ (S a)), (content_ne _ _ (S a)).
    apply (v_place _ I); auto.
  - intros a b Ha Hb Hs. apply (v_uniq _ I); auto. eapply same_node_same; eauto.
  - eapply wfh_same; eauto. apply (v_wf _ I).
  - exact R.
  - exact Hh.
  - apply (v_ent _ I).
Qed.

Lemma live_nodup st : Inv st -> NoDup (live (htab (hs st))).
Proof. intros I. eapply NoDup_app_r. apply (i_nodup _ _ (v_mm _ I)). Qed.

Lemma inv_inc st a :
  Inv st -> In a (live (htab (hs st))) ->
  exists h', incRef cfg (S (S (nv (hheap (hs st) a)))) (Some a) (hheap (hs st)) = Some h'
    /\ same_content (hheap (hs st)) h'
    /\ Inv {| hs := with_heap (hs st) h'; holds := a :: holds st |}.
Proof.
  intros I Ha. destruct Hcfg as (_ & HM & _).
  destruct (inc_ok (live (htab (hs st))) (fun b => cnth b (a :: holds st)) (live_nodup _ I) HM
              (S (S (nv (hheap (hs st) a)))) a (hheap (hs st)) (fun _ => 0))
    as (h' & E & S & R).
  - apply (v_wf _ I).
  - auto.
  - lia.
  - destruct (v_ref _ I) as (R1 & R2 & R3). split; [|auto].
    intros b Hb. destruct (R1 b Hb) as [|Eq]; auto. right.
    unfold one_at. cbn [cnth]. lia.
  - exists h'. split; auto. split; auto. apply inv_with_heap; auto.
    intros b [<-|Hb]; auto. apply (v_hold _ I); auto.
Qed.

Lemma cnth_remove1 a b l : In a l ->
  cnth b l = one_at a b + cnth b (remove1 a l).
Proof.
  induction l as [|c l IH]; simpl; intros H; [destruct H|].
  destruct (addr_eqb a c) eqn:E.
  - apply addr_eqb_spec in E; subst. reflexivity.
  - destruct H as [->|H]; [rewrite addr_eqb_refl in E; discriminate|].
    simpl. rewrite IH by auto. lia.
Qed.

Lemma remove1_incl a b l : In b (remove1 a l) -> In b l.
Proof.
  induction l as [|c l IH]; simpl; auto.
  destruct (addr_eqb a c); simpl; auto. intros [|]; auto.
Qed.

Lemma inv_dec st a :
  Inv st -> In a (holds st) ->
  exists h', decRef cfg (S (S (nv (hheap (hs st) a)))) (Some a) (hheap (hs st)) = Some h'
    /\ same_content (hheap (hs st)) h'
    /\ Inv {| hs := with_heap (hs st) h'; holds := remove1 a (holds st) |}.
Proof.
  intros I Ha. destruct Hcfg as (_ & HM & _).
  destruct (dec_ok (live (htab (hs st))) (fun b => cnth b (remove1 a (holds st))) (live_nodup _ I) HM
              (S (S (nv (hheap (hs st) a)))) a (hheap (hs st)) (fun _ => 0))
    as (h' & E & S & R).
  - apply (v_wf _ I).
  - apply (v_hold _ I); auto.
  - lia.
  - destruct (v_ref _ I) as (R1 & R2 & R3). split; [|auto].
    intros b Hb. destruct (R1 b Hb) as [|Eq]; auto. right.
    rewrite (cnth_remove1 a b) in Eq by auto. lia.
  - exists h'. split; auto. split; auto. apply inv_with_heap; auto.
    + destruct R as (R1 & R2 & R3). split; [|auto].
      intros b Hb. destruct (R1 b Hb); auto. right. lia.
    + intros b Hb. apply (v_hold _ I). eapply remove1_incl; eauto.
Qed.

Lemma inv_gc st force :
  Inv st -> Inv {| hs := snd (garbageCollect cfg force (hs st)); holds := holds st |}.
Proof.
  intros I. unfold garbageCollect.
  destruct (_ || _).
  - simpl. destruct st; exact I.
  - set (h := hheap (hs st)). set (T := htab (hs st)).
    assert (Hlen : length (live T) = length (dead h T) + length (filter (alive h) (live T))).
    { rewrite (Permutation_length (filter_partition_perm (alive h) (live T))) at 1.
      rewrite app_length. reflexivity. }
    destruct (v_ref _ I) as (R1 & R2 & R3). fold h T in R1, R2, R3.
    destruct Hcfg as (_ & HM & _).
    assert (Hpos : forall a, In a (live T) ->
        (In a (holds st) \/ exists p, In p (live T) /\ 0 < nref (h p) /\ child h p a) ->
        alive h a = true).
    { intros a Ha Hc. unfold alive. apply negb_true_iff, Nat.eqb_neq.
      destruct (R1 a Ha) as [E|E]; [lia|].
      destruct Hc as [Hc|Hc].
      - apply cnth_pos in Hc. lia.
      - apply parents_pos in Hc. lia. }
    constructor; cbn [hs holds snd hmm hheap htab hentries]; fold h T; rewrite ?live_sweep.
    + unfold sweep. rewrite map_length. apply (v_len _ I).
    + intros v Hv. unfold sweep. rewrite (nth_map_d _ _ _ []) by reflexivity.
      rewrite map_length. apply (v_blen _ I); auto.
    + apply MInv_return_list. eapply MInv_perm; [|apply (v_mm _ I)].
      apply filter_partition_perm.
    + intros v k a Ha. rewrite nth_sweep in Ha. apply filter_In in Ha.
      apply (v_place _ I). apply Ha.
    + intros a b Ha Hb. apply filter_In in Ha. apply filter_In in Hb.
      apply (v_uniq _ I); tauto.
    + intros a c w Ha Hc. apply filter_In in Ha. destruct Ha as [Ha Hal].
      destruct (v_wf _ I a c w Ha Hc) as [H1 H2]. split; auto.
      apply filter_In. split; auto. apply Hpos; auto.
      right. exists a. repeat split; auto.
      * unfold alive in Hal. apply negb_true_iff, Nat.eqb_neq in Hal. lia.
      * exists w. auto.
    + split; [|split]; auto.
      * intros a Ha. apply filter_In in Ha. rewrite parents_filter_alive. apply R1. tauto.
      * intros a Ha. destruct (in_dec addr_eq_dec a (live T)) as [Hi|Hi]; auto.
        destruct (alive h a) eqn:E; [exfalso; apply Ha, filter_In; auto|].
        unfold alive in E. apply negb_false_iff, Nat.eqb_eq in E. auto.
    + intros a Ha. apply filter_In. split; [apply (v_hold _ I); auto|].
      apply Hpos; auto. apply (v_hold _ I); auto.
    + rewrite (v_ent _ I). fold T. lia.
Qed.

(** A reset at a moment when no node has a positive count. *)
Lemma live_cleared (T : tables) : live (map (map (fun _ : list addr => @nil addr)) T) = [].
Proof.
  unfold live. rewrite <- concat_map.
  induction (concat T); simpl; auto.
Qed.

Lemma inv_reset st :
  Inv st -> (forall a, In a (live (htab (hs st))) -> nref (hheap (hs st) a) = 0) ->
  Inv {| hs := hp_reset cfg (hs st); holds := [] |}.
Proof.
  intros I Hz. destruct (v_ref _ I) as (R1 & R2 & R3).
  constructor; cbn [hs holds hp_reset hmm hheap htab hentries]; rewrite ?live_cleared.
  - rewrite map_length. apply (v_len _ I).
  - intros v Hv. rewrite (nth_map_d _ _ _ []) by reflexivity.
    rewrite map_length. apply (v_blen _ I); auto.
  - eapply mm_reset_ok. apply (v_mm _ I).
  - intros v k a Ha. exfalso.
    assert (Hx : In a (live (map (map (fun _ : list addr => [])) (htab (hs st))))) by (apply in_live; eauto).
    rewrite live_cleared in Hx. destruct Hx.
  - intros a b [].
  - intros a c w [].
  - assert (Hall : forall a, nref (hheap (hs st) a) = 0).
    { intros a. destruct (in_dec addr_eq_dec a (live (htab (hs st)))); auto. }
    split; [|split].
    + intros a [].
    + intros a. destruct (Nat.eqb (fst a) 0); [auto|simpl; lia].
    + intros a _. destruct (Nat.eqb (fst a) 0); auto.
  - intros a [].
  - reflexivity.
Qed.

Notation clean_at := HeapSpec.clean_at.
Notation clean := (HeapSpec.clean cfg).

Lemma inv_step st e : Inv st -> clean_at st e ->
  exists st', hstep cfg st e = Some st' /\ Inv st'.
Proof.
  intros I C. unfold hstep.
  destruct e as [v es fl|v es fl|[a|]|[a|]|force|].
  - destruct (Nat.ltb v (c_nvars cfg) && edges_ok (hs st) v es) eqn:E; [|eauto].
    apply andb_true_iff in E. destruct E as [E1 E2]. apply Nat.ltb_lt in E1.
    destruct (inv_make st v es fl I E1 E2) as (a & s' & -> & I' & _). eauto.
  - destruct (Nat.ltb v (c_nvars cfg) && edges_ok (hs st) v es) eqn:E; [|eauto].
    destruct (inv_dropped st v es fl I) as (s' & -> & I' & _). eauto.
  - destruct (is_live (hs st) a) eqn:E; [|eauto]. apply is_live_spec in E.
    destruct (inv_inc st a I E) as (h' & -> & _ & I'). eauto.
  - eauto.
  - destruct (existsb (addr_eqb a) (holds st)) eqn:E; [|eauto]. apply existsb_in in E.
    destruct (inv_dec st a I E) as (h' & -> & _ & I'). eauto.
  - eauto.
  - eexists. split; [reflexivity|]. apply inv_gc; auto.
  - eexists. split; [reflexivity|]. apply inv_reset; auto.
Qed.

Lemma inv_run evs : forall st, Inv st -> clean evs st ->
  exists st', hrun cfg evs st = Some st' /\ Inv st'.
Proof.
  induction evs as [|e evs IH]; intros st I C; cbn [hrun clean] in *.
  - eauto.
  - destruct C as [C1 C2].
    destruct (inv_step st e I C1) as (st1 & E & I1). rewrite E in *. apply IH; auto.
Qed.

Lemma no_reset_clean evs : no_reset evs -> forall st, clean evs st.
Proof.
  unfold no_reset. induction evs as [|e evs IH]; intros H st; cbn [clean]; auto.
  split.
  - intros ->. exfalso. apply H. left; auto.
  - destruct (hstep cfg st e); auto. apply IH. intros Hi; apply H; right; auto.
Qed.

(** Content and liveness are stable. *)
Lemma step_stable st e st' :
  Inv st -> e <> EReset -> hstep cfg st e = Some st' ->
  forall a, In a (live (htab (hs st))) ->
    content (hheap (hs st') a) = content (hheap (hs st) a)
    /\ (0 < nref (hheap (hs st) a) -> In a (live (htab (hs st')))).
Proof.
  intros I Hne E a Ha. unfold hstep in E.
  destruct e as [v es fl|v es fl|[b|]|[b|]|force|]; try congruence.
  - destruct (Nat.ltb v (c_nvars cfg) && edges_ok (hs st) v es) eqn:Ev.
    + apply andb_true_iff in Ev. destruct Ev as [E1 E2]. apply Nat.ltb_lt in E1.
      destruct (inv_make st v es fl I E1 E2) as (b & s' & Em & I' & _ & _ & Hst & _).
      rewrite Em in E. inversion E; subst; cbn [hs].
      destruct (Hst a Ha) as [H1 H2]. rewrite H2. auto.
    + inversion E; subst; auto.
  - destruct (Nat.ltb v (c_nvars cfg) && edges_ok (hs st) v es) eqn:Ev.
    + destruct (inv_dropped st v es fl I) as (s' & Em & I' & Ht & Hst).
      rewrite Em in E. inversion E; subst; cbn [hs]. rewrite Ht, Hst; auto.
    + inversion E; subst; auto.
  - destruct (is_live (hs st) b) eqn:Ev; [|inversion E; subst; auto].
    apply is_live_spec in Ev. destruct (inv_inc st b I Ev) as (h' & Em & S & _).
    rewrite Em in E. inversion E; subst; cbn [hs with_heap hheap htab]. auto.
  - inversion E; subst; auto.
  - destruct (existsb (addr_eqb b) (holds st)) eqn:Ev; [|inversion E; subst; auto].
    apply existsb_in in Ev. destruct (inv_dec st b I Ev) as (h' & Em & S & _).
    rewrite Em in E. inversion E; subst; cbn [hs with_heap hheap htab]. auto.
  - inversion E; subst; auto.
  - inversion E; subst; cbn [hs]. unfold garbageCollect.
    destruct (_ || _); simpl; auto. split; auto. intros Hr.
    rewrite live_sweep. apply filter_In. split; auto.
    unfold alive. apply negb_true_iff, Nat.eqb_neq. lia.
Qed.

Lemma reach_live st r a :
  Inv st -> In r (holds st) -> reach (hheap (hs st)) r a ->
  In a (live (htab (hs st))) /\ 0 < nref (hheap (hs st) a).
Proof.
  intros I Hr Hre. destruct (v_ref _ I) as (R1 & R2 & R3).
  destruct Hcfg as (_ & HM & _).
  assert (Hgen : In r (live (htab (hs st))) /\ 0 < nref (hheap (hs st) r)).
  { split; [apply (v_hold _ I); auto|].
    destruct (R1 r (v_hold _ I r Hr)) as [E|E]; [lia|].
    apply cnth_pos in Hr. lia. }
  clear Hr. induction Hre as [|r c a [w Hc] Hre IH]; auto.
  apply IH. destruct Hgen as [G1 G2].
  destruct (v_wf _ I r c w G1 Hc) as [H1 H2]. split; auto.
  destruct (R1 c H1) as [E|E]; [lia|].
  assert (0 < parents (hheap (hs st)) (live (htab (hs st))) c); [|lia].
  apply parents_pos. exists r. repeat split; auto. exists w; auto.
Qed.

Lemma reach_same h h' r a :
  (forall b, reach h r b -> content (h' b) = content (h b)) -> reach h r a -> reach h' r a.
Proof.
  intros S Hr. induction Hr as [|r c a [w Hc] Hre IH]; [constructor|].
  econstructor.
  - exists w. rewrite (content_ne _ _ (S r (reach_refl _ _))). eauto.
  - apply IH. intros b Hb. apply S. econstructor; eauto. exists w; auto.
Qed.

Lemma held_in evs r st : held_throughout cfg r evs st -> In r (holds st).
Proof. destruct evs; simpl; tauto. Qed.

Lemma run_stable evs : forall st st' r,
  Inv st -> no_reset evs -> held_throughout cfg r evs st -> hrun cfg evs st = Some st' ->
  forall a, reach (hheap (hs st)) r a ->
    In a (live (htab (hs st')))
    /\ content (hheap (hs st') a) = content (hheap (hs st) a).
Proof.
  induction evs as [|e evs IH]; intros st st' r I Hn Hh Hrun a Hra.
  - cbn [hrun] in Hrun. inversion Hrun; subst.
    destruct (reach_live st' r a I (held_in _ _ _ Hh) Hra). auto.
  - cbn [hrun held_throughout] in *. destruct Hh as [Hh1 Hh2].
    assert (Hne : e <> EReset) by (intros ->; apply Hn; left; auto).
    destruct (inv_step st e I) as (st1 & E & I1). { intros ->; congruence. }
    rewrite E in *.
    assert (Hc : forall b, reach (hheap (hs st)) r b ->
                 content (hheap (hs st1) b) = content (hheap (hs st) b)).
    { intros b Hb. destruct (reach_live st r b I Hh1 Hb) as [Hb1 Hb2].
      apply (step_stable st e st1 I Hne E b Hb1). }
    destruct (IH st1 st' r I1) with (a := a) as [J1 J2]; auto.
    + intros Hi; apply Hn; right; auto.
    + eapply reach_same; eauto.
    + split; auto. rewrite J2. apply Hc; auto.
Qed.

Lemma unfold_same d : forall h h' p,
  (forall a b, p = Some a -> reach h a b -> content (h' b) = content (h b)) ->
  unfold_dd d h' p = unfold_dd d h p.
Proof.
  induction d as [|d IH]; intros h h' [a|] S; simpl; auto.
  assert (Sa := S a a eq_refl (reach_refl _ _)).
  rewrite (content_nv _ _ Sa), (content_nflags _ _ Sa), (content_ne _ _ Sa).
  f_equal. apply map_ext_in. intros [w o] Hin. f_equal. apply IH. cbn [snd].
  intros c b E Hb. subst o. apply (S a); auto. econstructor; eauto. exists w; auto.
Qed.

(** Precision. *)
Lemma positive_reachable st : Inv st -> unsaturated cfg st ->
  forall a, In a (live (htab (hs st))) -> 0 < nref (hheap (hs st) a) ->
  exists r, In r (holds st) /\ reach (hheap (hs st)) r a.
Proof.
  intros I U.
  assert (Hb : exists B, forall a, In a (live (htab (hs st))) -> nv (hheap (hs st) a) <= B).
  { exists (list_max (map (fun a => nv (hheap (hs st) a)) (live (htab (hs st))))).
    intros a Ha. pose proof (proj1 (list_max_le (map (fun a => nv (hheap (hs st) a)) (live (htab (hs st)))) _) (le_n _)) as F.
    rewrite Forall_forall in F. apply F. apply in_map_iff. eauto. }
  destruct Hb as [B HB].
  assert (Gen : forall n a, B - nv (hheap (hs st) a) <= n ->
     In a (live (htab (hs st))) -> 0 < nref (hheap (hs st) a) ->
     exists r, In r (holds st) /\ reach (hheap (hs st)) r a).
  { destruct (v_ref _ I) as (R1 & R2 & R3).
    induction n as [|n IH]; intros a Hn Ha Hr.
    - destruct (R1 a Ha) as [E|E]; [specialize (U a Ha); lia|].
      destruct (Nat.eq_dec (cnth a (holds st)) 0) as [Z|Z].
      + destruct (proj1 (parents_pos (hheap (hs st)) (live (htab (hs st))) a)) as (p & P1 & P2 & [w P3]); [lia|].
        destruct (v_wf _ I p a w P1 P3) as [_ Hl]. specialize (HB p P1). lia.
      + exists a. split; [apply cnth_pos; lia|constructor].
    - destruct (R1 a Ha) as [E|E]; [specialize (U a Ha); lia|].
      destruct (Nat.eq_dec (cnth a (holds st)) 0) as [Z|Z].
      + destruct (proj1 (parents_pos (hheap (hs st)) (live (htab (hs st))) a)) as (p & P1 & P2 & [w P3]); [lia|].
        destruct (v_wf _ I p a w P1 P3) as [_ Hl]. specialize (HB p P1).
        destruct (IH p) as (r & Hr1 & Hr2); auto; [lia|].
        exists r. split; auto. clear - Hr2 P3.
        induction Hr2 as [x|x c y Hc Hre IHr].
        * econstructor; [exists w; eauto|constructor].
        * econstructor; eauto.
      + exists a. split; [apply cnth_pos; lia|constructor]. }
  intros a Ha Hr. eapply Gen; eauto.
Qed.

Lemma gc_forced_live st : Inv st ->
  forall a, In a (live (htab (snd (garbageCollect cfg true (hs st)))))
            <-> In a (live (htab (hs st))) /\ 0 < nref (hheap (hs st) a).
Proof.
  intros I a. unfold garbageCollect. cbn [negb andb orb].
  destruct (Nat.eqb_spec (hentries (hs st)) 0) as [E|E].
  - rewrite (v_ent _ I) in E. cbn [snd].
    destruct (live (htab (hs st))); [simpl; tauto|discriminate].
  - cbn [snd htab]. rewrite live_sweep, filter_In. unfold alive.
    rewrite negb_true_iff, Nat.eqb_neq. intuition lia.
Qed.

End Counting.
