(* ZXDiagram::concat: the weight of the composed diagram. *)
From Coq Require Import Reals QArith Qreals ZArith Bool List Arith Lia Lra Permutation FunctionalExtensionality.
From Verif Require Import Cplx Qsem PiModel ZXModel ZXSpec ZXPhaseProofs ZXSemProofs ZXUpdProofs ZXUpd3Proofs ZXRuleProofs ZXRule2Proofs ZXRule3Proofs ZXBuildProofs ZXDiscProofs ZXCompSpec ZXConcatProofs.
Import ListNotations.
Local Close Scope Q_scope.
Local Open Scope nat_scope.

Section Edges.
Variable rho : nat -> R.
Notation wx := (wx rho).
Variables (d e : diag).
Hypothesis Wd : wf d.
Hypothesis We : wf e.
Hypothesis Cm : composable d e.
Notation N := (length (d_in e)).
Definition oV (q : nat) : nat := nth q (d_out d) 0.
Definition iV (q : nat) : nat := nth q (d_in e) 0.
Definition lD (q : nat) : edge := hd (0, false) (d_edges d (oV q)).
Definition lE (q : nat) : edge := hd (0, false) (d_edges e (iV q)).
Lemma row_one (l : list edge) : length l = 1 -> l = [hd (0, false) l].
Proof. destruct l as [|a [|]]; try discriminate; auto. Qed.
Lemma oV_In q : q < N -> In (oV q) (d_out d).
Proof. intros H. apply nth_In. now rewrite (cm_mid _ _ Cm). Qed.
Lemma iV_In q : q < N -> In (iV q) (d_in e).
Proof. intros H. now apply nth_In. Qed.
Lemma rowD q : q < N -> d_edges d (oV q) = [lD q].
Proof. intros H. apply row_one. apply (cm_odeg _ _ Cm). now apply oV_In. Qed.
Lemma rowE q : q < N -> d_edges e (iV q) = [lE q].
Proof. intros H. apply row_one. apply (cm_ideg _ _ Cm). now apply iV_In. Qed.
Lemma oV_live q : q < N -> live d (oV q) = true /\ isBoundary d (oV q) = true.
Proof. intros H. apply (w_io _ Wd). right. now apply oV_In. Qed.
Lemma iV_live q : q < N -> live e (iV q) = true /\ isBoundary e (iV q) = true.
Proof. intros H. apply (w_io _ We). left. now apply iV_In. Qed.
Lemma bnd_notX (f : diag) v : isBoundary f v = true -> isX f v = false.
Proof. unfold isBoundary, isX. now destruct (vty f v). Qed.
Lemma lD_spec q : q < N -> live d (fst (lD q)) = true /\ ~ In (fst (lD q)) (d_out d) /\ hv d (fst (lD q)) (oV q) = Some (snd (lD q)).
Proof.
  intros H. assert (I : In (lD q) (d_edges d (oV q))) by (rewrite rowD by auto; now left). destruct (lD q) as [u h] eqn:E. cbn [fst snd].
  destruct (oV_live q H) as [L _]. destruct (z_sym d (w_z _ Wd) (oV q) u h L I) as (Lu & _ & J). split; auto. split.
  - apply (cm_ocap _ _ Cm (oV q) u h); auto using oV_In.
  - apply hv_In; auto. now apply (z_nodup d (w_z _ Wd)).
Qed.
Lemma lE_spec q : q < N -> live e (fst (lE q)) = true /\ ~ In (fst (lE q)) (d_in e) /\ hv e (fst (lE q)) (iV q) = Some (snd (lE q)).
Proof.
  intros H. assert (I : In (lE q) (d_edges e (iV q))) by (rewrite rowE by auto; now left). destruct (lE q) as [u h] eqn:E. cbn [fst snd].
  destruct (iV_live q H) as [L _]. destruct (z_sym e (w_z _ We) (iV q) u h L I) as (Lu & _ & J). split; auto. split.
  - apply (cm_icap _ _ Cm (iV q) u h); auto using iV_In.
  - apply hv_In; auto. now apply (z_nodup e (w_z _ We)).
Qed.
Lemma own_lE q : q < N -> own e (fst (lE q)) = true.
Proof. intros H. destruct (lE_spec q H) as (A & B & _). unfold own. rewrite A. cbn. apply negb_true_iff, not_true_iff_false. now rewrite memb_In. Qed.
Definition ix (v : nat) : nat := Z.to_nat (vqubit e v).
Lemma ix_iV q : q < N -> ix (iV q) = q.
Proof. intros H. unfold ix, iV. rewrite (cm_label _ _ Cm) by auto. apply Nat2Z.id. Qed.
Lemma in_iV v : In v (d_in e) -> exists q, q < N /\ v = iV q.
Proof. intros I. destruct (In_nth _ _ 0 I) as (q & H & E). exists q. auto. Qed.

Section Map.
Variables (d1 : diag) (m : nat -> nat).
Hypothesis Cv : cv_ok rho d e (seq 0 (d_size e)) d1 m.
Lemma own_seq i : own e i = true -> In i (seq 0 (d_size e)).
Proof. intros O. apply andb_true_iff in O as [L _]. apply in_seq. split; [lia|]. cbn. apply live_lt; auto. apply We. Qed.
Definition rowadds (i : nat) : list (nat * nat * bool) :=
  flat_map (fun t : edge => let '(to, h) := t in
    if negb (memb to (d_in e)) then if i <? to then [(m i, m to, h)] else []
    else [(fst (lD (ix to)), m i, xorb (snd (lD (ix to))) h)]) (d_edges e i).
Definition alladds : list (nat * nat * bool) := flat_map rowadds (filter (own e) (seq 0 (d_size e))).
Lemma m_out i : own e i = true -> ~ In (m i) (d_out d).
Proof. intros O I. destruct (cv_new _ _ _ _ _ _ Cv i (own_seq i O) O) as (F & _). destruct (w_io _ Wd (m i)) as [L _]; auto. congruence. Qed.
Lemma m_live1 i : own e i = true -> live d1 (m i) = true.
Proof. intros O. apply (cv_live _ _ _ _ _ _ Cv). right. exists i. auto using own_seq. Qed.
Lemma old_live1 u : live d u = true -> live d1 u = true.
Proof. intros L. apply (cv_live _ _ _ _ _ _ Cv). now left. Qed.
Lemma m_old i u : own e i = true -> live d u = true -> m i <> u.
Proof. intros O L <-. destruct (cv_new _ _ _ _ _ _ Cv i (own_seq i O) O) as (F & _). congruence. Qed.
Lemma m_inj i j : own e i = true -> own e j = true -> m i = m j -> i = j.
Proof. intros Oi Oj. apply (cv_inj _ _ _ _ _ _ Cv); auto using own_seq. Qed.

(* the loop adds exactly these edges *)
Definition steady (d' : diag) : Prop := d_out d' = d_out d /\ forall q, q < N -> d_edges d' (oV q) = [lD q].
Lemma steady_add d' a b h : steady d' -> ~ In a (d_out d) -> ~ In b (d_out d) -> steady (addEdge d' a b h).
Proof.
  intros [S1 S2] A B. split; [exact S1|]. intros q H. unfold addEdge, pushHalf. cbn. unfold zupd.
  destruct (Nat.eqb_spec (oV q) b) as [<-|]; [exfalso; apply B; now apply oV_In|]. destruct (Nat.eqb_spec (oV q) a) as [<-|]; [exfalso; apply A; now apply oV_In|]. auto.
Qed.
Lemma own_nbr i to h : own e i = true -> In (to, h) (d_edges e i) -> memb to (d_in e) = false -> own e to = true.
Proof. intros O I M. apply andb_true_iff in O as [L _]. destruct (z_sym e (w_z _ We) i to h L I) as (Lt & _). unfold own. now rewrite Lt, M. Qed.
Lemma edges_of_adds i d' : own e i = true -> steady d' -> concat_edges_of e m i d' = adds (rowadds i) d' /\ steady (adds (rowadds i) d').
Proof.
  intros O. unfold concat_edges_of, rowadds. assert (S : forall t, In t (d_edges e i) -> In t (d_edges e i)) by auto. revert S. generalize (d_edges e i) at 1 3 4 5.
  intros l. revert d'. induction l as [|[to h] l IH]; intros d' S St; [cbn; auto|]. cbn [fold_left flat_map].
  assert (I : In (to, h) (d_edges e i)) by (apply S; now left).
  destruct (memb to (d_in e)) eqn:M; cbn [negb].
  - apply memb_In in M. destruct (in_iV to M) as (q & H & ->). change (Z.to_nat (vqubit e (iV q))) with (ix (iV q)). rewrite ix_iV by auto.
    destruct St as [S1 S2]. rewrite S1. change (nth q (d_out d) 0) with (oV q). rewrite S2 by auto. cbn [fold_left app adds add3]. apply IH; [intros; apply S; now right|].
    apply steady_add; [split; auto| |now apply m_out]. now apply lD_spec.
  - destruct (i <? to); [|apply IH; auto; intros; apply S; now right]. cbn [app]. apply IH; [intros; apply S; now right|]. apply steady_add; auto; apply m_out; auto. now apply (own_nbr i to h).
Qed.
Lemma adds_app l k d' : adds (l ++ k) d' = adds k (adds l d').
Proof. unfold adds. apply fold_left_app. Qed.
Lemma edges_adds : steady d1 -> concat_edges e m d1 = adds alladds d1.
Proof.
  unfold concat_edges, alladds. generalize (seq 0 (d_size e)) d1. induction l as [|i l IH]; intros d' St; [reflexivity|]. cbn [fold_left filter].
  change (live e i && negb (memb i (d_in e))) with (own e i). destruct (own e i) eqn:O; [|now apply IH]. cbn [flat_map]. rewrite adds_app.
  destruct (edges_of_adds i d' O St) as [E S]. rewrite E. now apply IH.
Qed.
Lemma steady1 : steady d1.
Proof.
  split; [apply Cv|]. intros q H. destruct (oV_live q H) as [L _]. destruct (cv_old _ _ _ _ _ _ Cv (oV q) L) as [_ ->]. now apply rowD.
Qed.

(* the two kinds of new edges *)
Lemma alladds_In t : In t alladds <-> exists i to h, own e i = true /\ In (to, h) (d_edges e i) /\
  ((memb to (d_in e) = false /\ i < to /\ t = (m i, m to, h)) \/ (exists q, q < N /\ to = iV q /\ t = (fst (lD q), m i, xorb (snd (lD q)) h))).
Proof.
  unfold alladds. rewrite in_flat_map. split.
  - intros (i & I & J). apply filter_In in I as [I O]. unfold rowadds in J. apply in_flat_map in J as ([to h] & K & J). exists i, to, h. split; auto. split; auto.
    destruct (memb to (d_in e)) eqn:M; cbn [negb] in J.
    + right. apply memb_In in M. destruct (in_iV to M) as (q & H & ->). exists q. rewrite ix_iV in J by auto. destruct J as [<-|[]]. auto.
    + left. destruct (Nat.ltb_spec i to); [|contradiction]. destruct J as [<-|[]]. auto.
  - intros (i & to & h & O & I & H). exists i. split; [apply filter_In; auto using own_seq|]. unfold rowadds. apply in_flat_map. exists (to, h). split; auto.
    destruct H as [(M & L & ->)|(q & H & -> & ->)].
    + rewrite M. cbn [negb]. apply Nat.ltb_lt in L. rewrite L. now left.
    + assert (M : memb (iV q) (d_in e) = true) by (apply memb_In; now apply iV_In). rewrite M. cbn. rewrite ix_iV by auto. now left.
Qed.
Lemma nbr_iV i h q : own e i = true -> q < N -> In (iV q, h) (d_edges e i) -> lE q = (i, h).
Proof.
  intros O H I. apply andb_true_iff in O as [L _]. destruct (z_sym e (w_z _ We) i (iV q) h L I) as (_ & _ & J). rewrite rowE in J by auto. destruct J as [J|[]]. auto.
Qed.
Lemma nodup_fst_map {A B} (g : A -> B) l : NoDup l -> (forall a b, In a l -> In b l -> g a = g b -> a = b) -> NoDup (map g l).
Proof.
  induction 1; cbn; intros G; constructor.
  - intros I. apply in_map_iff in I as (y & E & I). apply G in E; auto. subst. contradiction.
  - apply IHNoDup. auto.
Qed.
Lemma alladds_nodup : NoDup (map fst alladds).
Proof.
  unfold alladds. rewrite flat_map_concat_map, concat_map, map_map, <- flat_map_concat_map. apply nodup_flat.
  - apply NoDup_filter, seq_NoDup.
  - intros i I. apply filter_In in I as [_ O]. unfold rowadds. rewrite flat_map_concat_map, concat_map, map_map, <- flat_map_concat_map. 
    pose proof O as O'. apply andb_true_iff in O' as [L _]. pose proof (z_nodup e (w_z _ We) i L) as ND. apply nodup_flat.
    + now apply NoDup_map_inv in ND.
    + intros [to h] J. destruct (negb (memb to (d_in e))); [destruct (i <? to)|]; cbn; repeat constructor; auto.
    + intros [to h] [to' h'] b J J' K K'.
      assert (Eq : to = to' -> (to, h) = (to', h')).
      { intros <-. f_equal. apply hv_In in J; auto. apply hv_In in J'; auto. congruence. }
      destruct (memb to (d_in e)) eqn:M; destruct (memb to' (d_in e)) eqn:M'; cbn [negb] in K, K'.
      * apply memb_In in M, M'. destruct (in_iV to M) as (q & H & ->). destruct (in_iV to' M') as (q' & H' & ->). rewrite ix_iV in K, K' by auto.
        destruct K as [<-|[]]. destruct K' as [K'|[]]. cbn in K'. injection K' as K'. apply Eq. f_equal.
        apply (cm_par _ _ Cm q q' (fst (lD q)) i (snd (lD q)) (snd (lD q')) h h'); auto.
        -- change (nth q (d_out d) 0) with (oV q). rewrite rowD by auto. destruct (lD q). now left.
        -- change (nth q' (d_out d) 0) with (oV q'). rewrite rowD by auto. rewrite <- K'. destruct (lD q'). now left.
        -- now destruct (z_sym e (w_z _ We) i (iV q) h L J).
        -- now destruct (z_sym e (w_z _ We) i (iV q') h' L J').
      * apply memb_In in M. destruct (in_iV to M) as (q & H & ->). rewrite ix_iV in K by auto. destruct (i <? to'); [|contradiction].
        destruct K as [<-|[]]. destruct K' as [K'|[]]. cbn in K'. injection K' as K1 K2. exfalso. apply (m_old i (fst (lD q))); auto. now apply lD_spec.
      * apply memb_In in M'. destruct (in_iV to' M') as (q & H & ->). rewrite ix_iV in K' by auto. destruct (i <? to); [|contradiction].
        destruct K' as [<-|[]]. destruct K as [K|[]]. cbn in K. injection K as K1 K2. exfalso. apply (m_old i (fst (lD q))); auto. now apply lD_spec.
      * destruct (i <? to); [|contradiction]. destruct (i <? to'); [|contradiction]. destruct K as [<-|[]]. destruct K' as [K'|[]]. cbn in K'. injection K' as K'. apply Eq. symmetry.
        apply m_inj; auto; [apply (own_nbr i to' h')|apply (own_nbr i to h)]; auto.
  - intros i i' b I I' J J'. apply filter_In in I as [_ O]. apply filter_In in I' as [_ O']. unfold rowadds in J, J'.
    apply in_map_iff in J as (t & <- & J). apply in_map_iff in J' as (t' & E & J'). apply in_flat_map in J as ([to h] & K & J). apply in_flat_map in J' as ([to' h'] & K' & J').
    destruct (memb to (d_in e)) eqn:M; destruct (memb to' (d_in e)) eqn:M'; cbn [negb] in J, J'.
    + destruct J as [<-|[]]. destruct J' as [<-|[]]. cbn in E. injection E as _ E. symmetry. now apply m_inj.
    + apply memb_In in M. destruct (in_iV to M) as (q & H & ->). rewrite ix_iV in J by auto. destruct (i' <? to'); [|contradiction].
      destruct J as [<-|[]]. destruct J' as [<-|[]]. cbn in E. injection E as E _. exfalso. apply (m_old i' (fst (lD q))); auto. now apply lD_spec.
    + apply memb_In in M'. destruct (in_iV to' M') as (q & H & ->). rewrite ix_iV in J' by auto. destruct (i <? to); [|contradiction].
      destruct J as [<-|[]]. destruct J' as [<-|[]]. cbn in E. injection E as E _. exfalso. apply (m_old i (fst (lD q))); auto. now apply lD_spec.
    + destruct (i <? to); [|contradiction]. destruct (i' <? to'); [|contradiction]. destruct J as [<-|[]]. destruct J' as [<-|[]]. cbn in E. injection E as E _. symmetry. now apply m_inj.
Qed.
Lemma new_hv i v : own e i = true -> hv d1 (m i) v = None.
Proof. intros O. apply hv_none. destruct (cv_new _ _ _ _ _ _ Cv i (own_seq i O) O) as (_ & _ & ->). auto. Qed.
Lemma adds_all : adds_ok rho alladds d1 (adds alladds d1).
Proof.
  apply adds_spec; try apply Cv; [apply alladds_nodup|]. intros a b h I. pose proof I as I0. apply alladds_In in I as (i & to & k & O & J & H).
  destruct H as [(M & L & E)|(q & H & -> & E)]; injection E as -> -> ->.
  - assert (Ot : own e to = true) by (now apply (own_nbr i to k)). repeat split; auto using m_live1, new_hv.
    + intros E. apply m_inj in E; auto. lia.
    + intros K. apply in_map_iff in K as (t & E & K). apply alladds_In in K as (i' & to' & k' & O' & J' & H'). destruct H' as [(M' & L' & ->)|(q' & H' & -> & ->)]; cbn in E; injection E as E1 E2.
      * apply m_inj in E1; auto. apply m_inj in E2; auto; [lia|]. now apply (own_nbr i' to' k').
      * apply (m_old to (fst (lD q'))); auto. now apply lD_spec.
  - destruct (lD_spec q H) as (L & _). assert (hv d1 (fst (lD q)) (m i) = None).
    { rewrite hv_sym; auto using old_live1, m_live1, new_hv. apply Cv. }
    repeat split; auto using m_live1, old_live1.
    + intros E. apply (m_old i (fst (lD q))); auto.
    + intros K. apply in_map_iff in K as (t & E & K). apply alladds_In in K as (i' & to' & k' & O' & J' & H'). destruct H' as [(M' & L' & ->)|(q' & H' & -> & ->)]; cbn in E; injection E as E1 E2.
      * apply (m_old to' (fst (lD q))); auto. now apply (own_nbr i' to' k').
      * apply (m_old i' (fst (lD q))); auto.
Qed.
End Map.
End Edges.
