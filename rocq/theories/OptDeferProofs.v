(** deferMeasurements. *)
From Coq Require Import Reals List Arith Bool Lia NArith Permutation FunctionalExtensionality.
From Verif Require Import Cplx Qsem GateModel GateSpec OpProofs GraphModel IRModel IRSpec IRProofs OptModel OptSem OptDagProofs OptFuseProofs
  OptMeasModel OutcomeSpec OptDiagSem OptDiagProofs OptFinalProofs OptResetProofs.
Import ListNotations.
Local Open Scope list_scope.

(** What may follow a measurement of [q] into [c]: operations elsewhere, and
    gates conditioned on [c = 0] or [c = 1] that leave [q] alone. *)
Definition ok_after (q c : nat) (o : cop) : Prop :=
  (local o /\ ~ In q (used o) /\ ~ In c (creads o) /\ ~ In c (cwrites o)) \/
  (exists k s v, o = OClass k (OStd s) /\ (k = CBit c v kEq \/ k = CReg c 1 v kEq) /\ (v = 0%N \/ v = 1%N) /\ ~ In q (used (OStd s))).

Definition conv (q c : nat) (o : cop) : cop :=
  match o with
  | OClass k (OStd s) =>
      match cond_bit k with Some (b, v) => if Nat.eqb b c then OStd (add_ctl q v s) else o | None => o end
  | _ => o
  end.

(** ** Classical becomes quantum control *)
Lemma sat_ins x cs b : sat (ins_ctl x cs) b = Bool.eqb (b (fst x)) (snd x) && sat cs b.
Proof.
  rewrite (sat_ext (ins_ctl x cs) (x :: cs)); auto. intros c. rewrite ins_ctl_In. simpl. intuition.
Qed.
Lemma semf_add_ctl q v s psi : ~ In q (used (OStd s)) -> forall w,
  project q w (semf (add_ctl q v s) psi) = if Bool.eqb w (N.eqb v 1) then semf s (project q w psi) else project q w psi.
Proof.
  intros N w.
  assert (X : semf s (project q w psi) = project q w (semf s psi)) by (symmetry; apply std_project; exact N).
  destruct (Bool.eqb w (N.eqb v 1)) eqn:E; rewrite ?X; apply functional_extensionality; intros b; unfold project;
    destruct (Bool.eqb (b q) w) eqn:Bq; auto; apply Bool.eqb_prop in Bq.
  - assert (G : forall k M, (if Nat.eqb (length (o_tgt s)) k then Some (capply (ins_ctl (q, N.eqb v 1) (o_ctl s)) M (o_tgt s)) else None) = None /\
        (if Nat.eqb (length (o_tgt s)) k then Some (capply (o_ctl s) M (o_tgt s)) else None) = None \/
        exists f g, (if Nat.eqb (length (o_tgt s)) k then Some (capply (ins_ctl (q, N.eqb v 1) (o_ctl s)) M (o_tgt s)) else None) = Some f /\
        (if Nat.eqb (length (o_tgt s)) k then Some (capply (o_ctl s) M (o_tgt s)) else None) = Some g /\ f psi b = g psi b).
    { intros k M. destruct (Nat.eqb (length (o_tgt s)) k); auto. right. eexists. eexists. split; [reflexivity|]. split; [reflexivity|].
      unfold capply. rewrite sat_ins. cbn [fst snd]. rewrite Bq, E. simpl. auto. }
    unfold semf, sem. cbn [add_ctl o_type o_par o_ctl o_tgt].
    destruct (gate_matrix (o_type s) (o_par s)) as [[k M]|] eqn:GM.
    + destruct (G k M) as [[G1 G2]|(f & g & G1 & G2 & G3)]; destruct (o_type s); auto; rewrite ?GM, G1, G2; auto.
    + destruct (o_type s); auto; rewrite ?GM; auto.
  - assert (G : forall k M f, (if Nat.eqb (length (o_tgt s)) k then Some (capply (ins_ctl (q, N.eqb v 1) (o_ctl s)) M (o_tgt s)) else None) = Some f ->
        f psi b = psi b).
    { intros k M f. destruct (Nat.eqb (length (o_tgt s)) k); [|discriminate]. intros H. injection H as <-.
      unfold capply. rewrite sat_ins. cbn [fst snd]. rewrite Bq, E. simpl. auto. }
    unfold semf, sem. cbn [add_ctl o_type o_par o_ctl o_tgt].
    destruct (gate_matrix (o_type s) (o_par s)) as [[k M]|] eqn:GM.
    + specialize (G k M). destruct (o_type s); auto; rewrite ?GM;
      (destruct (if Nat.eqb (length (o_tgt s)) k then Some (capply (ins_ctl (q, N.eqb v 1) (o_ctl s)) M (o_tgt s)) else None); auto).
    + destruct (o_type s); auto; rewrite ?GM; auto.
Qed.

Lemma class_to_ctl q c k s v : (k = CBit c v kEq \/ k = CReg c 1 v kEq) -> (v = 0%N \/ v = 1%N) -> ~ In q (used (OStd s)) ->
  same_dist [OMeas [q] [c]; OClass k (OStd s)] [OStd (add_ctl q v s); OMeas [q] [c]].
Proof.
  intros K V N. apply sd_same. intros b. cbn [run run_op combine measure_all measure1 flat_map app fst snd].
  rewrite !semf_add_ctl by exact N.
  assert (H : forall m w, cond_holds k (setb m c w) = Bool.eqb w (N.eqb v 1)).
  { intros m w. destruct K as [-> | ->]; cbn [cond_holds regval]; rewrite setb_same; destruct V as [-> | ->], w; reflexivity. }
  rewrite !H. destruct V as [-> | ->]; simpl; auto.
Qed.

Lemma conv_step q c o : ok_after q c o -> same_dist [OMeas [q] [c]; o] [conv q c o; OMeas [q] [c]].
Proof.
  intros [(L & N & R & W)|(k & s & v & -> & K & V & N)].
  - assert (E : conv q c o = o).
    { destruct o as [s|qs cs|qs|k o|cu l]; auto. simpl. destruct o as [s| | | |]; auto. destruct (cond_bit k) as [[b v]|] eqn:Ek; auto.
      destruct (Nat.eqb_spec b c) as [->|]; auto. exfalso. apply R. simpl. apply in_or_app. left.
      destruct k as [st n w kk|b w kk]; simpl in Ek |- *.
      - destruct (Nat.eqb_spec n 1); [|discriminate]. injection Ek as -> ->. subst n. simpl. auto.
      - injection Ek as -> ->. auto. }
    rewrite E. apply move_meas; auto.
    + intros x [<-|[]]. auto.
    + intros x [<-|[]]. auto.
  - assert (E : conv q c (OClass k (OStd s)) = OStd (add_ctl q v s)).
    { destruct K as [-> | ->]; simpl; rewrite Nat.eqb_refl; auto. }
    rewrite E. apply class_to_ctl; auto.
Qed.
Lemma conv_list q c r : Forall (ok_after q c) r -> same_dist (OMeas [q] [c] :: r) (map (conv q c) r ++ [OMeas [q] [c]]).
Proof.
  induction 1 as [|o r H _ IH]; [apply sd_refl|]. simpl.
  apply (sd_trans _ (conv q c o :: OMeas [q] [c] :: r)); [|apply sd_cons; exact IH].
  apply (sd_app [OMeas [q] [c]; o] [conv q c o; OMeas [q] [c]] r r); [now apply conv_step|apply sd_refl].
Qed.

(** ** The inner loop *)
Lemma nth_mid {A} (a : list A) x r : nth_error (a ++ x :: r) (length a) = Some x.
Proof. rewrite nth_error_app2, Nat.sub_diag by lia. auto. Qed.
Lemma remove_mid {A} (a : list A) x r : remove_at (length a) (a ++ x :: r) = a ++ r.
Proof.
  unfold remove_at. rewrite firstn_app, Nat.sub_diag, firstn_all. cbn [firstn]. rewrite app_nil_r. f_equal.
  rewrite skipn_app, skipn_all2 by lia. replace (S (length a) - length a) with 1 by lia. auto.
Qed.
Lemma insert_mid {A} (a : list A) x r : insert_at (length a) x (a ++ r) = a ++ x :: r.
Proof.
  unfold insert_at. rewrite firstn_app, Nat.sub_diag, firstn_all. cbn [firstn]. rewrite app_nil_r. f_equal. f_equal.
  rewrite skipn_app, skipn_all, Nat.sub_diag. auto.
Qed.
Lemma snoc_len {A} (a : list A) x : length (a ++ [x]) = S (length a).
Proof. rewrite app_length. simpl. lia. Qed.

Lemma defer_inner_conv q c r : Forall (ok_after q c) r -> forall fuel a, length r < fuel ->
  defer_inner fuel q c (length a) (length a) (a ++ r) = Throws \/
  defer_inner fuel q c (length a) (length a) (a ++ r) = Done (a ++ map (conv q c) r).
Proof.
  induction 1 as [|o r H Hr IH]; intros [|fuel] a Lt; simpl in Lt; try lia.
  - right. cbn [defer_inner]. rewrite (proj2 (nth_error_None _ _)); auto. rewrite app_nil_r. auto.
  - cbn [defer_inner]. rewrite nth_mid.
    assert (Go : forall x, conv q c o = x ->
      defer_inner fuel q c (S (length a)) (S (length a)) (a ++ x :: r) = Throws \/
      defer_inner fuel q c (S (length a)) (S (length a)) (a ++ x :: r) = Done (a ++ map (conv q c) (o :: r))).
    { intros x E. specialize (IH fuel (a ++ [x]) ltac:(lia)). rewrite snoc_len, <- app_assoc in IH. simpl in IH.
      destruct IH as [->|E2]; auto. right. rewrite E2, <- app_assoc. simpl. now rewrite E. }
    destruct H as [(L & N & R & W)|(k & s & v & -> & K & V & N)].
    + assert (Ac : cacts o q = false).
      { destruct (cacts o q) eqn:E; auto. apply cacts_used in E; auto. contradiction. }
      destruct o as [s|qs cs|qs|k o|cu l].
      * rewrite Ac. apply Go. auto.
      * destruct (list_eq_dec Nat.eq_dec qs [q]) as [->|]; [exfalso; apply N; simpl; auto|]. apply Go. auto.
      * auto.
      * destruct (cond_bit k) as [[b v]|] eqn:Ek; auto. destruct (Nat.eqb_spec b c) as [->|Nb]; cbn [negb].
        -- exfalso. apply R. simpl. apply in_or_app. left. destruct k as [st n w kk|b w kk]; simpl in Ek |- *.
           ++ destruct (Nat.eqb_spec n 1); [|discriminate]. injection Ek as -> ->. subst n. simpl. auto.
           ++ injection Ek as -> ->. auto.
        -- rewrite Ac. apply Go. simpl. destruct o; auto. rewrite Ek. apply Nat.eqb_neq in Nb. now rewrite Nb.
      * rewrite Ac. apply Go. auto.
    + assert (Ek : cond_bit k = Some (c, v)) by (destruct K as [-> | ->]; auto). rewrite Ek, Nat.eqb_refl. cbn [negb].
      destruct (memn q (o_tgt s)) eqn:M; auto. rewrite remove_mid, insert_mid. apply Go. simpl. rewrite Ek, Nat.eqb_refl. auto.
Qed.

(** ** The appended measurements *)
Definition meas (ms : perm) : list cop := map (fun x => OMeas [fst x] [snd x]) ms.
Lemma meas_perm ms ms' : Permutation ms ms' -> NoDup (map fst ms) -> NoDup (map snd ms) -> same_dist (meas ms) (meas ms').
Proof.
  induction 1 as [|x l l' P IH|x y l|l1 l2 l3 P1 IH1 P2 IH2]; intros N1 N2.
  - apply sd_refl.
  - simpl in *. inversion N1; subst. inversion N2; subst. apply sd_cons. auto.
  - simpl in *. inversion N1 as [|? ? A1 B1]; subst. inversion N2 as [|? ? A2 B2]; subst. simpl in A1, A2.
    apply (sd_app [OMeas [fst y] [snd y]; OMeas [fst x] [snd x]] [OMeas [fst x] [snd x]; OMeas [fst y] [snd y]]); [|apply sd_refl].
    apply move_meas; simpl; auto.
    + intros q [<-|[]]. intuition.
    + intros c [<-|[]]. intuition.
  - eapply sd_trans; [apply IH1; auto|]. apply IH2; eapply Permutation_NoDup; try (apply Permutation_map; exact P1); auto.
Qed.
Lemma mset_perm ms q c : ~ In q (map fst ms) -> Permutation (mset ms q c) ((q, c) :: ms).
Proof.
  induction ms as [|[a b] ms IH]; simpl; intros N; auto. destruct (Nat.eqb_spec q a) as [->|]; [tauto|].
  destruct (Nat.ltb q a); auto. rewrite IH by tauto. apply perm_swap.
Qed.

(** ** The outer loop *)
Definition deferrable (l : list cop) : Prop :=
  forall a q c r, l = a ++ OMeas [q] [c] :: r -> Forall (ok_after q c) r.

Lemma ok_meas q c q' c' : ok_after q c (OMeas [q'] [c']) -> q <> q' /\ c <> c'.
Proof.
  intros [(_ & N & _ & W)|(k & s & v & E & _)]; [|discriminate]. simpl in *. intuition.
Qed.
Lemma ok_conv q c q' c' o : q <> q' -> c <> c' -> ok_after q c o -> ok_after q' c' o -> ok_after q' c' (conv q c o).
Proof.
  intros Nq Nc H H'. unfold conv. destruct o as [s|qs cs|qs|k o|cu l]; auto. destruct o as [s| | | |]; auto.
  destruct (cond_bit k) as [[b v]|] eqn:Ek; auto. destruct (Nat.eqb_spec b c) as [->|]; auto. left.
  split; [exact Logic.I|]. split; [|split; auto].
  assert (Nu : ~ In q' (used (OStd s))).
  { destruct H' as [(_ & N & _)|(k' & s' & v' & E & _ & _ & N)]; auto. injection E as -> ->. auto. }
  simpl in *. intros I. apply in_app_or in I. destruct I as [I|I]; [apply Nu; apply in_or_app; auto|].
  apply in_map_iff in I. destruct I as (x & E & I). apply ins_ctl_In in I. destruct I as [->|I]; [simpl in E; congruence|].
  apply Nu. apply in_or_app. right. rewrite <- E. now apply in_map.
Qed.
Lemma conv_meas q c o q' c' : conv q c o = OMeas [q'] [c'] -> o = OMeas [q'] [c'].
Proof.
  unfold conv. destruct o as [s|qs cs|qs|k o|cu l]; auto. destruct o as [s| | | |]; auto.
  destruct (cond_bit k) as [[b v]|]; auto. destruct (Nat.eqb b c); auto. discriminate.
Qed.
Lemma deferrable_conv q c r : Forall (ok_after q c) r -> deferrable r -> deferrable (map (conv q c) r).
Proof.
  intros F D a q' c' t E. apply map_eq_app in E. destruct E as (a0 & t0 & -> & <- & E).
  apply map_eq_cons in E. destruct E as (m & t1 & -> & E1 & <-). apply conv_meas in E1. subst m.
  assert (Ft := D a0 q' c' t1 eq_refl). apply Forall_app in F. destruct F as [_ F]. inversion F as [|? ? Fm Ft1]; subst.
  apply ok_meas in Fm. destruct Fm. rewrite Forall_forall in *. intros o I. apply in_map_iff in I. destruct I as (o' & <- & I).
  apply ok_conv; auto.
Qed.
Lemma deferrable_tl o r : deferrable (o :: r) -> deferrable r.
Proof. intros D a q c t ->. apply (D (o :: a) q c t). auto. Qed.

Lemma defer_loop_sound inner fuel : forall rest pre ms, length rest < fuel -> length rest <= inner ->
  deferrable rest -> Forall local rest -> NoDup (map fst ms) -> NoDup (map snd ms) ->
  (forall q c q' c', In (q, c) ms -> In (OMeas [q'] [c']) rest -> q <> q' /\ c <> c') ->
  (forall qs cs, In (OMeas qs cs) rest -> length qs = length cs) ->
  defer_loop inner fuel (length pre) (pre ++ rest) ms = Throws \/
  exists l' ms', defer_loop inner fuel (length pre) (pre ++ rest) ms = Done (l', ms') /\
    same_dist ((pre ++ rest) ++ meas ms) (l' ++ meas ms') /\ NoDup (map fst ms') /\ NoDup (map snd ms').
Proof.
  induction fuel as [|fuel IH]; intros rest pre ms Lt Li D Lo N1 N2 Dis Len; [lia|]. cbn [defer_loop].
  destruct rest as [|o rest].
  { rewrite (proj2 (nth_error_None _ _)) by (rewrite app_nil_r; auto). right. do 2 eexists. split; [reflexivity|]. split; auto. apply sd_refl. }
  rewrite nth_mid. simpl in Lt, Li.
  assert (Skip : defer_loop inner fuel (S (length pre)) (pre ++ o :: rest) ms = Throws \/
    exists l' ms', defer_loop inner fuel (S (length pre)) (pre ++ o :: rest) ms = Done (l', ms') /\
      same_dist ((pre ++ o :: rest) ++ meas ms) (l' ++ meas ms') /\ NoDup (map fst ms') /\ NoDup (map snd ms')).
  { specialize (IH rest (pre ++ [o]) ms). rewrite snoc_len, <- app_assoc in IH. simpl in IH. apply IH; auto; try lia.
    - now apply deferrable_tl in D.
    - now inversion Lo.
    - intros q c q' c' I J. apply (Dis q c q' c'); simpl; auto.
    - intros qs cs I. apply Len. simpl. auto. }
  destruct o as [s|qs cs|qs|k o|cu l]; auto. clear Skip.
  assert (E := Len qs cs (or_introl eq_refl)).
  destruct (negb (Nat.eqb (length qs) 1) && negb (Nat.eqb (length cs) 1)) eqn:B; auto.
  destruct (Nat.eqb (S (length pre)) (length (pre ++ OMeas qs cs :: rest))) eqn:La.
  { right. do 2 eexists. split; [reflexivity|]. split; auto. apply sd_refl. }
  rewrite <- E in B. destruct (Nat.eqb_spec (length qs) 1) as [L1|]; [|discriminate]. rewrite L1 in E.
  destruct qs as [|q [|]]; try discriminate. destruct cs as [|c [|]]; try discriminate. clear B E L1 La.
  rewrite remove_mid.
  assert (Fr := D [] q c rest eq_refl). inversion Lo as [|? ? _ Lr]; subst.
  destruct (defer_inner_conv q c rest Fr inner pre ltac:(lia)) as [E|E]; rewrite E; cbn [bind]; auto.
  assert (Nq : ~ In q (map fst ms)). { rewrite in_map_iff. intros ([a b] & <- & I). destruct (Dis a b a c I); simpl; auto. }
  assert (Nc : ~ In c (map snd ms)). { rewrite in_map_iff. intros ([a b] & <- & I). destruct (Dis a b q b I); simpl; auto. }
  assert (P := mset_perm ms q c Nq).
  assert (N1' : NoDup (map fst (mset ms q c))).
  { eapply Permutation_NoDup; [apply Permutation_sym, (Permutation_map fst P)|]. simpl. constructor; auto. }
  assert (N2' : NoDup (map snd (mset ms q c))).
  { eapply Permutation_NoDup; [apply Permutation_sym, (Permutation_map snd P)|]. simpl. constructor; auto. }
  assert (S1 : same_dist ((pre ++ OMeas [q] [c] :: rest) ++ meas ms) ((pre ++ map (conv q c) rest) ++ meas (mset ms q c))).
  { rewrite <- !app_assoc. apply sd_app; [apply sd_refl|].
    apply (sd_trans _ ((map (conv q c) rest ++ [OMeas [q] [c]]) ++ meas ms)).
    - apply sd_app; [|apply sd_refl]. now apply conv_list.
    - rewrite <- app_assoc. apply sd_app; [apply sd_refl|]. apply (meas_perm ((q, c) :: ms)).
      + now apply Permutation_sym.
      + simpl. constructor; auto.
      + simpl. constructor; auto. }
  (* the next position is passed over *)
  assert (G : forall pre' rest', length rest' < fuel -> length rest' <= inner -> pre' ++ rest' = pre ++ map (conv q c) rest ->
      length pre' = S (length pre) -> (exists h, map (conv q c) rest = h ++ rest') ->
    defer_loop inner fuel (S (length pre)) (pre ++ map (conv q c) rest) (mset ms q c) = Throws \/
    exists l' ms', defer_loop inner fuel (S (length pre)) (pre ++ map (conv q c) rest) (mset ms q c) = Done (l', ms') /\
      same_dist ((pre ++ OMeas [q] [c] :: rest) ++ meas ms) (l' ++ meas ms') /\ NoDup (map fst ms') /\ NoDup (map snd ms')).
  { intros pre' rest' A1 A2 A3 A4 [h A5]. rewrite <- A3, <- A4.
    assert (Inv : forall o, In o rest' -> exists o', In o' rest /\ o = conv q c o').
    { intros o I. assert (J : In o (map (conv q c) rest)) by (rewrite A5; apply in_or_app; auto).
      apply in_map_iff in J. destruct J as (o' & <- & J). eauto. }
    assert (D' : deferrable rest').
    { assert (X := deferrable_conv q c rest Fr (deferrable_tl _ _ D)). rewrite A5 in X. clear - X.
      induction h as [|x h IHh]; auto. apply IHh. now apply deferrable_tl in X. }
    destruct (IH rest' pre' (mset ms q c)) as [Th|(l' & ms' & Dn & Sd & M1 & M2)]; auto.
    - rewrite Forall_forall in *. intros o I. destruct (Inv o I) as (o' & J & ->). specialize (Lr o' J).
      unfold conv. destruct o' as [s|qs cs|qs|k o'|cu l]; auto. destruct o'; auto. destruct (cond_bit k) as [[]|]; auto. destruct (Nat.eqb n c); auto.
    - intros a b q' c' I J. destruct (Inv _ J) as (o' & J' & Eo). symmetry in Eo. apply conv_meas in Eo. subst o'.
      apply (Permutation_in _ P) in I. destruct I as [I|I].
      + injection I as <- <-. rewrite Forall_forall in Fr. apply (ok_meas _ _ _ _ (Fr _ J')).
      + apply (Dis a b q' c'); simpl; auto.
    - intros qs cs I. destruct (Inv _ I) as (o' & J' & Eo). apply Len. right. clear - J' Eo.
      destruct o' as [s|qs' cs'|qs'|k o'|cu l]; simpl in Eo; try discriminate; [congruence|].
      destruct o'; try discriminate. destruct (cond_bit k) as [[]|]; try discriminate. destruct (Nat.eqb n c); discriminate.
    - right. exists l', ms'. split; auto. split; auto. eapply sd_trans; [exact S1|]. rewrite <- A3. exact Sd. }
  destruct rest as [|o rest].
  - simpl in *. rewrite app_nil_r in *. destruct fuel as [|fuel]; [lia|]. cbn [defer_loop].
    rewrite (proj2 (nth_error_None _ _)) by lia. right. do 2 eexists. split; [reflexivity|]. split; auto.
  - simpl in Lt, Li. apply (G (pre ++ [conv q c o]) (map (conv q c) rest)).
    + rewrite map_length. lia.
    + rewrite map_length. lia.
    + rewrite <- app_assoc. auto.
    + apply snoc_len.
    + exists [conv q c o]. auto.
Qed.

Theorem defer_measurements_sound order fuel l : (forall m, Permutation m (order m)) -> length l < fuel ->
  Forall local l -> (forall qs cs, In (OMeas qs cs) l -> length qs = length cs) -> deferrable l ->
  defer_measurements order fuel l = Throws \/
  exists l', defer_measurements order fuel l = Done l' /\ same_dist l l'.
Proof.
  intros O Lt Lo Len D. unfold defer_measurements.
  destruct (defer_loop_sound fuel fuel l [] [] Lt ltac:(lia) D Lo) as [E|(l' & ms & E & S1 & N1 & N2)]; auto.
  - try constructor; try (intros ? ? ? ? []).
  - try constructor; try (intros ? ? ? ? []).
  - simpl in E. rewrite E. auto.
  - simpl in E. rewrite E. right. eexists. split; [reflexivity|]. simpl in S1. rewrite app_nil_r in S1.
    eapply sd_trans; [exact S1|]. apply sd_app; [apply sd_refl|]. apply meas_perm; auto.
Qed.
