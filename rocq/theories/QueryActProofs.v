(** Appended operations refer to the circuit; appended measurements show the
    outputs. *)
From Coq Require Import String List Arith Bool NArith Permutation Lia.
From Verif Require Import Cplx Qsem GateModel GateSpec IRModel IRSpec IRProofs OptModel OptFinalProofs
  QasmIfModel CircModel QueryModel CircSpec CircProofs CircKeepProofs CircStripProofs CircBuildProofs CircIOProofs QuerySpec QueryProofs QueryCircProofs.
Import ListNotations.
Local Open Scope list_scope.

(** ** Appended operations are at home *)
Definition homely (s : circ) : Prop := well_kept s /\ compact s /\ Forall (at_home s) (c_ops s).
Lemma at_home_more s s' o : incl (map fst (c_lay s)) (map fst (c_lay s')) -> c_nc s <= c_nc s' -> at_home s o -> at_home s' o.
Proof. intros I N [A B]. split; [intros q U; apply I, A, U|]. intros c J. specialize (B c J). lia. Qed.
Lemma homely_emit o s : homely s -> at_home s o -> homely (emitted o s).
Proof.
  intros (W & C & F) H. destruct (keep_emit o s W) as [W' C']. change (emitted o s) with (emit o s). split; auto. split; auto.
  cbn [emit c_ops]. apply Forall_app. split; [|constructor; auto]; eapply Forall_impl; try exact F; intros x X; exact X.
Qed.
Lemma qubits_in s qs : forallb (qubit_ok s) qs = true -> forall q, In q qs -> In q (map fst (c_lay s)).
Proof.
  intros H q I. rewrite forallb_forall in H. specialize (H q I). unfold qubit_ok in H. destruct (plookup (c_lay s) q) as [l|] eqn:E; [|discriminate].
  apply plookup_In in E. apply in_map_iff. exists (q, l). auto.
Qed.
Lemma std_home s o : forallb (qubit_ok s) (o_tgt o ++ map fst (o_ctl o)) = true -> at_home s (OStd o).
Proof.
  intros H. split; [|intros c []]. intros q U. apply (qubits_in s _ H). apply in_app_iff. inversion U; subst; auto.
  right. apply in_map_iff. exists (q, pol). auto.
Qed.
Lemma class_home s o k : at_home s (OStd o) -> (forall c, In c (cond_bits k) -> c < c_nc s) -> at_home s (OClass k (OStd o)).
Proof.
  intros [A _] B. split; [intros q U; inversion U; subst; auto|]. intros c I. cbn [creads cwrites] in I. rewrite !app_nil_r in I. auto.
Qed.
Lemma check_inv {A} b (r : res A) x : check b r = ROk x -> b = true /\ r = ROk x.
Proof. unfold check. destruct b; [auto|discriminate]. Qed.
Lemma measure_home s qs cs s' : add_measure qs cs s = ROk s' -> at_home s (OMeas qs cs) /\ s' = emitted (OMeas qs cs) s.
Proof.
  intros H. apply check_inv in H as [Q H]. apply check_inv in H as [B H]. apply check_inv in H as [_ H]. inversion H; subst. split; auto. split.
  - intros q U. inversion U; subst. eapply qubits_in; eauto.
  - cbn [creads cwrites]. intros c I. rewrite forallb_forall in B. specialize (B c I). now apply Nat.ltb_lt in B.
Qed.
Lemma gapless_all s : well_kept s -> gapless s -> forall q, q < total s <-> In q (map fst (c_lay s)).
Proof.
  intros W G q. split; [|apply G]. intros H.
  assert (I : incl (seq 0 (total s)) (map fst (c_lay s))); [|apply I, in_seq; lia].
  apply (NoDup_length_incl (l := map fst (c_lay s))).
  - apply W.
  - rewrite seq_length, map_length. pose proof (Permutation_length (wk_log _ W)) as P. rewrite map_length, seq_length in P. lia.
  - intros x X. apply in_seq. specialize (G x X). lia.
Qed.
Lemma barrier_home s : well_kept s -> gapless s -> at_home s (barrier_op (seq 0 (total s))).
Proof.
  intros W G. split; [|intros c []]. intros q U. inversion U as [s0 q0 I| s0 q0 p I | | | |]; subst; cbn in I; [|destruct I].
  apply (gapless_all s W G). apply in_seq in I. lia.
Qed.
Lemma call_more c s s' : (forall o, c <> CEmit o) -> well_kept s -> compact s -> call1 c s = ROk s' ->
  incl (map fst (c_lay s)) (map fst (c_lay s')) /\ c_nc s <= c_nc s' /\ c_ops s' = c_ops s.
Proof.
  intros N W C E. assert (G : forall k, In k (map fst (c_lay s)) -> k < total s) by apply C. destruct c; cbn [call1] in E.
  - unfold addQubitRegister in E. destruct (reg_has _ _); [discriminate|]. destruct (Nat.eqb nr 0); [discriminate|]. destruct (Nat.eqb_spec (c_na s) 0) as [Z|Z]; [|discriminate].
    inversion E; subst; cbn [c_lay c_nc c_ops negb] in *. split; [|auto]. intros x X.
    eapply Permutation_in; [apply Permutation_sym, Permutation_map, identity_on_new; unfold total in G; rewrite Z, Nat.add_0_r in G; exact G|]. rewrite map_app. apply in_app_iff. auto.
  - unfold addClassicalRegister in E. destruct (reg_has _ _); [discriminate|]. destruct (Nat.eqb nr 0); [discriminate|].
    inversion E; subst; cbn [c_lay c_nc c_ops]. split; [apply incl_refl|]. split; [lia|auto].
  - unfold addAncillaryRegister in E. destruct (reg_has _ _); [discriminate|]. destruct (Nat.eqb nr 0); [discriminate|].
    inversion E; subst; cbn [c_lay c_nc c_ops]. split; [|auto]. intros x X.
    eapply Permutation_in; [apply Permutation_sym, Permutation_map, identity_on_new; exact G|]. rewrite map_app. apply in_app_iff. auto.
  - unfold setLogicalQubitAncillary in E. destruct (vget l (c_anc s)) as [b| |]; try discriminate. cbn [bindr] in E. destruct b; [inversion E; subst; split; [apply incl_refl|auto]|].
    destruct (c_nq s); [discriminate|]. inversion E; subst; cbn [c_lay c_nc c_ops]. split; [apply incl_refl|auto].
  - unfold setLogicalQubitGarbage in E. destruct (vset l true (c_gar s)); try discriminate. cbn [bindr] in E. inversion E; subst; cbn [c_lay c_nc c_ops]. split; [apply incl_refl|auto].
  - destruct (N o eq_refl).
Qed.
Lemma homely_call c s s' : (forall o, c <> CEmit o) -> homely s -> call1 c s = ROk s' -> homely s'.
Proof.
  intros N (W & C & F) E. destruct (call_more c s s' N W C E) as (I & L & O).
  destruct (calls_ok [c] s s' W C) as [W' C']; [cbn [calls]; rewrite E; reflexivity|]. split; auto. split; auto.
  rewrite O. eapply Forall_impl; [|exact F]. intros o. apply at_home_more; auto.
Qed.
Lemma homely_barrier s : homely s -> homely (add_barrier_all s).
Proof. intros H. apply homely_emit; auto. destruct H as (W & [G _] & _). now apply barrier_home. Qed.
Lemma homely_outputs out : forall s s', homely s -> measure_outputs out s = ROk s' -> homely s'.
Proof.
  induction out as [|[q c] out IH]; intros s s' H E; cbn [measure_outputs] in E; [inversion E; subst; auto|].
  destruct (add_measure [q] [c] s) as [s1| |] eqn:M; try discriminate. cbn [bindr] in E. apply measure_home in M as [M ->].
  apply (IH _ _ (homely_emit _ _ H M) E).
Qed.
Lemma homely_down n start : forall s s', homely s -> measure_down n start s = ROk s' -> homely s'.
Proof.
  induction n as [|n IH]; intros s s' H E; cbn [measure_down] in E; [inversion E; subst; auto|].
  destruct (add_measure [n] [start + n] s) as [s1| |] eqn:M; try discriminate. cbn [bindr] in E. apply measure_home in M as [M ->].
  apply (IH _ _ (homely_emit _ _ H M) E).
Qed.
Lemma homely_bits nr name s s' : homely s -> addClassicalRegister nr name s = ROk s' -> homely s'.
Proof. intros H E. apply (homely_call (CBits nr name) s s'); auto. discriminate. Qed.
Lemma homely_act a s s' : homely s -> act1 a s = ROk s' -> homely s'.
Proof.
  intros H E. destruct a as [c|o|qs cs|qs|qs| |o start len v k|o bit v k|name|b]; cbn [act1] in E.
  - destruct c; try discriminate; (eapply homely_call; [|exact H|exact E]; discriminate).
  - apply check_inv in E as [Q E]. inversion E; subst. apply homely_emit; auto. now apply std_home.
  - apply measure_home in E as [M ->]. now apply homely_emit.
  - apply check_inv in E as [Q E]. inversion E; subst. apply homely_emit; auto. split; [|intros c []]. intros q U. inversion U; subst. eapply qubits_in; eauto.
  - apply check_inv in E as [Q E]. inversion E; subst. apply homely_emit; auto. apply (std_home s {| o_type := gBarrier; o_par := []; o_ctl := []; o_tgt := qs |}). cbn. now rewrite app_nil_r.
  - inversion E; subst. now apply homely_barrier.
  - apply check_inv in E as [Q E]. apply check_inv in E as [R E]. inversion E; subst. apply homely_emit; auto. apply class_home; [now apply std_home|].
    apply Nat.leb_le in R. intros c I. cbn [cond_bits] in I. apply in_seq in I. lia.
  - apply check_inv in E as [Q E]. apply check_inv in E as [R E]. apply Nat.leb_le in R. unfold mk_bit_op in E.
    assert (X : forall v', at_home s (OClass (CBit bit v' kEq) (OStd o))).
    { intros v'. apply class_home; [now apply std_home|]. intros c I. cbn [cond_bits] in I. simpl in I. destruct I as [<-|[]]. lia. }
    destruct (N.ltb 1 v); [discriminate|]. destruct k; try discriminate; inversion E; subst; apply homely_emit; auto.
  - unfold appendMeasurements in E. destruct (c_bregs s) eqn:B.
    + destruct (addClassicalRegister (length (c_out s)) name s) as [s1| |] eqn:A; try discriminate. cbn [bindr] in E.
      eapply homely_outputs; [|exact E]. apply homely_barrier. eapply homely_bits; eauto.
    + destruct (Nat.ltb (c_nc s) (length (c_out s))).
      * rewrite <- B in E. destruct (reg_has name (c_bregs s)); try discriminate. destruct (addClassicalRegister (length (c_out s) - c_nc s) name s) as [s1| |] eqn:A; try discriminate.
        cbn [bindr] in E. eapply homely_outputs; [|exact E]. apply homely_barrier. eapply homely_bits; eauto.
      * cbn [bindr] in E. eapply homely_outputs; [|exact E]. now apply homely_barrier.
  - unfold measureAll in E. destruct b.
    + destruct (addClassicalRegister (total s) "meas" s) as [s1| |] eqn:A; try discriminate. cbn [bindr] in E. destruct (Nat.ltb _ _); [discriminate|].
      eapply homely_down; [|exact E]. apply homely_barrier. eapply homely_bits; eauto.
    + cbn [bindr] in E. destruct (Nat.ltb _ _); [discriminate|]. eapply homely_down; [|exact E]. now apply homely_barrier.
Qed.
Lemma homely_acts l : forall s s', homely s -> acts l s = ROk s' -> homely s'.
Proof.
  induction l as [|a l IH]; intros s s' H E; cbn [acts] in E; [inversion E; subst; auto|].
  destruct (act1 a s) as [s1| |] eqn:A; try discriminate. cbn [bindr] in E. eapply IH; [|exact E]. eapply homely_act; eauto.
Qed.
Lemma homely_empty : homely empty_circ.
Proof. destruct empty_kept. split; auto. split; auto. constructor. Qed.
(** Stripping keeps it. *)
Lemma strip_home s s' : tidy s -> Forall (at_home s) (c_ops s) -> stripIdleQubits false s = ROk s' -> Forall (at_home s') (c_ops s').
Proof.
  intros T F E. destruct (strip_ok s T) as (s1 & E1 & _ & (f & A & _ & _ & _ & O & NC & _)). rewrite E in E1. inversion E1; subst s1.
  rewrite O. apply Forall_forall. intros o I. rewrite Forall_forall in F. destruct (F o I) as [Q C]. split; [|rewrite NC; exact C].
  intros q U. specialize (Q q U). apply in_map_iff in Q as ([p l] & <- & Q). cbn [fst] in *. apply in_map_iff. exists (p, f l). split; auto.
  apply A. exists l. split; auto. split; auto. intros [X _]. apply (X o I U).
Qed.

(** ** Appended measurements *)
Definition meas_of (p : nat * nat) : cop := OMeas [fst p] [snd p].
Definition with_ops (s : circ) (l : list cop) : circ :=
  {| c_nq := c_nq s; c_na := c_na s; c_nc := c_nc s; c_qregs := c_qregs s; c_aregs := c_aregs s; c_bregs := c_bregs s;
     c_lay := c_lay s; c_out := c_out s; c_anc := c_anc s; c_gar := c_gar s; c_ops := l |}.
Lemma measure_one q c s : add_measure [q] [c] s = (if qubit_ok s q && Nat.ltb c (c_nc s) then ROk (with_ops s (c_ops s ++ [meas_of (q, c)])) else RError).
Proof. unfold add_measure, check. cbn [forallb length Nat.eqb]. rewrite !andb_true_r. destruct (qubit_ok s q), (Nat.ltb c (c_nc s)); reflexivity. Qed.
Lemma outputs_inv out : forall s s', measure_outputs out s = ROk s' -> s' = with_ops s (c_ops s ++ map meas_of out) /\
  forall q c, In (q, c) out -> qubit_ok s q = true /\ c < c_nc s.
Proof.
  induction out as [|[q c] out IH]; intros s s' E; cbn [measure_outputs] in E.
  - inversion E; subst. rewrite app_nil_r. split; [destruct s'; reflexivity|intros q c []].
  - rewrite measure_one in E. destruct (qubit_ok s q && Nat.ltb c (c_nc s)) eqn:Q; [|discriminate]. cbn [bindr] in E. apply IH in E as [-> H].
    apply andb_true_iff in Q as [Q1 Q2]. apply Nat.ltb_lt in Q2. split.
    + cbn [map with_ops c_ops]. rewrite <- app_assoc. reflexivity.
    + intros q' c' [K|K]; [inversion K; subst; auto|]. apply (H q' c' K).
Qed.
Lemma outputs_run out : forall s, (forall q c, In (q, c) out -> qubit_ok s q = true /\ c < c_nc s) -> measure_outputs out s = ROk (with_ops s (c_ops s ++ map meas_of out)).
Proof.
  induction out as [|[q c] out IH]; intros s H; cbn [measure_outputs].
  - rewrite app_nil_r. destruct s; reflexivity.
  - rewrite measure_one. destruct (H q c (or_introl eq_refl)) as [-> C]. apply Nat.ltb_lt in C. rewrite C. cbn [andb bindr].
    rewrite IH; [|intros q' c' K; apply (H q' c'); simpl; auto]. cbn [map with_ops c_ops]. rewrite <- app_assoc. reflexivity.
Qed.
Lemma down_outputs n start : forall s, measure_down n start s = measure_outputs (map (fun i => (i, start + i)) (rev (seq 0 n))) s.
Proof.
  induction n as [|n IH]; intros s; auto. cbn [measure_down]. rewrite seq_S, rev_app_distr. cbn [rev app map measure_outputs plus Nat.add].
  destruct (add_measure [n] [start + n] s); cbn [bindr]; auto.
Qed.
Lemma meas_shows P : NoDup (map snd P) -> forall y x, In x (run (map meas_of P) y) -> forall w, fst x w <> C0 ->
  (forall q c, In (q, c) P -> snd x c = w q) /\ fst y w <> C0 /\ (forall c, ~ In c (map snd P) -> snd x c = snd y c).
Proof.
  induction P as [|[q c] P IH]; intros N y x I w A.
  - destruct I as [<-|[]]. split; [intros q c []|auto].
  - simpl in N. inversion N as [|? ? N1 N2]; subst. cbn [map run] in I. apply in_flat_map in I as (z & Z & I).
    destruct (IH N2 z x I w A) as (B & D & E).
    unfold meas_of in Z. cbn [run_op fst snd combine measure_all flat_map] in Z. unfold measure1 in Z. cbn [flat_map] in Z. simpl in Z.
    assert (V : exists v, z = (project q v (fst y), setb (snd y) c v)) by (destruct Z as [<-|[<-|[]]]; eauto). destruct V as (v & ->). cbn [fst snd] in *.
    unfold project in D. destruct (Bool.eqb_spec (w q) v) as [V|V]; [|congruence]. split; [|split; auto].
    + intros q' c' [K|K]; [|auto]. inversion K; subst. rewrite E by auto. apply setb_same.
    + intros c' K. simpl in K. rewrite E by tauto. apply setb_other. intros ->. tauto.
Qed.
Lemma shown_app A P q c : NoDup (map snd P) -> In (q, c) P -> shown (A ++ map meas_of P) q c.
Proof.
  intros N I b x X w Nz. rewrite run_app in X. apply in_flat_map in X as (y & _ & X). destruct (meas_shows P N y x X w Nz) as (H & _). auto.
Qed.
Lemma append_inv name s s' : appendMeasurements name s = ROk s' ->
  c_ops s' = c_ops s ++ barrier_op (seq 0 (total s)) :: map meas_of (c_out s) /\ same_qubits s s' /\ c_nc s <= c_nc s' /\
  (forall q c, In (q, c) (c_out s) -> In q (map fst (c_lay s)) /\ c < c_nc s').
Proof.
  unfold appendMeasurements. intros E.
  assert (X : exists s1, c_ops s1 = c_ops s /\ same_qubits s s1 /\ c_nc s <= c_nc s1 /\ measure_outputs (c_out s1) (add_barrier_all s1) = ROk s').
  { assert (Y : forall nr s1, addClassicalRegister nr name s = ROk s1 -> c_ops s1 = c_ops s /\ same_qubits s s1 /\ c_nc s <= c_nc s1).
    { intros nr s1 A. unfold addClassicalRegister in A. destruct (reg_has _ _); [discriminate|]. destruct (Nat.eqb nr 0); [discriminate|]. inversion A; subst.
      cbn [c_ops c_nc]. split; auto. split; [repeat split|lia]. }
    destruct (c_bregs s) eqn:B.
    - destruct (addClassicalRegister (length (c_out s)) name s) as [s1| |] eqn:A; try discriminate. exists s1. destruct (Y _ _ A) as (Y1 & Y2 & Y3). auto.
    - rewrite <- B in E. destruct (Nat.ltb (c_nc s) (length (c_out s))).
      + destruct (reg_has name (c_bregs s)); [discriminate|]. destruct (addClassicalRegister _ name s) as [s1| |] eqn:A; try discriminate. exists s1. destruct (Y _ _ A) as (Y1 & Y2 & Y3). auto.
      + exists s. split; auto. split; [repeat split|]. auto. }
  destruct X as (s1 & O & (Q1 & Q2 & Q3 & Q4 & Q5 & Q6 & Q7 & Q8) & N & M). apply outputs_inv in M as [-> M]. cbn [with_ops c_ops add_barrier_all emitted c_nc c_lay c_nq c_na c_qregs c_aregs c_out c_anc c_gar].
  split; [|split; [|split; [auto|]]].
  - rewrite O, Q6. unfold total. rewrite Q1, Q2, <- app_assoc. reflexivity.
  - repeat split; auto.
  - rewrite Q6 in M. intros q c I. destruct (M q c I) as [A B]. split; auto. rewrite <- Q5. unfold qubit_ok in A.
    change (c_lay (add_barrier_all s1)) with (c_lay s1) in A. destruct (plookup (c_lay s1) q) as [l|] eqn:P; [|discriminate]. apply plookup_In in P. apply in_map_iff. exists (q, l). auto.
Qed.
Lemma same_kept s s' : same_qubits s s' -> well_kept s -> well_kept s'.
Proof.
  intros (Q1 & Q2 & Q3 & Q4 & Q5 & Q6 & Q7 & Q8) W. assert (T : total s' = total s) by (unfold total; congruence).
  destruct W. constructor; rewrite ?Q2, ?Q3, ?Q4, ?Q5, ?Q6, ?Q7, ?Q8, ?T; auto.
Qed.
Lemma qubit_ok_in s q : well_kept s -> In q (map fst (c_lay s)) -> qubit_ok s q = true.
Proof.
  intros W I. unfold qubit_ok. destruct (plookup (c_lay s) q) as [l|] eqn:E.
  - apply plookup_In in E. apply Nat.ltb_lt. assert (J : In l (map snd (c_lay s))) by (apply in_map_iff; exists (q, l); auto).
    apply (Permutation_in _ (wk_log _ W)) in J. apply in_seq in J. lia.
  - exfalso. apply in_map_iff in I as ([p l] & <- & I). cbn [fst] in E. clear W. induction (c_lay s) as [|[a b] m IH]; [destruct I|]. simpl in E. destruct (Nat.eqb_spec p a); [discriminate|].
    destruct I as [I|I]; [inversion I; congruence|auto].
Qed.
Lemma append_runs name s : well_kept s -> c_bregs s = [] -> c_out s <> [] -> (forall q c, In (q, c) (c_out s) -> c < c_nc s + length (c_out s)) ->
  exists s', appendMeasurements name s = ROk s'.
Proof.
  intros W B O H. unfold appendMeasurements, addClassicalRegister. rewrite B. cbn [reg_has existsb].
  destruct (Nat.eqb_spec (length (c_out s)) 0) as [Z|_]; [destruct (c_out s); [congruence|discriminate]|]. cbn [bindr].
  eexists. apply outputs_run. intros q c I. cbn [c_out] in I. split; [|cbn; eauto].
  apply (qubit_ok_in s q W). apply (wk_out _ W). apply in_map_iff. exists (q, c). auto.
Qed.
Lemma measured_app a b : measured (a ++ b) = measured a ++ measured b.
Proof. induction a as [|o a IH]; simpl; auto. destruct o; auto. rewrite IH, app_assoc. reflexivity. Qed.
Lemma measured_out P : measured (map meas_of P) = P.
Proof. induction P as [|[q c] P IH]; simpl; auto. now rewrite IH. Qed.
Lemma measured_none l : existsb is_meas l = false -> measured l = [] /\ Forall paired l.
Proof.
  induction l as [|o l IH]; intros H; [split; [reflexivity|constructor]|]. simpl in H. apply orb_false_iff in H as [H1 H2]. destruct (IH H2) as [A B].
  split; [destruct o; try discriminate; exact A|]. constructor; auto. destruct o; try discriminate; exact I.
Qed.
Lemma append_back name s s' : well_kept s -> gapless s -> existsb is_meas (c_ops s) = false -> appendMeasurements name s = ROk s' ->
  exists s2, initializeIOMapping s' = ROk s2 /\ c_ops s2 = c_ops s' /\ (forall q c, In (q, c) (c_out s2) <-> In (q, c) (c_out s)).
Proof.
  intros W G NM E. destruct (append_inv name s s' E) as (O & SQ & _ & _). pose proof (same_kept _ _ SQ W) as W'.
  destruct (measured_none _ NM) as [M0 P0].
  assert (M : measured (c_ops s') = c_out s).
  { rewrite O, measured_app, M0. cbn [measured app barrier_op]. apply measured_out. }
  assert (Out : c_out s' = c_out s) by apply SQ.
  destruct (io_mapping s' W') as (s2 & A & B & _ & _ & _ & F & _).
  - rewrite O. apply Forall_app. split; auto. constructor; [exact I|]. apply Forall_forall. intros o K. apply in_map_iff in K as (p & <- & _). reflexivity.
  - rewrite M. apply W.
  - rewrite M. apply W.
  - right. rewrite M, Out. apply incl_refl.
  - exists s2. split; auto. split; [apply B|]. intros q c. rewrite F, M, Out.
    assert (X : forall q c, In (q, c) (c_out s) -> ~ dead s' c).
    { intros _ c' _ [_ (p & K & Id)]. apply (Id (barrier_op (seq 0 (total s)))); [rewrite O; apply in_app_iff; simpl; auto|].
      apply uses_target. apply in_seq. assert (p < total s); [|lia]. apply G. assert (L : c_lay s' = c_lay s) by apply SQ. rewrite L in K. apply in_map_iff. exists (p, c'). auto. }
    destruct (existsb is_meas (c_ops s')); split; intros K; try tauto; split; auto; eapply X; eauto.
Qed.
Lemma measure_all_ok s : well_kept s -> gapless s -> 0 < total s -> reg_has "meas"%string (c_bregs s) = false ->
  exists s', measureAll true s = ROk s' /\ same_qubits s s' /\ c_nc s' = c_nc s + total s /\
    c_ops s' = c_ops s ++ barrier_op (seq 0 (total s)) :: map meas_of (map (fun i => (i, c_nc s + i)) (rev (seq 0 (total s)))).
Proof.
  intros W G T R. unfold measureAll, addClassicalRegister. rewrite R. destruct (Nat.eqb_spec (total s) 0); [lia|]. cbn [bindr].
  match goal with |- context [if ?a then _ else _] => replace a with false end.
  2:{ symmetry. apply Nat.ltb_ge. unfold total. cbn [c_nc c_nq c_na]. lia. }
  rewrite down_outputs. rewrite outputs_run.
  - eexists. split; [reflexivity|]. split; [repeat split|]. split; [reflexivity|]. cbn [with_ops c_ops add_barrier_all emitted]. unfold total. cbn [c_nq c_na]. now rewrite <- app_assoc.
  - intros q c I. apply in_map_iff in I as (i & K & I). inversion K; subst. apply in_rev, in_seq in I. unfold total in I. cbn [c_nq c_na] in I. split; [|cbn; unfold total; lia].
    apply (qubit_ok_in s q W). apply (gapless_all s W G). unfold total. lia.
Qed.
