(** removeFinalMeasurements. *)
From Coq Require Import Reals List Arith Bool Lia NArith Sorted Permutation FunctionalExtensionality.
From Verif Require Import Cplx Qsem GateModel GateSpec OpProofs GraphModel IRModel IRSpec IRProofs OptModel OptSem OptDagProofs
  OptMeasModel OutcomeSpec OptDiagSem OptDiagProofs.
Import ListNotations.
Local Open Scope list_scope.

(** ** Classical bits *)
Definition cond_bits (c : cond) : list nat := match c with CReg s n _ _ => seq s n | CBit b _ _ => [b] end.
Fixpoint creads (o : cop) : list nat :=
  match o with
  | OClass c o' => cond_bits c ++ creads o'
  | OComp _ l => flat_map creads l
  | _ => []
  end.
Fixpoint cwrites (o : cop) : list nat :=
  match o with
  | OMeas _ cs => cs
  | OClass _ o' => cwrites o'
  | OComp _ l => flat_map cwrites l
  | _ => []
  end.

Lemma regval_set c v n : forall m s, ~ In c (seq s n) -> regval (setb m c v) s n = regval m s n.
Proof.
  induction n as [|n IH]; intros m s H; simpl; auto. simpl in H. rewrite IH by tauto.
  rewrite setb_other by (intros ->; tauto). auto.
Qed.
Lemma cond_set c v k m : ~ In c (cond_bits k) -> cond_holds k (setb m c v) = cond_holds k m.
Proof. destruct k; unfold cond_bits, cond_holds; intros H; rewrite regval_set; auto. Qed.

(** ** Equality of the collection of branches *)
Definition same_dist (l m : list cop) : Prop := forall b, Permutation (run l b) (run m b).
Lemma perm_flat_map {A B} (f : A -> list B) l m : Permutation l m -> Permutation (flat_map f l) (flat_map f m).
Proof. apply Permutation_flat_map. Qed.
Lemma perm_flat_map_ext {A B} (f g : A -> list B) l : (forall x, Permutation (f x) (g x)) -> Permutation (flat_map f l) (flat_map g l).
Proof. intros H. induction l; simpl; auto. apply Permutation_app; auto. Qed.
Lemma sd_refl l : same_dist l l. Proof. intros b. auto. Qed.
Lemma sd_trans l m n : same_dist l m -> same_dist m n -> same_dist l n.
Proof. intros H K b. eapply perm_trans; eauto. Qed.
Lemma sd_sym l m : same_dist l m -> same_dist m l.
Proof. intros H b. apply Permutation_sym. auto. Qed.
Lemma sd_same l m : same_run l m -> same_dist l m.
Proof. intros H b. rewrite H. auto. Qed.
Lemma sd_app l l' m m' : same_dist l l' -> same_dist m m' -> same_dist (l ++ m) (l' ++ m').
Proof.
  intros H K b. rewrite !run_app. eapply perm_trans; [apply perm_flat_map; apply H|]. apply perm_flat_map_ext. auto.
Qed.
Lemma sd_cons o l m : same_dist l m -> same_dist (o :: l) (o :: m).
Proof. intros H. apply (sd_app [o] [o]); auto. apply sd_refl. Qed.

(** ** Measurements commute with operations elsewhere *)
Definition pushg (F : state -> state) (c : nat) (v : bool) (b : branch) : branch := (F (fst b), setb (snd b) c v).

Lemma measure_pushg F Q c v l : lives_on F Q -> (forall q, In q (map fst l) -> ~ Q q) -> ~ In c (map snd l) -> forall b,
  measure_all l (pushg F c v b) = map (pushg F c v) (measure_all l b).
Proof.
  intros (P & _). induction l as [|[q d] l IH]; intros D N b; simpl; auto.
  assert (Nq : ~ Q q) by (apply D; simpl; auto). simpl in N.
  rewrite !app_nil_r, !map_app, !P by auto. rewrite !(setb_comm _ c d) by (intros ->; tauto).
  f_equal; apply (IH (fun x I => D x (or_intror I)) (fun x => N (or_intror x)) (_, _)).
Qed.
Lemma reset_pushg F Q c v l : lives_on F Q -> (forall q, In q l -> ~ Q q) -> forall b,
  reset_all l (pushg F c v b) = map (pushg F c v) (reset_all l b).
Proof.
  intros (P & X & _). induction l as [|q l IH]; intros D b; simpl; auto.
  assert (N : ~ Q q) by (apply D; simpl; auto).
  rewrite !app_nil_r, !map_app, !P, X by auto.
  f_equal; apply (IH (fun x I => D x (or_intror I)) (_, _)).
Qed.
Definition commg (F : state -> state) c v (o : cop) : Prop := forall b, run_op o (pushg F c v b) = map (pushg F c v) (run_op o b).
Lemma commg_ops F c v l : Forall (commg F c v) l -> forall b, run l (pushg F c v b) = map (pushg F c v) (run l b).
Proof.
  induction 1 as [|o l H Hl IH]; intros b; simpl; auto.
  rewrite H, flat_map_map, map_flat_map. apply flat_map_ext'. auto.
Qed.
Lemma combine_snd {A B} (l : list A) (m : list B) x : In x (map snd (combine l m)) -> In x m.
Proof. intros H. apply in_map_iff in H. destruct H as ((a & b) & <- & H). eapply in_combine_r; eauto. Qed.
Lemma lives_commg F Q c v o : lives_on F Q -> local o -> (forall q, In q (used o) -> ~ Q q) ->
  ~ In c (creads o) -> ~ In c (cwrites o) -> commg F c v o.
Proof.
  intros LO. induction o as [s|qs cs|qs|k o IHo|cu l H] using cop_rect'; intros L D NR NW b.
  - simpl. unfold pushg. simpl. destruct LO as (_ & _ & X). rewrite X; auto.
  - simpl. apply (measure_pushg F Q); auto.
    + intros x I. apply D. simpl. eapply combine_fst; eauto.
    + intros I. apply NW. simpl. eapply combine_snd; eauto.
  - simpl. apply (reset_pushg F Q); auto.
  - simpl in NR, NW. rewrite in_app_iff in NR.
    simpl. rewrite cond_set by tauto. destruct (cond_holds k (snd b)); auto.
    destruct o; try (apply IHo; [exact L|exact D|tauto|exact NW]). destruct L.
  - rewrite !run_comp. apply commg_ops. apply local_comp in L.
    rewrite Forall_forall in *. intros x I. apply H; auto.
    + intros q J. apply D. simpl. apply in_flat_map. eauto.
    + intros J. apply NR. simpl. apply in_flat_map. eauto.
    + intros J. apply NW. simpl. apply in_flat_map. eauto.
Qed.

Lemma project_lives q v : lives_on (project q v) (eq q).
Proof.
  split; [|split].
  - intros r w psi N. apply functional_extensionality. intros b. unfold project. destruct (Bool.eqb (b r) w), (Bool.eqb (b q) v); auto.
  - intros r psi N. apply functional_extensionality. intros b. unfold project, flip. rewrite setb_other by auto. auto.
  - intros s psi H. symmetry. apply std_project. intros I. apply (H q I). auto.
Qed.

Lemma two_maps {A B} (f g : A -> B) l : Permutation (map f l ++ map g l) (flat_map (fun x => [f x; g x]) l).
Proof.
  induction l as [|x l IH]; simpl; auto. constructor. eapply perm_trans; [apply Permutation_sym; apply Permutation_middle|].
  constructor. exact IH.
Qed.
Lemma measure1_comm q c o b : local o -> ~ In q (used o) -> ~ In c (creads o) -> ~ In c (cwrites o) ->
  Permutation (flat_map (run_op o) (measure1 q c b)) (flat_map (measure1 q c) (run_op o b)).
Proof.
  intros L N NR NW. unfold measure1 at 1.
  change [(project q false (fst b), setb (snd b) c false); (project q true (fst b), setb (snd b) c true)] with
    [pushg (project q false) c false b; pushg (project q true) c true b]. cbn [flat_map]. rewrite app_nil_r.
  assert (D : forall x, In x (used o) -> q <> x) by (intros x I ->; contradiction).
  rewrite !(lives_commg _ (eq q)) by (auto using project_lives). apply two_maps.
Qed.
Lemma measure_comm l o b : local o -> (forall q, In q (map fst l) -> ~ In q (used o)) ->
  (forall c, In c (map snd l) -> ~ In c (creads o) /\ ~ In c (cwrites o)) ->
  Permutation (flat_map (run_op o) (measure_all l b)) (flat_map (measure_all l) (run_op o b)).
Proof.
  intros L. revert b. induction l as [|[q c] l IH]; intros b D N; cbn [measure_all].
  - simpl. rewrite app_nil_r. rewrite flat_map_one. auto.
  - rewrite flat_map_flat. destruct (N c) as [NR NW]; [simpl; auto|].
    eapply perm_trans; [apply perm_flat_map_ext; intros x; apply IH|].
    + intros r I. apply D. simpl; auto.
    + intros d I. apply N. simpl; auto.
    + rewrite <- flat_map_flat. eapply perm_trans; [apply perm_flat_map; apply measure1_comm; auto; apply D; simpl; auto|].
      rewrite flat_map_flat. auto.
Qed.
Lemma move_meas qs cs o : local o -> (forall q, In q qs -> ~ In q (used o)) -> (forall c, In c cs -> ~ In c (creads o) /\ ~ In c (cwrites o)) ->
  same_dist [OMeas qs cs; o] [o; OMeas qs cs].
Proof.
  intros L D N b. cbn [run run_op]. 
  eapply perm_trans; [|eapply perm_trans; [apply (measure_comm (combine qs cs) o b L)|]].
  - apply perm_flat_map_ext. intros x. rewrite flat_map_one. auto.
  - intros q I. apply D. eapply combine_fst; eauto.
  - intros c I. apply N. eapply combine_snd; eauto.
  - apply perm_flat_map_ext. intros x. rewrite flat_map_one. auto.
Qed.
Lemma move_meas_list qs cs l : Forall (fun o => (forall b, run_op o b = [b]) \/ (local o /\ (forall q, In q qs -> ~ In q (used o)) /\
    (forall c, In c cs -> ~ In c (creads o) /\ ~ In c (cwrites o)))) l ->
  same_dist (OMeas qs cs :: l) (l ++ [OMeas qs cs]).
Proof.
  induction 1 as [|o l H _ IH]; [apply sd_refl|]. simpl.
  apply (sd_trans _ (o :: OMeas qs cs :: l)); [|apply sd_cons; exact IH].
  destruct H as [H|(L & D & N)].
  - apply sd_same. intros b. cbn [run]. rewrite H. cbn [flat_map]. rewrite app_nil_r. apply flat_map_ext'. intros x.
    rewrite H. simpl. now rewrite app_nil_r.
  - change (same_dist ([OMeas qs cs; o] ++ l) ([o; OMeas qs cs] ++ l)). apply sd_app; [apply move_meas; auto|apply sd_refl].
Qed.

(** ** Removing measurements that are last on their qubits *)
Definition killedF (R : nat -> bool) (l : list cop) : list cop := mapi_from 0 (fun p o => if R p then kill o else o) l.
Definition finalish (o : cop) : Prop :=
  match o with OMeas _ _ => True | OStd s => o_type s = gBarrier | _ => False end.
Definition soundF (l : list cop) (R : nat -> bool) : Prop :=
  forall p, R p = true -> exists o, nth_error l p = Some o /\ finalish o /\
    forall q, In q (used o) -> forall p', p < p' -> on l q p' -> R p' = true.

(** No bit is read or written again after a measurement into it. *)
Definition bits_final (l : list cop) : Prop :=
  forall i qs cs c j o, nth_error l i = Some (OMeas qs cs) -> In c cs -> i < j -> nth_error l j = Some o ->
    ~ In c (creads o) /\ ~ In c (cwrites o).

Fixpoint removed_from (i : nat) (R : nat -> bool) (l : list cop) : list cop :=
  match l with
  | [] => []
  | o :: r => (if R i then match o with OMeas _ _ => [o] | _ => [] end else []) ++ removed_from (S i) R r
  end.
Definition is_meas (o : cop) : Prop := match o with OMeas _ _ => True | _ => False end.

Section Sem.
Variables (l : list cop) (R : nat -> bool).
Hypothesis LO : Forall local l.
Hypothesis BF : bits_final l.
Hypothesis SR : soundF l R.

Lemma kill_run_I o b : finalish o -> run_op (kill o) b = [b].
Proof. destruct o; simpl; intros H; try contradiction; rewrite semf_I; auto; destruct b; auto. Qed.

Lemma final_suffix rest : forall A, l = A ++ rest ->
  same_dist rest (mapi_from (length A) (fun p o => if R p then kill o else o) rest ++ removed_from (length A) R rest).
Proof.
  induction rest as [|o rest IH]; intros A E; [apply sd_refl|].
  assert (E' : l = (A ++ [o]) ++ rest) by (rewrite <- app_assoc; auto).
  assert (L' : length (A ++ [o]) = S (length A)) by (rewrite app_length; simpl; lia).
  assert (Nth : nth_error l (length A) = Some o). { rewrite E, nth_error_app2, Nat.sub_diag by lia. auto. }
  specialize (IH _ E'). rewrite L' in IH. cbn [mapi_from removed_from].
  destruct (R (length A)) eqn:RA; [|simpl; apply sd_cons; exact IH].
  destruct (SR _ RA) as (o' & N' & Fi & Q). assert (o' = o) by congruence. subst o'.
  assert (KI : forall m, same_dist (kill o :: m) m).
  { intros m. apply sd_same. intros b. cbn [run]. rewrite kill_run_I by auto. simpl. now rewrite app_nil_r. }
  destruct o as [s|qs cs| | |]; try contradiction Fi.
  - cbn [app]. eapply sd_trans; [|apply sd_sym; apply (KI (_ ++ _))]. eapply sd_trans; [|exact IH].
    apply sd_same. intros b. cbn [run run_op]. simpl in Fi. unfold semf, sem. rewrite Fi. simpl. rewrite app_nil_r. destruct b; auto.
  - cbn [app]. eapply sd_trans; [|apply sd_sym; apply (KI (_ ++ _))].
    eapply sd_trans; [apply sd_cons; exact IH|].
    set (rest' := mapi_from (S (length A)) (fun p o => if R p then kill o else o) rest) in *.
    change (same_dist ((OMeas qs cs :: rest') ++ removed_from (S (length A)) R rest)
      (rest' ++ [OMeas qs cs] ++ removed_from (S (length A)) R rest)). rewrite app_assoc. apply sd_app; [|apply sd_refl].
    apply move_meas_list. apply Forall_forall. intros x I. apply In_nth_error in I. destruct I as [j Hj].
    unfold rest' in Hj. rewrite mapi_nth in Hj. destruct (nth_error rest j) as [y|] eqn:Ny; [|discriminate]. cbn [option_map] in Hj.
    assert (Ly : nth_error l (S (length A) + j) = Some y).
    { rewrite E', nth_error_app2 by (rewrite L'; lia). rewrite L'. replace (S (length A) + j - S (length A)) with j by lia. auto. }
    assert (Lt : length A < S (length A) + j) by lia. revert Hj Ly Lt. generalize (S (length A) + j). intros P Hj Ly Lt.
    inversion Hj as [Hx]; clear Hj. destruct (R P) eqn:Rj; subst x.
    + left. intros b. destruct (SR _ Rj) as (y' & Ny' & Fy & _). assert (y' = y) by congruence. subst y'. now apply kill_run_I.
    + right. split; [|split].
      * rewrite Forall_forall in LO. apply LO. eapply nth_error_In; eauto.
      * intros q Iq U. rewrite (Q q) with (p' := P) in Rj; [discriminate|auto|lia|exists y; auto].
      * intros c Ic. eapply BF; [exact Nth|exact Ic|exact Lt|exact Ly].
Qed.
Lemma final_removal : same_dist l (killedF R l ++ removed_from 0 R l).
Proof. apply (final_suffix l []). auto. Qed.
End Sem.

Lemma removed_meas R l : forall i, Forall is_meas (removed_from i R l).
Proof.
  induction l as [|o l IH]; intros i; simpl; auto. apply Forall_app. split; auto. destruct (R i); auto. destruct o; auto. constructor; simpl; auto.
Qed.

(** ** The traversal *)
(** Measurements and barriers on distinct qubits; no measurement in a compound operation. *)
Definition fin_op (o : cop) : Prop :=
  match o with
  | OMeas qs _ => NoDup qs
  | OStd s => o_type s = gBarrier -> o_ctl s = [] /\ NoDup (o_tgt s)
  | OComp _ _ => non_unitary o = false
  | _ => True
  end.

Section Final.
Variables (nq : nat) (l : list cop).
Hypothesis FL : Forall fin_op l.
Hypothesis OK : ops_ok l.

Definition coveredF (R : nat -> bool) (q : nat) (rest : list nat) : Prop :=
  rest = [] \/ exists pre, positions q 0 l = pre ++ rest /\ Forall (fun p => R p = true) pre.
Definition invF (s : dstate) : Prop :=
  exists R, fst s = killedF R l /\ soundF l R /\ forall q, coveredF R q (sit s q).

Lemma invF_send s q : invF s -> invF (send s q).
Proof.
  intros (R & E & S & C). exists R. split; auto. split; auto. intros x. rewrite sit_send. destruct (Nat.eqb x q); [left; auto|apply C].
Qed.
Lemma invF_sorted s q : invF s -> StronglySorted gt (sit s q).
Proof.
  intros (R & _ & _ & C). destruct (C q) as [->|(pre & E & _)]; [constructor|].
  pose proof (positions_sorted q l 0) as H. rewrite E in H. now apply sorted_split in H.
Qed.
Lemma invF_on s q p : invF s -> In p (sit s q) -> on l q p.
Proof.
  intros (R & _ & _ & C) I. destruct (C q) as [E|(pre & E & _)]; [rewrite E in I; destruct I|].
  apply positions_on. rewrite E. apply in_or_app. auto.
Qed.

Definition recF_ok (rec : nat -> option nat -> dstate -> res dstate) : Prop :=
  forall idx until s, invF s -> rec idx until s = Fuel \/ exists s', rec idx until s = Done s' /\
    invF s' /\ suff s s' /\
    forall u, until = Some u -> sit s idx <> [] -> sit s' idx <> [] -> keeps u s s' /\ exists r, sit s' idx = u :: r.

Section Step.
Variable rec : nat -> option nat -> dstate -> res dstate.
Hypothesis RO : recF_ok rec.

Lemma fcheck_ok idx p r qs : forall s, invF s -> sit s idx = p :: r -> fcheck rec idx qs s = Fuel \/
  exists s' ok, fcheck rec idx qs s = Done (s', ok) /\ invF s' /\ suff s s' /\
    (ok = true -> keeps p s s' /\ forall q, In q qs -> exists r', sit s' q = p :: r').
Proof.
  induction qs as [|q qs IH]; intros s I S; simpl.
  - right. exists s, true. split; auto. split; auto. split; [apply suff_refl|]. intros _. split; [apply keeps_refl|intros q []].
  - destruct (Nat.eqb_spec q idx) as [->|N].
    + destruct (IH s I S) as [H|(s' & ok & E & I' & F' & K')]; [left; auto|right]. exists s', ok. split; auto. split; auto. split; auto.
      intros Ok. destruct (K' Ok) as (K & H). split; auto. intros x [<-|J]; auto. exists r. apply K; auto.
    + destruct (sit s q) as [|a ra] eqn:Sq.
      * right. exists s, false. split; auto. split; auto. split; [apply suff_refl|]. discriminate.
      * rewrite S. destruct (RO q (Some p) s I) as [->|(s1 & -> & I1 & F1 & K1)]; [left; auto|]. cbn [bind].
        destruct (sit s1 q) as [|a1 r1] eqn:S1.
        -- right. exists s1, false. split; auto. split; auto. split; auto. discriminate.
        -- destruct (K1 p eq_refl) as (K & r' & H); [congruence|congruence|].
           assert (Si : sit s1 idx = p :: r) by (apply (K idx p r S); lia). rewrite Si.
           assert (a1 = p) by congruence. subst a1. rewrite Nat.eqb_refl.
           destruct (IH s1 I1 Si) as [E|(s' & ok & E & I' & F' & K')]; [left; auto|right].
           exists s', ok. split; auto. split; auto. split; [eapply suff_trans; eauto|]. intros Ok. destruct (K' Ok) as (Kb & Hb).
           split; [eapply keeps_trans; eauto|]. intros x [<-|J]; auto. exists r1. apply Kb; auto.
Qed.

Lemma killedF_nth R p : nth_error (killedF R l) p = option_map (fun o => if R p then kill o else o) (nth_error l p).
Proof. apply mapi_nth. Qed.
Lemma killedF_upd R p o : nth_error l p = Some o -> upd (killedF R l) p (kill o) = killedF (radd R p) l.
Proof.
  intros N. unfold killedF.
  pose proof (mapi_upd (fun j x => if R j then kill x else x) (fun j x => if radd R p j then kill x else x) l 0 p o N) as H.
  cbv beta in H. unfold radd at 2 in H. simpl in H. rewrite Nat.eqb_refl in H. simpl in H. apply H.
  intros j y D. unfold radd. apply Nat.eqb_neq in D. now rewrite D.
Qed.

Lemma advance_upto_ok p qs : forall s, NoDup qs -> (forall q, In q qs -> exists r, sit s q = p :: r) ->
  fst (advance_upto qs s) = fst s /\ forall q, sit (advance_upto qs s) q = if in_dec Nat.eq_dec q qs then tl (sit s q) else sit s q.
Proof.
  induction qs as [|q qs IH]; intros s ND H; cbn [advance_upto]; auto.
  inversion ND; subst. destruct (H q) as (r & Hr); [simpl; auto|]. unfold sit in Hr. rewrite Hr.
  destruct (IH (fst s, iset (snd s) q r) H3) as (A & B).
  - intros x J. destruct (H x) as (rx & Hx); [simpl; auto|]. exists rx. unfold sit, iset. simpl.
    destruct (Nat.eqb_spec x q); [subst; contradiction|exact Hx].
  - split; auto. intros x. rewrite B. unfold sit, iset. simpl.
    destruct (in_dec Nat.eq_dec x qs) as [J|J].
    + destruct (Nat.eqb_spec x q); [subst; contradiction|]. destruct (Nat.eq_dec q x); auto.
    + destruct (Nat.eqb_spec x q) as [->|Nx].
      * destruct (Nat.eq_dec q q); [|congruence]. now rewrite Hr.
      * destruct (Nat.eq_dec q x); [congruence|]. reflexivity.
Qed.

(** A measurement or barrier found at position [p]. *)
Lemma remove_final_ok idx p r o s : invF s -> nth_error l p = Some o -> finalish o -> sit s idx = p :: r ->
  forall op, ctargets op = ctargets o -> (fst s = fst s -> True) ->
  remove_final rec idx p Whole op s = Fuel \/
  exists s1 ok, remove_final rec idx p Whole op s = Done (s1, ok) /\
    let s' := if ok then advance_upto (ctargets o) s1 else s1 in
    invF s' /\ suff s s' /\ (sit s' idx <> [] -> forall u, u < p -> keeps u s s').
Proof.
  intros I N Fi S op T _. unfold remove_final. rewrite T.
  assert (Fo : fin_op o). { rewrite Forall_forall in FL. apply FL. eapply nth_error_In; eauto. }
  assert (UT : used o = ctargets o /\ NoDup (ctargets o)).
  { destruct o as [so| | | |]; try contradiction Fi; simpl in *; auto. destruct (Fo Fi) as [-> ND]. simpl. now rewrite app_nil_r. }
  destruct UT as [UT ND].
  assert (O : In idx (ctargets o)).
  { destruct (invF_on s idx p I) as (o' & N' & U); [rewrite S; simpl; auto|]. congruence. }
  destruct (ctargets o) as [|t0 ts] eqn:Et; [destruct O|]. rewrite <- Et in *. clear Et t0 ts T.
  destruct (fcheck_ok idx p r (ctargets o) s I S) as [->|(s2 & ok & -> & I2 & F2 & K2)]; [left; auto|right]. cbn [bind].
  destruct ok.
  - destruct (K2 eq_refl) as (K & H). exists (kill_pos s2 p Whole), true. split; auto. cbv zeta.
    pose proof I2 as (R & E & SR & C).
    assert (Ef : fst (kill_pos s2 p Whole) = killedF (radd R p) l).
    { unfold kill_pos. rewrite E, killedF_nth, N. cbn [option_map fst kill_at].
      assert (X : kill (if R p then kill o else o) = kill o). { destruct (R p); auto. destruct o; simpl; auto. }
      rewrite X. now apply killedF_upd. }
    assert (Sit : forall q, sit (kill_pos s2 p Whole) q = sit s2 q).
    { intros q. unfold kill_pos. destruct (nth_error (fst s2) p); auto. }
    destruct (advance_upto_ok p (ctargets o) (kill_pos s2 p Whole) ND) as (Ef' & B); [intros q J; rewrite Sit; auto|].
    assert (Mono : forall x, R x = true -> radd R p x = true) by (intros x Hx; unfold radd; rewrite Hx; apply orb_true_r).
    split; [|split].
    + exists (radd R p). split; [congruence|]. split.
      * intros x Hx. destruct (Nat.eq_dec x p) as [e|Nx]; [subst x|].
        -- exists o. split; auto. split; auto. intros q U p' L On. apply Mono. rewrite UT in U. destruct (H q U) as (r' & Hr).
           destruct (C q) as [Z|(pre & Ep & Pre)]; [congruence|]. rewrite Hr in Ep. apply positions_on in On. rewrite Ep in On.
           rewrite Forall_forall in Pre. apply in_app_or in On. destruct On as [On|[->|On]]; [auto|lia|].
           pose proof (positions_sorted q l 0) as So. rewrite Ep in So. destruct (sorted_split _ _ _ So) as [So2 _]. inversion So2; subst.
           rewrite Forall_forall in H3. specialize (H3 _ On). lia.
        -- unfold radd in Hx. apply Nat.eqb_neq in Nx. rewrite Nx in Hx. simpl in Hx. destruct (SR x Hx) as (o' & N' & Fi' & Q).
           exists o'. split; auto. split; auto. intros q U p' L On. apply Mono. eapply Q; eauto.
      * intros q. rewrite B, Sit. destruct (in_dec Nat.eq_dec q (ctargets o)) as [J|J].
        -- destruct (H q J) as (r' & Hr). rewrite Hr. simpl. destruct (C q) as [Z|(pre & Ep & Pre)]; [congruence|].
           right. exists (pre ++ [p]). rewrite Hr in Ep. rewrite <- app_assoc. split; auto. apply Forall_app. split.
           ++ eapply Forall_impl; [|exact Pre]. auto.
           ++ constructor; auto. unfold radd. now rewrite Nat.eqb_refl.
        -- destruct (C q) as [Z|(pre & Ep & Pre)]; [left; auto|right]. exists pre. split; auto.
           eapply Forall_impl; [|exact Pre]. auto.
    + eapply suff_trans; [exact F2|]. intros q. rewrite B, Sit. destruct (in_dec _ q _) as [J|J]; [|exists []; auto].
      destruct (H q J) as (r' & Hr). rewrite Hr. exists [p]. auto.
    + intros _ u L. eapply keeps_trans; [eapply keeps_le; [|exact K]; lia|].
      intros q p' r0 Hq Lp. rewrite B, Sit. destruct (in_dec _ q _) as [J|J]; auto.
      destruct (H q J) as (r' & Hr). rewrite Hr in Hq. inversion Hq; subst. lia.
  - exists (send s2 idx), false. split; auto. cbv zeta. split; [now apply invF_send|]. split; [eapply suff_trans; [exact F2|apply suff_send]|].
    rewrite sit_send, Nat.eqb_refl. congruence.
Qed.

Lemma final_body_ok idx p r s : invF s -> sit s idx = p :: r -> final_body rec idx p s = Fuel \/
  exists s', final_body rec idx p s = Done s' /\ invF s' /\ suff s s' /\ (sit s' idx <> [] -> forall u, u < p -> keeps u s s').
Proof.
  intros I S. unfold final_body. destruct (invF_on s idx p I) as (o & N & U); [rewrite S; simpl; auto|].
  pose proof I as (R & E & SR & C). rewrite E, killedF_nth, N. cbn [option_map].
  assert (Fo : fin_op o). { rewrite Forall_forall in FL. apply FL. eapply nth_error_In; eauto. }
  assert (SendOK : exists s', Done (send s idx) = Done s' /\ invF s' /\ suff s s' /\ (sit s' idx <> [] -> forall u, u < p -> keeps u s s')).
  { eexists. split; [reflexivity|]. split; [now apply invF_send|]. split; [apply suff_send|]. rewrite sit_send, Nat.eqb_refl. congruence. }
  assert (G : finalish o -> forall op, ctargets op = ctargets o ->
    (do (s', ok) <- remove_final rec idx p Whole op s; Done (if ok then advance_upto (ctargets op) s' else s')) = Fuel \/
    exists s', (do (s', ok) <- remove_final rec idx p Whole op s; Done (if ok then advance_upto (ctargets op) s' else s')) = Done s' /\
      invF s' /\ suff s s' /\ (sit s' idx <> [] -> forall u, u < p -> keeps u s s')).
  { intros Fi op T. destruct (remove_final_ok idx p r o s I N Fi S op T (fun _ => Logic.I)) as [->|(s1 & ok & -> & A)]; [left; auto|right].
    cbn [bind]. rewrite T. eexists. split; [reflexivity|exact A]. }
  destruct (R p) eqn:Rp.
  - destruct (SR p Rp) as (o' & N' & Fi & _). assert (o' = o) by congruence. subst o'.
    destruct o as [so| | | |]; try contradiction Fi; cbn; right; exact SendOK.
  - destruct (optype_eqb (ctype o) gMeasure || optype_eqb (ctype o) gBarrier) eqn:Ty.
    + destruct o as [so|qs cs|qs|c o|cu m]; cbn [ctype] in Ty; try discriminate Ty.
      * destruct (optype_eqb (o_type so) gBarrier) eqn:Tb.
        -- apply optype_eqb_eq in Tb. apply G; auto.
        -- destruct (optype_eqb (o_type so) gMeasure) eqn:Tm; [|discriminate]. apply optype_eqb_eq in Tm.
           exfalso. unfold ops_ok in OK. rewrite Forall_forall in OK. destruct (OK (OStd so)) as [_ [f F]]; [eapply nth_error_In; eauto|].
           unfold sem, gate_matrix in F. rewrite Tm in F. simpl in F. discriminate.
      * apply G; simpl; auto.
    + destruct o; try (right; exact SendOK). unfold fin_op in Fo. rewrite Fo. right; exact SendOK.
Qed.
End Step.

Lemma recF_loop_ok fuel :
  recF_ok (final_rec nq fuel) /\
  forall idx until s, invF s -> final_loop nq fuel idx until s = Fuel \/ exists s', final_loop nq fuel idx until s = Done s' /\
    invF s' /\ suff s s' /\ forall u, until = Some u -> sit s' idx <> [] -> keeps u s s' /\ exists r, sit s' idx = u :: r.
Proof.
  induction fuel as [|fuel [IHr IHl]]; [split; intros idx until s _; left; reflexivity|]. split.
  - intros idx until s I. simpl. destruct (sit s idx) as [|p r] eqn:Sx.
    + destruct (S idx <? nq).
      * destruct (IHr (S idx) None s I) as [H|(s' & E & A & B & _)]; [left; auto|right]. exists s'. split; auto. split; auto. split; auto.
        intros; congruence.
      * right. exists s. split; auto. split; auto. split; [apply suff_refl|]. intros; congruence.
    + destruct (IHl idx until s I) as [->|(s1 & -> & I1 & F1 & K1)]; [left; auto|]. cbn [bind].
      destruct (sit s1 idx) as [|p1 r1] eqn:S1.
      * destruct (S idx <? nq).
        -- destruct (IHr (S idx) None s1 I1) as [H|(s' & E & A & B & _)]; [left; auto|right]. exists s'. split; auto. split; auto.
           split; [eapply suff_trans; eauto|]. intros u _ _ Z. exfalso. apply Z. eapply suff_nil; eauto.
        -- right. exists s1. split; auto. split; auto. split; auto. intros; congruence.
      * right. exists s1. split; auto. split; auto. split; auto. intros u Hu _ Z. rewrite <- S1 in *. auto.
  - intros idx until s I. simpl. destruct (sit s idx) as [|p r] eqn:Sx.
    + right. exists s. split; auto. split; auto. split; [apply suff_refl|]. intros; congruence.
    + destruct (match until with Some u => Nat.eqb p u | None => false end) eqn:U.
      * right. exists s. split; auto. split; auto. split; [apply suff_refl|]. intros u -> _. apply Nat.eqb_eq in U. subst.
        split; [apply keeps_refl|eauto].
      * destruct (final_body_ok _ IHr idx p r s I Sx) as [->|(s1 & -> & I1 & F1 & K1)]; [left; auto|]. cbn [bind].
        destruct (IHl idx until s1 I1) as [->|(s' & -> & I2 & F2 & K2)]; [left; auto|right].
        exists s'. split; auto. split; auto. split; [eapply suff_trans; eauto|]. intros u -> Z.
        destruct (K2 u eq_refl Z) as (Ka & r2 & Hr). split; [|eauto].
        eapply keeps_trans; [|exact Ka]. apply K1.
        -- intros Z1. apply Z. eapply suff_nil; eauto.
        -- destruct (suff_trans _ _ _ F1 F2 idx) as (pre & Hp). rewrite Sx, Hr in Hp. apply Nat.eqb_neq in U.
           pose proof (invF_sorted s idx I) as So. rewrite Sx in So. inversion So as [|? ? _ Fo]; subst. rewrite Forall_forall in Fo.
           apply Fo. destruct pre as [|x pre]; inversion Hp; subst; [congruence|]. apply in_or_app. right. simpl; auto.
Qed.

Lemma startF_inv : invF (l, fun q => if q <? nq then positions q 0 l else []).
Proof.
  exists (fun _ => false). split; [|split].
  - unfold killedF. simpl. generalize 0. clear. induction l as [|o m IH]; intros i; simpl; auto. f_equal. auto.
  - intros p H. discriminate.
  - intros q. unfold sit. simpl. destruct (q <? nq); [|left; auto]. right. exists []. auto.
Qed.
End Final.

Lemma removed_incl R l : forall i, incl (removed_from i R l) l.
Proof.
  induction l as [|o l IH]; intros i x; simpl; auto. intros H. apply in_app_or in H. destruct H as [H|H]; [|right; eapply IH; eauto].
  destruct (R i); [|destruct H]. destruct o; try destruct H as []; auto; tauto.
Qed.

Lemma remove_final_sound nq fuel l : ops_ok l -> Forall fin_op l -> Forall local l -> bits_final l -> 0 < nq ->
  remove_final_measurements nq fuel l = Fuel \/
  exists l' ms, remove_final_measurements nq fuel l = Done l' /\ Forall is_meas ms /\ incl ms l /\ same_dist l (l' ++ ms).
Proof.
  intros OK FL LO BF NQ. unfold remove_final_measurements. destruct (Nat.eqb_spec nq 0); [lia|].
  destruct (recF_loop_ok nq l FL OK fuel) as [RO _].
  destruct (RO 0 None _ (startF_inv nq l)) as [->|(s & -> & (R & Es & SR & _) & _)]; [left; auto|right]. cbn [bind].
  exists (remove_identities (fst s)), (removed_from 0 R l). split; auto. split; [apply removed_meas|]. split; [apply removed_incl|].
  eapply sd_trans; [apply (final_removal l R); auto|]. apply sd_app; [|apply sd_refl]. rewrite Es. apply sd_sym. apply sd_same.
  apply remove_identities_sound.
Qed.
