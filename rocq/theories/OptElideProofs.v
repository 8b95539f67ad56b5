(** Soundness of elidePermutations: moving qubits. *)
From Coq Require Import Reals Lra List Arith Bool Lia NArith FunctionalExtensionality.
From Verif Require Import Cplx Qsem GateModel GateSpec GateProofs OpProofs GraphModel IRModel IRSpec IRProofs OptModel OptSem OptDagProofs OptDagProofs2 OptProofs.
Import ListNotations.
Local Open Scope list_scope.

(** The state with the content of qubit [q] moved to qubit [pi q]. *)
Definition move (pi : nat -> nat) (psi : state) : state := fun b => psi (fun q => b (pi q)).
Definition bmove (pi : nat -> nat) (b : branch) : branch := (move pi (fst b), snd b).
Definition agrees (pi : nat -> nat) (p : perm) : Prop := forall q r, papply p q = Some r -> pi q = r.

Lemma setb_move (pi : nat -> nat) b q v : inj pi -> (fun x => setb b (pi q) v (pi x)) = setb (fun x => b (pi x)) q v.
Proof.
  intros I. apply functional_extensionality. intros x. unfold setb.
  destruct (Nat.eqb_spec (pi x) (pi q)) as [E|E], (Nat.eqb_spec x q) as [F|F]; auto; [|congruence].
  apply I in E. contradiction.
Qed.
Lemma setl_move (pi : nat -> nat) b ts vs : inj pi -> (fun x => setl b (map pi ts) vs (pi x)) = setl (fun x => b (pi x)) ts vs.
Proof.
  intros I. revert vs. induction ts as [|t ts IH]; intros [|v vs]; simpl; auto.
  rewrite setb_move by auto. now rewrite IH.
Qed.
Lemma capply_move pi cs cs' M ts psi : inj pi -> (forall c, In c cs' <-> In c (map (fun c => (pi (fst c), snd c)) cs)) ->
  capply cs' M (map pi ts) (move pi psi) = move pi (capply cs M ts psi).
Proof.
  intros I C. apply functional_extensionality. intros b. unfold move, capply.
  assert (S : sat cs' b = sat cs (fun q => b (pi q))).
  { rewrite (sat_ext cs' _ b C). unfold sat. clear C. induction cs; simpl; auto. now rewrite IHcs. }
  rewrite S. destruct (sat cs _); auto. unfold apply. rewrite map_length, map_map. apply csum_ext. intros v _.
  now rewrite setl_move.
Qed.
Lemma project_move pi q v psi : project (pi q) v (move pi psi) = move pi (project q v psi).
Proof. reflexivity. Qed.
Lemma flip_move pi q psi : inj pi -> flip (pi q) (move pi psi) = move pi (flip q psi).
Proof. intros I. apply functional_extensionality. intros b. unfold flip, move. now rewrite setb_move. Qed.

Lemma map_opt_map (p : perm) pi ts us : agrees pi p -> map_opt (papply p) ts = Some us -> us = map pi ts.
Proof.
  intros A. revert us. induction ts as [|t ts IH]; intros us H; simpl in H; [inversion H; auto|].
  destruct (papply p t) as [r|] eqn:E; [|discriminate]. destruct (map_opt (papply p) ts); [|discriminate].
  inversion H; subst. simpl. rewrite (A _ _ E). f_equal. auto.
Qed.
Lemma map_opt_ctl (p : perm) pi cs ds : agrees pi p -> map_opt (papply_ctl p) cs = Some ds -> ds = map (fun c => (pi (fst c), snd c)) cs.
Proof.
  intros A. revert ds. induction cs as [|t ts IH]; intros us H; simpl in H; [inversion H; auto|].
  unfold papply_ctl in H at 1. destruct (papply p (fst t)) as [r|] eqn:E; [|discriminate]. destruct (map_opt (papply_ctl p) ts); [|discriminate].
  inversion H; subst. simpl. rewrite (A _ _ E). f_equal. auto.
Qed.
Lemma papply_ctls (p : perm) pi cs ds : agrees pi p -> papply_controls p cs = Some ds ->
  forall c, In c ds <-> In c (map (fun c => (pi (fst c), snd c)) cs).
Proof.
  intros A H c. unfold papply_controls in H. destruct p as [|x p].
  - inversion H; subst. rewrite in_map_iff. split.
    + intros I. exists c. split; auto. rewrite (A (fst c) (fst c)) by reflexivity. now destruct c.
    + intros ((a & b) & E & I). simpl in E. rewrite (A a a) in E by reflexivity. now subst.
  - destruct (map_opt _ cs) as [l|] eqn:E; [|discriminate]. inversion H; subst. rewrite ctls_of_In.
    apply (map_opt_ctl _ pi) in E; auto. now subst.
Qed.

Lemma measure_move pi l b : measure_all (map (fun x => (pi (fst x), snd x)) l) (bmove pi b) = map (bmove pi) (measure_all l b).
Proof.
  revert b. induction l as [|[q c] l IH]; intros b; simpl; auto. rewrite !app_nil_r, map_app.
  f_equal; [apply (IH (project q false (fst b), setb (snd b) c false))|apply (IH (project q true (fst b), setb (snd b) c true))].
Qed.
Lemma reset_move pi l b : inj pi -> reset_all (map pi l) (bmove pi b) = map (bmove pi) (reset_all l b).
Proof.
  intros I. revert b. induction l as [|q l IH]; intros b; simpl; auto. rewrite !app_nil_r, map_app.
  f_equal; [apply (IH (project q false (fst b), snd b))|]. rewrite project_move, flip_move by auto. apply (IH (flip q (project q true (fst b)), snd b)).
Qed.
Lemma combine_map {A B} (f : A -> A) (l : list A) (m : list B) : combine (map f l) m = map (fun x => (f (fst x), snd x)) (combine l m).
Proof. revert m. induction l; intros [|y m]; simpl; auto. now rewrite IHl. Qed.

Definition moved (pi pi' : nat -> nat) (l l' : list cop) : Prop := forall b, run l' (bmove pi b) = map (bmove pi') (run l b).
Lemma moved_app p q r l l' m m' : moved p q l l' -> moved q r m m' -> moved p r (l ++ m) (l' ++ m').
Proof.
  intros H K b. rewrite !run_app, H, flat_map_map, map_flat_map. apply flat_map_ext'. intros x. apply K.
Qed.
Lemma moved_nil p : moved p p [] []. Proof. intros b. reflexivity. Qed.
Lemma moved_comp p q cu cu' l l' : moved p q l l' -> moved p q [OComp cu l] [OComp cu' l'].
Proof. intros H b. rewrite !run_one, !run_comp. apply H. Qed.

Lemma apply_perm_comp p cu l : apply_perm p (OComp cu l) = match map_opt (apply_perm p) l with Some r => Some (OComp cu r) | None => None end.
Proof.
  simpl.
  assert (E : (fix go l := match l with [] => Some [] | o :: l' => match apply_perm p o, go l' with Some i, Some r => Some (i :: r) | _, _ => None end end) l
     = map_opt (apply_perm p) l).
  { induction l as [|o l IH]; simpl; auto. rewrite IH. destruct (apply_perm p o), (map_opt (apply_perm p) l); auto. }
  now rewrite E.
Qed.

Lemma apply_perm_moved p pi o : agrees pi p -> inj pi -> local o -> forall o', apply_perm p o = Some o' -> moved pi pi [o] [o'].
Proof.
  intros A I. induction o as [s|qs cs|qs|c o IH|cu l H] using cop_rect'; intros L o' E.
  - simpl in E. destruct (papply_targets p (o_tgt s)) as [ts|] eqn:ET; [|discriminate].
    destruct (papply_controls p (o_ctl s)) as [cs|] eqn:EC; [|discriminate]. inversion E; subst. clear E.
    apply (map_opt_map _ pi) in ET; auto. subst ts. pose proof (papply_ctls _ _ _ _ A EC) as C.
    intros b. rewrite !run_one. cbn [run_op map]. unfold bmove. cbn [fst snd]. do 2 f_equal.
    unfold semf, sem. cbn [o_type o_par o_ctl o_tgt]. rewrite map_length.
    destruct (o_type s); auto; match goal with |- context[gate_matrix ?t ?q] => destruct (gate_matrix t q) as [[k M]|]; auto end;
      destruct (Nat.eqb _ _); auto; now apply capply_move.
  - simpl in E. destruct (papply_targets p qs) as [us|] eqn:ET; [|discriminate]. inversion E; subst.
    apply (map_opt_map _ pi) in ET; auto. subst us. intros b. rewrite !run_one. cbn [run_op]. rewrite combine_map. apply measure_move.
  - simpl in E. destruct (papply_targets p qs) as [us|] eqn:ET; [|discriminate]. inversion E; subst.
    apply (map_opt_map _ pi) in ET; auto. subst us. intros b. rewrite !run_one. cbn [run_op]. now apply reset_move.
  - assert (NC : exists i, apply_perm p o = Some i /\ o' = OClass c i /\ local o).
    { simpl in E, L. destruct o; try tauto; destruct (apply_perm p _) as [i|]; inversion E; eauto. }
    destruct NC as (i & E1 & -> & L1). specialize (IH L1 i E1). intros b. rewrite !run_one. cbn [run_op].
    replace (cond_holds c (snd (bmove pi b))) with (cond_holds c (snd b)) by reflexivity.
    destruct (cond_holds c (snd b)); auto. specialize (IH b). rewrite !run_one in IH. exact IH.
  - rewrite apply_perm_comp in E. apply local_comp in L. destruct (map_opt (apply_perm p) l) as [r|] eqn:ER; [|discriminate]. inversion E; subst.
    apply moved_comp. clear E. revert r ER. induction l as [|x l IHl]; intros r ER; simpl in ER.
    + inversion ER. apply moved_nil.
    + destruct (apply_perm p x) as [x'|] eqn:EX; [|discriminate]. destruct (map_opt (apply_perm p) l) as [r'|] eqn:ER'; [|discriminate].
      inversion ER; subst. inversion L; inversion H; subst. change (x :: l) with ([x] ++ l). change (x' :: r') with ([x'] ++ r').
      apply (moved_app pi pi pi); auto.
Qed.

(** ** Transpositions *)
Definition transpose (pi : nat -> nat) (a b : nat) : nat -> nat := fun q => if Nat.eqb q a then pi b else if Nat.eqb q b then pi a else pi q.
Lemma plookup_pset p q r x : plookup (pset p q r) x = if Nat.eqb x q then Some r else plookup p x.
Proof.
  induction p as [|[a b] p IH]; simpl.
  - destruct (Nat.eqb x q); auto.
  - destruct (Nat.eqb_spec q a) as [->|N]; simpl.
    + destruct (Nat.eqb x a); auto.
    + destruct (Nat.eqb_spec x a) as [->|M]; auto. destruct (Nat.eqb_spec a q); auto. congruence.
Qed.
Lemma pset_nonnil p q r : pset p q r <> [].
Proof. destruct p as [|[a b] p]; simpl; [discriminate|]. destruct (Nat.eqb q a); discriminate. Qed.
Lemma papply_nonnil p q : p <> [] -> papply p q = plookup p q.
Proof. destruct p; [congruence|reflexivity]. Qed.

Lemma transpose_inj pi a b : inj pi -> a <> b -> inj (transpose pi a b).
Proof.
  intros I N x y. unfold transpose. destruct (Nat.eqb_spec x a), (Nat.eqb_spec x b), (Nat.eqb_spec y a), (Nat.eqb_spec y b);
    intros H; apply I in H; congruence.
Qed.
Lemma transpose_agrees pi p a b x y : agrees pi p -> a <> b -> plookup p a = Some x -> plookup p b = Some y ->
  agrees (transpose pi a b) (pset (pset p a y) b x).
Proof.
  intros A N EA EB q r H. rewrite papply_nonnil in H by apply pset_nonnil. rewrite !plookup_pset in H.
  assert (NP : p <> []) by (intros ->; discriminate). unfold transpose.
  destruct (Nat.eqb_spec q b) as [->|N1].
  - inversion H; subst. destruct (Nat.eqb_spec b a); [congruence|]. apply A. now rewrite papply_nonnil.
  - destruct (Nat.eqb_spec q a) as [->|N2].
    + inversion H; subst. apply A. now rewrite papply_nonnil.
    + apply A. now rewrite papply_nonnil.
Qed.
Lemma swap_moved pi s a b : inj pi -> is_swap (OStd s) = Some (a, b) -> op_ok (OStd s) -> moved pi (transpose pi a b) [OStd s] [].
Proof.
  intros I E OK br. pose proof (swap_ne _ _ _ E OK) as N. rewrite run_one, (run_sw _ _ _ _ E OK). simpl. f_equal.
  unfold bmove, via, move. cbn [fst snd]. f_equal. apply functional_extensionality. intros bs. f_equal.
  apply functional_extensionality. intros q. unfold swb, setb, transpose.
  destruct (Nat.eqb_spec q b) as [->|N1].
  - now rewrite Nat.eqb_refl.
  - destruct (Nat.eqb_spec q a) as [->|N2]; auto. destruct (Nat.eqb_spec b a); [congruence|]. now rewrite Nat.eqb_refl.
Qed.

(** ** Collapsing *)
Lemma collapse_run o b : run_op (collapse o) b = run_op o b.
Proof.
  revert b. induction o as [s|? ?|?|? ? ?|cu l H] using cop_rect'; intros br; auto.
  destruct l as [|x [|y l]]; auto. inversion H; subst. rewrite run_comp, run_one.
  destruct x as [?|? ?|?|? ?|cu' l']; try reflexivity.
  assert (X : forall r, run_op (match collapse (OComp cu' l') with OComp _ _ => OComp cu [OComp cu' l'] | y => y end) r = run_op (OComp cu' l') r).
  { intros r. specialize (H2 r). destruct (collapse (OComp cu' l')); auto. now rewrite run_comp, run_one. }
  apply X.
Qed.

Lemma elide_comp p cu l : elide_op p (OComp cu l) =
  match elide_ops p l with
  | Some ([], p') => Some ([], p')
  | Some (l', p') => Some ([collapse (OComp cu l')], p')
  | None => None
  end.
Proof.
  cbn [elide_op].
  assert (E : forall p, (fix go p l := match l with [] => Some ([], p) | o :: l' => match elide_op p o with
               | Some (a, p1) => match go p1 l' with Some (b, p2) => Some (a ++ b, p2) | None => None end | None => None end end) p l
     = elide_ops p l).
  { induction l as [|o l IH]; intros p0; [reflexivity|]. cbn [elide_ops]. destruct (elide_op p0 o) as [[a p1]|]; [|reflexivity]. try now rewrite IH. }
  now rewrite E.
Qed.

Lemma elide_leaf p o : (forall cu l, o <> OComp cu l) -> elide_op p o =
  if optype_eqb (ctype o) gSWAP && match ccontrols o with [] => true | _ => false end then
        match ctargets o with
        | [a; b] => match plookup p a, plookup p b with Some x, Some y => Some ([], pset (pset p a y) b x) | _, _ => None end
        | _ => None
        end
      else match apply_perm p o with Some o' => Some ([o'], p) | None => None end.
Proof. intros N. destruct o; try reflexivity. exfalso. eapply N. eauto. Qed.

Definition esound (o : cop) : Prop := forall p pi l' p', agrees pi p -> inj pi -> elide_op p o = Some (l', p') ->
  exists pi', agrees pi' p' /\ inj pi' /\ moved pi pi' [o] l'.
Lemma esound_ops l : Forall esound l -> forall p pi l' p', agrees pi p -> inj pi -> elide_ops p l = Some (l', p') ->
  exists pi', agrees pi' p' /\ inj pi' /\ moved pi pi' l l'.
Proof.
  induction 1 as [|o l H Hl IH]; intros p pi l' p' A I E; simpl in E.
  - inversion E; subst. exists pi. split; [auto|]. split; [auto|apply moved_nil].
  - destruct (elide_op p o) as [[a p1]|] eqn:E1; [|discriminate]. destruct (elide_ops p1 l) as [[b p2]|] eqn:E2; [|discriminate].
    inversion E; subst. destruct (H _ _ _ _ A I E1) as (pi1 & A1 & I1 & M1). destruct (IH _ _ _ _ A1 I1 E2) as (pi2 & A2 & I2 & M2).
    exists pi2. split; [auto|]. split; [auto|]. change (o :: l) with ([o] ++ l). now apply (moved_app pi pi1 pi2).
Qed.
Lemma elide_sound o : op_ok o -> local o -> esound o.
Proof.
  induction o as [s|qs cs|qs|c o IH|cu l H] using cop_rect'; intros OK L p pi l' p' A I E.
  1-4: rewrite elide_leaf in E by discriminate.
  - simpl ctype in E. simpl ccontrols in E. simpl ctargets in E.
    destruct (optype_eqb (o_type s) gSWAP && match o_ctl s with [] => true | _ => false end) eqn:T.
    + apply andb_true_iff in T. destruct T as [T C]. apply optype_eqb_eq in T. assert (C' : o_ctl s = []) by (destruct (o_ctl s); [auto|discriminate]).
      destruct (swap_shape s OK T) as (a & b & TG). rewrite TG in E.
      destruct (plookup p a) as [x|] eqn:EA; [|discriminate]. destruct (plookup p b) as [y|] eqn:EB; [|discriminate]. inversion E; subst.
      assert (S : is_swap (OStd s) = Some (a, b)) by (destruct s as [ty ps cs ts]; simpl in *; subst; reflexivity).
      pose proof (swap_ne _ _ _ S OK) as N. exists (transpose pi a b).
      split; [now apply transpose_agrees|]. split; [now apply transpose_inj|now apply swap_moved].
    + destruct (apply_perm p (OStd s)) as [o'|] eqn:AP; [|discriminate]. inversion E; subst. exists pi. split; [auto|]. split; [auto|].
      eapply apply_perm_moved; eauto.
  - simpl in E. destruct (papply_targets p qs) as [us|] eqn:ET; [|discriminate]. inversion E; subst. exists pi. split; [auto|]. split; [auto|].
    apply (apply_perm_moved p' pi (OMeas qs cs)); auto. simpl. now rewrite ET.
  - simpl in E. destruct (papply_targets p qs) as [us|] eqn:ET; [|discriminate]. inversion E; subst. exists pi. split; [auto|]. split; [auto|].
    apply (apply_perm_moved p' pi (OReset qs)); auto. simpl. now rewrite ET.
  - simpl ctype in E. cbn [optype_eqb andb] in E.
    replace (optype_eqb gClassicControlled gSWAP) with false in E by reflexivity. cbn [andb] in E.
    destruct (apply_perm p (OClass c o)) as [o'|] eqn:AP; [|discriminate]. inversion E; subst. exists pi. split; [auto|]. split; [auto|].
    eapply apply_perm_moved; eauto.
  - rewrite elide_comp in E. apply op_ok_comp in OK. apply local_comp in L.
    destruct (elide_ops p l) as [[m q]|] eqn:EL; [|discriminate].
    assert (ES : Forall esound l) by (rewrite Forall_forall in *; auto).
    destruct (esound_ops l ES _ _ _ _ A I EL) as (pi' & A' & I' & M).
    exists pi'. destruct m as [|x m].
    + inversion E; subst. split; [auto|]. split; [auto|]. intros b. rewrite run_one, run_comp. apply M.
    + assert (EE : l' = [collapse (OComp cu (x :: m))] /\ p' = q) by (split; congruence). destruct EE as [-> ->].
      split; [auto|]. split; [auto|]. intros b. rewrite !run_one. rewrite collapse_run. rewrite !run_comp. apply M.
Qed.

(** ** Success and the absence of SWAPs *)
Definition keys (p : perm) : list nat := map fst p.
Lemma plookup_some p q : In q (keys p) <-> exists r, plookup p q = Some r.
Proof.
  unfold keys. induction p as [|[a b] p IH]; simpl; [split; [tauto|intros [r H]; discriminate]|].
  destruct (Nat.eqb_spec q a) as [->|N]; [split; eauto|]. rewrite IH. split; [intros [H|H]; [congruence|auto]|auto].
Qed.
Lemma papply_some p q : In q (keys p) -> exists r, papply p q = Some r.
Proof. intros H. apply plookup_some in H. destruct H as [r H]. exists r. rewrite papply_nonnil; auto. intros ->. discriminate. Qed.
Lemma pset_keys p q r x : In x (keys (pset p q r)) <-> x = q \/ In x (keys p).
Proof.
  rewrite !plookup_some. rewrite plookup_pset. destruct (Nat.eqb_spec x q) as [->|N]; [split; eauto|]. split; [auto|intros [H|H]; [congruence|auto]].
Qed.
Lemma apply_perm_some p o : local o -> incl (used o) (keys p) -> exists o', apply_perm p o = Some o'.
Proof.
  induction o as [s|qs cs|qs|c o IH|cu l H] using cop_rect'; intros L U.
  - simpl. unfold papply_targets. destruct (map_opt_some (papply p) (o_tgt s)) as [ts ->].
    { intros x I. apply papply_some. apply U. simpl. apply in_or_app. auto. }
    unfold papply_controls. destruct p as [|x0 p0]; eauto. destruct (map_opt_some (papply_ctl (x0 :: p0)) (o_ctl s)) as [ds ->]; eauto.
    intros k I. unfold papply_ctl. destruct (papply_some (x0 :: p0) (fst k)) as [r ->]; eauto. apply U. simpl. apply in_or_app. right. apply in_map. auto.
  - simpl. unfold papply_targets. destruct (map_opt_some (papply p) qs) as [ts ->]; eauto. intros x I. apply papply_some. apply U. auto.
  - simpl. unfold papply_targets. destruct (map_opt_some (papply p) qs) as [ts ->]; eauto. intros x I. apply papply_some. apply U. auto.
  - assert (X : local o /\ incl (used o) (keys p)) by (simpl in L, U; destruct o; tauto). destruct (IH (proj1 X) (proj2 X)) as [i E].
    simpl in *. destruct o; try tauto; rewrite E; eauto.
  - rewrite apply_perm_comp. apply local_comp in L. destruct (map_opt_some (apply_perm p) l) as [r ->]; eauto.
    intros x I. rewrite Forall_forall in *. apply H; auto. intros q J. apply U. simpl. apply in_flat_map. eauto.
Qed.

Fixpoint plain_swap_free (o : cop) : Prop :=
  match o with
  | OStd s => ~ (o_type s = gSWAP /\ o_ctl s = [])
  | OComp _ l => (fix go l := match l with [] => True | o :: l' => plain_swap_free o /\ go l' end) l
  | _ => True
  end.
Lemma psf_comp cu l : plain_swap_free (OComp cu l) <-> Forall plain_swap_free l.
Proof. simpl. induction l as [|o l IH]; split; intros H; auto; [destruct H; constructor; tauto|inversion H; tauto]. Qed.
Lemma collapse_psf o : plain_swap_free o -> plain_swap_free (collapse o).
Proof.
  induction o as [s|? ?|?|? ? ?|cu l H] using cop_rect'; auto.
  destruct l as [|x [|y l]]; auto. intros P. apply psf_comp in P. inversion P; inversion H; subst.
  destruct x as [?|? ?|?|? ?|cu' l']; try assumption.
  assert (X : plain_swap_free (match collapse (OComp cu' l') with OComp _ _ => OComp cu [OComp cu' l'] | y => y end)).
  { specialize (H6 H2). destruct (collapse (OComp cu' l')); auto. now apply psf_comp. }
  exact X.
Qed.

Definition etotal (o : cop) : Prop := forall p, incl (used o) (keys p) ->
  exists l' p', elide_op p o = Some (l', p') /\ (forall x, In x (keys p') <-> In x (keys p)) /\ Forall plain_swap_free l'.
Lemma etotal_ops l : Forall etotal l -> forall p, incl (flat_map used l) (keys p) ->
  exists l' p', elide_ops p l = Some (l', p') /\ (forall x, In x (keys p') <-> In x (keys p)) /\ Forall plain_swap_free l'.
Proof.
  induction 1 as [|o l H Hl IH]; intros p U; simpl.
  - exists [], p. split; [auto|]. split; [tauto|constructor].
  - destruct (H p) as (a & p1 & E1 & K1 & S1); [intros x I; apply U; simpl; apply in_or_app; auto|].
    destruct (IH p1) as (b & p2 & E2 & K2 & S2); [intros x I; apply K1; apply U; simpl; apply in_or_app; auto|].
    rewrite E1, E2. exists (a ++ b), p2. split; [auto|]. split; [intros x; rewrite K2; apply K1|apply Forall_app; auto].
Qed.
Lemma elide_total o : op_ok o -> local o -> etotal o.
Proof.
  induction o as [s|qs cs|qs|c o IH|cu l H] using cop_rect'; intros OK L p U.
  1-4: rewrite elide_leaf by discriminate.
  - simpl ctype. simpl ccontrols. simpl ctargets.
    destruct (optype_eqb (o_type s) gSWAP && match o_ctl s with [] => true | _ => false end) eqn:T.
    + apply andb_true_iff in T. destruct T as [T C]. apply optype_eqb_eq in T.
      destruct (swap_shape s OK T) as (a & b & TG). rewrite TG.
      destruct (proj1 (plookup_some p a)) as [x EA]; [apply U; simpl; rewrite TG; simpl; auto|].
      destruct (proj1 (plookup_some p b)) as [y EB]; [apply U; simpl; rewrite TG; simpl; auto|].
      rewrite EA, EB. eexists. eexists. split; [reflexivity|]. split; [|constructor].
      intros q. rewrite !pset_keys. split; auto. intros [->|[->|K]]; auto; apply U; simpl; rewrite TG; simpl; auto.
    + destruct (apply_perm_some p (OStd s)) as [o' E]; auto. rewrite E. eexists. eexists. split; [reflexivity|]. split; [tauto|].
      constructor; [|constructor]. simpl in E. destruct (papply_targets p (o_tgt s)) as [ts|]; [|discriminate].
      destruct (papply_controls p (o_ctl s)) as [ds|] eqn:EC; [|discriminate]. inversion E; subst. simpl. intros [X Y]. subst ds.
      rewrite (proj2 (optype_eqb_eq _ _) X) in T. simpl in T. destruct (o_ctl s) as [|k ks]; [discriminate|].
      unfold papply_controls in EC. destruct p as [|x0 p0]; [discriminate|].
      destruct (map_opt (papply_ctl (x0 :: p0)) (k :: ks)) as [[|d ds]|] eqn:EM; try discriminate.
      * simpl in EM. destruct (papply_ctl _ k); [|discriminate]. destruct (map_opt (papply_ctl (x0 :: p0)) ks); discriminate.
      * injection EC as EC. pose proof (proj2 (ctls_of_In d (d :: ds)) (or_introl eq_refl)) as Z. rewrite EC in Z. destruct Z.
  - destruct (apply_perm_some p (OMeas qs cs)) as [o' E]; auto.
    replace (optype_eqb (ctype (OMeas qs cs)) gSWAP) with false by reflexivity. cbn [andb]. rewrite E.
    eexists. eexists. split; [reflexivity|]. split; [tauto|].
    simpl in E. destruct (papply_targets p qs); inversion E; subst. repeat constructor.
  - destruct (apply_perm_some p (OReset qs)) as [o' E]; auto.
    replace (optype_eqb (ctype (OReset qs)) gSWAP) with false by reflexivity. cbn [andb]. rewrite E.
    eexists. eexists. split; [reflexivity|]. split; [tauto|].
    simpl in E. destruct (papply_targets p qs); inversion E; subst. repeat constructor.
  - destruct (apply_perm_some p (OClass c o)) as [o' E]; auto.
    replace (optype_eqb (ctype (OClass c o)) gSWAP) with false by reflexivity. cbn [andb]. rewrite E.
    eexists. eexists. split; [reflexivity|]. split; [tauto|]. constructor; [|constructor].
    simpl in E, L. destruct o; try tauto; destruct (apply_perm p _); inversion E; subst; exact Logic.I.
  - rewrite elide_comp. apply op_ok_comp in OK. apply local_comp in L.
    assert (ES : Forall etotal l) by (rewrite Forall_forall in *; auto).
    destruct (etotal_ops l ES p U) as (m & q & E & K & S). rewrite E. destruct m as [|x m].
    + eexists. eexists. split; [reflexivity|]. auto.
    + eexists. eexists. split; [reflexivity|]. split; [auto|]. constructor; [|constructor]. apply collapse_psf. now apply psf_comp.
Qed.

(** ** The whole pass *)
Lemma fold_pset_lookup {A} (f g : A -> nat) l : forall p x,
  NoDup (map f l) -> plookup (fold_left (fun m y => pset m (f y) (g y)) l p) x =
  match find (fun y => Nat.eqb x (f y)) l with Some y => Some (g y) | None => plookup p x end.
Proof.
  induction l as [|a l IH]; intros p x N; simpl; auto. inversion N; subst. rewrite IH by auto. rewrite plookup_pset.
  destruct (Nat.eqb_spec x (f a)) as [->|NE]; auto.
  destruct (find (fun y => f a =? f y) l) as [y|] eqn:F; auto. exfalso. apply find_some in F. destruct F as [I E].
  apply Nat.eqb_eq in E. apply H1. rewrite E. apply in_map. auto.
Qed.
Lemma plookup_find p x : plookup p x = match find (fun y => Nat.eqb x (fst y)) p with Some y => Some (snd y) | None => None end.
Proof. induction p as [|[a b] p IH]; simpl; auto. destruct (Nat.eqb x a); auto. Qed.

Lemma out_moved p pi out l : agrees pi p -> inj pi -> p <> [] -> NoDup (map fst out) ->
  map_opt (fun x : nat * nat => match plookup p (fst x) with Some r => Some (r, snd x) | None => None end) out = Some l ->
  l = map (fun x => (pi (fst x), snd x)) out.
Proof.
  intros A I NP _. revert l. induction out as [|[q x] out IH]; intros l H; simpl in H; [inversion H; auto|].
  destruct (plookup p q) as [r|] eqn:E; [|discriminate].
  destruct (map_opt _ out) as [m|] eqn:EM; [|discriminate]. inversion H; subst. simpl. f_equal; auto.
  f_equal. symmetry. apply A. rewrite papply_nonnil; auto.
Qed.
Lemma elide_ops_nonnil l : forall p l' p', elide_ops p l = Some (l', p') -> p <> [] -> p' <> [].
Proof.
  assert (O : forall o p l' p', elide_op p o = Some (l', p') -> p <> [] -> p' <> []).
  { induction o as [s|qs cs|qs|c o IH|cu l0 H] using cop_rect'; intros p l' p' E NP.
    1-4: rewrite elide_leaf in E by discriminate;
      destruct (_ && _) eqn:X in E;
      [destruct (ctargets _) as [|a [|b [|? ?]]]; try discriminate; destruct (plookup p a), (plookup p b); try discriminate;
        inversion E; subst; apply pset_nonnil
      |destruct (apply_perm p _); inversion E; subst; auto].
    rewrite elide_comp in E. destruct (elide_ops p l0) as [[m q]|] eqn:EL; [|discriminate].
    assert (q <> []).
    { clear E l' p'. revert p m q EL NP. induction H as [|o l0 Ho Hl IHl]; intros p m q EL NP; simpl in EL; [inversion EL; subst; auto|].
      destruct (elide_op p o) as [[a p1]|] eqn:E1; [|discriminate]. destruct (elide_ops p1 l0) as [[b p2]|] eqn:E2; [|discriminate].
      inversion EL; subst. eapply IHl; eauto. }
    destruct m; inversion E; subst; auto. }
  induction l as [|o l IH]; intros p l' p' E NP; simpl in E; [inversion E; subst; auto|].
  destruct (elide_op p o) as [[a p1]|] eqn:E1; [|discriminate]. destruct (elide_ops p1 l) as [[b p2]|] eqn:E2; [|discriminate].
  inversion E; subst. eapply IH; eauto.
Qed.

(** A total injection extending a partial one. *)
Lemma agrees_exists p : p <> [] -> perm_ok p -> exists pi, agrees pi p /\ inj pi.
Proof.
  intros NP [K V]. exists (fun q => match plookup p q with Some r => r | None => S (max_value p) + q end).
  assert (LE : forall q r, plookup p q = Some r -> r <= max_value p).
  { intros q r H. apply plookup_In in H. clear - H. unfold max_value. induction p as [|[a b] p IH]; simpl in *; [tauto|].
    destruct H as [E|H]; [inversion E; subst; lia|]. specialize (IH H). lia. }
  split.
  - intros q r H. rewrite papply_nonnil in H by auto. now rewrite H.
  - intros x y. destruct (plookup p x) as [r|] eqn:EX, (plookup p y) as [s|] eqn:EY; intros H; subst.
    + pose proof (plookup_pinv _ _ _ (conj K V) EX). pose proof (plookup_pinv _ _ _ (conj K V) EY). congruence.
    + apply LE in EX. lia.
    + apply LE in EY. lia.
    + lia.
Qed.
