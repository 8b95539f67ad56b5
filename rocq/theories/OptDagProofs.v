(** Soundness of the passes that work on the per-qubit stacks of operations. *)
From Coq Require Import Reals Lra List Arith Bool Lia NArith FunctionalExtensionality.
From Verif Require Import Cplx Qsem GateModel GateSpec GateProofs OpProofs GraphModel IRModel IRSpec IRProofs OptModel OptSem.
Import ListNotations.
Local Open Scope list_scope.

(** ** Lists *)
Lemma upd_split {A} (l : list A) p x y : nth_error l p = Some x ->
  l = firstn p l ++ x :: skipn (S p) l /\ upd l p y = firstn p l ++ y :: skipn (S p) l.
Proof.
  revert p. induction l as [|a l IH]; intros [|p] H; try discriminate.
  - inversion H; subst. auto.
  - simpl in H. destruct (IH p H) as [E F]. split; simpl; f_equal; auto.
Qed.
Lemma upd_nth {A} (l : list A) p x q : nth_error (upd l p x) q =
  if Nat.eqb p q then (match nth_error l q with Some _ => Some x | None => None end) else nth_error l q.
Proof.
  revert p q. induction l as [|a l IH]; intros p q; simpl.
  - destruct p, q; simpl; auto. destruct (Nat.eqb p q); auto.
  - destruct p, q; simpl; auto.
Qed.
Lemma upd_len {A} (l : list A) p x : length (upd l p x) = length l.
Proof. revert p. induction l; intros [|p]; simpl; auto. Qed.
Lemma nth_skipn {A} (l : list A) n i : nth_error (skipn n l) i = nth_error l (n + i).
Proof. revert n. induction l; intros [|n]; simpl; auto. destruct i; auto. Qed.
Lemma In_skipn {A} (l : list A) n x : In x (skipn n l) -> exists p, n <= p /\ nth_error l p = Some x.
Proof. intros H. apply In_nth_error in H. destruct H as [i H]. rewrite nth_skipn in H. exists (n + i). split; auto. lia. Qed.
Lemma nth_lt {A} (l : list A) p x : nth_error l p = Some x -> p < length l.
Proof. intros H. apply nth_error_Some. congruence. Qed.
Lemma nth_snoc {A} (l : list A) x p : nth_error (l ++ [x]) p = if Nat.ltb p (length l) then nth_error l p else if Nat.eqb p (length l) then Some x else None.
Proof.
  destruct (Nat.ltb_spec p (length l)); [now apply nth_error_app1|]. rewrite nth_error_app2 by auto.
  destruct (Nat.eqb_spec p (length l)); [subst; now rewrite Nat.sub_diag|].
  destruct (p - length l) as [|k] eqn:E; [lia|]. simpl. destruct k; auto.
Qed.

(** ** The DAG *)
Fixpoint desc (l : list nat) : Prop :=
  match l with [] => True | p :: r => (forall x, In x r -> x < p) /\ desc r end.

Fixpoint asc (l : list nat) : Prop := match l with [] => True | p :: r => (forall x, In x r -> p < x) /\ asc r end.
Lemma ins_nat_asc x l : asc l -> asc (ins_nat x l).
Proof.
  induction l as [|y l IH]; simpl; [intros _; split; auto; intros z []|]. intros [A B].
  destruct (Nat.ltb_spec x y); simpl.
  - split; auto. intros z [<-|I]; auto. specialize (A _ I). lia.
  - destruct (Nat.eqb_spec x y); simpl; auto. split; auto.
    intros z I. apply ins_nat_In in I. destruct I as [->|I]; [lia|auto].
Qed.
Lemma asc_NoDup l : asc l -> NoDup l.
Proof.
  induction l as [|x l IH]; simpl; constructor; [|tauto]. intros I. destruct H as [A _]. specialize (A _ I). lia.
Qed.
Lemma set_of_NoDup l : NoDup (set_of l).
Proof.
  apply asc_NoDup. assert (G : forall l acc, asc acc -> asc (fold_left (fun s x => ins_nat x s) l acc)).
  { induction l0; simpl; auto. intros acc H. apply IHl0. now apply ins_nat_asc. }
  apply G. simpl. auto.
Qed.

Lemma dadd_fold d p l : NoDup l -> forall q, fold_left (fun d q => dpush d q p) l d q = if memn q l then p :: d q else d q.
Proof.
  revert d. induction l as [|x l IH]; intros d ND q; simpl; auto. inversion ND; subst.
  rewrite IH by auto. unfold dpush. change (memn q (x :: l)) with (Nat.eqb q x || memn q l). destruct (Nat.eqb_spec q x); subst; simpl.
  - destruct (memn x l) eqn:M; auto. apply memn_In in M. tauto.
  - auto.
Qed.
Lemma dadd_spec d o p q : dadd d o p q = if memn q (used o) then p :: d q else d q.
Proof.
  unfold dadd. rewrite dadd_fold by apply set_of_NoDup.
  assert (E : memn q (set_of (used o)) = memn q (used o)).
  { apply eq_true_iff_eq. rewrite !memn_In. apply set_of_In. }
  now rewrite E.
Qed.

Record Inv (s : pstate) : Prop := {
  i_in : forall q p, In p (snd s q) -> exists o, nth_error (fst s) p = Some o /\ In q (used o);
  i_all : forall p o q, nth_error (fst s) p = Some o -> In q (used o) -> In p (snd s q) \/ dead o;
  i_desc : forall q, desc (snd s q);
  i_ok : Forall (fun o => (op_ok o /\ local o) \/ dead o) (fst s)
}.

Lemma dead_local o : dead o -> local o.
Proof. intros (s & -> & _). simpl. auto. Qed.

Lemma inv_nil : Inv ([], fun _ => []).
Proof. split; simpl; intros; try tauto; auto. destruct p; discriminate. Qed.

Lemma inv_top done d q p r p' o : Inv (done, d) -> d q = p :: r -> nth_error done p' = Some o -> In q (used o) -> p < p' -> dead o.
Proof.
  intros I E H U L. destruct (i_all _ I p' o q H U) as [K|K]; auto. simpl in K. rewrite E in K.
  pose proof (i_desc _ I q) as D. simpl in D. rewrite E in D. destruct D as [D _]. destruct K as [->|K]; [lia|]. specialize (D _ K). lia.
Qed.
Lemma inv_second done d q p pp r p' o : Inv (done, d) -> d q = p :: pp :: r -> nth_error done p' = Some o -> In q (used o) ->
  pp < p' -> p' <> p -> dead o.
Proof.
  intros I E H U L N. destruct (i_all _ I p' o q H U) as [K|K]; auto. simpl in K. rewrite E in K.
  pose proof (i_desc _ I q) as D. simpl in D. rewrite E in D. destruct D as [D1 [D2 _]].
  destruct K as [->|[->|K]]; try lia. specialize (D2 _ K). lia.
Qed.
Lemma inv_use done d q p r : Inv (done, d) -> d q = p :: r -> exists o, nth_error done p = Some o /\ In q (used o).
Proof. intros I E. apply (i_in _ I q p). simpl. rewrite E. simpl. auto. Qed.

Lemma inv_keep s o : Inv s -> op_ok o -> local o -> Inv (keep s o).
Proof.
  destruct s as [done d]. intros I OK L. unfold keep. split; simpl.
  - intros q p H. rewrite dadd_spec in H. rewrite nth_snoc.
    assert (K : In p (d q) -> exists o0, (if p <? length done then nth_error done p else if p =? length done then Some o else None) = Some o0 /\ In q (used o0)).
    { intros H'. destruct (i_in _ I q p H') as (o0 & E & U). simpl in E. exists o0. pose proof (nth_lt _ _ _ E) as T.
      apply Nat.ltb_lt in T. rewrite T. auto. }
    destruct (memn q (used o)) eqn:M; auto. destruct H as [<-|H]; auto.
    rewrite Nat.ltb_irrefl, Nat.eqb_refl. exists o. split; auto. now apply memn_In.
  - intros p o0 q H U. rewrite nth_snoc in H. rewrite dadd_spec. destruct (Nat.ltb_spec p (length done)).
    + destruct (i_all _ I p o0 q H U); auto. left. destruct (memn q (used o)); simpl; auto.
    + destruct (Nat.eqb_spec p (length done)); [|discriminate]. inversion H; subst. left.
      apply memn_In in U. rewrite U. simpl. auto.
  - intros q. rewrite dadd_spec. pose proof (i_desc _ I q) as D. simpl in D. destruct (memn q (used o)); auto. split; auto.
    intros x H. destruct (i_in _ I q x H) as (o0 & E & _). eapply nth_lt; eauto.
  - apply Forall_app. split; [apply (i_ok _ I)|]. constructor; auto.
Qed.

Lemma inv_add_dead done d o : Inv (done, d) -> dead o -> Inv (done ++ [o], d).
Proof.
  intros I D. split; simpl.
  - intros q p H. destruct (i_in _ I q p H) as (o0 & E & U). simpl in E. exists o0. split; auto.
    rewrite nth_error_app1; auto. eapply nth_lt; eauto.
  - intros p o0 q H U. rewrite nth_snoc in H. destruct (Nat.ltb_spec p (length done)); [apply (i_all _ I p o0 q H U)|].
    destruct (Nat.eqb_spec p (length done)); [|discriminate]. inversion H; subst. auto.
  - apply (i_desc _ I).
  - apply Forall_app. split; [apply (i_ok _ I)|]. constructor; auto.
Qed.

Lemma Forall_upd {A} (P : A -> Prop) l p x : Forall P l -> P x -> Forall P (upd l p x).
Proof. intros H. revert p. induction H; intros [|p] X; simpl; constructor; auto. Qed.

Lemma inv_rewrite done d p x x' : Inv (done, d) -> nth_error done p = Some x -> ~ dead x ->
  (forall q, In q (used x) <-> In q (used x')) -> op_ok x' -> local x' -> Inv (upd done p x', d).
Proof.
  intros I E ND U OK L. split; simpl.
  - intros q r H. destruct (i_in _ I q r H) as (o & F & W). simpl in F. rewrite upd_nth. destruct (Nat.eqb_spec p r).
    + subst. rewrite F. exists x'. split; auto. apply U. congruence.
    + eauto.
  - intros r o q H W. rewrite upd_nth in H. destruct (Nat.eqb_spec p r).
    + subst. rewrite E in H. inversion H; subst. left. destruct (i_all _ I r x q E); auto; [now apply U|contradiction].
    + apply (i_all _ I r o q H W).
  - apply (i_desc _ I).
  - apply Forall_upd; [apply (i_ok _ I)|auto].
Qed.

Lemma desc_tl l : desc l -> desc (tl l).
Proof. destruct l; simpl; tauto. Qed.

Lemma inv_kill done d p x x' a b ra rb : Inv (done, d) -> nth_error done p = Some x -> a <> b ->
  (forall q, In q (used x) <-> q = a \/ q = b) -> d a = p :: ra -> d b = p :: rb -> dead x' ->
  Inv (upd done p x', dpop (dpop d a) b).
Proof.
  intros I E N U DA DB D.
  assert (P : forall q, dpop (dpop d a) b q = if Nat.eqb q a || Nat.eqb q b then tl (d q) else d q).
  { intros q. unfold dpop. destruct (Nat.eqb_spec q b), (Nat.eqb_spec q a); subst; simpl; auto. congruence. }
  assert (SUB : forall q r, In r (dpop (dpop d a) b q) -> In r (d q)).
  { intros q r. rewrite P. destruct (Nat.eqb q a || Nat.eqb q b); auto. destruct (d q); simpl; auto. }
  assert (NP : forall q, In p (dpop (dpop d a) b q) -> False).
  { intros q H. destruct (i_in _ I q p (SUB _ _ H)) as (o & F & W). simpl in F. rewrite E in F. inversion F; subst o.
    apply U in W. rewrite P in H. destruct W as [->| ->].
    - rewrite Nat.eqb_refl in H. simpl in H. rewrite DA in H. simpl in H. pose proof (i_desc _ I a) as G. simpl in G. rewrite DA in G.
      destruct G as [G _]. specialize (G _ H). lia.
    - rewrite Nat.eqb_refl, orb_true_r in H. rewrite DB in H. simpl in H. pose proof (i_desc _ I b) as G. simpl in G. rewrite DB in G.
      destruct G as [G _]. specialize (G _ H). lia. }
  split; cbn [fst snd].
  - intros q r H. destruct (i_in _ I q r (SUB _ _ H)) as (o & F & W). simpl in F. rewrite upd_nth. destruct (Nat.eqb_spec p r).
    + subst. exfalso. eauto.
    + eauto.
  - intros r o q H W. rewrite upd_nth in H. destruct (Nat.eqb_spec p r).
    + subst. rewrite E in H. inversion H; subst. auto.
    + destruct (i_all _ I r o q H W) as [K|K]; auto. simpl in K. left. rewrite P.
      destruct (Nat.eqb_spec q a); simpl; [subst; rewrite DA in *; simpl in *; intuition|].
      destruct (Nat.eqb_spec q b); simpl; auto. subst. rewrite DB in *; simpl in *; intuition.
  - intros q. rewrite P. pose proof (i_desc _ I q) as G. destruct (Nat.eqb q a || Nat.eqb q b); auto. now apply desc_tl.
  - apply Forall_upd; [apply (i_ok _ I)|auto].
Qed.

(** Operations behind the top of the stacks of all qubits in [Q]. *)
Lemma clear_of (Q : list nat) o : local o -> (forall q, In q Q -> In q (used o) -> dead o) -> clear Q o.
Proof.
  intros L H. destruct (existsb (fun q => memn q (used o)) Q) eqn:X.
  - apply existsb_exists in X. destruct X as (q & I & M). left. apply (H q); auto. now apply memn_In.
  - right. split; auto. intros q U I. rewrite (proj2 (existsb_exists _ Q)) in X; [discriminate|].
    exists q. split; auto. now apply memn_In.
Qed.
Lemma inv_local done d p o : Inv (done, d) -> nth_error done p = Some o -> local o.
Proof.
  intros I H. pose proof (i_ok _ I) as F. rewrite Forall_forall in F. destruct (F o) as [[_ ?]|?]; auto.
  - simpl. eapply nth_error_In; eauto.
  - now apply dead_local.
Qed.
Lemma inv_okop done d p o : Inv (done, d) -> nth_error done p = Some o -> ~ dead o -> op_ok o.
Proof.
  intros I H N. pose proof (i_ok _ I) as F. rewrite Forall_forall in F. destruct (F o) as [[? _]|?]; auto; [|tauto].
  simpl. eapply nth_error_In; eauto.
Qed.

Lemma clear_tail done d p a b ra rb : Inv (done, d) -> d a = p :: ra -> d b = p :: rb ->
  Forall (clear [a; b]) (skipn (S p) done).
Proof.
  intros I DA DB. apply Forall_forall. intros o H. apply In_skipn in H. destruct H as (p' & L & E).
  apply clear_of; [eapply inv_local; eauto|]. intros q [<-|[<-|[]]] U; [apply (inv_top done d a p ra p' o)|apply (inv_top done d b p rb p' o)]; auto.
Qed.

Lemma cnot_inv o c t : is_cnot o = Some (c, t) -> exists s, o = OStd s.
Proof. destruct o; try discriminate. eauto. Qed.
Lemma swap_inv o a b : is_swap o = Some (a, b) -> exists s, o = OStd s.
Proof. destruct o; try discriminate. eauto. Qed.
Lemma cnot_not_dead o c t : is_cnot o = Some (c, t) -> ~ dead o.
Proof. intros E (s & -> & T & _). destruct s as [ty ps cs ts]. simpl in T. subst ty. discriminate. Qed.
Lemma swap_not_dead o c t : is_swap o = Some (c, t) -> ~ dead o.
Proof. intros E (s & -> & T & _). destruct s as [ty ps cs ts]. simpl in T. subst ty. discriminate. Qed.
Lemma cnot_used o c t : is_cnot o = Some (c, t) -> op_ok o -> forall q, In q (used o) <-> q = c \/ q = t.
Proof.
  intros E OK q. destruct (cnot_inv _ _ _ E) as (s & ->). destruct (semf_cx s c t E OK) as (_ & T & C & _).
  simpl. rewrite T, C. simpl. intuition.
Qed.
Lemma swap_used o c t : is_swap o = Some (c, t) -> op_ok o -> forall q, In q (used o) <-> q = c \/ q = t.
Proof.
  intros E OK q. destruct (swap_inv _ _ _ E) as (s & ->). destruct (semf_sw s c t E OK) as (_ & T & C & _).
  simpl. rewrite T, C. simpl. intuition.
Qed.
Lemma cnot_ne o c t : is_cnot o = Some (c, t) -> op_ok o -> c <> t.
Proof. intros E OK. destruct (cnot_inv _ _ _ E) as (s & ->). apply (semf_cx s c t E OK). Qed.
Lemma swap_ne o c t : is_swap o = Some (c, t) -> op_ok o -> c <> t.
Proof. intros E OK. destruct (swap_inv _ _ _ E) as (s & ->). apply (semf_sw s c t E OK). Qed.
Lemma set_I_dead s : dead (set_I (OStd s)).
Proof. simpl. eexists. split; [reflexivity|]. auto. Qed.

(** Running a CNOT or SWAP. *)
Definition via (f : bits -> bits) (b : branch) : branch := ((fun x => fst b (f x)), snd b).
Lemma run_cx o c t b : is_cnot o = Some (c, t) -> op_ok o -> run_op o b = [via (cxb c t) b].
Proof.
  intros E OK. destruct (cnot_inv _ _ _ E) as (s & ->). destruct (semf_cx s c t E OK) as (_ & _ & _ & _ & F).
  simpl. unfold via. do 2 f_equal. apply functional_extensionality. auto.
Qed.
Lemma run_sw o c t b : is_swap o = Some (c, t) -> op_ok o -> run_op o b = [via (swb c t) b].
Proof.
  intros E OK. destruct (swap_inv _ _ _ E) as (s & ->). destruct (semf_sw s c t E OK) as (_ & _ & _ & _ & F).
  simpl. unfold via. do 2 f_equal. apply functional_extensionality. auto.
Qed.
Lemma via_via f g b : via f (via g b) = via (fun x => g (f x)) b.
Proof. reflexivity. Qed.
Lemma via_ext f g b : (forall x, f x = g x) -> via f b = via g b.
Proof. intros H. unfold via. f_equal. apply functional_extensionality. intros x. now rewrite H. Qed.
Lemma via_id b : via (fun x => x) b = b.
Proof. destruct b; reflexivity. Qed.

Lemma run2 x y b bx : run_op x b = [bx] -> run [x; y] b = run_op y bx.
Proof. intros E. cbn [run]. rewrite E. simpl. rewrite app_nil_r. apply flat_map_one. Qed.
Lemma run3 x y z b bx c : run_op x b = [bx] -> run_op y bx = [c] -> run [x; y; z] b = run_op z c.
Proof. intros E F. cbn [run]. rewrite E. simpl. rewrite app_nil_r, F. simpl. rewrite app_nil_r. apply flat_map_one. Qed.

Lemma sorted2_In a b q : In q (sorted2 a b) <-> q = a \/ q = b.
Proof. unfold sorted2. destruct (Nat.ltb b a); simpl; intuition. Qed.
Lemma sorted2_swap a b : a <> b -> exists x y, sorted2 a b = [x; y] /\ x <> y /\ forall bs, swb x y bs = swb a b bs.
Proof.
  intros N. unfold sorted2. destruct (Nat.ltb b a).
  - exists b, a. split; auto. split; auto. intros. apply swb_sym. auto.
  - exists a, b. auto.
Qed.

(** ** removeIdentities *)
Lemma filter_I l : same_run (filter (fun x => negb (is_I x)) l) l.
Proof.
  induction l as [|o l IH]; simpl; [apply same_refl|]. destruct (is_I o) eqn:E; simpl.
  - intros b. rewrite IH. simpl. rewrite is_I_run by auto. simpl. now rewrite app_nil_r.
  - now apply same_cons.
Qed.
Lemma remove_identities_sound l : same_run (remove_identities l) l.
Proof.
  unfold remove_identities. induction l as [|o l IH]; simpl; [apply same_refl|].
  destruct (is_I o) eqn:E.
  - intros b. rewrite IH. simpl. rewrite is_I_run by auto. simpl. now rewrite app_nil_r.
  - destruct o; try (now apply same_cons).
    pose proof (filter_I l0) as F.
    assert (G : forall X, same_run X l0 -> same_run (X ++ remove_ops is_I l) (OComp custom l0 :: l)).
    { intros X HX b. rewrite run_app, HX. change (run (OComp custom l0 :: l) b) with (flat_map (run l) (run_op (OComp custom l0) b)).
      rewrite run_comp. apply flat_map_ext'. auto. }
    destruct (filter (fun x : cop => negb (is_I x)) l0) as [|x [|y r]].
    + apply (G [] F).
    + apply (G [x] F).
    + intros b. specialize (G _ F b). rewrite <- G. rewrite run_app.
      change (run (OComp custom (x :: y :: r) :: remove_ops is_I l) b) with
        (flat_map (run (remove_ops is_I l)) (run_op (OComp custom (x :: y :: r)) b)).
      now rewrite run_comp.
Qed.

(** ** A step of a pass *)
Definition good (l : list cop) (s : pstate) : Prop := Inv s /\ same_run (fst s) l.
Lemma good_keep l s o : good l s -> op_ok o -> local o -> good (l ++ [o]) (keep s o).
Proof.
  intros [I S] OK L. split; [now apply inv_keep|]. simpl. apply same_app; auto. apply same_refl.
Qed.

(** Rewriting the operation on top of the stacks of [a] and [b] together with
    the new operation. *)
Lemma good_pair l done d p x o x' o' a b ra rb :
  good l (done, d) -> nth_error done p = Some x -> d a = p :: ra -> d b = p :: rb ->
  incl (used (OStd o)) [a; b] -> incl (used (OStd o')) [a; b] ->
  same_run [x; OStd o] [x'; OStd o'] ->
  same_run (upd done p x' ++ [OStd o']) (l ++ [OStd o]).
Proof.
  intros [I S] E DA DB J J' R. destruct (upd_split done p x x' E) as [E1 E2].
  eapply same_trans; [|apply same_app; [exact S|apply same_refl]]. simpl fst.
  rewrite E2. rewrite E1 at 3. rewrite <- !app_assoc. simpl. apply same_sym.
  eapply pair_rewrite; eauto. eapply clear_tail; eauto.
Qed.

Lemma dead_pair x y o o' : dead x -> dead y -> (forall b, run [o; o'] b = [b]) -> same_run [o; o'] [x; y].
Proof.
  intros X Y H b. rewrite H. cbn [run]. rewrite dead_run by auto. simpl. rewrite dead_run by auto. reflexivity.
Qed.

Lemma swap_step_good l s o : good l s -> op_ok o -> local o -> good (l ++ [o]) (swap_step s o).
Proof.
  destruct s as [done d]. intros G OK L. pose proof (good_keep _ _ _ G OK L) as K. unfold swap_step.
  destruct (is_cnot o) as [[c t]|] eqn:EO; auto.
  destruct (d c) as [|pC rC] eqn:DC; auto. destruct (d t) as [|pT rT] eqn:DT; auto.
  destruct (nth_error done pC) as [oC|] eqn:NC; auto. destruct (nth_error done pT) as [oT|] eqn:NT; auto.
  destruct (is_cnot oC) as [[cC tC]|] eqn:EC; auto. destruct (is_cnot oT) as [[cT tT]|] eqn:ET; auto.
  destruct (Nat.eqb_spec cC cT) as [->|]; auto. destruct (Nat.eqb_spec tC tT) as [->|]; auto. cbn [negb orb].
  destruct G as [I S].
  pose proof (inv_okop _ _ _ _ I NC (cnot_not_dead _ _ _ EC)) as OKC. pose proof (inv_okop _ _ _ _ I NT (cnot_not_dead _ _ _ ET)) as OKT.
  pose proof (cnot_used _ _ _ EC OKC) as UC. pose proof (cnot_used _ _ _ ET OKT) as UT.
  pose proof (cnot_ne _ _ _ EO OK) as NE.
  assert (SAME : (c = cT /\ t = tT) \/ (c = tT /\ t = cT) -> pC = pT).
  { intros Q.
    assert (A : In pC (d t)).
    { destruct (i_all _ I pC oC t NC) as [A|A]; auto; [apply UC; lia|]. destruct (cnot_not_dead _ _ _ EC A). }
    assert (B : In pT (d c)).
    { destruct (i_all _ I pT oT c NT) as [B|B]; auto; [apply UT; lia|]. destruct (cnot_not_dead _ _ _ ET B). }
    pose proof (i_desc _ I c) as D1. pose proof (i_desc _ I t) as D2. simpl in D1, D2. rewrite DC in *. rewrite DT in *.
    destruct D1 as [D1 _], D2 as [D2 _]. destruct A as [->|A]; auto. destruct B as [->|B]; auto.
    specialize (D1 _ B). specialize (D2 _ A). lia. }
  destruct (cnot_inv _ _ _ EO) as (so & ->). destruct (cnot_inv _ _ _ EC) as (sC & ->).
  destruct (semf_cx so c t EO OK) as (_ & OT & OC & OTY & _).
  assert (J : incl (used (OStd so)) [c; t]) by (intros q; simpl; rewrite OT, OC; simpl; intuition).
  destruct (Nat.eqb_spec c cT) as [E1|], (Nat.eqb_spec t tT) as [E2|]; cbn [andb].
  - (* elimination *)
    subst cT tT. assert (pC = pT) as <- by auto.
    assert (UI : incl (used (set_I (OStd so))) [c; t]) by (intros q; simpl; rewrite OT; simpl; intuition).
    split.
    + apply inv_add_dead; [|apply set_I_dead]. apply (inv_kill done d pC (OStd sC) _ c t rC rT); auto; try apply set_I_dead.
    + simpl fst. eapply (good_pair l done d pC (OStd sC) so (set_I (OStd sC)) _ c t); try eassumption; [split; auto|].
      apply (dead_pair _ _ _ _ (set_I_dead sC) (set_I_dead so)).
      intros b. rewrite (run2 _ _ _ _ (run_cx _ _ _ _ EC OKC)), (run_cx _ _ _ _ EO OK), via_via.
      f_equal. rewrite (via_ext _ (fun x => x)) by (intros; apply cxb_cxb; auto). apply via_id.
  - pose proof (cnot_ne _ _ _ ET OKT). destruct (Nat.eqb_spec c tT); [lia|]. exact K.
  - pose proof (cnot_ne _ _ _ ET OKT). destruct (Nat.eqb_spec t cT); [lia|]. rewrite andb_false_r. exact K.
  - destruct (Nat.eqb_spec c tT) as [E1|]; [|exact K]. destruct (Nat.eqb_spec t cT) as [E2|]; [|exact K]. cbn [andb].
    subst cT tT. assert (pC = pT) as <- by auto.
    set (oC' := set_gate (OStd sC) gSWAP [] (sorted2 c t)). set (o' := set_gate (OStd so) gX [(t, true)] [c]).
    destruct (sorted2_swap c t NE) as (x & y & SW & NXY & SB).
    assert (OK' : op_ok o') by (apply std_cx_ok; auto).
    assert (EO' : is_cnot o' = Some (t, c)) by reflexivity.
    assert (OKC' : op_ok oC') by (unfold oC'; simpl set_gate; rewrite SW; apply std_sw_ok; auto).
    assert (EC' : is_swap oC' = Some (x, y)) by (unfold oC'; simpl; rewrite SW; reflexivity).
    assert (UC' : forall q, In q (used oC') <-> q = c \/ q = t).
    { intros q. unfold oC'. simpl. rewrite app_nil_r. apply sorted2_In. }
    assert (DD : dadd (dpop (dpop d c) t) oC' pC = d).
    { apply functional_extensionality. intros q. rewrite dadd_spec. unfold dpop.
      destruct (memn q (used oC')) eqn:M.
      - apply memn_In, UC' in M. destruct M as [->| ->].
        + destruct (Nat.eqb_spec c t); [congruence|]. rewrite Nat.eqb_refl, DC. reflexivity.
        + rewrite Nat.eqb_refl. destruct (Nat.eqb_spec t c); [congruence|]. rewrite DT. reflexivity.
      - assert (q <> c /\ q <> t) as [Q1 Q2].
        { split; intros ->; rewrite (proj2 (memn_In _ _)) in M; try discriminate; apply UC'; auto. }
        destruct (Nat.eqb_spec q t); [congruence|]. destruct (Nat.eqb_spec q c); [congruence|]. reflexivity. }
    rewrite DD. split.
    + replace (dadd d o' (length done)) with (dadd d o' (length (upd done pC oC'))) by now rewrite upd_len.
      change (Inv (keep (upd done pC oC', d) o')). apply inv_keep; [|exact OK'|exact Logic.I].
      apply (inv_rewrite done d pC (OStd sC)); [exact I|exact NC|exact (cnot_not_dead _ _ _ EC)| |exact OKC'|exact Logic.I].
      intros q. rewrite UC, UC'. tauto.
    + simpl fst. eapply (good_pair l done d pC (OStd sC) so oC' _ c t); try eassumption; [split; auto| |].
      * intros q. simpl. intuition.
      * intros b. rewrite (run2 _ _ _ _ (run_cx _ _ _ _ EC OKC)), (run_cx _ _ _ _ EO OK).
        fold o'. change (OStd {| o_type := gX; o_par := o_par so; o_ctl := [(t, true)]; o_tgt := [c] |}) with o'.
        rewrite (run2 _ _ _ _ (run_sw _ _ _ _ EC' OKC')), (run_cx _ _ _ _ EO' OK'), !via_via.
        f_equal. apply via_ext. intros bs. rewrite SB. rewrite (swb_sym c t) by auto. rewrite <- swb_cx2 by auto. reflexivity.
Qed.
