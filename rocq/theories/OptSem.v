(** Facts about operations used by the optimisation passes: action of CNOT, SWAP
    and H, and commutation of operations on disjoint qubits. *)
From Coq Require Import Reals Lra List Arith Bool Lia NArith FunctionalExtensionality.
From Verif Require Import Cplx Qsem GateModel GateSpec GateProofs OpProofs GraphModel IRModel IRSpec IRProofs OptModel.
Import ListNotations.
Local Open Scope list_scope.

(** No compound operation directly under a condition. *)
Fixpoint local (o : cop) : Prop :=
  match o with
  | OClass _ o' => match o' with OComp _ _ => False | _ => local o' end
  | OComp _ l => (fix go l := match l with [] => True | o :: l' => local o /\ go l' end) l
  | _ => True
  end.
Lemma local_comp cu l : local (OComp cu l) <-> Forall local l.
Proof. simpl. induction l as [|o l IH]; split; intros H; auto; [destruct H; constructor; tauto|inversion H; tauto]. Qed.

(** An operation of type I without controls. *)
Definition dead (o : cop) : Prop := exists s, o = OStd s /\ o_type s = gI /\ o_ctl s = [].

Lemma semf_I s : o_type s = gI -> semf s = fun psi => psi.
Proof.
  intros T. unfold semf, sem. rewrite T. cbn -[Nat.eqb]. destruct (Nat.eqb (length (o_tgt s)) 1) eqn:L; auto.
  apply functional_extensionality. intros psi. rewrite (capply_meq _ _ mid).
  - apply capply_id.
  - apply Nat.eqb_eq in L. rewrite L. entries1.
Qed.

Lemma run_I s b : o_type s = gI -> run_op (OStd s) b = [b].
Proof. intros T. simpl. rewrite semf_I by auto. destruct b; auto. Qed.
Lemma is_I_run o b : is_I o = true -> run_op o b = [b].
Proof. destruct o; simpl is_I; try discriminate. rewrite optype_eqb_eq. apply run_I. Qed.
Lemma dead_run o b : dead o -> run_op o b = [b].
Proof. intros (s & -> & T & _). now apply run_I. Qed.

(** ** Local operators *)
(** [f] acts on the qubits [Q] only. *)
Definition commutes_with (f : state -> state) (o : cop) : Prop :=
  forall psi m, run_op o (f psi, m) = map (fun b => (f (fst b), snd b)) (run_op o (psi, m)).

Lemma sat_setb cs b q v : (forall c, In c cs -> fst c <> q) -> sat cs (setb b q v) = sat cs b.
Proof.
  unfold sat. induction cs as [|c cs IH]; simpl; intros H; auto.
  rewrite setb_other by (apply H; auto). f_equal. apply IH. auto.
Qed.

Lemma capply_project cs M ts q v psi : ~ In q ts ->
  project q v (capply cs M ts psi) = capply cs M ts (project q v psi).
Proof.
  intros N. apply functional_extensionality. intros b. unfold project, capply, apply.
  destruct (sat cs b).
  - destruct (Bool.eqb (b q) v) eqn:E.
    + apply csum_ext. intros w _. rewrite setl_other by auto. now rewrite E.
    + symmetry. rewrite (csum_ext _ _ (fun _ => C0)); [apply csum_zero; auto|].
      intros w _. rewrite setl_other by auto. rewrite E. ring.
  - reflexivity.
Qed.
Lemma capply_flip cs M ts q psi : ~ In q ts -> (forall c, In c cs -> fst c <> q) ->
  flip q (capply cs M ts psi) = capply cs M ts (flip q psi).
Proof.
  intros N D. apply functional_extensionality. intros b. unfold flip, capply, apply. rewrite sat_setb by auto.
  destruct (sat cs b); auto.
  assert (E : map (setb b q (negb (b q))) ts = map b ts).
  { apply map_ext_in. intros x I. apply setb_other. congruence. }
  rewrite E. apply csum_ext. intros w _. rewrite setl_other by auto. now rewrite setl_setb_comm.
Qed.

Lemma semf_split s : semf s = (fun psi => psi) \/ exists M, semf s = capply (o_ctl s) M (o_tgt s).
Proof.
  unfold semf. destruct (sem s) as [f|] eqn:E; auto. destruct (sem_split _ _ E) as [->|(k & M & _ & _ & ->)]; eauto.
Qed.

Definition apart_q (l m : list nat) : Prop := forall q, In q l -> ~ In q m.

Lemma In_ctl (s : stdop) c : In c (o_ctl s) -> In (fst c) (used (OStd s)).
Proof. intros H. simpl. apply in_or_app. right. apply in_map_iff. eauto. Qed.
Lemma In_tgt (s : stdop) q : In q (o_tgt s) -> In q (used (OStd s)).
Proof. intros H. simpl. apply in_or_app. auto. Qed.

Lemma std_project s q v psi : ~ In q (used (OStd s)) -> project q v (semf s psi) = semf s (project q v psi).
Proof.
  intros N. destruct (semf_split s) as [->|[M ->]]; auto. apply capply_project. intros I. apply N. now apply In_tgt.
Qed.
Lemma std_flip s q psi : ~ In q (used (OStd s)) -> flip q (semf s psi) = semf s (flip q psi).
Proof.
  intros N. destruct (semf_split s) as [->|[M ->]]; auto. apply capply_flip.
  - intros I. apply N. now apply In_tgt.
  - intros c I E. apply N. subst q. now apply In_ctl.
Qed.
Lemma std_std s t psi : apart_q (used (OStd t)) (used (OStd s)) -> semf s (semf t psi) = semf t (semf s psi).
Proof.
  intros D. destruct (semf_split s) as [->|[M ->]]; auto. destruct (semf_split t) as [->|[N ->]]; auto.
  apply capply_comm_disjoint.
  - intros c I J. apply (D (fst c)); [now apply In_tgt|now apply In_ctl].
  - intros c I J. apply (D (fst c)); [now apply In_ctl|now apply In_tgt].
  - intros x I J. apply (D x); now apply In_tgt.
Qed.

Lemma flat_map_map {A B C} (f : A -> B) (g : B -> list C) l : flat_map g (map f l) = flat_map (fun x => g (f x)) l.
Proof. induction l; simpl; congruence. Qed.
Lemma map_flat_map {A B C} (f : B -> C) (g : A -> list B) l : map f (flat_map g l) = flat_map (fun x => map f (g x)) l.
Proof. induction l; simpl; auto. rewrite map_app. congruence. Qed.
Lemma flat_map_ext_in {A B} (f g : A -> list B) l : (forall x, In x l -> f x = g x) -> flat_map f l = flat_map g l.
Proof. induction l; simpl; auto. intros H. rewrite H, IHl by auto. auto. Qed.

Definition pushf (f : state -> state) (b : branch) : branch := (f (fst b), snd b).

Lemma comm_measure s l : apart_q (map fst l) (used (OStd s)) -> forall b,
  measure_all l (pushf (semf s) b) = map (pushf (semf s)) (measure_all l b).
Proof.
  induction l as [|[q c] l IH]; intros D b; simpl; auto.
  assert (N : ~ In q (used (OStd s))) by (apply D; simpl; auto).
  assert (D' : apart_q (map fst l) (used (OStd s))) by (intros x I; apply D; simpl; auto).
  rewrite !app_nil_r, !map_app.
  rewrite !std_project by auto. f_equal; [apply (IH D' (_, _))|apply (IH D' (_, _))].
Qed.
Lemma comm_reset s l : apart_q l (used (OStd s)) -> forall b,
  reset_all l (pushf (semf s) b) = map (pushf (semf s)) (reset_all l b).
Proof.
  induction l as [|q l IH]; intros D b; simpl; auto.
  assert (N : ~ In q (used (OStd s))) by (apply D; simpl; auto).
  assert (D' : apart_q l (used (OStd s))) by (intros x I; apply D; simpl; auto).
  rewrite !app_nil_r, !map_app.
  rewrite !std_project, std_flip by auto. f_equal; [apply (IH D' (_, _))|apply (IH D' (_, _))].
Qed.

Lemma combine_fst {A B} (l : list A) (m : list B) x : In x (map fst (combine l m)) -> In x l.
Proof. intros H. apply in_map_iff in H. destruct H as ((a & b) & <- & H). eapply in_combine_l; eauto. Qed.

Definition commutes1 (s : stdop) (o : cop) : Prop :=
  forall b, run_op o (pushf (semf s) b) = map (pushf (semf s)) (run_op o b).
Lemma comm_list s l : Forall (commutes1 s) l -> forall b, run l (pushf (semf s) b) = map (pushf (semf s)) (run l b).
Proof.
  induction 1 as [|o l H Hl IH]; intros b; simpl; auto.
  rewrite H, flat_map_map, map_flat_map. apply flat_map_ext'. auto.
Qed.

Lemma comm_local s o : local o -> apart_q (used o) (used (OStd s)) -> commutes1 s o.
Proof.
  induction o using cop_rect'; intros L D b.
  - simpl. unfold pushf. simpl. rewrite std_std; auto. intros q I J. apply (D q); auto.
  - simpl. apply comm_measure. intros x I. apply D. simpl. eapply combine_fst; eauto.
  - simpl. apply comm_reset. auto.
  - simpl. destruct (cond_holds c (snd b)); auto.
    destruct o; try (apply IHo; [exact L|exact D]). destruct L.
  - rewrite !run_comp. apply comm_list. apply local_comp in L.
    rewrite Forall_forall in *. intros x I. apply H; auto. intros q J. apply D. simpl. apply in_flat_map. eauto.
Qed.

(** [o] leaves the qubits [Q] alone. *)
Definition clear (Q : list nat) (o : cop) : Prop := dead o \/ (local o /\ apart_q (used o) Q).

Lemma clear_comm Q s o : clear Q o -> incl (used (OStd s)) Q -> commutes1 s o.
Proof.
  intros [H|[L D]] I.
  - intros b. rewrite !dead_run by auto. reflexivity.
  - apply comm_local; auto. intros q A B. apply (D q); auto.
Qed.

Lemma move_back Q s l : Forall (clear Q) l -> incl (used (OStd s)) Q -> same_run (l ++ [OStd s]) (OStd s :: l).
Proof.
  intros H I b. rewrite run_app. simpl run at 3. cbn [run_op flat_map]. rewrite app_nil_r.
  change (semf s (fst b), snd b) with (pushf (semf s) b).
  rewrite (comm_list s l).
  - rewrite (flat_map_ext' _ (fun x => [pushf (semf s) x])).
    + induction (run l b); simpl; congruence.
    + intros x. reflexivity.
  - eapply Forall_impl; [|exact H]. intros o C. eapply clear_comm; eauto.
Qed.

(** Rewriting two operations that are separated by operations elsewhere. *)
Lemma pair_rewrite Q A B x o x' o' :
  Forall (clear Q) B -> incl (used (OStd o)) Q -> incl (used (OStd o')) Q ->
  same_run [x; OStd o] [x'; OStd o'] ->
  same_run (A ++ x :: B ++ [OStd o]) (A ++ x' :: B ++ [OStd o']).
Proof.
  intros H I I' E. apply same_app; [apply same_refl|].
  eapply same_trans; [apply same_cons; apply (move_back Q); auto|].
  eapply same_trans; [|apply same_cons; apply same_sym; apply (move_back Q); auto].
  change (same_run ([x; OStd o] ++ B) ([x'; OStd o'] ++ B)). apply same_app; auto. apply same_refl.
Qed.
Lemma triple_rewrite Q A B D x y o x' y' o' :
  Forall (clear Q) B -> Forall (clear Q) D -> incl (used (OStd o)) Q -> incl (used (OStd o')) Q ->
  incl (used (OStd y)) Q -> incl (used (OStd y')) Q ->
  same_run [x; OStd y; OStd o] [x'; OStd y'; OStd o'] ->
  same_run (A ++ x :: B ++ OStd y :: D ++ [OStd o]) (A ++ x' :: B ++ OStd y' :: D ++ [OStd o']).
Proof.
  intros HB HD I I' J J' E. apply same_app; [apply same_refl|].
  assert (G : forall x y o, incl (used (OStd y)) Q -> incl (used (OStd o)) Q ->
    same_run (x :: B ++ OStd y :: D ++ [OStd o]) ([x; OStd y; OStd o] ++ B ++ D)).
  { clear - HB HD. intros x y o J I. change ([x; OStd y; OStd o] ++ B ++ D) with (x :: (OStd y :: OStd o :: B ++ D)).
    apply same_cons. change (OStd y :: D ++ [OStd o]) with ([OStd y] ++ (D ++ [OStd o])). rewrite app_assoc.
    eapply same_trans; [apply same_app; [apply (move_back Q); auto|apply same_refl]|].
    simpl. apply same_cons. eapply same_trans; [|apply (move_back Q); [apply Forall_app; split|]; eauto].
    rewrite <- app_assoc. apply same_refl. }
  eapply same_trans; [apply G; auto|]. eapply same_trans; [|apply same_sym; apply G; auto].
  apply same_app; auto. apply same_refl.
Qed.

(** ** CNOT and SWAP as maps of basis states *)
Definition cxb (c t : nat) (b : bits) : bits := setb b t (xorb (b c) (b t)).
Definition swb (x y : nat) (b : bits) : bits := setb (setb b x (b y)) y (b x).

Lemma semf_cx o c t : is_cnot (OStd o) = Some (c, t) -> op_ok (OStd o) ->
  c <> t /\ o_tgt o = [t] /\ o_ctl o = [(c, true)] /\ o_type o = gX /\ forall psi b, semf o psi b = psi (cxb c t b).
Proof.
  intros E [W [f F]]. destruct o as [ty ps cs ts]. destruct ty; try discriminate.
  destruct cs as [|[c0 [|]] [|]]; try discriminate; destruct ts as [|t0 ts]; try discriminate.
  inversion E; subst; clear E. destruct ts as [|t1 ts]; [|simpl in F; discriminate].
  assert (N : c <> t). { destruct W as [_ A]. intros ->. apply (A (t, true)); simpl; auto. }
  split; auto. do 3 (split; auto). intros psi b. unfold semf. clear F. cbn.
  unfold capply, sat, cxb. cbn. destruct (b c) eqn:B; cbn.
  - unfold apply. cbn. destruct (b t); cbn; ring_simplify; reflexivity.
  - f_equal. transitivity (setb b t (b t)); [now rewrite setb_id|destruct (b t); reflexivity].
Qed.
Lemma semf_sw o x y : is_swap (OStd o) = Some (x, y) -> op_ok (OStd o) ->
  x <> y /\ o_tgt o = [x; y] /\ o_ctl o = [] /\ o_type o = gSWAP /\ forall psi b, semf o psi b = psi (swb x y b).
Proof.
  intros E [W [f F]]. destruct o as [ty ps cs ts]. destruct ty; try discriminate.
  destruct cs; try discriminate; destruct ts as [|t0 [|t1 ts]]; try discriminate.
  inversion E; subst; clear E. destruct ts as [|t2 ts]; [|simpl in F; discriminate].
  assert (N : x <> y). { destruct W as [A _]. intros ->. inversion A; simpl in *; tauto. }
  split; auto. do 3 (split; auto). intros psi b. unfold semf. clear F. cbn.
  unfold capply, swb. cbn. unfold apply. cbn. rewrite (setb_comm b x y) by auto. destruct (b x), (b y); cbn; ring_simplify; reflexivity.
Qed.

Lemma std_cx_ok ps c t : c <> t -> op_ok (OStd {| o_type := gX; o_par := ps; o_ctl := [(c, true)]; o_tgt := [t] |}).
Proof.
  intros N. split.
  - split; [repeat constructor; simpl; tauto|]. intros k [<-|[]]; simpl. intuition.
  - cbn. eexists. reflexivity.
Qed.
Lemma std_sw_ok ps x y : x <> y -> op_ok (OStd {| o_type := gSWAP; o_par := ps; o_ctl := []; o_tgt := [x; y] |}).
Proof.
  intros N. split.
  - split; [|intros k []]. constructor; [simpl; intuition|repeat constructor; simpl; tauto].
  - cbn. eexists. reflexivity.
Qed.

Ltac bits_eq :=
  let q := fresh "q" in
  apply functional_extensionality; intros q; unfold cxb, swb, setb;
  repeat match goal with
  | |- context [Nat.eqb ?a ?b] => destruct (Nat.eqb_spec a b); subst; try congruence
  end;
  repeat match goal with b : bits |- context [?f ?x] => constr_eq f b; destruct (f x) end; auto.

Lemma cxb_cxb c t b : c <> t -> cxb c t (cxb c t b) = b.
Proof. intros N. bits_eq. Qed.
Lemma swb_swb x y b : x <> y -> swb x y (swb x y b) = b.
Proof. intros N. bits_eq. Qed.
Lemma swb_sym x y b : x <> y -> swb x y b = swb y x b.
Proof. intros N. bits_eq. Qed.
Lemma swb_cx3 x y b : x <> y -> cxb x y (cxb y x (cxb x y b)) = swb x y b.
Proof. intros N. bits_eq. Qed.
Lemma swb_cx2 x y b : x <> y -> cxb x y (cxb y x b) = swb x y (cxb x y b).
Proof. intros N. bits_eq. Qed.
Lemma cx2_swb x y b : x <> y -> cxb y x (cxb x y b) = cxb x y (swb x y b).
Proof. intros N. bits_eq. Qed.
