(** Soundness of decomposeSWAP, replaceMCXWithMCZ and flattenOperations. *)
From Coq Require Import Reals Lra List Arith Bool Lia NArith FunctionalExtensionality.
From Verif Require Import Cplx Qsem GateModel GateSpec GateProofs OpProofs GraphModel IRModel IRSpec IRProofs OptModel OptSem OptDagProofs OptDagProofs2.
Import ListNotations.
Local Open Scope list_scope.

(** ** H and Z *)
Definition mk_z (cs : list ctl) (t : nat) : cop := OStd {| o_type := gZ; o_par := []; o_ctl := cs; o_tgt := [t] |}.

Lemma run_std s b : run_op (OStd s) b = [pushf (semf s) b].
Proof. reflexivity. Qed.
Lemma run_std_cons s l b : run (OStd s :: l) b = run l (pushf (semf s) b).
Proof. simpl. apply app_nil_r. Qed.

Definition hop t := {| o_type := gH; o_par := []; o_ctl := []; o_tgt := [t] |}.
Definition zop cs t := {| o_type := gZ; o_par := []; o_ctl := cs; o_tgt := [t] |}.

Lemma semf_h t psi b : semf (hop t) psi b =
  (RtoC sq2 * psi (setb b t false) + RtoC (if b t then - sq2 else sq2)%R * psi (setb b t true))%C.
Proof. unfold semf. cbn. unfold capply. cbn. unfold apply. cbn. destruct (b t); cbn; apply Ceq; simpl; ring. Qed.
Lemma semf_z cs t psi b : semf (zop cs t) psi b = if sat ((t, true) :: cs) b then (RtoC (-1) * psi b)%C else psi b.
Proof. apply (phase_capply cs (RtoC (-1)) t psi b). Qed.

Lemma hh t psi : semf (hop t) (semf (hop t) psi) = psi.
Proof.
  apply functional_extensionality. intros b. rewrite !semf_h. rewrite !setb_same, !setb_setb.
  assert (Q : (sq2 ^ 2 = 1 / 2)%R) by (simpl; rewrite Rmult_1_r; apply sq2_sq). replace (psi b) with (psi (setb b t (b t))) by (now rewrite setb_id). destruct (b t); apply Ceq; simpl; ring_simplify; rewrite ?Q; lra.
Qed.
Lemma semf_x s t psi b : o_type s = gX -> o_tgt s = [t] -> semf s psi b = if sat (o_ctl s) b then psi (setb b t (negb (b t))) else psi b.
Proof.
  destruct s as [ty ps cs ts]. simpl. intros -> ->. unfold semf. cbn. unfold capply. destruct (sat cs b); auto.
  unfold apply. cbn. destruct (b t); cbn; ring_simplify; reflexivity.
Qed.
Lemma hzh s t psi : o_type s = gX -> o_tgt s = [t] -> apart (o_ctl s) [t] ->
  semf (hop t) (semf (zop (o_ctl s) t) (semf (hop t) psi)) = semf s psi.
Proof.
  intros T G A. apply functional_extensionality. intros b. rewrite (semf_x s t) by auto.
  assert (S : forall v, sat (o_ctl s) (setb b t v) = sat (o_ctl s) b).
  { intros v. apply sat_setb. intros c I E. apply (A c I). simpl. auto. }
  assert (Q : (sq2 ^ 2 = 1 / 2)%R) by (simpl; rewrite Rmult_1_r; apply sq2_sq).
  rewrite semf_h, !semf_z, !semf_h. cbn [sat forallb fst snd]. fold (sat (o_ctl s) (setb b t true)). fold (sat (o_ctl s) (setb b t false)).
  rewrite !S, !setb_same, !setb_setb. cbn [Bool.eqb andb].
  destruct (sat (o_ctl s) b).
  - destruct (b t); cbn [negb]; apply Ceq; simpl; ring_simplify; rewrite ?Q; lra.
  - replace (psi b) with (psi (setb b t (b t))) by (now rewrite setb_id). destruct (b t); cbn [negb]; apply Ceq; simpl; ring_simplify; rewrite ?Q; lra.
Qed.

(** ** replaceMCXWithMCZ *)
Lemma mcx_std s : op_ok (OStd s) -> same_run (mcx_to_mcz (OStd s)) [OStd s].
Proof.
  intros [W [f F]]. cbn [mcx_to_mcz].
  destruct (o_type s) eqn:T; try apply same_refl. destruct (o_ctl s) as [|c cs] eqn:EC; [apply same_refl|].
  destruct (o_tgt s) as [|t ts] eqn:ET; [apply same_refl|].
  assert (ts = []).
  { destruct (sem_cases _ _ F) as [[B _]|[(p & ps & B & _)|[(M & t0 & _ & E & _)|(M & t0 & t1 & SM & _)]]]; try congruence.
    rewrite T in SM. discriminate. }
  subst ts. intros b. unfold mk_h. fold (hop t). fold (zop (c :: cs) t). rewrite !run_std_cons. cbn [run]. unfold pushf. cbn [fst snd].
  rewrite <- EC, (hzh s t); auto. intros k I. rewrite <- ET. apply (proj2 W). auto.
Qed.
Lemma run_flat (f : cop -> list cop) l : Forall (fun o => same_run (f o) [o]) l -> same_run (flat_map f l) l.
Proof.
  induction 1 as [|o l H Hl IH]; [apply same_refl|]. simpl. change (o :: l) with ([o] ++ l). now apply same_app.
Qed.
Lemma same_comp cu l m : same_run l m -> same_run [OComp cu l] [OComp cu m].
Proof. intros H b. rewrite !run_one, !run_comp. apply H. Qed.
Lemma mcx_sound o : op_ok o -> same_run (mcx_to_mcz o) [o].
Proof.
  induction o using cop_rect'; intros OK.
  - now apply mcx_std.
  - apply same_refl.
  - apply same_refl.
  - apply same_refl.
  - apply op_ok_comp in OK. cbn [mcx_to_mcz]. apply same_comp. apply run_flat.
    rewrite Forall_forall in *. intros x I. apply H; auto.
Qed.
Lemma replace_mcx_sound l : ops_ok l -> same_run (replace_mcx l) l.
Proof. intros OK. apply run_flat. eapply Forall_impl; [|exact OK]. apply mcx_sound. Qed.

(** No controlled X is left, except below classical control. *)
Fixpoint no_mcx (o : cop) : Prop :=
  match o with
  | OStd s => o_type s = gX -> o_ctl s = []
  | OComp _ l => (fix go l := match l with [] => True | o :: l' => no_mcx o /\ go l' end) l
  | _ => True
  end.
Lemma no_mcx_comp cu l : no_mcx (OComp cu l) <-> Forall no_mcx l.
Proof. simpl. induction l as [|o l IH]; split; intros H; auto; [destruct H; constructor; tauto|inversion H; tauto]. Qed.
Lemma op_ok_tgt s : op_ok (OStd s) -> o_type s = gX -> exists t, o_tgt s = [t].
Proof.
  intros [_ [f F]] T. destruct (sem_cases _ _ F) as [[B _]|[(p & ps & B & _)|[(M & t0 & _ & E & _)|(M & t0 & t1 & SM & _)]]]; try congruence; eauto.
  rewrite T in SM. discriminate.
Qed.
Lemma mcx_gone o : op_ok o -> Forall no_mcx (mcx_to_mcz o).
Proof.
  induction o as [s|? ?|?|? ? ?|cu l H] using cop_rect'; intros OK; try (repeat constructor; fail).
  - cbn [mcx_to_mcz]. destruct (o_type s) eqn:T; try (constructor; [|constructor]; simpl; congruence).
    destruct (o_ctl s) as [|c cs] eqn:EC; [repeat constructor; simpl; auto|].
    destruct (op_ok_tgt _ OK T) as [t ->]. repeat constructor; simpl; discriminate.
  - apply op_ok_comp in OK. cbn [mcx_to_mcz]. constructor; [|constructor]. apply no_mcx_comp. apply Forall_forall. intros x I.
    apply in_flat_map in I. destruct I as (y & I & X). rewrite Forall_forall in *. specialize (H y I (OK y I)). rewrite Forall_forall in H. auto.
Qed.
Lemma replace_mcx_gone l : ops_ok l -> Forall no_mcx (replace_mcx l).
Proof.
  intros OK. unfold replace_mcx. apply Forall_forall. intros x I. apply in_flat_map in I. destruct I as (y & I & X).
  unfold ops_ok in OK. rewrite Forall_forall in OK. pose proof (mcx_gone y (OK y I)) as G. rewrite Forall_forall in G. auto.
Qed.

(** ** decomposeSWAP *)
Lemma cz_sym a b psi : semf (zop [(a, true)] b) psi = semf (zop [(b, true)] a) psi.
Proof.
  apply functional_extensionality. intros x. rewrite !semf_z. cbn. destruct (x a), (x b); reflexivity.
Qed.
Definition cxop c t := {| o_type := gX; o_par := []; o_ctl := [(c, true)]; o_tgt := [t] |}.
Lemma h_comm a b psi : a <> b -> semf (hop a) (semf (hop b) psi) = semf (hop b) (semf (hop a) psi).
Proof.
  intros N. apply std_std. intros q I J. simpl in *. intuition congruence.
Qed.
(** H on both sides of both qubits reverses a CNOT. *)
Lemma cx_reverse a b psi : a <> b ->
  semf (hop a) (semf (hop b) (semf (cxop a b) (semf (hop a) (semf (hop b) psi)))) = semf (cxop b a) psi.
Proof.
  intros N.
  rewrite <- (hzh (cxop a b) b) by (auto; intros c [<-|[]]; simpl; intuition).
  rewrite <- (hzh (cxop b a) a) by (auto; intros c [<-|[]]; simpl; intuition).
  cbn [o_ctl cxop]. rewrite hh. rewrite (h_comm a b psi) by auto. rewrite hh. now rewrite cz_sym.
Qed.

Lemma swap_parts_sound dir s x y : is_swap (OStd s) = Some (x, y) -> op_ok (OStd s) ->
  same_run (swap_parts dir x y) [OStd s].
Proof.
  intros E OK b. rewrite run_one, (run_sw _ _ _ _ E OK). pose proof (swap_ne _ _ _ E OK) as N.
  assert (X : run [mk_cx x y; mk_cx y x; mk_cx x y] b = [via (swb x y) b]).
  { rewrite (run3 _ _ _ _ _ _ (run_cx (mk_cx x y) x y b eq_refl (std_cx_ok _ _ _ N)) (run_cx (mk_cx y x) y x _ eq_refl (std_cx_ok _ _ _ (not_eq_sym N)))).
    rewrite (run_cx (mk_cx x y) x y _ eq_refl (std_cx_ok _ _ _ N)), !via_via. f_equal. apply via_ext. intros bs. now apply swb_cx3. }
  unfold swap_parts. destruct dir; auto. rewrite <- X. unfold mk_cx, mk_h.
  fold (cxop x y). fold (hop x). fold (hop y). fold (cxop y x). rewrite !run_std_cons. cbn [run]. unfold pushf. cbn [fst snd].
  do 2 f_equal. f_equal. apply cx_reverse. auto.
Qed.

(** No controlled SWAP where the pass finds SWAPs. *)
Definition plain_std (o : cop) : Prop := match o with OStd s => o_type s = gSWAP -> o_ctl s = [] | _ => True end.
Definition plain_swaps (o : cop) : Prop := match o with OComp _ l => Forall plain_std l | _ => plain_std o end.

Lemma swap_shape s : op_ok (OStd s) -> o_type s = gSWAP -> exists a b, o_tgt s = [a; b].
Proof.
  intros [_ [f F]] T. destruct (sem_cases _ _ F) as [[B _]|[(p & ps & B & _)|[(M & t0 & SM & E & _)|(M & t0 & t1 & SM & E & _)]]]; try congruence; eauto.
  rewrite T in SM. discriminate.
Qed.
Definition not_swap (o : cop) : Prop := match o with OStd s => o_type s <> gSWAP | _ => True end.
Definition no_swap (o : cop) : Prop := match o with OComp _ l => Forall not_swap l | _ => not_swap o end.

Lemma decompose_std_sound dir o : op_ok o -> plain_std o -> exists l, decompose_std dir o = Some l /\ same_run l [o] /\ Forall not_swap l.
Proof.
  intros OK P. destruct o as [s|? ?|?|? ?|? ?]; simpl decompose_std; try (eexists; split; [reflexivity|]; split; [apply same_refl|repeat constructor]).
  destruct (optype_eqb (o_type s) gSWAP) eqn:E.
  - apply optype_eqb_eq in E. destruct (swap_shape s OK E) as (a & b & T). rewrite T. eexists. split; [reflexivity|]. split.
    + apply swap_parts_sound; auto. specialize (P E). destruct s as [ty ps cs ts]. simpl in *. subst. reflexivity.
    + unfold swap_parts. destruct dir; repeat constructor; simpl; discriminate.
  - eexists. split; [reflexivity|]. split; [apply same_refl|]. constructor; [|constructor]. simpl. intros X. apply optype_eqb_eq in X. congruence.
Qed.
Lemma concat_sound (f : cop -> option (list cop)) (P : cop -> Prop) l :
  Forall (fun o => exists m, f o = Some m /\ same_run m [o] /\ Forall P m) l ->
  exists m, concat_opt (map f l) = Some m /\ same_run m l /\ Forall P m.
Proof.
  induction 1 as [|o l (m & E & S & N) Hl (r & E' & S' & N')]; simpl; [exists []; split; [auto|split; [apply same_refl|constructor]]|].
  rewrite E, E'. exists (m ++ r). split; auto. split; [|apply Forall_app; auto].
  change (o :: l) with ([o] ++ l). now apply same_app.
Qed.
Lemma decompose_swap_sound dir l : ops_ok l -> Forall plain_swaps l ->
  exists l', decompose_swap dir l = Some l' /\ same_run l' l /\ Forall no_swap l'.
Proof.
  intros OK P. unfold decompose_swap. apply concat_sound. unfold ops_ok in OK. rewrite Forall_forall in *. intros o I.
  specialize (OK o I). specialize (P o I).
  assert (STD : plain_std o -> (forall cu l, o <> OComp cu l) -> exists m, decompose_std dir o = Some m /\ same_run m [o] /\ Forall no_swap m).
  { intros P' NC. destruct (decompose_std_sound dir o OK P') as (m & E & S & N). exists m. split; [auto|]. split; [auto|].
    destruct o as [s|? ?|?|? ?|? ?]; try (inversion E; subst; repeat constructor; fail); [|exfalso; eapply NC; eauto].
    simpl in E. destruct (optype_eqb (o_type s) gSWAP) eqn:Q.
    - destruct (o_tgt s) as [|? [|? ?]]; inversion E; subst. unfold swap_parts. destruct dir; repeat constructor; simpl; discriminate.
    - inversion E; subst. inversion N; subst. constructor; auto. }
  destruct o as [s|? ?|?|? ?|cu lc]; try (apply STD; auto; discriminate).
  apply op_ok_comp in OK. simpl in P.
  destruct (concat_sound (decompose_std dir) not_swap lc) as (m & E & S & N).
  { rewrite Forall_forall in *. intros x J. apply decompose_std_sound; auto. }
  rewrite E. eexists. split; [reflexivity|]. split; [now apply same_comp|]. constructor; [exact N|constructor].
Qed.

(** ** flattenOperations *)
(** Unfolding compound operations, written recursively. *)
Fixpoint unfolded (custom_only : bool) (o : cop) : list cop :=
  match o with
  | OComp cu l => if negb custom_only || cu then flat_map (unfolded custom_only) l else [o]
  | _ => [o]
  end.
Fixpoint nodes (o : cop) : nat :=
  match o with OComp _ l => S (fold_right (fun o n => nodes o + n) 0 l) | _ => 1 end.
Definition nodes_of (l : list cop) : nat := fold_right (fun o n => nodes o + n) 0 l.
Lemma nodes_app l m : nodes_of (l ++ m) = nodes_of l + nodes_of m.
Proof. induction l; simpl; auto. rewrite IHl. lia. Qed.

Lemma flatten_ok co : forall fuel done todo, nodes_of todo < fuel ->
  flatten_loop fuel co done todo = Some (done ++ flat_map (unfolded co) todo).
Proof.
  induction fuel as [|fuel IH]; intros done todo H; [lia|]. destruct todo as [|o r]; simpl; [now rewrite app_nil_r|].
  assert (H0 : nodes o + nodes_of r < S fuel) by exact H.
  assert (N : nodes_of r < fuel) by (assert (1 <= nodes o) by (destruct o; simpl; lia); lia).
  destruct o as [s|? ?|?|? ?|cu l]; try (rewrite IH by exact N; now rewrite <- app_assoc).
  cbn [unfolded]. destruct (negb co || cu).
  - rewrite IH.
    + now rewrite flat_map_app.
    + rewrite nodes_app. change (nodes (OComp cu l)) with (S (nodes_of l)) in H0. lia.
  - rewrite IH by exact N. now rewrite <- app_assoc.
Qed.
Lemma unfolded_run co o : same_run (unfolded co o) [o].
Proof.
  induction o as [s|? ?|?|? ? ?|cu l H] using cop_rect'; try apply same_refl. cbn [unfolded]. destruct (negb co || cu); [|apply same_refl].
  intros b. rewrite run_one, run_comp. apply run_flat. auto.
Qed.
Definition compound (o : cop) : Prop := match o with OComp _ _ => True | _ => False end.
Lemma unfolded_flat o : Forall (fun x => ~ compound x) (unfolded false o).
Proof.
  induction o as [s|? ?|?|? ? ?|cu l H] using cop_rect'; try (constructor; [simpl; tauto|constructor]). cbn [unfolded]. simpl.
  apply Forall_forall. intros x I. apply in_flat_map in I. destruct I as (y & I & X). rewrite Forall_forall in H. specialize (H y I).
  rewrite Forall_forall in H. auto.
Qed.
