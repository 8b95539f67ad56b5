(* Standard operations and what is read back for them. *)
From Coq Require Import Reals ZArith NArith Bool List String Ascii Arith Lia Lra FunctionalExtensionality.
From Verif Require Import Cplx Qsem GateModel GateSpec GateProofs IRModel IRSpec IRProofs QasmEnvModel QasmConstModel QasmIfModel QasmGateModel QasmGateSpec QasmGateProofs
  AlgoModel AlgoBaseProofs AlgoGroverProofs ExportModel ExportSpec ExportRegProofs ExportGateProofs ExportCallProofs.
Import ListNotations.
Local Open Scope nat_scope.

(* ---- negative controls ---- *)
Lemma existsb_mem q l : existsb (Nat.eqb q) l = true <-> In q l.
Proof. rewrite existsb_exists. split; [intros (y & I & E); apply Nat.eqb_eq in E; now subst|intros I; exists q; split; auto; apply Nat.eqb_refl]. Qed.
Lemma existsb_out q l : ~ In q l -> existsb (Nat.eqb q) l = false.
Proof. intros NI. apply not_true_is_false. intros E. apply existsb_mem in E. auto. Qed.
Lemma flipl_flipl l b : flipl l (flipl l b) = b.
Proof. apply functional_extensionality. intros q. unfold flipl. destruct (existsb _ _); auto. apply negb_involutive. Qed.
Lemma flipl_setl l b ts v : (forall x, In x ts -> ~ In x l) -> setl (flipl l b) ts v = flipl l (setl b ts v).
Proof.
  revert v. induction ts as [|t ts IH]; intros v D; destruct v as [|w v]; try reflexivity. cbn [setl]. rewrite IH by (intros; apply D; now right).
  apply functional_extensionality. intros q. unfold setb, flipl. destruct (Nat.eqb_spec q t) as [->|N]; auto. rewrite existsb_out; auto. apply D. now left.
Qed.
Lemma flipl_apply l M ts psi b : (forall x, In x ts -> ~ In x l) -> apply M ts (fun b => psi (flipl l b)) (flipl l b) = apply M ts psi b.
Proof.
  intros D. unfold apply. apply csum_ext. intros v _. rewrite flipl_setl, flipl_flipl by auto. f_equal. f_equal. apply map_ext_in. intros x I. unfold flipl. now rewrite existsb_out by auto.
Qed.
Definition negs (l : list ctl) : list nat := map fst (filter (fun c => negb (snd c)) l).
Lemma negs_in l q : In q (negs l) <-> In (q, false) l.
Proof.
  unfold negs. rewrite in_map_iff. split.
  - intros ([q' v] & E & I). apply filter_In in I. cbn in *. subst. destruct I as [I E]. now destruct v.
  - intros I. exists (q, false). split; auto. apply filter_In. auto.
Qed.
Lemma negs_nodup l : NoDup (map fst l) -> NoDup (negs l).
Proof.
  unfold negs. induction l as [|[q v] l IH]; cbn; intros ND; [constructor|]. inversion ND; subst. destruct v; cbn; auto. constructor; auto.
  intros I. apply H1. apply in_map_iff in I. destruct I as (c & E & I). apply filter_In in I. apply in_map_iff. exists c. tauto.
Qed.
Lemma key_unique (l : list ctl) q v w : NoDup (map fst l) -> In (q, v) l -> In (q, w) l -> v = w.
Proof.
  induction l as [|[a x] l IH]; cbn; [tauto|]. intros ND [E|I] [E'|I']; inversion ND; subst.
  - congruence.
  - injection E as -> ->. exfalso. apply H1, in_map_iff. now exists (q, w).
  - injection E' as -> ->. exfalso. apply H1, in_map_iff. now exists (q, v).
  - eauto.
Qed.
Lemma sat_flipl l b : NoDup (map fst l) -> sat (positive l) (flipl (negs l) b) = sat l b.
Proof.
  intros ND. unfold sat, positive. assert (G : forall m, incl m l -> forallb (fun c => Bool.eqb (flipl (negs l) b (fst c)) (snd c)) (map (fun c : ctl => (fst c, true)) m) = forallb (fun c => Bool.eqb (b (fst c)) (snd c)) m).
  { induction m as [|[q v] m IH]; intros I; [reflexivity|]. cbn [map forallb fst snd]. rewrite IH by (intros x X; apply I; now right). f_equal. unfold flipl. destruct v.
    - rewrite existsb_out; auto. intros K. apply negs_in in K. assert (X : true = false) by (eapply key_unique; eauto; apply I; now left). discriminate.
    - replace (existsb (Nat.eqb q) (negs l)) with true by (symmetry; apply existsb_mem, negs_in, I; now left). now destruct (b q). }
  apply G, incl_refl.
Qed.
Definition xop (q : nat) : cop := OStd {| o_type := gX; o_par := []; o_ctl := []; o_tgt := [q] |}.
Lemma acts_xs l psi : NoDup l -> forall m, run (map xop l) (psi, m) = [((fun b => psi (flipl l b)), m)].
Proof.
  intros ND m. rewrite <- xs_fold by auto. clear ND. revert psi. induction l as [|q l IH]; intros psi; [reflexivity|]. cbn [map fold_left]. change (xop q) with (g1 gX q).
  change (g1 gX q :: map xop l) with ([g1 gX q] ++ map xop l). rewrite run_app, (acts_x q psi m). cbn [flat_map]. now rewrite IH, app_nil_r.
Qed.
Lemma negated s M o' : NoDup (map fst (o_ctl s) ++ o_tgt s) -> semf s = controlled (o_ctl s) (apply M (o_tgt s)) -> semf o' = controlled (positive (o_ctl s)) (apply M (o_tgt s)) ->
  same_run (map xop (negs (o_ctl s)) ++ [OStd o'] ++ map xop (negs (o_ctl s))) [OStd s].
Proof.
  intros ND ES EO [psi m]. assert (N1 : NoDup (map fst (o_ctl s))) by (revert ND; generalize (o_tgt s); clear; intros t; induction (map fst (o_ctl s)); intros N; [constructor|]; inversion N; subst; constructor; auto; rewrite in_app_iff in *; tauto).
  assert (DJ : forall x, In x (o_tgt s) -> ~ In x (negs (o_ctl s))).
  { intros x I K. apply negs_in in K. assert (K' : In x (map fst (o_ctl s))) by (apply in_map_iff; now exists (x, false)). clear - ND I K'. induction (map fst (o_ctl s)); cbn in *; [tauto|]. inversion ND; subst.
    destruct K' as [->|K']; auto. rewrite in_app_iff in *. tauto. }
  pose proof (negs_nodup _ N1) as N2. rewrite !run_app, acts_xs by auto. cbn [flat_map app]. rewrite app_nil_r. cbn [run run_op flat_map fst snd app]. rewrite acts_xs by auto. rewrite app_nil_r. f_equal. f_equal.
  rewrite ES, EO. apply functional_extensionality. intros b. unfold controlled. rewrite sat_flipl by auto. rewrite flipl_apply, flipl_flipl by auto. reflexivity.
Qed.

Section Std.
Variables (qregs : cregs) (nq : nat).
Hypothesis DQ : divides qregs nq.
Let Q := sortedRegs qregs.
Let N := nm qregs.
Definition xcall (q : nat) : call := {| c_gate := "x"; c_mods := []; c_args := []; c_ops := [N q] |}.
Lemma xcall_ok v3 q : q < nq -> importCall v3 Q (xcall q) = ROk (xop q).
Proof.
  intros L. apply (prefixed qregs nq DQ v3 "x" [] [] gX 0 1 0 [] [q]); auto.
  - constructor; auto.
  - constructor; [tauto|constructor].
Qed.
Lemma std2 s : gate_ok nq s -> o_type s <> gBarrier -> exists calls ops, dumpOpenQASM2 qregs s = ROk (map TStmt (map XCall calls)) /\ mapr (importCall false Q) calls = ROk ops /\ same_run ops [OStd s] /\
  (Forall (fun c => snd c = true) (o_ctl s) -> List.length calls = 1).
Proof.
  intros OK NB. destruct (gate_facts nq s OK NB) as (P1 & P2 & ND & B & M & EM & ES).
  destruct (text_ok (o_type s) (o_par s) (match o_ctl s with [] => false | _ => true end) _ M EM P1 P2) as (name & args & t' & ps' & M' & T & PE & NB' & EM' & MQ & _ & _ & L3).
  pose proof (proj1 (Forall_app _ _ _) B) as [B1 B2]. destruct (L3 (List.length (o_ctl s))) as (nc & imp & F & LC).
  set (o' := {| o_type := t'; o_par := ps'; o_ctl := positive (o_ctl s); o_tgt := o_tgt s |}).
  set (cl := {| c_gate := cs (List.length (o_ctl s)) name; c_mods := []; c_args := args; c_ops := map N (map fst (o_ctl s) ++ o_tgt s) |}).
  exists (map xcall (negs (o_ctl s)) ++ [cl] ++ map xcall (negs (o_ctl s))), (map xop (negs (o_ctl s)) ++ [OStd o'] ++ map xop (negs (o_ctl s))).
  assert (BN : forall q, In q (negs (o_ctl s)) -> q < nq).
  { intros q I. apply negs_in in I. unfold below in B1. rewrite Forall_forall in B1. apply B1, in_map_iff. now exists (q, false). }
  split; [|split; [|split]].
  - unfold dumpOpenQASM2. rewrite generic by auto. rewrite (ctl_names qregs nq DQ), (elems_nm qregs nq) by auto. cbn [bind]. rewrite T. cbn [bind].
    assert (NG : negations qregs (o_ctl s) = ROk (map TStmt (map XCall (map xcall (negs (o_ctl s)))))).
    { unfold negations, negs. rewrite !map_map. apply mapr_ok. intros c I. rewrite (elem_nm qregs nq); auto. apply BN. unfold negs. now apply in_map. }
    rewrite NG. cbn [bind]. unfold stmt_of. rewrite <- map_app. fold N. fold cl. rewrite !map_app. cbn [map]. destruct (o_type s); try congruence; reflexivity.
  - assert (X : forall l, (forall q, In q l -> q < nq) -> mapr (importCall false Q) (map xcall l) = ROk (map xop l)).
    { induction l as [|q l IH]; intros H; [reflexivity|]. cbn [map mapr]. rewrite xcall_ok by (apply H; now left). cbn [bind]. rewrite IH by (intros; apply H; now right). reflexivity. }
    assert (AP : forall l m a b, mapr (importCall false Q) l = ROk a -> mapr (importCall false Q) m = ROk b -> mapr (importCall false Q) (l ++ m) = ROk (a ++ b)).
    { induction l as [|x l IH]; intros m a b E1 E2; cbn [mapr app] in *; [injection E1 as <-; exact E2|]. destruct (importCall false Q x); cbn [bind] in *; try discriminate.
      destruct (mapr (importCall false Q) l) as [y| |]; cbn [bind] in *; try discriminate. injection E1 as <-. rewrite (IH m y b) by auto. reflexivity. }
    apply AP; auto. apply AP; auto. cbn [mapr]. unfold cl. unfold Q, N. rewrite (prefixed qregs nq DQ false (cs (List.length (o_ctl s)) name) args ps' t' nc (List.length (o_tgt s)) imp (o_ctl s) (o_tgt s)); auto.
  - apply (negated s M); auto. unfold o'. rewrite (semf_new _ _ _ _ M') by auto. unfold controlled. apply functional_extensionality. intros psi. apply functional_extensionality. intros b. now rewrite (apply_meq M' M).
  - intros AP. replace (negs (o_ctl s)) with (@nil nat); [reflexivity|]. unfold negs. clear - AP. induction AP as [|c l E _ IH]; [reflexivity|]. cbn. now rewrite E.
Qed.
Lemma std_any (v3 : bool) s : gate_ok nq s -> o_type s <> gBarrier -> exists calls ops, (if v3 then dumpOpenQASM3 qregs s else dumpOpenQASM2 qregs s) = ROk (map TStmt (map XCall calls)) /\
  mapr (importCall v3 Q) calls = ROk ops /\ same_run ops [OStd s] /\ (Forall (fun c => snd c = true) (o_ctl s) -> List.length calls = 1).
Proof.
  intros OK NB. destruct v3; [|now apply std2]. destruct (std3 qregs nq DQ s OK NB) as (c & o' & D & I & E). exists [c], [OStd o']. split; [exact D|]. split; [cbn [mapr]; unfold Q; now rewrite I|]. split; auto.
  intros b. cbn [run run_op flat_map]. now rewrite E.
Qed.
End Std.
