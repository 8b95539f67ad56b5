(** Soundness of singleQubitGateFusion. *)
From Coq Require Import Reals Lra List Arith Bool Lia NArith FunctionalExtensionality.
From Verif Require Import Cplx Qsem GateModel GateSpec GateProofs OpProofs GraphModel IRModel IRSpec IRProofs OptModel OptSem OptDagProofs OptDagProofs2.
Import ListNotations.
Local Open Scope list_scope.

(** No measurement, reset or classically controlled gate that the pass takes
    for an uncontrolled single-qubit gate. *)
Definition not_disguised (o : cop) : Prop :=
  match o with
  | OMeas qs _ | OReset qs => length qs <> 1
  | OClass _ o' => ccontrols o' <> [] \/ 1 < length (ctargets o')
  | _ => True
  end.

Lemma cacts_used o q : local o -> cacts o q = true <-> In q (used o).
Proof.
  induction o using cop_rect'; intros L.
  - simpl. unfold acts_on. rewrite orb_true_iff, in_app_iff, memn_In, has_ctl_In, in_map_iff.
    split; intros [H|(c & H1 & H2)]; eauto.
  - apply memn_In.
  - apply memn_In.
  - simpl in L. destruct o; try tauto; apply IHo; auto.
  - apply local_comp in L. simpl. rewrite existsb_exists, in_flat_map. rewrite Forall_forall in H, L.
    split; intros (x & I & X); exists x; split; auto; apply (H x I (L x I)); auto.
Qed.

Lemma count_le1 (f : nat -> bool) n a b : length (filter f (seq 0 n)) <= 1 -> a < n -> b < n -> f a = true -> f b = true -> a = b.
Proof.
  intros H A B FA FB.
  assert (IA : In a (filter f (seq 0 n))) by (apply filter_In; split; auto; apply in_seq; lia).
  assert (IB : In b (filter f (seq 0 n))) by (apply filter_In; split; auto; apply in_seq; lia).
  destruct (filter f (seq 0 n)) as [|x [|y l]]; simpl in *; [tauto| |lia].
  destruct IA as [<-|[]], IB as [<-|[]]. reflexivity.
Qed.

Lemma as_single_eq so t : o_ctl so = [] -> o_tgt so = [t] -> as_single (OStd so) t = OStd so.
Proof. destruct so as [ty ps cs ts]. simpl. intros -> ->. reflexivity. Qed.

Lemma inv_type_matrix t t' ps ps' M N : inverse_type t = Some t' -> single_matrix t ps = Some M -> single_matrix t' ps' = Some N ->
  mat_inv 1 M N.
Proof.
  intros I E F. destruct (inv_single t ps M E) as (t'' & ps'' & N' & G & E' & R).
  replace N with N'; auto.
  destruct t; try discriminate I; inversion I; subst; inversion G; subst; simpl in *; congruence.
Qed.

(** A gate and its inverse on the same qubit cancel. *)
Lemma inverse_cancel last so target b : same_inverse last (OStd so) = true -> op_ok last -> op_ok (OStd so) ->
  o_ctl so = [] -> o_tgt so = [target] -> incl (used last) [target] -> run [last; OStd so] b = [b].
Proof.
  intros S OK1 OK2 C T U. unfold same_inverse in S. destruct (inverse_type (ctype last)) as [t'|] eqn:I; [|discriminate].
  simpl in S. apply optype_eqb_eq in S. destruct last as [s|? ?|?|? ?|? ?]; try discriminate. simpl in I.
  cbn [run run_op flat_map app]. cbn [fst snd].
  assert (Z : semf so (semf s (fst b)) = fst b); [|rewrite Z; destruct b; reflexivity].
  destruct OK1 as [W1 [f F]], OK2 as [W2 [g G]].
  unfold semf. rewrite F, G.
  destruct (sem_cases _ _ F) as [[B1 ->]|[(p & ps & B1 & _)|[(M & t0 & SM & T0 & ->)|(M & t0 & t1 & SM & _)]]].
  - rewrite B1 in I. assert (TB : o_type so = gBarrier) by (inversion I; congruence). destruct (sem_cases _ _ G) as [[_ ->]|[(p & ps & B2 & _)|[(N & t1 & SN & _)|(N & t1 & t2 & SN & _)]]]; auto; try congruence.
    all: rewrite TB in SN; discriminate.
  - rewrite B1 in I. discriminate.
  - destruct (sem_cases _ _ G) as [[B2 ->]|[(p & ps & B2 & _)|[(N & t1 & SN & T1 & ->)|(N & t1 & t2 & SN & T1 & _)]]].
    + assert (TT : t' = gBarrier) by congruence. rewrite TT in I. destruct (o_type s); try discriminate I; try discriminate SM.
    + assert (TT : t' = gGPhase) by congruence. rewrite TT in I. destruct (o_type s); try discriminate I; try discriminate SM.
    + rewrite S in SN. pose proof (inv_type_matrix _ _ _ _ _ _ I SM SN) as R.
      rewrite T in T1. inversion T1; subst t1.
      assert (C1 : o_ctl s = []).
      { destruct W1 as [_ W]. destruct (o_ctl s) as [|c cs] eqn:EC; auto. exfalso.
        assert (X : In (fst c) [target]) by (apply U; simpl; rewrite EC, T0; simpl; auto).
        assert (Y : In t0 [target]) by (apply U; simpl; rewrite T0; simpl; auto).
        destruct X as [X|[]], Y as [Y|[]]. apply (W c); [simpl; auto|]. rewrite T0. simpl. left. congruence. }
      assert (Y : In t0 [target]) by (apply U; simpl; rewrite T0; simpl; auto). destruct Y as [Y|[]]. subst t0.
      rewrite C, C1.
      destruct (mat_inv_maps 1 [] M N [target] eq_refl) as [X _]; auto.
      * repeat constructor; simpl; tauto.
      * intros c [].
    + rewrite S in SN. destruct (o_type s); try discriminate I; try discriminate SM; injection I as I; rewrite <- I in SN; discriminate SN.
  - destruct (o_type s); try discriminate I; discriminate SM.
Qed.

Lemma nth_snoc' {A} (l : list A) x p y : nth_error (l ++ [x]) p = Some y ->
  (p = length l /\ y = x) \/ (p < length l /\ nth_error l p = Some y).
Proof.
  rewrite nth_snoc. destruct (Nat.ltb_spec p (length l)); auto. destruct (Nat.eqb_spec p (length l)); [|discriminate].
  intros H'. inversion H'. auto.
Qed.

Section Fuse.
Variable nq : nat.

Definition top_ok (done : list cop) (d : dag) (p : nat) : Prop :=
  forall o, nth_error done p = Some o ->
    (forall q, In p (d q) -> In q (used o)) \/
    (exists cu l q0, o = OComp cu l /\ incl (used o) [q0] /\ forall q, In p (d q) -> q = q0).

Definition fine (o : cop) : Prop := dead o \/ (op_ok o /\ not_disguised o).
Definition below (o : cop) : Prop := forall q, In q (used o) -> q < nq.

Record FInv (s : pstate) : Prop := {
  f_lt : forall q p, In p (snd s q) -> p < length (fst s);
  f_top : forall p, top_ok (fst s) (snd s) p;
  f_cov : forall i o q, nth_error (fst s) i = Some o -> In q (used o) -> dead o \/ exists p r, snd s q = p :: r /\ i <= p;
  f_ok : Forall (fun o => local o /\ fine o /\ below o) (fst s)
}.

Lemma finv_nil : FInv ([], fun _ => []).
Proof.
  split; simpl.
  - tauto.
  - intros p o H. destruct p; discriminate.
  - intros i o q H. destruct i; discriminate.
  - constructor.
Qed.

Lemma finv_elem done d p o : FInv (done, d) -> nth_error done p = Some o -> local o /\ fine o /\ below o.
Proof. intros I H. pose proof (f_ok _ I) as F. rewrite Forall_forall in F. apply F. eapply nth_error_In; eauto. Qed.

Lemma finv_keep done d o : FInv (done, d) -> local o -> fine o -> below o -> FInv (keep (done, d) o).
Proof.
  intros I L G B. unfold keep. simpl. split; simpl.
  - intros q p. rewrite dadd_spec, app_length. simpl. destruct (memn q (used o)).
    + intros [<-|H]; [lia|]. apply (f_lt _ I) in H. simpl in H. lia.
    + intros H. apply (f_lt _ I) in H. simpl in H. lia.
  - intros p x H. apply nth_snoc' in H. destruct H as [[-> H]|[N H]].
    + subst x. left. intros q. rewrite dadd_spec. destruct (memn q (used o)) eqn:M; [intros _; now apply memn_In|].
      intros X. apply (f_lt _ I) in X. simpl in X. lia.
    + destruct (f_top _ I p x H) as [T|(cu & l & q0 & E1 & E2 & T)].
      * left. intros q. rewrite dadd_spec. destruct (memn q (used o)); [intros [X|X]; [lia|]|intros X]; apply T; auto.
      * right. exists cu, l, q0. split; [auto|]. split; [auto|]. intros q. rewrite dadd_spec.
        destruct (memn q (used o)); [intros [X|X]; [lia|]|intros X]; apply T; auto.
  - intros i x q H U. apply nth_snoc' in H. destruct H as [[-> H]|[N H]].
    + subst x. right. rewrite dadd_spec. rewrite (proj2 (memn_In q (used o))) by auto. eauto.
    + pose proof (nth_lt _ _ _ H) as LT. destruct (f_cov _ I i x q H U) as [?|(p & r & E & LE)]; auto. right. rewrite dadd_spec.
      simpl in E. destruct (memn q (used o)); [|eauto]. exists (length done), (d q). split; auto. lia.
  - apply Forall_app. split; [apply (f_ok _ I)|]. constructor; [auto|constructor].
Qed.

Lemma finv_dead done d o : FInv (done, d) -> dead o -> below o -> FInv (done ++ [o], d).
Proof.
  intros I L B. split; simpl.
  - intros q p H. apply (f_lt _ I) in H. simpl in H. rewrite app_length. lia.
  - intros p x H. apply nth_snoc' in H. destruct H as [[-> H]|[N H]].
    + left. intros q X. apply (f_lt _ I) in X. simpl in X. lia.
    + apply (f_top _ I p x H).
  - intros i x q H U. apply nth_snoc' in H. destruct H as [[-> H]|[N H]].
    + subst x. auto.
    + apply (f_cov _ I i x q H U).
  - apply Forall_app. split; [apply (f_ok _ I)|]. constructor; [|constructor].
    split; [now apply dead_local|]. split; [left; auto|auto].
Qed.

(** Rewriting the operation on top of the stack of [q]; it is only on [q]. *)
Lemma finv_upd done d p x x' q r : FInv (done, d) -> nth_error done p = Some x -> d q = p :: r ->
  (forall q', In p (d q') -> q' = q) -> incl (used x') [q] ->
  (In q (used x') \/ exists cu l, x' = OComp cu l) ->
  local x' -> fine x' -> below x' -> FInv (upd done p x', d).
Proof.
  intros I E D O U C L F B. split; simpl.
  - intros q' p' H. rewrite upd_len. apply (f_lt _ I) in H. auto.
  - intros p' y H. rewrite upd_nth in H. destruct (Nat.eqb_spec p p') as [<-|N].
    + destruct (nth_error done p); inversion H; subst y. destruct C as [C|(cu & l & C)].
      * left. intros q' H'. rewrite (O _ H'). auto.
      * right. exists cu, l, q. auto.
    + apply (f_top _ I p' y H).
  - intros i y q' H V. rewrite upd_nth in H. destruct (Nat.eqb_spec p i) as [<-|N].
    + destruct (nth_error done p); inversion H; subst y. destruct (U _ V) as [<-|[]]. right. eauto.
    + apply (f_cov _ I i y q' H V).
  - destruct (upd_split done p x x' E) as [E1 ->]. pose proof (f_ok _ I) as G. simpl in G. rewrite E1 in G.
    apply Forall_app in G. destruct G as [G1 G2]. apply Forall_app. split; auto. inversion G2; subst. constructor; auto.
Qed.

(** Pushing it once more. *)
Lemma finv_push done d p q r : FInv (done, d) -> d q = p :: r -> FInv (done, dpush d q p).
Proof.
  intros I D. unfold dpush.
  assert (Z : forall q' p', In p' (if q' =? q then p :: d q' else d q') -> In p' (d q')).
  { intros q' p'. destruct (Nat.eqb_spec q' q) as [->|N]; auto. intros [<-|H]; auto. rewrite D. simpl. auto. }
  split; simpl.
  - intros q' p' H. apply Z in H. apply (f_lt _ I) in H. auto.
  - intros p' y H. destruct (f_top _ I p' y H) as [T|(cu & l & q0 & E1 & E2 & T)].
    + left. intros q' X. apply Z in X. auto.
    + right. exists cu, l, q0. split; [auto|]. split; [auto|]. intros q' X. apply Z in X. auto.
  - intros i y q' H V. destruct (f_cov _ I i y q' H V) as [?|(p' & r' & E & LE)]; auto. right. simpl in E.
    destruct (Nat.eqb_spec q' q) as [->|N]; eauto. rewrite D in E. inversion E; subst. eauto.
  - apply (f_ok _ I).
Qed.

Definition fgood (l : list cop) (s : pstate) : Prop := FInv s /\ same_run (fst s) l.

Lemma fgood_pair l done d p x o x' o' q r :
  fgood l (done, d) -> nth_error done p = Some x -> d q = p :: r ->
  incl (used (OStd o)) [q] -> incl (used (OStd o')) [q] ->
  same_run [x; OStd o] [x'; OStd o'] ->
  same_run (upd done p x' ++ [OStd o']) (l ++ [OStd o]).
Proof.
  intros [I S] E D J J' R. destruct (upd_split done p x x' E) as [E1 E2].
  eapply same_trans; [|apply same_app; [exact S|apply same_refl]]. simpl fst.
  rewrite E2. rewrite E1 at 3. rewrite <- !app_assoc. cbn [app]. apply same_sym.
  apply (pair_rewrite [q]); auto. apply Forall_forall. intros y H. apply In_skipn in H. destruct H as (i & L & H).
  apply clear_of; [apply (finv_elem _ _ _ _ I H)|]. intros q' [<-|[]] U.
  destruct (f_cov _ I i y q H U) as [?|(p' & r' & E' & LE)]; auto. simpl in E'. rewrite D in E'. inversion E'; subst. lia.
Qed.

Lemma set_gate_I_dead so : o_ctl so = [] -> dead (set_gate_I (OStd so)).
Proof. intros C. eexists. split; [reflexivity|]. simpl. auto. Qed.

Lemma fuse_step_good l s o s' : fgood l s -> op_ok o -> local o -> not_disguised o -> below o ->
  fuse_step nq s o = Some s' -> fgood (l ++ [o]) s'.
Proof.
  destruct s as [done d]. intros G OK L ND B H.
  assert (K : fgood (l ++ [o]) (keep (done, d) o)).
  { destruct G as [I S]. split; [apply finv_keep; auto; right; auto|]. simpl. apply same_app; auto. apply same_refl. }
  unfold fuse_step in H.
  destruct o as [so|? ?|?|? ?|? ?]; try (inversion H; subst; exact K).
  destruct (negb match o_ctl so with [] => true | _ => false end || (1 <? length (o_tgt so))) eqn:T; [inversion H; subst; exact K|].
  apply orb_false_iff in T. destruct T as [C T]. apply Nat.ltb_ge in T.
  assert (C' : o_ctl so = []) by (destruct (o_ctl so); [auto|discriminate]). clear C.
  destruct (o_tgt so) as [|target [|? ?]] eqn:TG; try discriminate; [|simpl in T; lia]. clear T.
  destruct (d target) as [|p r] eqn:D; [inversion H; subst; exact K|].
  destruct (nth_error done p) as [op|] eqn:E; [|discriminate].
  pose proof G as [I S]. destruct (finv_elem _ _ _ _ I E) as (LO & FO & BO).
  assert (IP : In p (d target)) by (rewrite D; simpl; auto).
  assert (DI : dead (set_gate_I (OStd so))) by now apply set_gate_I_dead.
  assert (UO : incl (used (OStd so)) [target]) by (simpl; rewrite C', TG; simpl; intros x; auto).
  assert (UI : incl (used (set_gate_I (OStd so))) [target]) by (simpl; rewrite C', TG; simpl; intros x; auto).
  assert (BI : below (set_gate_I (OStd so))) by (intros q X; apply B; simpl in *; auto).
  assert (TU : forall q, In q [target] -> q < nq) by (intros q [<-|[]]; apply B; simpl; rewrite TG; simpl; auto).
  assert (CASES : (exists cu lc, op = OComp cu lc) \/ (forall cu lc, op <> OComp cu lc)).
  { destruct op; try (right; intros; discriminate). left. eauto. }
  destruct CASES as [(cu & lc & ->)|NC].
  - destruct (1 <? length (filter (cacts (OComp cu lc)) (seq 0 nq))) eqn:CNT; [inversion H; subst; exact K|].
    apply Nat.ltb_ge in CNT.
    assert (Q : incl (used (OComp cu lc)) [target] /\ forall q, In p (d q) -> q = target).
    { destruct (f_top _ I p _ E) as [X|(cu' & l' & q0 & E1 & E2 & X)].
      - assert (Y : forall q, In q (used (OComp cu lc)) -> q = target).
        { intros q V. simpl in X. specialize (X target IP). apply (count_le1 (cacts (OComp cu lc)) nq); auto; try apply cacts_used; auto. }
        split; [intros q V; rewrite (Y q V); simpl; auto|]. intros q V. apply Y. apply X. auto.
      - assert (target = q0) by (apply X; auto). subst q0. auto. }
    destruct Q as [UX OX].
    assert (OKC : Forall op_ok lc).
    { destruct FO as [(s0 & Z & _)|[Z _]]; [discriminate|]. now apply op_ok_comp in Z. }
    assert (LC : Forall local lc) by now apply local_comp in LO.
    (* replacing the content *)
    assert (REPL : forall lc', Forall op_ok lc' -> Forall local lc' -> incl (flat_map used lc') [target] ->
       same_run [OComp cu lc; OStd so] [OComp cu lc'] -> fgood (l ++ [OStd so]) (upd done p (OComp cu lc') ++ [set_gate_I (OStd so)], d)).
    { intros lc' O1 O2 O3 R. split.
      - apply finv_dead; auto. apply (finv_upd done d p (OComp cu lc) (OComp cu lc') target r); auto; eauto.
        + now apply local_comp.
        + right. split; [now apply op_ok_comp|exact Logic.I].
        + intros q X. apply TU. apply O3. exact X.
      - simpl fst. eapply fgood_pair; try eassumption.
        intros b. rewrite R. rewrite run_one.
        change ([OComp cu lc'; _]) with ([OComp cu lc'] ++ [set_gate_I (OStd so)]). rewrite run_app, run_one.
        rewrite (flat_map_ext' _ (fun x => [x])); [now rewrite flat_map_one|].
        intros b'. rewrite run_one. apply dead_run; auto. }
    destruct (rev lc) as [|last before] eqn:RV.
    + inversion H; subst s'. assert (lc = []) by (rewrite <- (rev_involutive lc), RV; reflexivity). subst lc.
      apply REPL; auto.
      * simpl. rewrite app_nil_r. exact UO.
      * intros b. cbn [run]. simpl. reflexivity.
    + assert (EL : lc = rev before ++ [last]) by (rewrite <- (rev_involutive lc), RV; reflexivity).
      assert (RUNC : forall m b, run [OComp cu m] b = run m b) by (intros; rewrite run_one; apply run_comp).
      destruct (same_inverse last (OStd so)) eqn:SI; inversion H; subst s'; clear H.
      * rewrite EL in OKC, LC. apply Forall_app in OKC. apply Forall_app in LC. destruct OKC as [O1 O2], LC as [L1 L2].
        apply REPL; auto.
        -- intros q X. apply UX. simpl. rewrite EL, flat_map_app. apply in_or_app. auto.
        -- intros b. change [OComp cu lc; OStd so] with ([OComp cu lc] ++ [OStd so]). rewrite run_app, !RUNC, EL, run_app, flat_map_flat.
           rewrite (flat_map_ext' _ (fun x => [x])); [apply flat_map_one|]. intros b'.
           rewrite <- run_app. simpl app. apply (inverse_cancel last so target); auto.
           ++ inversion O2; auto.
           ++ intros q X. apply UX. simpl. rewrite EL, flat_map_app. apply in_or_app. right. simpl. rewrite app_nil_r. auto.
      * rewrite (as_single_eq so target) by auto. apply REPL.
        -- apply Forall_app. split; auto.
        -- apply Forall_app. split; auto.
        -- rewrite flat_map_app. intros q X. apply in_app_or in X. destruct X as [X|X]; [apply UX; exact X|].
           simpl flat_map in X. rewrite app_nil_r in X. apply UO. exact X.
        -- intros b. change [OComp cu lc; OStd so] with ([OComp cu lc] ++ [OStd so]). rewrite run_app, !RUNC, run_app. reflexivity.
  - assert (H' : (if negb match ccontrols op with [] => true | _ => false end || (1 <? length (ctargets op)) then Some (keep (done, d) (OStd so))
        else if same_inverse op (OStd so) then Some (upd done p (set_gate_I op) ++ [set_gate_I (OStd so)], d)
        else match ctargets op with [] => None
           | t0 :: _ => Some (upd done p (OComp false [as_single op t0; as_single (OStd so) target]) ++ [set_gate_I (OStd so)], dpush d target p) end) = Some s').
    { destruct op; try exact H. exfalso. eapply NC; eauto. }
    clear H. rename H' into H.
    destruct (negb match ccontrols op with [] => true | _ => false end || (1 <? length (ctargets op))) eqn:T; [inversion H; subst; exact K|].
    apply orb_false_iff in T. destruct T as [C T]. apply Nat.ltb_ge in T.
    assert (CO : ccontrols op = []) by (destruct (ccontrols op); [auto|discriminate]). clear C.
    assert (X : In target (used op)).
    { destruct (f_top _ I p _ E) as [X|(cu' & l' & q0 & E1 & E2 & X)]; [apply X; auto|]. exfalso. eapply NC; eauto. }
    assert (OS : exists s0, op = OStd s0).
    { destruct FO as [(s0 & Z & _)|[_ Z]]; [eauto|]. destruct op as [s0|qs ?|qs|? o'|? ?]; [eauto| | | |].
      - exfalso. destruct qs as [|a [|b qs]]; simpl in *; try lia; tauto.
      - exfalso. destruct qs as [|a [|b qs]]; simpl in *; try lia; tauto.
      - exfalso. simpl in Z, CO, T. destruct Z as [Z|Z]; [congruence|lia].
      - exfalso. eapply NC; eauto. }
    destruct OS as [s0 ->]. simpl in CO, T, X. rewrite CO, app_nil_r in X.
    assert (T0 : o_tgt s0 = [target]).
    { destruct (o_tgt s0) as [|a [|b ts]]; simpl in *; try lia; try tauto. destruct X as [->|[]]. auto. }
    assert (U0 : incl (used (OStd s0)) [target]) by (simpl; rewrite CO, T0; simpl; intros x; auto).
    assert (OX : forall q, In p (d q) -> q = target).
    { intros q V. destruct (f_top _ I p _ E) as [Y|(cu' & l' & q0 & E1 & E2 & Y)]; [|discriminate].
      specialize (Y q V). destruct (U0 _ Y) as [->|[]]. auto. }
    assert (OK0 : op_ok (OStd s0)).
    { destruct FO as [(s1 & Z & Z1 & Z2)|[Z _]]; auto. inversion Z; subst s1. split.
      - split; [rewrite T0; repeat constructor; simpl; tauto|]. rewrite Z2. intros k [].
      - unfold sem. rewrite Z1. cbn -[Nat.eqb]. rewrite T0. simpl. eauto. }
    assert (FI : fine (set_gate_I (OStd s0))) by (left; now apply set_gate_I_dead).
    destruct (same_inverse (OStd s0) (OStd so)) eqn:SI.
    + inversion H; subst s'. split.
      * apply finv_dead; auto. apply (finv_upd done d p (OStd s0) _ target r); auto.
        -- left. simpl. rewrite CO, T0. simpl. auto.
      * simpl fst. eapply fgood_pair; try eassumption. apply dead_pair; auto; try now apply set_gate_I_dead.
        intros b. apply (inverse_cancel _ _ target); auto.
    + simpl ctargets in H. rewrite T0 in H. inversion H; subst s'. rewrite !as_single_eq by auto. split.
      * apply finv_dead; auto. apply (finv_push _ _ _ _ r); auto. apply (finv_upd done d p (OStd s0) _ target r); auto.
        -- simpl. rewrite CO, T0, C', TG. simpl. intros x [<-|[<-|[]]]; simpl; auto.
        -- right. eauto.
        -- apply local_comp. repeat constructor.
        -- right. split; [apply op_ok_comp; auto|exact Logic.I].
        -- intros q Y. apply TU. simpl in Y. rewrite CO, T0, C', TG in Y. simpl in Y. simpl. tauto.
      * simpl fst. eapply fgood_pair; try eassumption.
        intros b. change [OComp false [OStd s0; OStd so]; _] with ([OComp false [OStd s0; OStd so]] ++ [set_gate_I (OStd so)]).
        rewrite run_app, run_one, run_comp. rewrite (flat_map_ext' _ (fun x => [x])); [now rewrite flat_map_one|].
        intros b'. rewrite run_one. apply dead_run; auto.
Qed.

Lemma fuse_loop_good l : forall m s s', fgood m s -> ops_ok l -> Forall local l -> Forall not_disguised l -> Forall below l ->
  fuse_loop nq l s = Some s' -> fgood (m ++ l) s'.
Proof.
  induction l as [|o l IH]; intros m s s' G OK L N B H; simpl in H; [inversion H; subst; rewrite app_nil_r; auto|].
  inversion OK; inversion L; inversion N; inversion B; subst.
  destruct (fuse_step nq s o) as [s1|] eqn:E; [|discriminate].
  replace (m ++ o :: l) with ((m ++ [o]) ++ l) by (rewrite <- app_assoc; reflexivity).
  eapply IH; eauto. eapply fuse_step_good; eauto.
Qed.

Lemma fusion_sound l l' : ops_ok l -> Forall local l -> Forall not_disguised l -> Forall below l ->
  single_qubit_fusion nq l = Some l' -> same_run l' l.
Proof.
  intros OK L N B H. unfold single_qubit_fusion in H. destruct (fuse_loop nq l _) as [s|] eqn:E; [|discriminate].
  inversion H; subst. eapply same_trans; [apply remove_identities_sound|].
  apply (fuse_loop_good l [] _ _ (conj finv_nil (same_refl _)) OK L N B E).
Qed.

(** It only throws on an uncontrolled operation without targets (a global phase). *)
Definition has_target (o : cop) : Prop :=
  match o with OStd s => o_tgt s <> [] \/ o_ctl s <> [] | _ => True end.

Lemma fuse_step_total l s o : fgood l s -> has_target o -> exists s', fuse_step nq s o = Some s'.
Proof.
  destruct s as [done d]. intros [I S] T. unfold fuse_step. destruct o as [so|? ?|?|? ?|? ?]; eauto.
  destruct (negb match o_ctl so with [] => true | _ => false end || (1 <? length (o_tgt so))) eqn:G; eauto.
  apply orb_false_iff in G. destruct G as [C _]. simpl in T.
  destruct (o_tgt so) as [|target ts]; [destruct (o_ctl so); simpl in *; [tauto|discriminate]|].
  destruct (d target) as [|p r] eqn:D; eauto.
  assert (IP : In p (d target)) by (rewrite D; simpl; auto).
  destruct (nth_error done p) as [op|] eqn:E.
  2:{ apply nth_error_None in E. apply (f_lt _ I) in IP. simpl in IP. lia. }
  destruct op as [s0|qs ?|qs|? o'|cu lc].
  5:{ destruct (_ <? _); eauto. destruct (rev lc) as [|? ?]; eauto. destruct (same_inverse _ _); eauto. }
  all: match goal with |- context[if ?x then _ else _] => destruct x eqn:G end; eauto;
    destruct (same_inverse _ _); eauto;
    (destruct (f_top _ I p _ E) as [X|(cu' & l' & q0 & E1 & E2 & X)]; [|discriminate]); specialize (X _ IP).
  - simpl in *. apply orb_false_iff in G. destruct G as [C1 _]. destruct (o_ctl s0); [|discriminate]. rewrite app_nil_r in X.
    destruct (o_tgt s0); [destruct X|eauto].
  - simpl in *. destruct qs; [destruct X|eauto].
  - simpl in *. destruct qs; [destruct X|eauto].
  - destruct (finv_elem _ _ _ _ I E) as (_ & [(s1 & Z & _)|[_ [Z|Z]]] & _); [discriminate| |].
    + simpl in *. apply orb_false_iff in G. destruct G as [C1 _]. destruct (ccontrols o'); [congruence|discriminate].
    + simpl in *. destruct (ctargets o'); [simpl in Z; lia|eauto].
Qed.
Lemma fuse_loop_total l : forall m s, fgood m s -> ops_ok l -> Forall local l -> Forall not_disguised l -> Forall below l ->
  Forall has_target l -> exists s', fuse_loop nq l s = Some s'.
Proof.
  induction l as [|o l IH]; intros m s G OK L N B T; simpl; eauto.
  inversion OK; inversion L; inversion N; inversion B; inversion T; subst.
  destruct (fuse_step_total m s o) as [s1 E]; auto. rewrite E.
  apply (IH (m ++ [o])); auto. eapply fuse_step_good; eauto.
Qed.
Lemma fusion_total l : ops_ok l -> Forall local l -> Forall not_disguised l -> Forall below l -> Forall has_target l ->
  exists l', single_qubit_fusion nq l = Some l'.
Proof.
  intros OK L N B T. unfold single_qubit_fusion.
  destruct (fuse_loop_total l [] _ (conj finv_nil (same_refl _)) OK L N B T) as [s E]. rewrite E. eauto.
Qed.
End Fuse.
