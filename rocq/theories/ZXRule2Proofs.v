(* Local complementation and Pauli pivoting. *)
From Coq Require Import Reals QArith Qreals ZArith Bool List Arith Lia Lra Permutation FunctionalExtensionality.
From Verif Require Import Cplx Qsem PiModel ZXModel ZXSpec ZXPhaseProofs ZXSemProofs ZXUpdProofs ZXUpd2Proofs ZXUpd3Proofs ZXRuleProofs.
Import ListNotations.
Local Close Scope Q_scope.
Local Open Scope nat_scope.

(* the updates made by these rules: adding a phase, adding a Hadamard edge *)
Inductive zop := OPh (v : nat) (p : phase) | OPA (a b : nat).
Definition run1 (d : diag) (o : zop) : diag := match o with OPh v p => addPhase d v p | OPA a b => addEdgeParallelAware d a b true end.
Definition run (ops : list zop) (d : diag) : diag := fold_left run1 ops d.
Definition op_ok (d : diag) (o : zop) : Prop :=
  match o with
  | OPh v p => live d v = true /\ isBoundary d v = false /\ ph_ok p
  | OPA a b => live d a = true /\ live d b = true /\ isBoundary d a = false /\ isBoundary d b = false
  end.
Lemma op_ok_frame d d' o : frame d d' -> op_ok d o -> op_ok d' o.
Proof. intros F. destruct o; cbn; now rewrite ?(f_live _ _ F), ?(f_bnd _ _ _ F). Qed.
Definition sg (b : bool) : C := if b then (- C1)%C else C1.
Definition kap : C := RtoC (/ sqrt 2).
Lemma kap_neq0 : kap <> C0.
Proof. apply RtoC_neq0. apply Rinv_neq_0_compat. pose proof sqrt2_pos. lra. Qed.
Definition kc {A} (l : list A) : C := cprod l (fun _ => kap).
Lemma kc_neq0 {A} (l : list A) : kc l <> C0.
Proof. apply cprod_neq0. intros. apply kap_neq0. Qed.
Lemma wgt_sg a b : wgt true a b = (kap * sg (a && b))%C.
Proof. apply wgt_true. Qed.
Lemma cprod_kc {A} (l : list A) f : cprod l (fun a => (kap * f a)%C) = (kc l * cprod l f)%C.
Proof. apply cprod_mul. Qed.
Fixpoint par (l : list nat) (x : bits) : bool := match l with [] => false | n :: l' => xorb (x n) (par l' x) end.
Lemma sg_xorb a b : sg (xorb a b) = (sg a * sg b)%C.
Proof. destruct a, b; cbn; ring. Qed.
Lemma cprod_sg l x : cprod l (fun n => sg (x n)) = sg (par l x).
Proof. induction l; cbn [cprod par]; auto. now rewrite IHl, sg_xorb. Qed.
Lemma cprod_sg_and l x c : cprod l (fun n => sg (c && x n)) = sg (c && par l x).
Proof. induction l as [|n l IH]; cbn [cprod par]; [now rewrite andb_false_r|]. rewrite IH. destruct c; cbn [andb]; [now rewrite sg_xorb|cbn; ring]. Qed.
Lemma vtype_Z t : vtype_eqb t VZ = true -> t = VZ.
Proof. now destruct t. Qed.
Lemma VZ_bnd d v : vty d v = VZ -> isBoundary d v = false.
Proof. unfold isBoundary. now intros ->. Qed.
Lemma VZ_isX d v : vty d v = VZ -> isX d v = false.
Proof. unfold isX. now intros ->. Qed.

Section Rules2.
Variable rho : nat -> R.
Notation wx := (wx rho).
Notation same_map := (same_map rho).
Definition factor (ex : nat -> bool) (d : diag) (x : bits) (o : zop) : C :=
  match o with
  | OPh v p => if ex v then C1 else if x v then pexp rho p else C1
  | OPA a b => wgt (eh d a b true) (x a) (x b)
  end.
Lemma addPhase_wx_ex ex d v p x : ex v = true -> wx ex (addPhase d v p) x = wx ex d x.
Proof.
  intros Ex. pose proof (frame_addPhase d v p) as F. unfold ZXSemProofs.wx. f_equal.
  - unfold pv. rewrite (f_size _ _ F). apply cprod_ext. intros u _. rewrite (f_inner _ _ _ F). destruct (Nat.eqb_spec u v) as [->|N].
    + rewrite Ex. cbn. now rewrite andb_false_r.
    + unfold ZXSemProofs.phw, vphase. now rewrite addPhase_other.
  - unfold pe. rewrite (f_size _ _ F). apply dprod_ext. intros i j _ _ _. unfold eg, ew. rewrite !(f_live _ _ F), addPhase_hv. destruct (hv d i j); auto. now rewrite (f_eh _ _ _ _ _ F).
Qed.
Lemma run_ok ops : forall d, zwf d -> book d -> phases_ok d -> (forall o, In o ops -> op_ok d o) ->
  let d2 := run ops d in
  zwf d2 /\ book d2 /\ phases_ok d2 /\ frame d d2 /\
  (forall u, (forall a b, In (OPA a b) ops -> u <> a /\ u <> b) -> d_edges d2 u = d_edges d u) /\
  exists c, c <> C0 /\ forall ex x, (forall a b, In (OPA a b) ops -> ex a = false /\ ex b = false) ->
    wx ex d2 x = (c * (wx ex d x * cprod ops (factor ex d x)))%C.
Proof.
  induction ops as [|o ops IH]; intros d Zd B P H; cbn zeta; cbn [run fold_left].
  - repeat (split; auto using frame_refl). exists C1. split; [apply C1_neq_C0|]. intros. cbn [cprod]. ring.
  - change (fold_left run1 ops (run1 d o)) with (run ops (run1 d o)).
    pose proof (H o (or_introl eq_refl)) as K.
    assert (S : zwf (run1 d o) /\ book (run1 d o) /\ phases_ok (run1 d o) /\ frame d (run1 d o) /\
      (forall u, (forall a b, o = OPA a b -> u <> a /\ u <> b) -> d_edges (run1 d o) u = d_edges d u) /\
      exists c, c <> C0 /\ forall ex x, (forall a b, o = OPA a b -> ex a = false /\ ex b = false) -> wx ex (run1 d o) x = (c * (wx ex d x * factor ex d x o))%C).
    { destruct o as [v p|a b]; cbn [run1 op_ok] in *.
      - destruct K as (L & NB & Pp). repeat (split; auto using addPhase_zwf, addPhase_book, phok_addPhase, frame_addPhase).
        exists C1. split; [apply C1_neq_C0|]. intros ex x _. cbn [factor]. destruct (ex v) eqn:Ex.
        + rewrite addPhase_wx_ex by auto. ring.
        + rewrite addPhase_wx by auto. ring.
      - destruct K as (La & Lb & NBa & NBb). pose proof (parallel_aware rho d a b true Zd La Lb (fun _ => NBa) (fun _ => conj NBa NBb)) as PA.
        split; [apply (pa_zwf _ _ _ _ _ _ PA)|]. split; [now apply (pa_book _ _ _ _ _ _ PA)|]. split; [now apply phok_PA|]. split; [apply (pa_frame _ _ _ _ _ _ PA)|].
        split. { intros u U. destruct (U a b eq_refl). now apply (pa_edges _ _ _ _ _ _ PA). }
        destruct (pa_wx _ _ _ _ _ _ PA) as (c & Hc & W). exists c. split; auto. intros ex x E. destruct (E a b eq_refl). now apply W. }
    destruct S as (Z1 & B1 & P1 & F1 & E1 & c1 & Hc1 & W1).
    destruct (IH (run1 d o) Z1 B1 P1) as (Z2 & B2 & P2 & F2 & E2 & c2 & Hc2 & W2). { intros o' I. apply (op_ok_frame d); auto. apply H. now right. }
    split; [exact Z2|]. split; [exact B2|]. split; [exact P2|]. split; [now apply (frame_trans d (run1 d o))|]. split.
    + intros u U. rewrite E2 by (intros a b I; apply U; now right). apply E1. intros a b ->. apply U. now left.
    + exists (c2 * c1)%C. split; [now apply Cmul_neq0|]. intros ex x E. rewrite W2 by (intros a b I; apply E; now right). rewrite W1 by (intros a b ->; apply E; now left). cbn [cprod].
      rewrite (cprod_ext ops _ (factor ex d x)); [ring|]. intros [v p|a b] _; cbn [factor]; auto. now rewrite (f_eh _ _ _ _ _ F1).
Qed.
Lemma gphase_wf d g : zwf d /\ book d /\ phases_ok d -> zwf (set_gphase d g) /\ book (set_gphase d g) /\ phases_ok (set_gphase d g).
Proof. intros ([] & [] & P). split; [|split]; [now constructor|now constructor|exact P]. Qed.

(* ---- local complementation ------------------------------------------------------------------------------------------ *)
Fixpoint lc_ops (p : phase) (ns : list nat) : list zop := match ns with [] => [] | n :: ns' => OPh n p :: map (OPA n) ns' ++ lc_ops p ns' end.
Lemma run_app l m d : run (l ++ m) d = run m (run l d).
Proof. apply fold_left_app. Qed.
Lemma lc_run p ns : forall d, lc_pairs p ns d = run (lc_ops p ns) d.
Proof.
  induction ns as [|n ns IH]; intros d; cbn [lc_pairs lc_ops]; auto. rewrite IH. change (run (OPh n p :: ?l) d) with (run l (addPhase d n p)). rewrite run_app. f_equal.
  generalize (addPhase d n p). clear. induction ns as [|m ns IH]; intros d; cbn; auto.
Qed.
Lemma lc_ops_In p ns o : In o (lc_ops p ns) -> match o with OPh v q => In v ns /\ q = p | OPA a b => In a ns /\ In b ns end.
Proof.
  induction ns as [|n ns IH]; cbn [lc_ops]; [intros []|]. intros [<-|I]; [cbn; auto|]. apply in_app_iff in I as [I|I].
  - apply in_map_iff in I as (m & <- & I). cbn; auto.
  - specialize (IH I). destruct o; cbn; tauto.
Qed.
Fixpoint lc_val (w : C) (ns : list nat) (x : bits) : C :=
  match ns with [] => C1 | n :: ns' => ((if x n then w else C1) * (cprod ns' (fun m => sg (x n && x m)) * lc_val w ns' x))%C end.
Lemma lc_factor p ns : exists k, k <> C0 /\ forall ex d x, (forall n, In n ns -> ex n = false /\ isX d n = false) ->
  cprod (lc_ops p ns) (factor ex d x) = (k * lc_val (pexp rho p) ns x)%C.
Proof.
  induction ns as [|n ns (k & Hk & IH)]; cbn [lc_ops lc_val].
  - exists C1. split; [apply C1_neq_C0|]. intros. cbn. ring.
  - exists (kc ns * k)%C. split; [apply Cmul_neq0; auto using kc_neq0|]. intros ex d x H. cbn [cprod factor]. destruct (H n (or_introl eq_refl)) as [En Xn]. rewrite En.
    rewrite cprod_app, cprod_map, IH by (intros; apply H; now right). cbn [factor].
    rewrite (cprod_ext ns _ (fun m => (kap * sg (x n && x m))%C)).
    + rewrite cprod_kc. ring.
    + intros m I. destruct (H m (or_intror I)) as [_ Xm]. unfold eh. rewrite Xn, Xm. cbn [xorb]. apply wgt_sg.
Qed.
Lemma lc_sum (w : C) ns x : w = Ci \/ w = (- Ci)%C -> (C1 + w * sg (par ns x))%C = ((C1 + w) * lc_val (Cconj w) ns x)%C.
Proof.
  assert (I2 : (Ci * Ci)%C = (- C1)%C) by (apply Ceq; cbn; ring).
  intros Hw. assert (Cc : Cconj w = (- w)%C). { destruct Hw as [-> | ->]; apply Ceq; cbn; ring. }
  assert (W2 : (w * w)%C = (- C1)%C). { destruct Hw as [-> | ->]; auto. transitivity (Ci * Ci)%C; [ring|auto]. }
  rewrite Cc. induction ns as [|n ns IH]; cbn [par lc_val]; [cbn [sg]; ring|]. rewrite cprod_sg_and, sg_xorb.
  transitivity ((if x n then - w else C1) * sg (x n && par ns x) * (C1 + w * sg (par ns x)))%C; [|rewrite IH; ring].
  destruct (x n); cbn [andb].
  - assert (S2 : (sg (par ns x) * sg (par ns x))%C = C1) by (destruct (par ns x); cbn; ring).
    transitivity (- w * sg (par ns x) - (w * w) * (sg (par ns x) * sg (par ns x)))%C; [rewrite W2, S2; cbn [sg]; ring|ring].
  - cbn [sg]. ring.
Qed.
Lemma one_plus_w w : w = Ci \/ w = (- Ci)%C -> (C1 + w)%C <> C0.
Proof. intros [-> | ->] E; injection E; lra. Qed.
Lemma checkLocalComp_inv d v : checkLocalComp d v = true -> live d v = true /\ vty d v = VZ /\ p_isProperClifford (vphase d v) = true /\
  forall e, In e (d_edges d v) -> snd e = true /\ vty d (fst e) = VZ.
Proof.
  unfold checkLocalComp, live, vty, vphase. destruct (d_verts d v) as [a|] eqn:E; [|discriminate]. intros H. apply andb_true_iff in H as [H R]. apply andb_true_iff in H as [T P].
  split; auto. split; [now apply vtype_Z|]. split; auto. intros e I. rewrite forallb_forall in R. specialize (R e I). apply andb_true_iff in R as [R1 R2]. split; auto. now apply vtype_Z.
Qed.
Lemma Cplus_row d v (Zd : zwf d) : live d v = true -> vty d v = VZ -> (forall e, In e (d_edges d v) -> snd e = true /\ vty d (fst e) = VZ) ->
  forall ex x s, ex v = false -> wx ex d (setb x v s) = (wx (plus ex v) d x * ((if s then pexp rho (vphase d v) else C1) *
    cprod (d_edges d v) (fun e => if ex (fst e) then C1 else kap * sg (s && x (fst e)))))%C.
Proof.
  intros L T H ex x s Ex. rewrite (wx_split rho ex d _ v) by auto. rewrite VZ_bnd by auto. f_equal; [|f_equal].
  - apply wx_ext. intros u _ E. unfold plus in E. apply orb_false_iff in E as [_ E]. apply Nat.eqb_neq in E. now apply setb_other.
  - unfold phw. now rewrite setb_get, Nat.eqb_refl.
  - apply cprod_ext. intros [n h] I. cbn [fst snd]. destruct (H _ I) as [E1 E2]. cbn [fst snd] in *. subst h. destruct (z_sym d Zd v n true L I) as (_ & N & _).
    destruct (ex n); auto. unfold eh. rewrite !VZ_isX by auto. cbn [xorb]. rewrite !setb_get, Nat.eqb_refl, (proj2 (Nat.eqb_neq n v)) by auto. apply wgt_sg.
Qed.
Lemma localComp_ok d v : wf d -> checkLocalComp d v = true -> wf (localComp d v) /\ same_map d (localComp d v).
Proof.
  intros W K. apply checkLocalComp_inv in K as (L & T & P & H). pose proof (w_z d W) as Zd. unfold localComp. rewrite lc_run.
  set (ns := map fst (d_edges d v)). set (p := p_neg (vphase d v)). set (ops := lc_ops p ns).
  assert (Hn : forall n, In n ns -> live d n = true /\ n <> v /\ vty d n = VZ).
  { intros n I. apply in_map_iff in I as ([m h] & <- & I). destruct (H _ I) as [_ Tm]. destruct (z_sym d Zd v m h L I) as (Lm & N & _). cbn [fst] in *. auto. }
  destruct (run_ok ops d Zd (w_b d W) (w_ph d W)) as (Z2 & B2 & P2 & F & E2 & c & Hc & W2).
  { intros o I. apply lc_ops_In in I. destruct o as [n q|a b]; cbn.
    - destruct I as [I ->]. destruct (Hn n I) as (Ln & _ & Tn). split; [auto|]. split; [now apply VZ_bnd|]. apply ph_ok_neg, (w_ph d W v L).
    - destruct I as [Ia Ib]. destruct (Hn a Ia) as (La & _ & Ta). destruct (Hn b Ib) as (Lb & _ & Tb). auto using VZ_bnd. }
  set (d2 := run ops d) in *.
  set (d3 := addGlobalPhase d2 (p_const (Qnum (fst (vphase d2 v)) # 4))).
  destruct (gphase_wf d2 (p_add (d_gphase d2) (p_const (Qnum (fst (vphase d2 v)) # 4)))) as (Z3 & B3 & P3); auto. fold (addGlobalPhase d2 (p_const (Qnum (fst (vphase d2 v)) # 4))) in Z3, B3, P3. fold d3 in Z3, B3, P3.
  assert (F3 : wframe d d3). { apply (wframe_trans d d2); [now apply frame_w|]. now constructor. }
  assert (NV : forall a b, In (OPA a b) ops -> v <> a /\ v <> b /\ only v a = false /\ only v b = false).
  { intros a b I. apply lc_ops_In in I as [Ia Ib]. destruct (Hn a Ia) as (_ & Na & _). destruct (Hn b Ib) as (_ & Nb & _). unfold only, plus, none. cbn.
    repeat split; auto; now apply Nat.eqb_neq. }
  split.
  - apply remove_wf; auto.
    + apply (g_io d); auto. apply (w_io d W).
    + now rewrite (g_live _ _ F3).
    + rewrite (g_bnd _ _ _ F3). now apply VZ_bnd.
    + intros u Lu Bu. rewrite (g_live _ _ F3) in Lu. rewrite (g_bnd _ _ _ F3) in Bu. etransitivity; [apply filter_length_le|]. change (d_edges d3 u) with (d_edges d2 u). rewrite E2.
      * apply (w_d d W u Lu Bu).
      * intros a b I. apply lc_ops_In in I as [Ia Ib]. destruct (Hn a Ia) as (_ & _ & Ta). destruct (Hn b Ib) as (_ & _ & Tb). apply VZ_bnd in Ta, Tb. split; congruence.
  - pose proof (clifford_cases rho _ P) as Cw. set (w := pexp rho (vphase d v)) in *.
    destruct (lc_factor p ns) as (k & Hk & HF).
    apply (remove_same rho d d3 v (kc (d_edges d v) * (C1 + w) * / (c * k))%C); auto.
    + unfold inner. rewrite L, VZ_bnd; auto.
    + repeat apply Cmul_neq0; auto using kc_neq0, one_plus_w, Cinv_neq0, Cmul_neq0.
    + intros x. change (wx (only v) d3 x) with (wx (only v) d2 x). rewrite W2 by (intros a b I; destruct (NV a b I) as (_ & _ & ?); auto).
      unfold ops. rewrite HF.
      2:{ intros n I. destruct (Hn n I) as (_ & N & Tn). split; [unfold only, plus, none; cbn; now apply Nat.eqb_neq|now apply VZ_isX]. }
      rewrite !(Cplus_row d v Zd L T H none) by auto. fold (only v). fold w. cbn [none]. rewrite !cprod_kc.
      assert (S : forall s, cprod (d_edges d v) (fun e => sg (s && x (fst e))) = sg (s && par ns x)).
      { intros s. unfold ns. rewrite <- (cprod_sg_and (map fst (d_edges d v))), cprod_map. reflexivity. }
      rewrite !S. cbn [andb]. unfold p. rewrite pexp_neg. fold w.
      transitivity (wx (only v) d x * kc (d_edges d v) * (C1 + w * sg (par ns x)))%C; [cbn [sg]; ring|].
      rewrite (lc_sum w ns x Cw). field. auto using Cmul_neq0.
Qed.

(* ---- Pauli pivoting ---------------------------------------------------------------------------------------------------- *)
Lemma remove_wf' d v : wf d -> live d v = true -> isBoundary d v = false -> wf (removeVertex d v).
Proof.
  intros [Zd B D I P] L NB. apply remove_wf; auto. intros u Lu Bu. etransitivity; [apply filter_length_le|]. apply (D u Lu Bu).
Qed.
Definition neq (v : nat) : nat -> bool := fun n => negb (n =? v).
Definition piv_ops (N0 N1 n1s : list nat) (p0 p1 : phase) : list zop :=
  flat_map (fun n => OPh n p1 :: map (OPA n) N1) N0 ++ map (fun m => OPh m p0) n1s.
Lemma piv_inner v0 n n1s : forall d, fold_left (fun d2 m => if negb (m =? v0) then addEdgeParallelAware d2 n m true else d2) n1s d = run (map (OPA n) (filter (neq v0) n1s)) d.
Proof. induction n1s as [|m n1s IH]; intros d; cbn [fold_left filter]; auto. unfold neq at 1. rewrite IH. destruct (negb (m =? v0)); reflexivity. Qed.
Lemma piv_outer v0 v1 p1 n1s n0s : forall d, fold_left (fun d' n => if n =? v1 then d' else
    fold_left (fun d2 m => if negb (m =? v0) then addEdgeParallelAware d2 n m true else d2) n1s (addPhase d' n p1)) n0s d =
  run (flat_map (fun n => OPh n p1 :: map (OPA n) (filter (neq v0) n1s)) (filter (neq v1) n0s)) d.
Proof.
  induction n0s as [|n n0s IH]; intros d; cbn [fold_left filter]; auto. rewrite IH. unfold neq at 2 4. destruct (n =? v1); cbn [negb]; auto.
  cbn [flat_map]. change (run ((?o :: ?l) ++ ?m) d) with (run (l ++ m) (run1 d o)). rewrite run_app. f_equal. apply piv_inner.
Qed.
Lemma piv_last p0 n1s : forall d, fold_left (fun d' m => addPhase d' m p0) n1s d = run (map (fun m => OPh m p0) n1s) d.
Proof. induction n1s as [|m n1s IH]; intros d; cbn [fold_left map]; auto. rewrite IH. reflexivity. Qed.
Lemma pivotPauli_run d v0 v1 : pivotPauli d v0 v1 =
  let n0s := map fst (d_edges d v0) in let n1s := map fst (d_edges d v1) in
  removeVertex (removeVertex (run (piv_ops (filter (neq v1) n0s) (filter (neq v0) n1s) n1s (vphase d v0) (vphase d v1))
    (if negb (p_isZero (vphase d v0)) && negb (p_isZero (vphase d v1)) then addGlobalPhase d p_pi else d)) v0) v1.
Proof. unfold pivotPauli. rewrite piv_outer, piv_last. unfold piv_ops. cbn zeta. now rewrite run_app. Qed.
Lemma piv_ops_In N0 N1 n1s p0 p1 o : In o (piv_ops N0 N1 n1s p0 p1) ->
  match o with OPh v q => (In v N0 /\ q = p1) \/ (In v n1s /\ q = p0) | OPA a b => In a N0 /\ In b N1 end.
Proof.
  unfold piv_ops. intros I. apply in_app_iff in I as [I|I].
  - apply in_flat_map in I as (n & In0 & [<-|I]); [auto|]. apply in_map_iff in I as (m & <- & I). auto.
  - apply in_map_iff in I as (m & <- & I). auto.
Qed.
Lemma row_extract (l : list edge) e f : NoDup (map fst l) -> In e l -> cprod l f = (f e * cprod l (fun e' => if fst e' =? fst e then C1 else f e'))%C.
Proof.
  induction l as [|g l IH]; cbn [In map cprod]; [tauto|]. intros N [->|I]; inversion N; subst.
  - rewrite Nat.eqb_refl. rewrite (cprod_ext l (fun e' => if fst e' =? fst e then C1 else f e') f); [ring|].
    intros e' I. destruct (Nat.eqb_spec (fst e') (fst e)) as [E|]; auto. exfalso. apply H1. rewrite <- E. now apply in_map.
  - rewrite (IH H2 I). destruct (Nat.eqb_spec (fst g) (fst e)) as [E|]; [|ring]. exfalso. apply H1. rewrite E. now apply in_map.
Qed.
Lemma row_par (l : list edge) v s x : cprod l (fun e => if fst e =? v then C1 else (kap * sg (s && x (fst e)))%C) =
  (kc (filter (neq v) (map fst l)) * sg (s && par (filter (neq v) (map fst l)) x))%C.
Proof.
  rewrite <- cprod_sg_and. unfold kc. rewrite <- cprod_mul, cprod_filter, cprod_map. apply cprod_ext. intros e _. unfold neq. now destruct (fst e =? v).
Qed.
Lemma piv_factor p0 p1 k0 k1 N0 n1s v0 ex d x : pexp rho p0 = sg k0 -> pexp rho p1 = sg k1 ->
  (forall n, In n N0 -> ex n = false /\ isX d n = false) -> (forall n, In n n1s -> n <> v0 -> ex n = false /\ isX d n = false) -> ex v0 = true ->
  cprod (piv_ops N0 (filter (neq v0) n1s) n1s p0 p1) (factor ex d x) =
  (cprod N0 (fun _ => kc (filter (neq v0) n1s)) * (sg (k1 && par N0 x) * sg (k0 && par (filter (neq v0) n1s) x) * sg (par (filter (neq v0) n1s) x && par N0 x)))%C.
Proof.
  intros E0 E1 H0 H1 Ev. unfold piv_ops. rewrite cprod_app, cprod_map.
  assert (A : cprod n1s (fun m => factor ex d x (OPh m p0)) = sg (k0 && par (filter (neq v0) n1s) x)).
  { rewrite <- cprod_sg_and, cprod_filter. apply cprod_ext. intros m I. cbn [factor]. unfold neq. destruct (Nat.eqb_spec m v0) as [->|N]; cbn [negb]; [now rewrite Ev|].
    destruct (H1 m I N) as [-> _]. rewrite E0. now destruct k0, (x m). }
  rewrite A.
  assert (B : cprod (flat_map (fun n => OPh n p1 :: map (OPA n) (filter (neq v0) n1s)) N0) (factor ex d x) =
    (cprod N0 (fun _ => kc (filter (neq v0) n1s)) * (sg (k1 && par N0 x) * sg (par (filter (neq v0) n1s) x && par N0 x)))%C).
  { rewrite <- !cprod_sg_and. rewrite <- !cprod_mul. clear A. induction N0 as [|n N0 IH]; cbn [flat_map cprod]; auto.
    change (cprod ((?o :: ?l) ++ ?m) ?f) with (f o * cprod (l ++ m) f)%C. rewrite cprod_app, IH by (intros; apply H0; now right).
    cbn [factor]. destruct (H0 n (or_introl eq_refl)) as [-> Xn]. rewrite cprod_map, E1. cbn [factor].
    rewrite (cprod_ext (filter (neq v0) n1s) _ (fun m => (kap * sg (x n && x m))%C)).
    - rewrite cprod_kc, cprod_sg_and. rewrite (andb_comm (x n)).
      replace (if x n then sg k1 else C1) with (sg (k1 && x n)) by (now destruct k1, (x n)). ring.
    - intros m I. apply filter_In in I as [I N]. unfold neq in N. apply negb_true_iff, Nat.eqb_neq in N. destruct (H1 m I N) as [_ Xm]. unfold eh. rewrite Xn, Xm. cbn [xorb]. apply wgt_sg. }
  rewrite B. ring.
Qed.
Lemma pauli_sg p : p_isPauli p = true -> exists k, pexp rho p = sg k.
Proof. intros P. destruct (pauli_cases rho p P) as [E|E]; [now exists false|now exists true]. Qed.
Lemma pivotPauli_gen d v0 v1 : wf d -> live d v0 = true -> vty d v0 = VZ -> vty d v1 = VZ -> p_isPauli (vphase d v0) = true -> p_isPauli (vphase d v1) = true ->
  hv d v0 v1 = Some true -> (forall e, In e (d_edges d v0) -> snd e = true /\ vty d (fst e) = VZ) -> (forall e, In e (d_edges d v1) -> snd e = true /\ vty d (fst e) = VZ) ->
  wf (pivotPauli d v0 v1) /\ same_map d (pivotPauli d v0 v1).
Proof.
  intros W L0 T0 T1 P0 P1 E01 R0 R1. pose proof (w_z d W) as Zd. destruct (zwf_hv d v0 v1 true Zd L0 E01) as (L1 & N & E10).
  apply hv_In' in E01 as I01. apply hv_In' in E10 as I10. rewrite pivotPauli_run. cbn zeta.
  set (n0s := map fst (d_edges d v0)). set (n1s := map fst (d_edges d v1)). set (N0 := filter (neq v1) n0s). set (N1 := filter (neq v0) n1s).
  set (ops := piv_ops N0 N1 n1s (vphase d v0) (vphase d v1)).
  set (da := if negb (p_isZero (vphase d v0)) && negb (p_isZero (vphase d v1)) then addGlobalPhase d p_pi else d).
  assert (Da : exists g, da = set_gphase d g). { unfold da. destruct (_ && _); [eexists; reflexivity|]. exists (d_gphase d). now destruct d. }
  destruct Da as (g & Da). clearbody da. subst da.
  assert (H0 : forall n, In n n0s -> live d n = true /\ n <> v0 /\ vty d n = VZ).
  { intros n I. apply in_map_iff in I as ([m h] & <- & I). destruct (R0 _ I) as [_ Tm]. destruct (z_sym d Zd v0 m h L0 I) as (Lm & Nm & _). cbn [fst] in *. auto. }
  assert (H1 : forall n, In n n1s -> live d n = true /\ n <> v1 /\ vty d n = VZ).
  { intros n I. apply in_map_iff in I as ([m h] & <- & I). destruct (R1 _ I) as [_ Tm]. destruct (z_sym d Zd v1 m h L1 I) as (Lm & Nm & _). cbn [fst] in *. auto. }
  assert (J0 : forall n, In n N0 -> live d n = true /\ n <> v0 /\ n <> v1 /\ vty d n = VZ).
  { intros n I. apply filter_In in I as [I Q]. unfold neq in Q. apply negb_true_iff, Nat.eqb_neq in Q. destruct (H0 n I) as (? & ? & ?). auto. }
  assert (J1 : forall n, In n N1 -> live d n = true /\ n <> v0 /\ n <> v1 /\ vty d n = VZ).
  { intros n I. apply filter_In in I as [I Q]. unfold neq in Q. apply negb_true_iff, Nat.eqb_neq in Q. destruct (H1 n I) as (? & ? & ?). auto. }
  destruct (gphase_wf d g) as (Zg & Bg & Pg). { split; [auto|]. split; [apply (w_b d W)|apply (w_ph d W)]. }
  destruct (run_ok ops (set_gphase d g) Zg Bg Pg) as (Z2 & B2 & P2 & F & E2 & c & Hc & W2).
  { intros o I. apply piv_ops_In in I. destruct o as [n q|a b]; cbn [op_ok].
    - change (live (set_gphase d g) n) with (live d n). change (isBoundary (set_gphase d g) n) with (isBoundary d n).
      destruct I as [[I ->]|[I ->]]; [destruct (J0 n I) as (Ln & _ & _ & Tn)|destruct (H1 n I) as (Ln & _ & Tn)]; (split; [auto|split; [now apply VZ_bnd|]]); apply (w_ph d W); auto.
    - destruct I as [Ia Ib]. destruct (J0 a Ia) as (La & _ & _ & Ta). destruct (J1 b Ib) as (Lb & _ & _ & Tb). apply VZ_bnd in Ta, Tb. auto. }
  set (d2 := run ops (set_gphase d g)) in *.
  assert (FW : wframe d d2). { apply (wframe_trans d (set_gphase d g)); [now constructor|now apply frame_w]. }
  assert (L2 : live d2 v0 = true) by (now rewrite (g_live _ _ FW)).
  pose proof (remove_vertex rho d2 v0 Z2 L2) as R. set (d3 := removeVertex d2 v0) in *.
  assert (L3 : live d3 v1 = true). { rewrite (rv_live _ _ _ _ R), (g_live _ _ FW), L1. cbn. apply negb_true_iff, Nat.eqb_neq. auto. }
  pose proof (remove_vertex rho d3 v1 (rv_zwf _ _ _ _ R) L3) as R'.
  assert (T3 : isBoundary d3 v1 = false). { unfold isBoundary. rewrite (rv_vty _ _ _ _ _ R) by auto. rewrite (g_vty _ _ FW). now rewrite T1. }
  assert (Inn : forall u, inner (removeVertex d3 v1) u = inner d u && negb (u =? v0) && negb (u =? v1)).
  { intros u. rewrite (rv_inner _ _ _ _ _ R'), (rv_inner _ _ _ _ _ R), (g_inner _ _ _ FW). reflexivity. }
  split.
  - apply remove_wf'; auto. apply remove_wf; auto.
    + apply (g_io d); auto. apply (w_io d W).
    + rewrite (g_bnd _ _ _ FW). now apply VZ_bnd.
    + intros u Lu Bu. rewrite (g_live _ _ FW) in Lu. rewrite (g_bnd _ _ _ FW) in Bu. etransitivity; [apply filter_length_le|]. rewrite E2.
      * apply (w_d d W u Lu Bu).
      * intros a b I. apply piv_ops_In in I as [Ia Ib]. destruct (J0 a Ia) as (_ & _ & _ & Ta). destruct (J1 b Ib) as (_ & _ & _ & Tb). apply VZ_bnd in Ta, Tb. split; congruence.
  - destruct (pauli_sg _ P0) as (k0 & Q0). destruct (pauli_sg _ P1) as (k1 & Q1).
    set (K := cprod N0 (fun _ => kc N1)). assert (HK : K <> C0) by (apply cprod_neq0; intros; apply kc_neq0).
    assert (H2 : (C1 + C1)%C <> C0) by (intros E; injection E; lra).
    assert (Hs : sg (k0 && k1) <> C0). { destruct (k0 && k1); cbn; intros E; injection E; lra. }
    set (ex := plus (plus none v1) v0).
    apply (conclude rho d _ [v0; v1] [] (kap * kc N0 * kc N1 * (C1 + C1) * sg (k0 && k1) * / (c * K))%C); auto.
    + apply (rv_zwf _ _ _ _ R').
    + rewrite (rv_in _ _ _ _ R'), (rv_in _ _ _ _ R). apply (g_in _ _ FW).
    + rewrite (rv_out _ _ _ _ R'), (rv_out _ _ _ _ R). apply (g_out _ _ FW).
    + repeat apply Cmul_neq0; auto using kc_neq0, kap_neq0, Cinv_neq0, Cmul_neq0.
    + constructor; [intros [E|[]]; congruence|]. constructor; [intros []|constructor].
    + constructor.
    + intros u [<-|[<-|[]]]; unfold inner; rewrite ?L0, ?L1, ?VZ_bnd; auto.
    + intros u Nu Iu. split; [|intros []]. rewrite Inn, Iu. cbn [andb]. rewrite (proj2 (Nat.eqb_neq u v0)), (proj2 (Nat.eqb_neq u v1)); auto; intros ->; apply Nu; cbn; auto.
    + intros u _ Iu. rewrite Inn in Iu. apply andb_true_iff in Iu as [Iu Q2]. apply andb_true_iff in Iu as [Iu Q3]. apply negb_true_iff, Nat.eqb_neq in Q2, Q3.
      split; auto. intros [E|[E|[]]]; congruence.
    + intros x. cbn [vsum]. rewrite (rv_wx _ _ _ _ R'), (rv_wx _ _ _ _ R). fold ex.
      assert (Ex : forall n, n <> v0 -> n <> v1 -> ex n = false). { intros n A B. unfold ex, plus, none. cbn. rewrite (proj2 (Nat.eqb_neq _ _) A), (proj2 (Nat.eqb_neq _ _) B). reflexivity. }
      rewrite W2. 2:{ intros a b I. apply piv_ops_In in I as [Ia Ib]. destruct (J0 a Ia) as (_ & ? & ? & _). destruct (J1 b Ib) as (_ & ? & ? & _). auto. }
      change (wx ex (set_gphase d g) x) with (wx ex d x). unfold ops, N1.
      rewrite (piv_factor _ _ k0 k1 N0 n1s v0); auto.
      2:{ intros n I. destruct (J0 n I) as (_ & ? & ? & Tn). split; auto. change (isX d n = false). now apply VZ_isX. }
      2:{ intros n I Nn. destruct (H1 n I) as (_ & ? & Tn). split; auto. change (isX d n = false). now apply VZ_isX. }
      2:{ unfold ex, plus, none. rewrite Nat.eqb_refl. apply orb_true_r. }
      fold N1. fold K.
      assert (S : forall s0 s1, wx none d (setb (setb x v0 s0) v1 s1) =
        (wx ex d x * (kap * kc N0 * kc N1) * (sg (k0 && s0) * sg (k1 && s1) * sg (s1 && s0) * sg (s0 && par N0 x) * sg (s1 && par N1 x)))%C).
      { intros s0 s1. rewrite (Cplus_row d v1 Zd L1 T1 R1 none) by auto. rewrite (Cplus_row d v0 Zd L0 T0 R0 (plus none v1)).
        2:{ unfold plus, none. cbn. now apply Nat.eqb_neq. }
        fold ex. cbn [none]. rewrite (row_extract (d_edges d v1) (v0, true)) by (auto; now apply (z_nodup d Zd)). cbn [fst]. rewrite setb_get, Nat.eqb_refl.
        rewrite (cprod_ext (d_edges d v1) _ (fun e => if fst e =? v0 then C1 else (kap * sg (s1 && x (fst e)))%C)).
        2:{ intros e _. destruct (Nat.eqb_spec (fst e) v0) as [|Ne]; auto. now rewrite setb_other. }
        rewrite row_par.
        rewrite (cprod_ext (d_edges d v0) _ (fun e => if fst e =? v1 then C1 else (kap * sg (s0 && x (fst e)))%C)) by reflexivity.
        rewrite row_par. fold n0s n1s N0 N1. rewrite Q0, Q1.
        replace (if s0 then sg k0 else C1) with (sg (k0 && s0)) by (now destruct k0, s0).
        replace (if s1 then sg k1 else C1) with (sg (k1 && s1)) by (now destruct k1, s1). ring. }
      rewrite !S.
      assert (A : forall a b, (sg (k0 && false) * sg (k1 && false) * sg (false && false) * sg (false && a) * sg (false && b) +
         sg (k0 && false) * sg (k1 && true) * sg (true && false) * sg (false && a) * sg (true && b) +
         (sg (k0 && true) * sg (k1 && false) * sg (false && true) * sg (true && a) * sg (false && b) +
         sg (k0 && true) * sg (k1 && true) * sg (true && true) * sg (true && a) * sg (true && b)) =
         (C1 + C1) * sg (k0 && k1) * (sg (k1 && a) * sg (k0 && b) * sg (b && a)))%C).
      { intros a b. destruct k0, k1, a, b; cbn [andb sg]; ring. }
      specialize (A (par N0 x) (par N1 x)).
      transitivity (wx ex d x * (kap * kc N0 * kc N1) * ((C1 + C1) * sg (k0 && k1) * (sg (k1 && par N0 x) * sg (k0 && par N1 x) * sg (par N1 x && par N0 x))))%C.
      * rewrite <- A. ring.
      * field. split; auto.
Qed.
Lemma checkPivotPauli_inv d v0 v1 : checkPivotPauli d v0 v1 = true -> live d v0 = true /\ vty d v0 = VZ /\ p_isPauli (vphase d v0) = true /\ p_isPauli (vphase d v1) = true /\
  hv d v0 v1 = Some true /\ (forall e, In e (d_edges d v0) -> snd e = true /\ vty d (fst e) = VZ) /\ (forall e, In e (d_edges d v1) -> snd e = true /\ vty d (fst e) = VZ).
Proof.
  unfold checkPivotPauli, live, vty at 1. destruct (d_verts d v0) as [a|] eqn:E; [|discriminate]. intros H.
  apply andb_true_iff in H as [H R1]. apply andb_true_iff in H as [H R0]. apply andb_true_iff in H as [H G]. apply andb_true_iff in H as [H P1]. apply andb_true_iff in H as [T P0].
  rewrite forallb_forall in R0, R1. split; auto. split; [now apply vtype_Z|]. split; auto. split; auto. split; [|split].
  - unfold hv. destruct (getEdge d v0 v1) as [[w [|]]|]; cbn in *; auto; discriminate.
  - intros e I. specialize (R0 e I). unfold validPauliEdge in R0. apply andb_true_iff in R0 as [A B]. split; auto. now apply vtype_Z.
  - intros e I. specialize (R1 e I). unfold validPauliEdge in R1. apply andb_true_iff in R1 as [A B]. split; auto. now apply vtype_Z.
Qed.
Lemma pivotPauli_ok d v0 v1 : wf d -> checkPivotPauli d v0 v1 = true -> wf (pivotPauli d v0 v1) /\ same_map d (pivotPauli d v0 v1).
Proof.
  intros W K. apply checkPivotPauli_inv in K as (L0 & T0 & P0 & P1 & E & R0 & R1). apply pivotPauli_gen; auto.
  apply hv_In' in E. apply (R0 _ E).
Qed.
End Rules2.
