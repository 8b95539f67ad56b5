(* The first and the last step of buildFunctionality: the empty wires and the closing of the open ends. *)
From Coq Require Import Reals QArith ZArith Bool List Arith Lia Lra FunctionalExtensionality.
From Verif Require Import Cplx Qsem GateModel IRModel PiModel ZXModel ZXSpec ZXPhaseProofs ZXSemProofs ZXUpdProofs ZXUpd3Proofs ZXRuleProofs ZXRule2Proofs ZXRule3Proofs ZXBuildModel ZXBuildSpec ZXBuildProofs.
Import ListNotations.
Local Close Scope Q_scope.
Local Open Scope nat_scope.

Definition bvx (q : nat) : vdata := mkV (Z.of_nat q) p_zero VBoundary.
Definition inr (lo hi v : nat) : bool := (lo <=? v) && (v <? hi).
Lemma inr_spec lo hi v : reflect (lo <= v < hi) (inr lo hi v).
Proof. apply iff_reflect. unfold inr. rewrite andb_true_iff, Nat.leb_le, Nat.ltb_lt. tauto. Qed.
Ltac ranges := repeat match goal with
  | |- context [inr ?a ?b ?c] => destruct (inr_spec a b c)
  | |- context [?a <? ?b] => destruct (Nat.ltb_spec a b)
  | |- context [?a =? ?b] => destruct (Nat.eqb_spec a b)
  end; try lia; auto.
(* n inputs and m outputs; the inputs from lo to hi joined to their outputs *)
Record wires (n m lo hi : nat) (d : diag) : Prop := {
  wi_size : d_size d = n + m; wi_v : forall v, d_verts d v = if v <? n then Some (bvx v) else if v <? n + m then Some (bvx (v - n)) else None;
  wi_e : forall v, d_edges d v = if inr lo hi v then [(v + n, false)] else if inr (n + lo) (n + hi) v then [(v - n, false)] else [];
  wi_del : d_deleted d = []; wi_nv : d_nv d = Z.of_nat (n + m); wi_ne : d_ne d = Z.of_nat (hi - lo); wi_gp : d_gphase d = p_zero;
  wi_in : d_in d = seq 0 n; wi_out : d_out d = seq n m
}.
Lemma init_wires n : wires n 0 0 0 (fst (initGraph d_empty n)) /\ snd (initGraph d_empty n) = seq 0 n.
Proof.
  unfold initGraph. induction n as [|n [W E]].
  - cbn. split; auto. constructor; auto; intros v; cbn [d_verts d_edges d_empty]; ranges.
  - rewrite seq_S, fold_left_app. cbn [fold_left Nat.add]. destruct (fold_left _ (seq 0 n) _) as [d l]. cbn [fst snd] in *. subst l.
    unfold addVertex. rewrite (wi_del _ _ _ _ _ W). cbn [fst snd]. rewrite (wi_nv _ _ _ _ _ W), Nat2Z.id, Nat.add_0_r. split; [|reflexivity].
    constructor; cbn [d_size d_verts d_edges d_deleted d_nv d_ne d_gphase d_in d_out set_io].
    + rewrite (wi_size _ _ _ _ _ W). lia.
    + intros v. unfold zupd. rewrite (wi_size _ _ _ _ _ W), (wi_v _ _ _ _ _ W). ranges. subst v. now rewrite Nat.add_0_r.
    + intros v. unfold zupd. rewrite (wi_e _ _ _ _ _ W). ranges.
    + auto.
    + lia.
    + apply (wi_ne _ _ _ _ _ W).
    + apply (wi_gp _ _ _ _ _ W).
    + rewrite (wi_in _ _ _ _ _ W). now rewrite seq_S.
    + rewrite (wi_out _ _ _ _ _ W). reflexivity.
Qed.
Lemma close_wires n k d : k <= n -> wires n 0 0 0 d -> wires n k 0 k (closeGraph d (seq 0 k)).
Proof.
  intros Hk W0. unfold closeGraph. induction k as [|k IH]; [exact W0|]. specialize (IH ltac:(lia)). rewrite seq_S, fold_left_app. cbn [fold_left Nat.add].
  set (d' := fold_left _ (seq 0 k) d) in *. clearbody d'. clear W0 d. rename IH into W. rewrite (wi_v _ _ _ _ _ W). rewrite (proj2 (Nat.ltb_lt k n)) by lia.
  unfold addVertex. rewrite (wi_del _ _ _ _ _ W), (wi_nv _ _ _ _ _ W), Nat2Z.id, (wi_size _ _ _ _ _ W). cbn [bvx v_qubit].
  set (d1 := mkD _ _ _ _ _ _ _ _ _). assert (Nk : k <> n + k) by lia.
  constructor; cbn [d_size d_verts d_deleted d_nv d_ne d_gphase d_in d_out set_io addEdge set_ne pushHalf set_edges d1].
  - lia.
  - intros v. unfold zupd. rewrite (wi_v _ _ _ _ _ W). fold (bvx k). ranges. subst v. do 2 f_equal. lia.
  - intros v. change (d_edges (addEdge d1 k (n + k) false) v = if inr 0 (S k) v then [(v + n, false)] else if inr (n + 0) (n + S k) v then [(v - n, false)] else []).
    rewrite addEdge_edges by auto. unfold d1. cbn [d_edges]. unfold zupd. rewrite !(wi_e _ _ _ _ _ W). ranges; subst; cbn [app]; auto;  f_equal; f_equal; lia.
  - auto.
  - lia.
  - rewrite (wi_ne _ _ _ _ _ W). lia.
  - apply (wi_gp _ _ _ _ _ W).
  - apply (wi_in _ _ _ _ _ W).
  - rewrite (wi_out _ _ _ _ _ W). now rewrite seq_S.
Qed.
Lemma cut_wires n k d : k <= n -> wires n n 0 n d -> wires n n k n (fold_left (fun d i => removeEdge d i (i + n)) (seq 0 k) d).
Proof.
  intros Hk W0. induction k as [|k IH]; [exact W0|]. specialize (IH ltac:(lia)). rewrite seq_S, fold_left_app. cbn [fold_left Nat.add].
  set (d' := fold_left _ (seq 0 k) d) in *. clearbody d'. clear W0 d. rename IH into W. rewrite removeEdge_cut by lia.
  constructor; cbn [d_size d_verts d_deleted d_nv d_ne d_gphase d_in d_out cutEdge set_ne set_edges]; try apply W.
  - intros v. cbn [d_edges cutEdge set_ne set_edges]. rewrite !(wi_e _ _ _ _ _ W). ranges; subst; cbn [filter fst]; ranges; cbn [negb]; auto.
  - rewrite (wi_ne _ _ _ _ _ W). lia.
Qed.
Definition start (n : nat) : diag := fold_left (fun d i => removeEdge d i (i + n)) (seq 0 n) (mkDiagram n).
Lemma start_wires n : wires n n n n (start n).
Proof.
  unfold start, mkDiagram. destruct (init_wires n) as [W E]. destruct (initGraph d_empty n) as [d qs]. cbn [fst snd] in *. subst qs.
  apply cut_wires; auto. now apply close_wires.
Qed.
Section IO.
Variable rho : nat -> R.
Variable n : nat.
Lemma start_good : good n (start n, seq 0 n).
Proof.
  pose proof (start_wires n) as W.
  assert (L : forall v, live (start n) v = (v <? 2 * n)). { intros v. unfold live. rewrite (wi_v _ _ _ _ _ W). ranges. }
  assert (B : forall v, v < 2 * n -> isBoundary (start n) v = true). { intros v Hv. unfold isBoundary, vty. rewrite (wi_v _ _ _ _ _ W). ranges. }
  assert (E : forall v, d_edges (start n) v = []). { intros v. rewrite (wi_e _ _ _ _ _ W). ranges. }
  assert (Q : forall i, i < n -> nth i (seq 0 n) 0 = i) by (intros i Hi; now rewrite seq_nth).
  constructor; cbn [fst snd].
  - constructor.
    + intros v Hv. rewrite (wi_size _ _ _ _ _ W) in Hv. rewrite (wi_v _ _ _ _ _ W). ranges.
    + intros v _. rewrite E. constructor.
    + intros u v h _ I. rewrite E in I. destruct I.
  - apply book_intro.
    + rewrite (wi_del _ _ _ _ _ W). constructor.
    + intros v. rewrite (wi_del _ _ _ _ _ W), (wi_size _ _ _ _ _ W), (wi_v _ _ _ _ _ W). cbn [In]. split; [tauto|]. intros [A X]. revert X. ranges; intros X; inversion X.
    + rewrite (wi_nv _ _ _ _ _ W). unfold vcount. rewrite (wi_size _ _ _ _ _ W). rewrite (zsum_ext _ _ (fun _ => 1%Z)).
      * rewrite <- zsum_len, seq_length. lia.
      * intros v I. apply in_seq in I. rewrite L. ranges.
    + rewrite (wi_ne _ _ _ _ _ W). unfold dsum. rewrite zsum_zero; [lia|]. intros v _. unfold degree. rewrite E. now destruct (live (start n) v).
  - intros v Lv. rewrite L in Lv. apply Nat.ltb_lt in Lv. unfold vphase. rewrite (wi_v _ _ _ _ _ W). ranges; apply ph_ok_zero.
  - apply seq_length.
  - apply seq_NoDup.
  - intros i Hi. rewrite Q, L by auto. apply Nat.ltb_lt. lia.
  - apply (wi_in _ _ _ _ _ W).
  - apply (wi_out _ _ _ _ _ W).
  - intros v Lv. rewrite L in Lv. apply Nat.ltb_lt in Lv. split; auto.
  - intros v Hv. rewrite L. now apply Nat.ltb_lt.
  - intros v _ _. unfold degree. rewrite E. cbn. lia.
  - intros v _. apply E.
  - intros i Hi. left. rewrite Q by auto. auto.
Qed.
Lemma start_T b : T rho n (start n, seq 0 n) b = basis_in n b.
Proof.
  pose proof (start_wires n) as W. apply functional_extensionality. intros y. unfold T, fden. cbn [fst snd]. rewrite (wi_gp _ _ _ _ _ W), pexp_p_zero.
  assert (I : forall v, inner (start n) v = false).
  { intros v. unfold inner, live, isBoundary, vty. rewrite (wi_v _ _ _ _ _ W). ranges. }
  assert (IE : interior (start n) = []).
  { unfold interior. induction (seq 0 (d_size (start n))) as [|a l IH]; cbn; auto. now rewrite I. }
  rewrite IE. cbn [vsum].
  assert (E : forall v, d_edges (start n) v = []). { intros v. rewrite (wi_e _ _ _ _ _ W). ranges. }
  assert (WX : wx rho none (start n) b = C1).
  { unfold wx. replace (pv rho none (start n) b) with C1.
    - transitivity (C1 * C1)%C; [|ring]. f_equal. unfold pe. rewrite (dprod_ext _ _ (fun _ _ => C1)); [apply dprod_one|]. intros i j _ _ _. unfold eg, ew, hv, getEdge. rewrite E. cbn. now destruct (live (start n) i && live (start n) j).
    - symmetry. apply cprod_one. intros v _. now rewrite I. }
  rewrite WX. transitivity (fr n (start n) (seq 0 n) b y); [ring|]. unfold fr, basis_in. apply cprod_ext. intros i H. apply in_seq in H. rewrite seq_nth by lia. cbn [Nat.add].
  assert (X : isX (start n) i = false). { unfold isX, vty. rewrite (wi_v _ _ _ _ _ W). ranges. }
  rewrite X. reflexivity.
Qed.

(* ---- closing the open ends ------------------------------------------------------------------------------------------- *)
Definition closeOne (qs : list nat) (d' : diag) (i : nat) : diag := addEdge d' (nth i qs 0) (nth i (d_out d') 0) false.
Record closing (d : diag) (qs : list nat) (k : nat) (d' : diag) : Prop := {
  cl_f : frame d d'; cl_z : zwf d'; cl_b : book d'; cl_ph : phases_ok d'; cl_bd : bdeg d';
  cl_e : forall i, k <= i -> i < n -> d_edges d' (n + i) = [] /\ d_edges d' (nth i qs 0) = d_edges d (nth i qs 0);
  cl_den : forall F b, fden rho d' F b = fden rho d (fun x => cprod (seq 0 k) (fun i => wgt (isX d (nth i qs 0)) (x (nth i qs 0)) (x (n + i)%nat)) * F x)%C b
}.
Lemma close_ok d qs k : good n (d, qs) -> k <= n -> closing d qs k (fold_left (closeOne qs) (seq 0 k) d).
Proof.
  intros G. induction k as [|k IH]; intros Hk.
  - cbn. constructor; try apply G.
    + constructor; auto.
    + intros i _ Hi. split; auto. apply (g_outdeg _ _ G). lia.
    + intros F b. apply fden_ext. intros x. cbn. ring.
  - specialize (IH ltac:(lia)). rewrite seq_S, fold_left_app. cbn [fold_left Nat.add]. set (d' := fold_left _ (seq 0 k) d) in *. clearbody d'. destruct IH as [F Z B P D E Dn].
    assert (Hk' : k < n) by lia. unfold closeOne. rewrite (f_out _ _ F). pose proof (g_out _ _ G) as Go. cbn [fst] in Go. rewrite Go, seq_nth by lia.
    set (u := nth k qs 0). destruct (E k (le_n k) Hk') as [E1 E2].
    assert (Lu : live d' u = true) by (rewrite (f_live _ _ F); apply (g_live _ _ G k Hk')).
    assert (Lo : live d' (n + k) = true) by (rewrite (f_live _ _ F); apply (g_io _ _ G); lia).
    assert (Fu : (u < n /\ d_edges d u = []) \/ 2 * n <= u) by apply (g_front _ _ G k Hk').
    assert (Nu : u <> n + k) by lia.
    assert (Hn' : hv d' (n + k) u = None) by (apply hv_none; rewrite E1; auto).
    assert (Hn : hv d' u (n + k) = None) by (rewrite hv_sym; auto).
    pose proof (frame_addEdge d' u (n + k) false) as F2.
    assert (Bu : forall v, live d v = true -> (isBoundary d v = true <-> v < 2 * n)) by apply (g_bd _ _ G).
    constructor.
    + eapply frame_trans; eauto.
    + apply addEdge_zwf; auto.
    + apply addEdge_book; auto.
    + now apply phok_addEdge.
    + intros v L Bd. rewrite (f_live _ _ F2) in L. rewrite (f_bnd _ _ _ F2) in Bd. unfold degree. rewrite addEdge_edges by auto.
      destruct (Nat.eqb_spec v u) as [->|]; [|destruct (Nat.eqb_spec v (n + k)) as [->|]; [rewrite E1; cbn; lia|now apply D]].
      rewrite (f_bnd _ _ _ F) in Bd. rewrite (f_live _ _ F) in L. apply Bu in Bd; auto. fold u in E2. rewrite E2. destruct Fu as [[_ ->]|]; [cbn; lia|lia].
    + intros i Hi Hin. destruct (E i ltac:(lia) Hin) as [A1 A2]. rewrite !addEdge_edges by auto.
      assert (Ni : nth i qs 0 <> u) by (apply (front_neq n (d, qs)); auto; lia).
      assert (Fi : (nth i qs 0 < n /\ d_edges d (nth i qs 0) = []) \/ 2 * n <= nth i qs 0) by apply (g_front _ _ G i Hin).
      rewrite (proj2 (Nat.eqb_neq _ _) Ni). rewrite (proj2 (Nat.eqb_neq (n + i) u)) by lia. rewrite (proj2 (Nat.eqb_neq (n + i) (n + k))) by lia.
      rewrite (proj2 (Nat.eqb_neq (nth i qs 0) (n + k))) by lia. auto.
    + intros G' b. rewrite fden_edge by auto. rewrite Dn. apply fden_ext. intros x. rewrite seq_split_prod. fold u.
      assert (X : eh d' u (n + k) false = isX d u).
      { rewrite (f_eh _ _ _ _ _ F). unfold eh. assert (Xo : isX d (n + k) = false).
        { assert (Bo : isBoundary d (n + k) = true) by (apply Bu; [rewrite <- (f_live _ _ F); auto|lia]). unfold isX, isBoundary in *. destruct (vty d (n + k)); auto; discriminate. }
        rewrite Xo. now rewrite xorb_false_l, xorb_false_r. }
      rewrite X. ring.
Qed.
Lemma close_rep d qs f c : good n (d, qs) -> c <> C0 -> (forall b, T rho n (d, qs) b = sscal c (f (basis_in n b))) ->
  let d' := fold_left (fun d' i => addEdge d' (nth i qs 0) (nth i (d_out d') 0) false) (seq 0 n) d in
  wf d' /\ represents rho n d' f /\ (forall v, live d' v = true -> isBoundary d' v = true -> In v (d_in d') \/ In v (d_out d')).
Proof.
  intros G Hc H d'. pose proof (close_ok d qs n G (le_n n)) as K. change (closing d qs n d') in K. clearbody d'. destruct K as [F Z B P D _ Dn].
  assert (Ii : d_in d' = seq 0 n) by (rewrite (f_in _ _ F); apply (g_in _ _ G)). assert (Io : d_out d' = seq n n) by (rewrite (f_out _ _ F); apply (g_out _ _ G)).
  split; [|split].
  - constructor; auto. intros v. rewrite Ii, Io, !in_seq. intros I. assert (v < 2 * n) by lia.
    assert (L : live d v = true) by (apply (g_io _ _ G); auto). rewrite (f_live _ _ F), (f_bnd _ _ _ F). split; auto. now apply (g_bd _ _ G).
  - split; [auto|]. split; auto. exists c. split; auto. intros b. unfold den.
    rewrite (vsum_ext _ _ (fun x => wx rho none d' x * C1)%C) by (intros x; rewrite weight_wx by auto; ring).
    change (fden rho d' (fun _ => C1) b = c * f (basis_in n b) (fun i => b (n + i)%nat))%C. rewrite Dn.
    transitivity (T rho n (d, qs) b (fun i => b (n + i)%nat)); [|rewrite H; reflexivity].
    unfold T, fden. cbn [fst snd]. f_equal. apply vsum_ext_out. intros x X. f_equal. transitivity (fr n d qs x (fun i => x (n + i)%nat)); [unfold fr; ring|].
    unfold fr. apply cprod_ext. intros i I. apply in_seq in I. rewrite (X (n + i)%nat); auto. intros J. apply (interior_In rho) in J; [|exact (g_z _ _ G)]. revert J. unfold inner.
    assert (Bo : isBoundary d (n + i) = true) by (apply (g_bd _ _ G); [apply (g_io _ _ G)|]; lia). rewrite Bo. rewrite andb_false_r. discriminate.
  - intros v L Bd. rewrite (f_live _ _ F) in L. rewrite (f_bnd _ _ _ F) in Bd. apply (g_bd _ _ G v L) in Bd. rewrite Ii, Io, !in_seq. lia.
Qed.
End IO.
