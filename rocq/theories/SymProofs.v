(** Symbolic operations: instantiation, inversion, circuits. *)
From Coq Require Import Reals Lra List Arith Bool Lia.
From Verif Require Import Cplx Qsem GateModel GateSpec GateProofs CanonProofs ExprModel ExprProofs SymModel SymSpec.
Import ListNotations.
Local Open Scope R_scope.

Lemma mat_near_trans k e f A B D : mat_near k e A B -> mat_near k f B D -> mat_near k (e + f) A D.
Proof.
  intros H1 H2 r c Hr Hc. replace (A r c - D r c)%C with ((A r c - B r c) + (B r c - D r c))%C by ring.
  eapply Rle_trans; [apply Cmod_triangle|]. pose proof (H1 r c Hr Hc). pose proof (H2 r c Hr Hc). lra.
Qed.
Lemma mat_near_refl k e A : 0 <= e -> mat_near k e A A.
Proof.
  intros He r c _ _. replace (A r c - A r c)%C with C0 by ring. replace (Cmod C0) with 0; [lra|].
  symmetry. now apply Cmod_zero.
Qed.
Lemma mat_near_weaken k e f A B : e <= f -> mat_near k e A B -> mat_near k f A B.
Proof. intros L H r c Hr Hc. eapply Rle_trans; [apply H|]; auto. Qed.

Lemma inst_values a ps vs : Forall2 (value a) ps vs -> inst_params a (map store_num ps) (map store_sym ps) = Some vs.
Proof.
  induction 1 as [|p v ps vs V F IH]; [reflexivity|]. cbn [map inst_params].
  destruct p as [x|e]; cbn [store_sym store_num value] in *; rewrite IH; [now subst|now rewrite V].
Qed.

Lemma gm_single t ps M : single_matrix t ps = Some M -> gate_matrix t ps = Some (1%nat, M).
Proof. intros H. unfold gate_matrix. destruct t; rewrite H; try reflexivity. discriminate. Qed.

Section Near.
Variable tol : R.
Hypothesis tol_pos : 0 < tol.
Hypothesis tol_small : tol <= 1 / 100.

Lemma nd_exact t ps : (t = gP -> length ps = 1%nat) -> (t = gU2 -> length ps = 2%nat) -> (t = gU -> length ps = 3%nat) ->
  check_ugate_nd tol t ps = check_ugate tol t ps.
Proof.
  assert (K : forall r u, keep_rest u [] r = r).
  { intros [[t' ps']|] u; unfold keep_rest; auto. rewrite app_nil_r. now destruct (optype_eqb t' u). }
  intros L1 L2 L3. destruct t; cbn [check_ugate_nd check_ugate]; try (destruct ps; reflexivity).
  - specialize (L3 eq_refl). destruct ps as [|x [|y [|z [|]]]]; try discriminate. apply K.
  - specialize (L2 eq_refl). destruct ps as [|x [|y [|]]]; try discriminate. apply K.
  - specialize (L1 eq_refl). destruct ps as [|x [|]]; try discriminate. apply K.
Qed.

Definition near9 (x y : R) : Prop := Rabs (x - y) <= 9 * tol.
Lemma near9_par x y : check_par tol x = Some y -> near9 x y.
Proof. intros H. apply check_par_near in H; auto. unfold near9. lra. Qed.
Lemma near9_refl x : near9 x x.
Proof. unfold near9. rewrite Rxx. lra. Qed.

Lemma sym_u3_theta_near p l p' l' : sym_u3_theta tol p l = Some (p', l') -> near9 p p' /\ near9 l l'.
Proof.
  unfold sym_u3_theta, near9.
  pose proof (snap tol tol_pos (close tol l 0 && close tol p 0) p 0) as P1.
  specialize (P1 (fun H => proj2 (proj1 (andb_true_iff _ _) H))). revert P1.
  generalize (if close tol l 0 && close tol p 0 then 0 else p). intros p1 P1.
  pose proof (snap tol tol_pos (close tol l 0) l 0 (fun H => H)) as L1. revert L1.
  generalize (if close tol l 0 then 0 else l). intros l1 L1.
  pose proof (snap tol tol_pos (close tol l1 (PI / 2) && close tol p1 (PI / 2)) p1 (PI / 2)) as P2.
  specialize (P2 (fun H => proj2 (proj1 (andb_true_iff _ _) H))). revert P2.
  generalize (if close tol l1 (PI / 2) && close tol p1 (PI / 2) then PI / 2 else p1). intros p2 P2.
  pose proof (snap tol tol_pos (close tol l1 (PI / 2)) l1 (PI / 2) (fun H => H)) as L2. revert L2.
  generalize (if close tol l1 (PI / 2) then PI / 2 else l1). intros l2 L2.
  pose proof (snap tol tol_pos (close tol l2 PI && close tol p2 0) p2 0) as P3.
  specialize (P3 (fun H => proj2 (proj1 (andb_true_iff _ _) H))). revert P3.
  generalize (if close tol l2 PI && close tol p2 0 then 0 else p2). intros p3 P3.
  pose proof (snap tol tol_pos (close tol l2 PI) l2 PI (fun H => H)) as L3. revert L3.
  generalize (if close tol l2 PI then PI else l2). intros l3 L3.
  destruct (check_par tol p3) as [pp|] eqn:EP; [|discriminate].
  destruct (check_par tol l3) as [ll|] eqn:EL; [|discriminate]. intros E. inversion E; subst.
  apply check_par_near in EP, EL; auto.
  pose proof (tri p p1 p'). pose proof (tri p1 p2 p'). pose proof (tri p2 p3 p').
  pose proof (tri l l1 l'). pose proof (tri l1 l2 l'). pose proof (tri l2 l3 l'). lra.
Qed.

Lemma sym_u3_phi_near t l ty t' l' : sym_u3_phi tol t l = Some (ty, t', l') ->
  ~ Rabs (t - PI / 2) < tol -> ty = gU /\ near9 t t' /\ near9 l l'.
Proof.
  unfold sym_u3_phi. intros E N. destruct (close tol t (PI / 2)) eqn:C.
  { exfalso. apply N. now apply close_lt. }
  clear C N. revert E.
  pose proof (snap tol tol_pos (close tol l 0) l 0 (fun H => H)) as L1. revert L1.
  generalize (if close tol l 0 then 0 else l). intros l1 L1.
  pose proof (snap tol tol_pos (close tol l1 (PI / 2)) l1 (PI / 2) (fun H => H)) as L2. revert L2.
  generalize (if close tol l1 (PI / 2) then PI / 2 else l1). intros l2 L2.
  pose proof (snap tol tol_pos (close tol l2 PI) l2 PI (fun H => H)) as L3. revert L3.
  generalize (if close tol l2 PI then PI else l2). intros l3 L3.
  destruct (check_par tol t) as [tt|] eqn:ET; [|discriminate].
  destruct (check_par tol l3) as [ll|] eqn:EL; [|discriminate]. intros E. inversion E; subst.
  apply near9_par in ET. apply check_par_near in EL; auto. split; [reflexivity|]. split; auto. unfold near9.
  pose proof (tri l l1 l'). pose proof (tri l1 l2 l'). pose proof (tri l2 l3 l'). lra.
Qed.

Lemma sym_u3_lambda_near t p ty t' p' : sym_u3_lambda tol t p = Some (ty, t', p') ->
  ~ (Rabs (t - 0) < tol /\ Rabs (p - 0) < tol) -> ~ Rabs (t - PI / 2) < tol -> ty = gU /\ near9 t t' /\ near9 p p'.
Proof.
  unfold sym_u3_lambda. intros E N1 N2. destruct (close tol t 0 && close tol p 0) eqn:C.
  { exfalso. apply N1. apply andb_true_iff in C. destruct C. split; now apply close_lt. }
  destruct (close tol t (PI / 2)) eqn:C2. { exfalso. apply N2. now apply close_lt. }
  destruct (check_par tol t) as [tt|] eqn:ET; [|discriminate].
  destruct (check_par tol p) as [pp|] eqn:EP; [|discriminate]. inversion E; subst.
  apply near9_par in ET, EP. auto.
Qed.

Lemma sym_u3_phi_lambda_near t ty t' : sym_u3_phi_lambda tol t = Some (ty, t') ->
  ~ Rabs (t - PI / 2) < tol -> ty = gU /\ near9 t t'.
Proof.
  unfold sym_u3_phi_lambda. intros E N2.
  destruct (close tol t (PI / 2)) eqn:C2. { exfalso. apply N2. now apply close_lt. }
  destruct (check_par tol t) as [tt|] eqn:ET; [|discriminate]. inversion E; subst.
  apply near9_par in ET. auto.
Qed.

(** Same number of parameters, each changed by at most nine tolerances, and at
    least one of them unchanged. *)
Definition pars_near (vs ws : list R) : Prop := Forall2 near9 vs ws /\ exists v, In v vs /\ In v ws.

Ltac f2 := match goal with F : Forall2 _ (_ :: _) ?v |- _ => inversion F; subst; clear F | F : Forall2 _ [] ?v |- _ => inversion F; subst; clear F end.

Ltac evs := repeat match goal with V : evaluate _ _ = Some _ |- _ => rewrite V end.

Definition few (t : optype) : bool := match t with gP | gU2 | gU => false | _ => true end.

Lemma make_sym_near a t ps cs ts s vs : Forall2 (value a) ps vs -> all_numbers ps = false -> ~ shrunk tol t ps ->
  make_sym tol t ps cs ts = Some s ->
  s_type s = t /\ s_ctl s = cs /\ s_tgt s = ts /\ s_sym s = map store_sym ps /\ length (s_par s) = length ps /\
  (t = gP -> length ps = 1%nat) /\ (t = gU2 -> length ps = 2%nat) /\ (t = gU -> length ps = 3%nat) /\
  exists ws, inst_params a (s_par s) (s_sym s) = Some ws /\
    (few t = true -> ws = vs) /\ (few t = false -> Forall2 near9 vs ws) /\
    (forall th p l th' p' l', vs = [th; p; l] -> ws = [th'; p'; l'] -> few t = false -> adist l p th l' p' th' <= 18 * tol).
Proof.
  intros F AN NS H. unfold make_sym in H.
  assert (TR : few t = true -> check_sym tol t (map store_num ps) (map store_sym ps) = Some (t, map store_num ps))
    by (destruct t; intros; try discriminate; reflexivity).
  destruct (few t) eqn:FW.
  - rewrite (TR eq_refl) in H. inversion H; subst s; clear H. cbn [s_type s_ctl s_tgt s_sym s_par].
    rewrite map_length.
    do 5 (split; [reflexivity|]). split; [intros ->; discriminate|]. split; [intros ->; discriminate|].
    split; [intros ->; discriminate|]. exists vs. split; [now apply inst_values|]. split; [auto|]. split; [discriminate|]. discriminate.
  - clear TR. destruct t; try discriminate; clear FW.
    + (* U *)
      cbn [check_sym] in H.
      destruct ps as [|x [|y [|z [|? ?]]]]; try discriminate;
        try (repeat match type of H with context [match ?q with _ => _ end] => destruct q; try discriminate end; fail).
      repeat f2. rename y0 into v0, y1 into v1, y2 into v2.
      assert (N2 : forall r, x = SNum r -> ~ Rabs (r - PI / 2) < tol).
      { intros r -> K. apply NS. split; [reflexivity|]. right. exists r, y, z. auto. }
      assert (N1 : forall r q e, x = SNum r -> y = SNum q -> z = SSym e -> ~ (Rabs (r - 0) < tol /\ Rabs (q - 0) < tol)).
      { intros r q e -> -> -> [K1 K2]. apply NS. split; [reflexivity|]. left. exists r, q, e. auto. }
      assert (DONE : forall p0 p1 p2, check_sym tol gU (map store_num [x; y; z]) (map store_sym [x; y; z]) = Some (gU, [p0; p1; p2]) ->
        (forall r, x = SNum r -> near9 r p0) -> (forall r, y = SNum r -> near9 r p1) -> (forall r, z = SNum r -> near9 r p2) ->
        match check_sym tol gU (map store_num [x; y; z]) (map store_sym [x; y; z]) with
        | Some (t', par) => Some {| s_type := t'; s_par := par; s_sym := map store_sym [x; y; z]; s_ctl := cs; s_tgt := ts |}
        | None => None end = Some s ->
        s_type s = gU /\ s_ctl s = cs /\ s_tgt s = ts /\ s_sym s = map store_sym [x; y; z] /\ length (s_par s) = 3%nat /\
        exists ws, inst_params a (s_par s) (s_sym s) = Some ws /\ Forall2 near9 [v0; v1; v2] ws /\
        (forall th p l th' p' l', [v0; v1; v2] = [th; p; l] -> ws = [th'; p'; l'] -> adist l p th l' p' th' <= 18 * tol)).
      { intros p0 p1 p2 E K0 K1 K2 G. rewrite E in G. inversion G; subst s; clear G.
        cbn [s_type s_ctl s_tgt s_sym s_par map]. do 5 (split; [reflexivity|]).
        exists [match x with SNum _ => p0 | SSym _ => v0 end; match y with SNum _ => p1 | SSym _ => v1 end; match z with SNum _ => p2 | SSym _ => v2 end].
        cbn [inst_params].
        destruct x as [x|x], y as [y|y], z as [z|z]; cbn [store_sym value all_numbers forallb andb] in *; try discriminate; subst;
          repeat match goal with V : evaluate a _ = Some _ |- _ => rewrite V end;
          (split; [reflexivity|]); (split; [repeat apply Forall2_cons; try apply Forall2_nil; auto using near9_refl|]);
          intros th p l th' p' l' E1 E2; inversion E1; inversion E2; subst; unfold adist; rewrite ?Rxx;
          try specialize (K0 _ eq_refl); try specialize (K1 _ eq_refl); try specialize (K2 _ eq_refl);
          unfold near9 in *; lra. }
      change (match check_sym tol gU (map store_num [x; y; z]) (map store_sym [x; y; z]) with
        | Some (t', par) => Some {| s_type := t'; s_par := par; s_sym := map store_sym [x; y; z]; s_ctl := cs; s_tgt := ts |}
        | None => None end = Some s) in H.
      assert (R : exists p0 p1 p2, check_sym tol gU (map store_num [x; y; z]) (map store_sym [x; y; z]) = Some (gU, [p0; p1; p2]) /\
        (forall r, x = SNum r -> near9 r p0) /\ (forall r, y = SNum r -> near9 r p1) /\ (forall r, z = SNum r -> near9 r p2)).
      { clear DONE. destruct (check_sym tol gU (map store_num [x; y; z]) (map store_sym [x; y; z])) as [[t' par]|] eqn:CS; [|discriminate].
        cbn [map check_sym] in CS.
        destruct x as [x|x], y as [y|y], z as [z|z]; cbn [store_sym store_num all_numbers forallb andb] in *; try discriminate.
        - destruct (sym_u3_lambda tol x y) as [[[ty t1] p1]|] eqn:E; [|discriminate].
          apply sym_u3_lambda_near in E; eauto. destruct E as (-> & E1 & E2). inversion CS; subst.
          do 3 eexists. split; [reflexivity|]. repeat split; intros r Er; inversion Er; subst; auto.
        - destruct (sym_u3_phi tol x z) as [[[ty t1] p1]|] eqn:E; [|discriminate].
          apply sym_u3_phi_near in E; eauto. destruct E as (-> & E1 & E2). inversion CS; subst.
          do 3 eexists. split; [reflexivity|]. repeat split; intros r Er; inversion Er; subst; auto.
        - destruct (sym_u3_phi_lambda tol x) as [[ty t1]|] eqn:E; [|discriminate].
          apply sym_u3_phi_lambda_near in E; eauto. destruct E as (-> & E1). inversion CS; subst.
          do 3 eexists. split; [reflexivity|]. repeat split; intros r Er; inversion Er; subst; auto.
        - destruct (sym_u3_theta tol y z) as [[t1 p1]|] eqn:E; [|discriminate].
          apply sym_u3_theta_near in E. destruct E as (E1 & E2). inversion CS; subst.
          do 3 eexists. split; [reflexivity|]. repeat split; intros r Er; inversion Er; subst; auto.
        - destruct (check_par tol y) as [t1|] eqn:E; [|discriminate]. apply near9_par in E. inversion CS; subst.
          do 3 eexists. split; [reflexivity|]. repeat split; intros r Er; inversion Er; subst; auto.
        - destruct (check_par tol z) as [t1|] eqn:E; [|discriminate]. apply near9_par in E. inversion CS; subst.
          do 3 eexists. split; [reflexivity|]. repeat split; intros r Er; inversion Er; subst; auto.
        - inversion CS; subst. do 3 eexists. split; [reflexivity|]. repeat split; intros r Er; inversion Er; subst; auto. }
      destruct R as (p0 & p1 & p2 & E & K0 & K1 & K2).
      destruct (DONE _ _ _ E K0 K1 K2 H) as (A1 & A2 & A3 & A4 & A5 & ws & A6 & A7 & A8).
      do 5 (split; [assumption|]). do 2 (split; [discriminate|]). split; [reflexivity|].
      exists ws. split; auto. split; [discriminate|]. split; auto.
    + (* U2 *)
      cbn [check_sym] in H.
      destruct ps as [|x [|y [|? ?]]]; try discriminate;
        try (repeat match type of H with context [match ?q with _ => _ end] => destruct q; try discriminate end; fail).
      repeat f2. cbn [map] in H.
      destruct x as [x|x], y as [y|y]; cbn [store_sym store_num all_numbers forallb andb value] in *; try discriminate; subst.
      * destruct (check_par tol x) as [x'|] eqn:E; [|discriminate]. apply near9_par in E. inversion H; subst s; clear H.
        cbn [s_type s_ctl s_tgt s_sym s_par]. do 5 (split; [reflexivity|]). split; [discriminate|]. split; [reflexivity|]. split; [discriminate|].
        eexists. cbn [inst_params]. evs. split; [reflexivity|]. split; [discriminate|]. split; [intros _; repeat apply Forall2_cons; try apply Forall2_nil; auto using near9_refl|].
        discriminate.
      * destruct (check_par tol y) as [y'|] eqn:E; [|discriminate]. apply near9_par in E. inversion H; subst s; clear H.
        cbn [s_type s_ctl s_tgt s_sym s_par]. do 5 (split; [reflexivity|]). split; [discriminate|]. split; [reflexivity|]. split; [discriminate|].
        eexists. cbn [inst_params]. evs. split; [reflexivity|]. split; [discriminate|]. split; [intros _; repeat apply Forall2_cons; try apply Forall2_nil; auto using near9_refl|].
        discriminate.
      * destruct (check_par tol 0) as [y'|] eqn:E; [|discriminate]. inversion H; subst s; clear H.
        cbn [s_type s_ctl s_tgt s_sym s_par]. do 5 (split; [reflexivity|]). split; [discriminate|]. split; [reflexivity|]. split; [discriminate|].
        eexists. cbn [inst_params]. evs. split; [reflexivity|]. split; [discriminate|]. split; [intros _; repeat apply Forall2_cons; try apply Forall2_nil; auto using near9_refl|].
        discriminate.
    + (* P *)
      cbn [check_sym] in H.
      destruct ps as [|x [|? ?]]; try discriminate;
        try (repeat match type of H with context [match ?q with _ => _ end] => destruct q; try discriminate end; fail).
      repeat f2. cbn [map] in H.
      destruct x as [x|x]; cbn [store_sym store_num all_numbers forallb andb value] in *; try discriminate; subst.
      inversion H; subst s; clear H. cbn [s_type s_ctl s_tgt s_sym s_par]. do 5 (split; [reflexivity|]). split; [reflexivity|]. do 2 (split; [discriminate|]).
      eexists. cbn [inst_params]. evs. split; [reflexivity|]. split; [discriminate|]. split; [intros _; repeat apply Forall2_cons; try apply Forall2_nil; auto using near9_refl|].
      discriminate.
Qed.

Lemma inst_length a sym : forall par ws, inst_params a par sym = Some ws -> length ws = length sym.
Proof.
  induction sym as [|s sym IH]; intros par ws H; cbn [inst_params] in H; [inversion H; subst; auto|].
  destruct par as [|x par]; [discriminate|].
  destruct (match s with Some e => evaluate a e | None => Some x end) as [v|]; [|discriminate].
  destruct (inst_params a par sym) as [r|] eqn:E; [|discriminate]. inversion H; subst. cbn [length]. now rewrite (IH _ _ E).
Qed.

Lemma instantiated_near a t ps cs ts s vs k M o : Forall2 (value a) ps vs -> all_numbers ps = false -> ~ shrunk tol t ps ->
  gate_matrix t vs = Some (k, M) -> make_sym tol t ps cs ts = Some s -> get_instantiated tol a s = Some o ->
  gate_near (42 * tol) {| o_type := t; o_par := vs; o_ctl := cs; o_tgt := ts |} o.
Proof.
  intros F AN NS GM MS GI.
  destruct (make_sym_near a t ps cs ts s vs F AN NS MS) as (E1 & E2 & E3 & E4 & E5 & L1 & L2 & L3 & ws & IP & W1 & W2 & W3).
  unfold get_instantiated in GI. rewrite IP, E1 in GI.
  assert (LW : length ws = length ps) by (rewrite (inst_length _ _ _ _ IP), E4; apply map_length).
  assert (LV : length vs = length ps) by (symmetry; clear -F; induction F; simpl; auto).
  rewrite nd_exact in GI by (rewrite LW; auto).
  destruct (check_ugate tol t ws) as [[t' ps']|] eqn:CU; [|discriminate]. inversion GI; subst o; clear GI.
  split; [cbn; auto|]. split; [cbn; auto|]. cbn [o_type o_par].
  destruct (few t) eqn:FW.
  - rewrite (W1 eq_refl) in *. assert (check_ugate tol t vs = Some (t, vs)) as Q by (destruct t; try discriminate; reflexivity).
    rewrite Q in CU. inversion CU; subst. exists k, M, M. split; auto. split; auto. apply mat_near_refl. lra.
  - specialize (W2 eq_refl).
    assert (X : exists M0 M1, single_matrix t vs = Some M0 /\ single_matrix t ws = Some M1 /\ mat_near 1 (18 * tol) M0 M1).
    { destruct t; try discriminate.
      - specialize (L3 eq_refl). destruct vs as [|v0 [|v1 [|v2 [|]]]]; cbn [length] in LV; try lia.
        destruct ws as [|w0 [|w1 [|w2 [|]]]]; cbn [length] in LW; try lia.
        eexists; eexists. split; [reflexivity|]. split; [reflexivity|].
        eapply mat_near_weaken; [|apply uMat_near]. now apply W3.
      - specialize (L2 eq_refl). destruct vs as [|v0 [|v1 [|]]]; cbn [length] in LV; try lia.
        destruct ws as [|w0 [|w1 [|]]]; cbn [length] in LW; try lia.
        destruct (near_transfer gU2 [v0; v1] v1 v0 (PI / 2) _ (18 * tol) gU2 [w0; w1] w1 w0 (PI / 2) (isu_U2 v0 v1) eq_refl (isu_U2 w0 w1))
          as (M' & E & N).
        + inversion W2 as [|? ? ? ? Q1 W2' ]; subst. inversion W2' as [|? ? ? ? Q2 _]; subst. unfold adist, near9 in *. rewrite Rxx. lra.
        + eexists; exists M'. split; [reflexivity|]. auto.
      - specialize (L1 eq_refl). destruct vs as [|v0 [|]]; cbn [length] in LV; try lia.
        destruct ws as [|w0 [|]]; cbn [length] in LW; try lia.
        destruct (near_transfer gP [v0] v0 0 0 _ (18 * tol) gP [w0] w0 0 0 (isu_P v0) eq_refl (isu_P w0))
          as (M' & E & N).
        + inversion W2 as [|? ? ? ? Q1 W2' ]; subst. unfold adist, near9 in *. rewrite !R0_0. lra.
        + eexists; exists M'. split; [reflexivity|]. auto. }
    destruct X as (M0 & M1 & S0 & S1 & N). destruct (canon_near tol tol_pos tol_small _ _ _ _ _ S1 CU) as (M' & S' & N').
    exists 1%nat, M0, M'. split; [now apply gm_single|]. split; [now apply gm_single|].
    eapply mat_near_weaken; [|eapply mat_near_trans; [exact N|exact N']]. lra.
Qed.

(** instantiate does what getInstantiatedOperation returns. *)
Lemma instantiate_get a s : length (s_par s) = length (s_sym s) ->
  option_map std_of (instantiate tol a s) = get_instantiated tol a s.
Proof.
  intros L. unfold instantiate, get_instantiated. destruct (inst_params a (s_par s) (s_sym s)) as [vs|] eqn:E; [|reflexivity].
  rewrite skipn_all2 by (rewrite (inst_length _ _ _ _ E); lia). rewrite app_nil_r.
  now destruct (check_ugate_nd tol (s_type s) vs) as [[t ps]|].
Qed.
Lemma instantiate_free a s s' : instantiate tol a s = Some s' -> has_sym s' = false.
Proof.
  unfold instantiate. destruct (inst_params a (s_par s) (s_sym s)); [|discriminate].
  destruct (check_ugate_nd _ _ _) as [[t ps]|]; [|discriminate]. intros E. inversion E; subst. unfold has_sym. cbn [s_sym].
  induction (s_sym s); auto.
Qed.
End Near.

(** ** Inversion *)
Lemma inst_cons a x par s sym v vs : inst_params a (x :: par) (s :: sym) = Some (v :: vs) <->
  (match s with Some e => evaluate a e | None => Some x end = Some v /\ inst_params a par sym = Some vs).
Proof.
  cbn [inst_params]. destruct (match s with Some e => evaluate a e | None => Some x end) as [w|];
    destruct (inst_params a par sym) as [r|]; split; try (intros [? ?]); try (intros ?); try congruence.
  - inversion H; auto.
Qed.

Lemma change_inst a f g (Hg : forall e v, evaluate a e = Some v -> evaluate a (g e) = Some (f v)) :
  forall i par sym vs, inst_params a par sym = Some vs -> (i < length vs)%nat ->
  exists par' sym', change_at f g i par sym = Some (par', sym') /\
    inst_params a par' sym' = Some (firstn i vs ++ match skipn i vs with v :: r => f v :: r | [] => [] end).
Proof.
  induction i as [|i IH]; intros par sym vs H L; destruct sym as [|s sym]; cbn [inst_params] in H;
    try (inversion H; subst; simpl in L; lia); destruct par as [|x par]; try discriminate;
    destruct (match s with Some e => evaluate a e | None => Some x end) as [v|] eqn:E; try discriminate;
    destruct (inst_params a par sym) as [r|] eqn:I; try discriminate; inversion H; subst vs; clear H.
  - cbn [change_at firstn skipn app]. destruct s as [e|].
    + do 2 eexists. split; [reflexivity|]. apply inst_cons. split; auto.
    + do 2 eexists. split; [reflexivity|]. inversion E; subst. apply inst_cons. split; auto.
  - cbn [length] in L. destruct (IH par sym r I ltac:(lia)) as (par' & sym' & C & P).
    cbn [change_at]. rewrite C. do 2 eexists. split; [reflexivity|]. cbn [firstn skipn app]. apply inst_cons. auto.
Qed.

Lemma neg_change a : forall e v, evaluate a e = Some v -> evaluate a (neg_expr e) = Some (- v).
Proof. intros e v. apply neg_expr_value. Qed.
Lemma add_change a c : forall e v, evaluate a e = Some v -> evaluate a (add_const e c) = Some (v + c).
Proof. intros e v. apply add_const_value. Qed.

Lemma swap01_inst a par sym v0 v1 r : inst_params a par sym = Some (v0 :: v1 :: r) ->
  inst_params a (swap01 par) (swap01 sym) = Some (v1 :: v0 :: r).
Proof.
  intros H. destruct sym as [|s0 [|s1 sym]]; [discriminate| |].
  { apply inst_length in H. discriminate. }
  destruct par as [|x0 [|x1 par]]; [discriminate| |].
  { cbn [inst_params] in H. destruct (match s0 with Some _ => _ | None => _ end); discriminate. }
  apply inst_cons in H. destruct H as [E0 H]. apply inst_cons in H. destruct H as [E1 H].
  cbn [swap01]. apply inst_cons. split; auto. apply inst_cons. auto.
Qed.
Lemma swap12_inst a par sym v0 v1 v2 r : inst_params a par sym = Some (v0 :: v1 :: v2 :: r) ->
  inst_params a (swap12 par) (swap12 sym) = Some (v0 :: v2 :: v1 :: r).
Proof.
  intros H. destruct sym as [|s0 sym]; [discriminate|]. destruct par as [|x0 par]; [discriminate|].
  apply inst_cons in H. destruct H as [E0 H]. apply swap01_inst in H.
  assert (K : forall A (y : A) l, swap12 (y :: l) = y :: swap01 l) by (intros A y [|? [|? ?]]; reflexivity).
  rewrite !K. apply inst_cons. auto.
Qed.


Lemma invert_evaluated a s o : evaluated a s = Some o -> (exists i, invert_std o = Some i) ->
  exists s', invert_sym s = Some s' /\ evaluated a s' = invert_std o.
Proof.
  unfold evaluated. destruct (inst_params a (s_par s) (s_sym s)) as [vs|] eqn:E; [|discriminate].
  intros H. inversion H; subst o; clear H. intros [i HI].
  assert (N0 : vs <> [] -> exists p q, negate_at 0 (s_par s) (s_sym s) = Some (p, q) /\ inst_params a p q = Some (neg0 vs)).
  { intros NV. destruct vs as [|v vs]; [congruence|].
    destruct (change_inst a Ropp neg_expr (neg_change a) 0 _ _ _ E ltac:(cbn [length Nat.add]; lia)) as (p & q & C & P). eauto. }
  unfold invert_sym. destruct (s_type s) eqn:T; cbn [invert_std o_type o_par o_ctl o_tgt] in *; try discriminate;
    try (destruct vs as [|v vs]; [discriminate|]; destruct (N0 ltac:(discriminate)) as (p & q & C & P); rewrite C;
         eexists; split; [reflexivity|]; cbn [s_par s_sym s_type s_ctl s_tgt]; rewrite P, T; reflexivity);
    try (destruct (s_tgt s) as [|t0 [|t1 r]] eqn:TG; try discriminate;
         unfold std_of; rewrite ?T; cbn [invert_std o_type o_par o_ctl o_tgt]; rewrite ?TG;
         eexists; split; [reflexivity|]; cbn [s_par s_sym s_type s_ctl s_tgt o_par o_type o_ctl o_tgt]; rewrite E; reflexivity);
    try (unfold std_of; rewrite ?T; cbn [invert_std o_type o_par o_ctl o_tgt flip_inv];
         eexists; split; [reflexivity|]; cbn [s_par s_sym s_type s_ctl s_tgt o_par o_type o_ctl o_tgt]; rewrite E; reflexivity).
  - (* U *)
    destruct vs as [|v0 [|v1 [|v2 r]]]; try discriminate.
    destruct (change_inst a Ropp neg_expr (neg_change a) 0 _ _ _ E ltac:(cbn [length Nat.add]; lia)) as (pa & qa & C1 & P1).
    cbn [firstn skipn app] in P1.
    destruct (change_inst a Ropp neg_expr (neg_change a) 1 _ _ _ P1 ltac:(cbn [length Nat.add]; lia)) as (pb & qb & C2 & P2).
    cbn [firstn skipn app] in P2.
    destruct (change_inst a Ropp neg_expr (neg_change a) 2 _ _ _ P2 ltac:(cbn [length Nat.add]; lia)) as (pc & qc & C3 & P3).
    cbn [firstn skipn app] in P3. unfold negate_at. rewrite C1. cbn [bind_pars]. rewrite C2. cbn [bind_pars]. rewrite C3. cbn [bind_pars with_pars].
    eexists. split; [reflexivity|]. cbn [s_par s_sym s_type s_ctl s_tgt]. rewrite (swap12_inst _ _ _ _ _ _ _ P3), T. reflexivity.
  - (* U2 *)
    destruct vs as [|v0 [|v1 r]]; try discriminate.
    destruct (change_inst a Ropp neg_expr (neg_change a) 0 _ _ _ E ltac:(cbn [length Nat.add]; lia)) as (pa & qa & C1 & P1).
    cbn [firstn skipn app] in P1.
    destruct (change_inst a Ropp neg_expr (neg_change a) 1 _ _ _ P1 ltac:(cbn [length Nat.add]; lia)) as (pb & qb & C2 & P2).
    cbn [firstn skipn app] in P2.
    destruct (change_inst a _ _ (add_change a (- PI)) 0 _ _ _ P2 ltac:(cbn [length Nat.add]; lia)) as (pc & qc & C3 & P3).
    cbn [firstn skipn app] in P3.
    destruct (change_inst a _ _ (add_change a PI) 1 _ _ _ P3 ltac:(cbn [length Nat.add]; lia)) as (pd & qd & C4 & P4).
    cbn [firstn skipn app] in P4.
    unfold negate_at, add_at. rewrite C1. cbn [bind_pars]. rewrite C2. cbn [bind_pars]. rewrite C3. cbn [bind_pars]. rewrite C4. cbn [bind_pars with_pars].
    eexists. split; [reflexivity|]. cbn [s_par s_sym s_type s_ctl s_tgt]. rewrite (swap01_inst _ _ _ _ _ _ P4), T. reflexivity.
Qed.

(** ** Circuits *)
Section Circuit.
Variable tol : R.
Hypothesis tol_pos : 0 < tol.
Hypothesis tol_small : tol <= 1 / 100.

Lemma numbers_near t vs k M t' ps' cs ts : gate_matrix t vs = Some (k, M) -> check_ugate tol t vs = Some (t', ps') ->
  gate_near (42 * tol) {| o_type := t; o_par := vs; o_ctl := cs; o_tgt := ts |} {| o_type := t'; o_par := ps'; o_ctl := cs; o_tgt := ts |}.
Proof.
  intros G C. split; [reflexivity|]. split; [reflexivity|]. cbn [o_type o_par].
  destruct (few t) eqn:FW.
  - assert (Q : check_ugate tol t vs = Some (t, vs)) by (destruct t; try discriminate; reflexivity).
    rewrite Q in C. inversion C; subst. exists k, M, M. split; auto. split; auto. apply mat_near_refl. lra.
  - assert (S : exists M0, single_matrix t vs = Some M0).
    { destruct t; try discriminate; unfold gate_matrix in G.
      - destruct vs as [|? [|? [|? ?]]]; cbn in G; try discriminate; eexists; reflexivity.
      - destruct vs as [|? [|? ?]]; cbn in G; try discriminate; eexists; reflexivity.
      - destruct vs as [|? ?]; cbn in G; try discriminate; eexists; reflexivity. }
    destruct S as (M0 & S). destruct (canon_near tol tol_pos tol_small _ _ _ _ _ S C) as (M' & S' & N).
    exists 1%nat, M0, M'. split; [now apply gm_single|]. split; [now apply gm_single|]. eapply mat_near_weaken; [|exact N]. lra.
Qed.

Lemma numbers_values a ps vs : all_numbers ps = true -> Forall2 (value a) ps vs -> map store_num ps = vs.
Proof.
  intros A F. induction F as [|p v ps vs V F IH]; [reflexivity|]. cbn [all_numbers forallb] in A.
  apply andb_true_iff in A. destruct A as [A B]. destruct p; [|discriminate]. cbn in *. subst. f_equal. auto.
Qed.

Definition sound (a : nat -> option R) (r : request) : Prop :=
  (exists vs k M, Forall2 (value a) (r_par r) vs /\ gate_matrix (r_type r) vs = Some (k, M)) /\
  (all_numbers (r_par r) = false -> ~ shrunk tol (r_type r) (r_par r)).

Lemma emit_one a r ops vars c : sound a r -> emit tol (r_type r) (r_par r) (r_ctl r) (r_tgt r) (ops, vars) = Some c ->
  exists o vars', c = (ops ++ [o], vars') /\
    forall o', instantiate_op tol a o = Some o' -> request_done (42 * tol) a r o'.
Proof.
  intros [(vs & k & M & F & G) NS] E. unfold emit in E. destruct (all_numbers (r_par r)) eqn:AN.
  - destruct (check_ugate tol (r_type r) (map store_num (r_par r))) as [[t' par]|] eqn:C; [|discriminate].
    inversion E; subst c; clear E. do 2 eexists. split; [reflexivity|]. intros o' H. cbn in H. inversion H; subst o'; clear H.
    rewrite (numbers_values a _ vs AN F) in C. exists vs. eexists. split; auto. split; [reflexivity|].
    eapply numbers_near; eauto.
  - destruct (make_sym tol (r_type r) (r_par r) (r_ctl r) (r_tgt r)) as [s|] eqn:MS; [|discriminate].
    inversion E; subst c; clear E. do 2 eexists. split; [reflexivity|]. intros o' H. cbn [instantiate_op] in H.
    destruct (instantiate tol a s) as [s'|] eqn:I; [|discriminate]. rewrite (instantiate_free _ _ _ _ I) in H. cbn [negb] in H.
    inversion H; subst o'; clear H. exists vs. eexists. split; auto. split; [reflexivity|].
    destruct (make_sym_near tol tol_pos tol_small a _ _ _ _ _ _ F AN (NS eq_refl) MS) as (_ & _ & _ & E4 & E5 & _).
    eapply (instantiated_near tol tol_pos tol_small); eauto.
    rewrite <- instantiate_get by (rewrite E4, map_length; auto). now rewrite I.
Qed.

Lemma inst_ops_app a l m r : instantiate_ops tol a (l ++ m) = Some r ->
  exists r1 r2, r = r1 ++ r2 /\ instantiate_ops tol a l = Some r1 /\ instantiate_ops tol a m = Some r2.
Proof.
  revert r. induction l as [|o l IH]; intros r H; cbn [app instantiate_ops] in H.
  - exists [], r. auto.
  - destruct (instantiate_op tol a o) as [o'|] eqn:E; [|discriminate].
    destruct (instantiate_ops tol a (l ++ m)) as [r'|] eqn:E2; [|discriminate]. inversion H; subst.
    destruct (IH _ eq_refl) as (r1 & r2 & -> & A & B). exists (o' :: r1), r2. split; auto. cbn [instantiate_ops]. now rewrite E, A.
Qed.

Lemma emit_all_done a rs : forall ops0 vars0 ops vars ops', (forall r, In r rs -> sound a r) ->
  emit_all tol rs (ops0, vars0) = Some (ops, vars) -> instantiate_ops tol a ops = Some ops' ->
  exists pre post, ops' = pre ++ post /\ instantiate_ops tol a ops0 = Some pre /\ Forall2 (request_done (42 * tol) a) rs post.
Proof.
  induction rs as [|r rs IH]; intros ops0 vars0 ops vars ops' SND E I; cbn [emit_all] in E.
  - inversion E; subst. exists ops', []. rewrite app_nil_r. auto.
  - destruct (emit tol (r_type r) (r_par r) (r_ctl r) (r_tgt r) (ops0, vars0)) as [c|] eqn:E1; [|discriminate].
    destruct (emit_one a r ops0 vars0 c (SND r (or_introl eq_refl)) E1) as (o & v' & -> & D).
    destruct (IH _ _ _ _ _ (fun x Hx => SND x (or_intror Hx)) E I) as (pre & post & -> & A & B).
    apply inst_ops_app in A. destruct A as (r1 & r2 & -> & A1 & A2). cbn [instantiate_ops] in A2.
    destruct (instantiate_op tol a o) as [o'|] eqn:E2; [|discriminate]. inversion A2; subst.
    exists r1, (o' :: post). split; [now rewrite <- app_assoc|]. split; auto.
Qed.

Lemma done_free eps a rs ops : Forall2 (request_done eps a) rs ops -> is_variable_free ops = true.
Proof.
  intros F. unfold is_variable_free. induction F as [|r o rs ops (vs & o' & _ & -> & _) F IH]; auto.
Qed.

(** Operations without nested symbols become free of symbols. *)
Lemma flat_instantiated a ops : forall ops', forallb flat ops = true -> instantiate_ops tol a ops = Some ops' ->
  existsb any_symbol ops' = false /\ Forall2 (fun o o' => match o with QSym s => exists s', instantiate tol a s = Some s' /\ o' = QStd (std_of s') | _ => o' = o end) ops ops'.
Proof.
  induction ops as [|o ops IH]; intros ops' F I; cbn [instantiate_ops forallb] in *.
  - inversion I; subst. auto.
  - apply andb_true_iff in F. destruct F as [F1 F2].
    destruct (instantiate_op tol a o) as [o'|] eqn:E; [|discriminate].
    destruct (instantiate_ops tol a ops) as [r|] eqn:E2; [|discriminate]. inversion I; subst; clear I.
    destruct (IH _ F2 eq_refl) as [A B]. cbn [existsb]. rewrite A, orb_false_r.
    destruct o as [x|x|x|x|]; cbn [instantiate_op flat] in *; try (inversion E; subst; apply negb_true_iff in F1; split; auto; fail).
    destruct (instantiate tol a x) as [s'|] eqn:Ix; [|discriminate]. rewrite (instantiate_free _ _ _ _ Ix) in E. cbn [negb] in E.
    inversion E; subst. split; [reflexivity|]. constructor; auto. exists s'. auto.
Qed.

(** A symbol without a value is never passed over. *)
Lemma inst_assigned a sym : forall par ws v e, inst_params a par sym = Some ws -> In (Some e) sym -> In v (map fst (e_terms e)) -> a v <> None.
Proof.
  induction sym as [|s sym IH]; intros par ws v e H Ie Iv; [contradiction|]. cbn [inst_params] in H.
  destruct par as [|x par]; [discriminate|].
  destruct (match s with Some e => evaluate a e | None => Some x end) as [w|] eqn:E; [|discriminate].
  destruct (inst_params a par sym) as [r|] eqn:E2; [|discriminate].
  destruct Ie as [->|Ie]; [|eapply IH; eauto].
  apply evaluate_spec in E. destruct E as [A _]. apply in_map_iff in Iv. destruct Iv as (t & <- & It). now apply A.
Qed.
Lemma sym_var_in s v : In v (sym_vars s) -> exists e, In (Some e) (s_sym s) /\ In v (map fst (e_terms e)).
Proof.
  unfold sym_vars. intros H. apply in_concat in H. destruct H as (l & Hl & Hv). apply in_map_iff in Hl.
  destruct Hl as ([e|] & <- & Ho); [|contradiction]. eauto.
Qed.
Lemma unassigned_throws a ops s v : In (QSym s) ops -> In v (sym_vars s) -> a v = None -> instantiate_ops tol a ops = None.
Proof.
  intros Io Iv N. induction ops as [|o ops IH]; [contradiction|]. cbn [instantiate_ops]. destruct Io as [->|Io].
  - cbn [instantiate_op]. unfold instantiate. destruct (inst_params a (s_par s) (s_sym s)) as [ws|] eqn:E; [|reflexivity].
    exfalso. apply sym_var_in in Iv. destruct Iv as (e & H1 & H2). eapply inst_assigned; eauto.
  - rewrite (IH Io). now destruct (instantiate_op tol a o).
Qed.

(** The recorded variables are those that occur. *)
Lemma add_terms_in ts : forall vars v, In v (fold_left (fun vs (t : term) => fst t :: vs) ts vars) <-> In v (map fst ts) \/ In v vars.
Proof.
  induction ts as [|t ts IH]; intros vars v; cbn [fold_left map]; [simpl; tauto|]. rewrite IH. simpl. tauto.
Qed.
Lemma add_variables_in ps : forall vars v, In v (add_variables ps vars) <->
  (exists e, In (SSym e) ps /\ In v (map fst (e_terms e))) \/ In v vars.
Proof.
  unfold add_variables. induction ps as [|p ps IH]; intros vars v; cbn [fold_left].
  - split; [auto|]. intros [(e & [] & _)|H]; auto.
  - rewrite IH. destruct p as [x|e0].
    + split; intros [(e & H1 & H2)|H]; auto.
      * left. exists e. simpl. auto.
      * destruct H1 as [H1|H1]; [discriminate|]. left. eauto.
    + rewrite add_terms_in. split; intros [H|H]; auto.
      * destruct H as (e & H1 & H2). left. exists e. simpl. auto.
      * destruct H as [H|H]; auto. left. exists e0. simpl. auto.
      * destruct H as (e & [H1|H1] & H2); [inversion H1; subst; auto|]. left. eauto.
Qed.
Lemma make_sym_vars t ps cs ts s v : make_sym tol t ps cs ts = Some s ->
  (In v (sym_vars s) <-> exists e, In (SSym e) ps /\ In v (map fst (e_terms e))).
Proof.
  unfold make_sym. destruct (check_sym tol t (map store_num ps) (map store_sym ps)) as [[t' par]|]; [|discriminate].
  intros E. inversion E; subst; clear E. unfold sym_vars. cbn [s_sym]. rewrite map_map. split.
  - intros H. apply in_concat in H. destruct H as (l & Hl & Hv). apply in_map_iff in Hl. destruct Hl as (p & <- & Hp).
    destruct p as [x|e]; cbn [store_sym] in Hv; [contradiction|]. eauto.
  - intros (e & H1 & H2). apply in_concat. exists (map fst (e_terms e)). split; auto. apply in_map_iff. exists (SSym e). auto.
Qed.
Lemma emit_all_vars rs : forall ops0 vars0 ops vars, emit_all tol rs (ops0, vars0) = Some (ops, vars) ->
  (forall v, In v vars0 <-> exists o, In o ops0 /\ In v (op_vars o)) ->
  forall v, In v vars <-> exists o, In o ops /\ In v (op_vars o).
Proof.
  induction rs as [|r rs IH]; intros ops0 vars0 ops vars E H; cbn [emit_all] in E; [inversion E; subst; auto|].
  destruct (emit tol (r_type r) (r_par r) (r_ctl r) (r_tgt r) (ops0, vars0)) as [[ops1 vars1]|] eqn:E1; [|discriminate].
  apply (IH _ _ _ _ E). clear IH E. intros v. unfold emit in E1. destruct (all_numbers (r_par r)) eqn:AN.
  - destruct (check_ugate _ _ _) as [[t' par]|]; [|discriminate]. inversion E1; subst; clear E1. rewrite H. split.
    + intros (o & A & B). exists o. rewrite in_app_iff. auto.
    + intros (o & A & B). apply in_app_iff in A. destruct A as [A|[<-|[]]]; [eauto|contradiction].
  - destruct (make_sym _ _ _ _ _) as [s|] eqn:MS; [|discriminate]. inversion E1; subst; clear E1.
    rewrite add_variables_in, H, <- (make_sym_vars _ _ _ _ _ v MS). split.
    + intros [A|(o & A & B)]; [exists (QSym s)|exists o]; rewrite in_app_iff; simpl; auto.
    + intros (o & A & B). apply in_app_iff in A. destruct A as [A|[<-|[]]]; eauto.
Qed.
End Circuit.

(** ** Equality *)
Lemma small_zero etol x : 0 < etol -> small etol (x - x) = true.
Proof. intros P. unfold small. rewrite Rxx. destruct (Rlt_dec 0 etol); [auto|lra]. Qed.
Lemma expr_eqb_refl etol e : 0 < etol -> expr_eqb etol e e = true.
Proof.
  intros P. unfold expr_eqb. rewrite Nat.eqb_refl. unfold iszero_b.
  destruct (Req_EM_T (e_const e - e_const e) 0) as [_|N]; [|exfalso; apply N; ring].
  cbn [andb]. induction (e_terms e) as [|t l IH]; [reflexivity|]. cbn [terms_eqb]. now rewrite small_zero.
Qed.
Lemma equal_syms_refl etol l : 0 < etol -> equal_syms etol l l = Some true.
Proof. intros P. induction l as [|[e|] l IH]; cbn [equal_syms]; auto. now rewrite expr_eqb_refl. Qed.

(** ** When parameters stay finite *)
Section Finite.
Variable tol : R.
Hypothesis tol_pos : 0 < tol.
Hypothesis tol_small : tol <= 1 / 100.

Definition half_small (vs : list R) : Prop := forall v, In v vs -> Rabs v <= 1 / (2 * tol).
Lemma half_le x : Rabs x <= 1 / (2 * tol) -> Rabs x <= 1 / tol.
Proof.
  intros H. assert (E : 1 / tol = 1 / (2 * tol) + 1 / (2 * tol)) by (field; lra).
  pose proof (Rabs_pos x). lra.
Qed.

Lemma sym_u3_theta_finite p l : Rabs p <= 1 / tol -> Rabs l <= 1 / tol -> sym_u3_theta tol p l <> None.
Proof.
  intros Hp Hl. destruct (pi_small tol tol_pos tol_small) as (Q1 & Q2 & Q3 & Q0). unfold sym_u3_theta.
  pose proof (snap_small (close tol l 0 && close tol p 0) p 0 _ Hp Q0) as P1. revert P1.
  generalize (if close tol l 0 && close tol p 0 then 0 else p). intros p1 P1.
  pose proof (snap_small (close tol l 0) l 0 _ Hl Q0) as L1. revert L1.
  generalize (if close tol l 0 then 0 else l). intros l1 L1.
  pose proof (snap_small (close tol l1 (PI / 2) && close tol p1 (PI / 2)) p1 (PI / 2) _ P1 Q2) as P2. revert P2.
  generalize (if close tol l1 (PI / 2) && close tol p1 (PI / 2) then PI / 2 else p1). intros p2 P2.
  pose proof (snap_small (close tol l1 (PI / 2)) l1 (PI / 2) _ L1 Q2) as L2. revert L2.
  generalize (if close tol l1 (PI / 2) then PI / 2 else l1). intros l2 L2.
  pose proof (snap_small (close tol l2 PI && close tol p2 0) p2 0 _ P2 Q0) as P3. revert P3.
  generalize (if close tol l2 PI && close tol p2 0 then 0 else p2). intros p3 P3.
  pose proof (snap_small (close tol l2 PI) l2 PI _ L2 Q1) as L3. revert L3.
  generalize (if close tol l2 PI then PI else l2). intros l3 L3.
  destruct (small_fin tol tol_pos tol_small p3 P3) as (x & ->). destruct (small_fin tol tol_pos tol_small l3 L3) as (y & ->). discriminate.
Qed.
Lemma sym_u3_phi_finite t l : Rabs t <= 1 / tol -> Rabs l <= 1 / tol -> sym_u3_phi tol t l <> None.
Proof.
  intros Ht Hl. destruct (pi_small tol tol_pos tol_small) as (Q1 & Q2 & Q3 & Q0). unfold sym_u3_phi.
  destruct (small_fin tol tol_pos tol_small l Hl) as (x & ->). destruct (close tol t (PI / 2)); [discriminate|].
  pose proof (snap_small (close tol l 0) l 0 _ Hl Q0) as L1. revert L1.
  generalize (if close tol l 0 then 0 else l). intros l1 L1.
  pose proof (snap_small (close tol l1 (PI / 2)) l1 (PI / 2) _ L1 Q2) as L2. revert L2.
  generalize (if close tol l1 (PI / 2) then PI / 2 else l1). intros l2 L2.
  pose proof (snap_small (close tol l2 PI) l2 PI _ L2 Q1) as L3. revert L3.
  generalize (if close tol l2 PI then PI else l2). intros l3 L3.
  destruct (small_fin tol tol_pos tol_small t Ht) as (z & ->). destruct (small_fin tol tol_pos tol_small l3 L3) as (y & ->). discriminate.
Qed.

Definition count_ok (t : optype) (n : nat) : Prop :=
  (t = gP -> n = 1%nat) /\ (t = gU2 -> n = 2%nat) /\ (t = gU -> n = 3%nat).

Lemma make_sym_finite t ps cs ts : count_ok t (length ps) -> half_small (map store_num ps) -> exists s, make_sym tol t ps cs ts = Some s.
Proof.
  intros (C1 & C2 & C3) H. unfold make_sym.
  assert (HS : forall x, In x (map store_num ps) -> Rabs x <= 1 / tol) by (intros x Hx; apply half_le; auto).
  assert (K : check_sym tol t (map store_num ps) (map store_sym ps) <> None).
  { destruct t; try discriminate; cbn [check_sym].
    - specialize (C3 eq_refl). destruct ps as [|x [|y [|z [|]]]]; try discriminate. cbn [map] in *.
      assert (Hx : Rabs (store_num x) <= 1 / tol) by (apply HS; simpl; auto).
      assert (Hy : Rabs (store_num y) <= 1 / tol) by (apply HS; simpl; auto).
      assert (Hz : Rabs (store_num z) <= 1 / tol) by (apply HS; simpl; auto).
      destruct (small_fin tol tol_pos tol_small _ Hx) as (x' & Ex). destruct (small_fin tol tol_pos tol_small _ Hy) as (y' & Ey).
      destruct (small_fin tol tol_pos tol_small _ Hz) as (z' & Ez).
      destruct (store_sym x), (store_sym y), (store_sym z); rewrite ?Ex, ?Ey, ?Ez; try discriminate.
      + pose proof (sym_u3_theta_finite _ _ Hy Hz). destruct (sym_u3_theta tol (store_num y) (store_num z)) as [[? ?]|]; congruence.
      + unfold sym_u3_phi_lambda. rewrite Ex. destruct (close tol (store_num x) (PI / 2)); discriminate.
      + pose proof (sym_u3_phi_finite _ _ Hx Hz). destruct (sym_u3_phi tol (store_num x) (store_num z)) as [[[? ?] ?]|]; congruence.
      + unfold sym_u3_lambda. rewrite Ex, Ey. destruct (close tol (store_num x) 0 && close tol (store_num y) 0); [discriminate|].
        destruct (close tol (store_num x) (PI / 2)); discriminate.
      + now apply parse_u3_finite.
    - specialize (C2 eq_refl). destruct ps as [|x [|y [|]]]; try discriminate. cbn [map] in *.
      assert (Hx : Rabs (store_num x) <= 1 / tol) by (apply HS; simpl; auto).
      assert (Hy : Rabs (store_num y) <= 1 / tol) by (apply HS; simpl; auto).
      destruct (small_fin tol tol_pos tol_small _ Hx) as (x' & Ex). destruct (small_fin tol tol_pos tol_small _ Hy) as (y' & Ey).
      destruct (store_sym x), (store_sym y); rewrite ?Ex, ?Ey; try discriminate. now apply parse_u2_finite.
    - specialize (C1 eq_refl). destruct ps as [|x [|]]; try discriminate. cbn [map] in *.
      assert (Hx : Rabs (store_num x) <= 1 / tol) by (apply HS; simpl; auto).
      destruct (store_sym x); try discriminate. now apply parse_u1_finite. }
  destruct (check_sym _ _ _ _) as [[t' par]|]; [|congruence]. eauto.
Qed.

Lemma instantiated_finite a t ps cs ts vs : count_ok t (length ps) -> Forall2 (value a) ps vs -> half_small vs ->
  all_numbers ps = false -> ~ shrunk tol t ps ->
  exists s o, make_sym tol t ps cs ts = Some s /\ get_instantiated tol a s = Some o.
Proof.
  intros C F H AN NS.
  assert (HN : half_small (map store_num ps)).
  { intros v Hv. apply in_map_iff in Hv. destruct Hv as (p & <- & Hp). revert Hp. clear -F H tol_pos.
    induction F as [|q w ps vs V F IH]; [contradiction|]. intros [->|Hp].
    - destruct p as [x|e]; cbn in *; [subst; apply H; simpl; auto|]. rewrite Rabs_R0. apply Rlt_le, Rdiv_lt_0_compat; lra.
    - apply IH; auto. intros v Hv. apply H. simpl. auto. }
  destruct (make_sym_finite t ps cs ts C HN) as (s & MS).
  destruct (make_sym_near tol tol_pos tol_small a t ps cs ts s vs F AN NS MS) as (E1 & E2 & E3 & E4 & E5 & L1 & L2 & L3 & ws & IP & W1 & W2 & W3).
  assert (LW : length ws = length ps) by (rewrite (inst_length _ _ _ _ IP), E4; apply map_length).
  exists s. unfold get_instantiated. rewrite IP, E1, nd_exact by (rewrite LW; auto).
  assert (K : exists r, check_ugate tol t ws = Some r).
  { destruct (few t) eqn:FW; [destruct t; try discriminate; cbn; eauto|]. specialize (W2 eq_refl).
    assert (SM : all_small tol ws).
    { intros w Hw. clear -W2 H tol_pos tol_small Hw. induction W2 as [|v w' vs ws N W IH]; [contradiction|]. destruct Hw as [->|Hw].
      - pose proof (H v (or_introl eq_refl)) as Hv. unfold near9 in N.
        assert (E : 1 / tol = 1 / (2 * tol) + 1 / (2 * tol)) by (field; lra).
        pose proof (tol_inv tol tol_pos tol_small).
        pose proof (Rabs_triang_inv w v) as T. rewrite Rabs_minus_sym in T. lra.
      - apply IH; auto. intros x Hx. apply H. simpl. auto. }
    assert (S : exists M, single_matrix t ws = Some M).
    { destruct t; try discriminate.
      - rewrite <- LW in L3. specialize (L3 eq_refl). destruct ws as [|? [|? [|? [|]]]]; try discriminate. eexists; reflexivity.
      - rewrite <- LW in L2. specialize (L2 eq_refl). destruct ws as [|? [|? [|]]]; try discriminate. eexists; reflexivity.
      - rewrite <- LW in L1. specialize (L1 eq_refl). destruct ws as [|? [|]]; try discriminate. eexists; reflexivity. }
    destruct S as (M & S). rewrite <- LW in L1, L2, L3. eapply canon_finite; eauto. }
  destruct K as ([t' ps'] & ->). eexists. split; [exact MS|reflexivity].
Qed.
End Finite.
