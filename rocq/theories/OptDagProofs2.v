(** Soundness of cancelCNOTs and of the whole loops. *)
From Coq Require Import Reals Lra List Arith Bool Lia NArith FunctionalExtensionality.
From Verif Require Import Cplx Qsem GateModel GateSpec GateProofs OpProofs GraphModel IRModel IRSpec IRProofs OptModel OptSem OptDagProofs.
Import ListNotations.
Local Open Scope list_scope.

Lemma upd_app_r {A} (l m : list A) p x : upd (l ++ m) (length l + p) x = l ++ upd m p x.
Proof. induction l; simpl; congruence. Qed.

Lemma split_two {A} (l : list A) pp p x y x' y' : nth_error l pp = Some x -> nth_error l p = Some y -> pp < p ->
  exists a b c, l = a ++ x :: b ++ y :: c /\ upd (upd l pp x') p y' = a ++ x' :: b ++ y' :: c /\
    (forall o, In o b -> exists r, pp < r < p /\ nth_error l r = Some o) /\
    (forall o, In o c -> exists r, p < r /\ nth_error l r = Some o).
Proof.
  intros E F L. destruct (upd_split l pp x x' E) as [E1 E2].
  assert (LA : length (firstn pp l) = pp) by (apply firstn_length_le; apply nth_lt in E; lia).
  assert (F' : nth_error (skipn (S pp) l) (p - S pp) = Some y) by (rewrite nth_skipn; replace (S pp + (p - S pp)) with p by lia; auto).
  destruct (upd_split _ _ y y' F') as [F1 F2].
  exists (firstn pp l), (firstn (p - S pp) (skipn (S pp) l)), (skipn (S (p - S pp)) (skipn (S pp) l)).
  split; [rewrite <- F1; exact E1|]. split.
  - rewrite E2. replace p with (length (firstn pp l) + S (p - S pp)) at 1 by lia. rewrite upd_app_r.
    change (upd (x' :: skipn (S pp) l) (S (p - S pp)) y') with (x' :: upd (skipn (S pp) l) (p - S pp) y').
    rewrite F2. reflexivity.
  - split.
    + intros o I. apply In_nth_error in I. destruct I as [i I]. exists (S pp + i).
      assert (i < p - S pp). { apply nth_lt in I. rewrite firstn_length in I. lia. }
      split; [lia|]. rewrite <- nth_skipn. rewrite <- I.
      assert (Z : forall (m : list A) n i, i < n -> nth_error (firstn n m) i = nth_error m i).
      { clear. induction m; intros [|n] [|i] H; simpl; auto; try lia. apply IHm. lia. }
      symmetry. apply Z. auto.
    + intros o I. apply In_skipn in I. destruct I as (r & L1 & R). rewrite nth_skipn in R. exists (S pp + r). split; [lia|auto].
Qed.

Lemma cancel_step_good l s o : good l s -> op_ok o -> local o -> good (l ++ [o]) (cancel_step s o).
Proof.
  destruct s as [done d]. intros G OK L. pose proof (good_keep _ _ _ G OK L) as K. unfold cancel_step.
  assert (ENTRY : forall isC q0 q1, (match is_cnot o with
         | Some (c, t) => Some (true, t, c)
         | None => match is_swap o with Some (a, b) => Some (false, a, b) | None => None end
         end) = Some (isC, q0, q1) ->
     q0 <> q1 /\ (forall q, In q (used o) <-> q = q0 \/ q = q1) /\ (exists so, o = OStd so) /\ ~ dead o /\
     (if isC : bool then is_cnot o = Some (q1, q0) else is_swap o = Some (q0, q1))).
  { intros isC q0 q1 H. destruct (is_cnot o) as [[c t]|] eqn:EC.
    - inversion H; subst. split; [pose proof (cnot_ne _ _ _ EC OK); auto|]. split; [intros q; rewrite (cnot_used _ _ _ EC OK); tauto|].
      split; [eapply cnot_inv; eauto|]. split; [exact (cnot_not_dead _ _ _ EC)|auto].
    - destruct (is_swap o) as [[a b]|] eqn:ES; [|discriminate]. inversion H; subst.
      split; [exact (swap_ne _ _ _ ES OK)|]. split; [intros q; rewrite (swap_used _ _ _ ES OK); tauto|].
      split; [eapply swap_inv; eauto|]. split; [exact (swap_not_dead _ _ _ ES)|auto]. }
  destruct (match is_cnot o with
         | Some (c, t) => Some (true, t, c)
         | None => match is_swap o with Some (a, b) => Some (false, a, b) | None => None end
         end) as [[[isC q0] q1]|]; [|exact K].
  destruct (ENTRY _ _ _ eq_refl) as (NE & UO & (so & ->) & NDO & SHAPE). clear ENTRY.
  destruct (d q0) as [|p0 r0] eqn:D0; auto. destruct (d q1) as [|p1 r1] eqn:D1; auto.
  destruct (Nat.eqb_spec p0 p1) as [<-|]; [|exact K]. cbn [negb].
  destruct (nth_error done p0) as [op0|] eqn:N0; auto.
  destruct G as [I S].
  destruct (inv_use _ _ _ _ _ I D0) as (op0' & N0' & U0). rewrite N0 in N0'. inversion N0'; subst op0'; clear N0'.
  destruct (inv_use _ _ _ _ _ I D1) as (op0' & N0' & U1). rewrite N0 in N0'. inversion N0'; subst op0'; clear N0'.
  assert (J : incl (used (OStd so)) [q0; q1]) by (intros q H; apply UO in H; simpl; intuition).
  assert (JI : incl (used (set_I (OStd so))) [q0; q1]).
  { intros q H. apply J. simpl in *. rewrite app_nil_r in H. apply in_or_app. auto. }
  assert (GG : good l (done, d)) by (split; auto).
  (* both cancel *)
  assert (CANCEL : forall s0, op0 = OStd s0 -> (forall q, In q (used op0) <-> q = q0 \/ q = q1) ->
     (forall b, run [op0; OStd so] b = [b]) ->
     good (l ++ [OStd so]) (upd done p0 (set_I op0) ++ [set_I (OStd so)], dpop (dpop d q0) q1)).
  { intros s0 -> UP R. split.
    - apply inv_add_dead; [|apply set_I_dead]. apply (inv_kill done d p0 (OStd s0) _ q0 q1 r0 r1); auto; try apply set_I_dead.
    - simpl fst. eapply (good_pair l done d p0 (OStd s0) so (set_I (OStd s0)) _ q0 q1); try eassumption.
      apply dead_pair; auto; apply set_I_dead. }
  (* rewriting into two CNOTs *)
  assert (TWO : forall s0 c1 t1 c2 t2, op0 = OStd s0 -> ~ dead op0 -> (forall q, In q (used op0) <-> q = q0 \/ q = q1) ->
     c1 <> t1 -> c2 <> t2 -> (forall q, q = c1 \/ q = t1 <-> q = q0 \/ q = q1) -> (forall q, q = c2 \/ q = t2 <-> q = q0 \/ q = q1) ->
     (forall b, run [op0; OStd so] b = [via (fun x => cxb c1 t1 (cxb c2 t2 x)) b]) ->
     good (l ++ [OStd so]) (upd done p0 (set_gate op0 gX [(c1, true)] [t1]) ++ [set_gate (OStd so) gX [(c2, true)] [t2]],
       dadd d (set_gate (OStd so) gX [(c2, true)] [t2]) (length done))).
  { intros s0 c1 t1 c2 t2 -> ND UP N1 N2 Q1 Q2 R.
    assert (OK1 : op_ok (set_gate (OStd s0) gX [(c1, true)] [t1])) by (apply std_cx_ok; auto).
    assert (OK2 : op_ok (set_gate (OStd so) gX [(c2, true)] [t2])) by (apply std_cx_ok; auto).
    split.
    - replace (dadd d (set_gate (OStd so) gX [(c2, true)] [t2]) (length done)) with
        (dadd d (set_gate (OStd so) gX [(c2, true)] [t2]) (length (upd done p0 (set_gate (OStd s0) gX [(c1, true)] [t1])))) by now rewrite upd_len.
      apply (inv_keep (upd done p0 (set_gate (OStd s0) gX [(c1, true)] [t1]), d)); [|exact OK2|exact Logic.I].
      apply (inv_rewrite done d p0 (OStd s0)); [exact I|exact N0|exact ND| |exact OK1|exact Logic.I].
      intros q. rewrite UP, <- Q1. simpl. intuition.
    - simpl fst. eapply (good_pair l done d p0 (OStd s0) so _ _ q0 q1); try eassumption.
      + intros q H. simpl in H. destruct (proj1 (Q2 q)); [intuition|simpl; auto|simpl; auto].
      + intros b. rewrite R. rewrite (run2 _ _ _ _ (run_cx (set_gate (OStd s0) gX [(c1, true)] [t1]) c1 t1 b eq_refl OK1)).
        change (OStd {| o_type := gX; o_par := o_par so; o_ctl := [(c2, true)]; o_tgt := [t2] |}) with (set_gate (OStd so) gX [(c2, true)] [t2]).
        rewrite (run_cx (set_gate (OStd so) gX [(c2, true)] [t2]) c2 t2 _ eq_refl OK2), via_via. reflexivity. }
  destruct (is_cnot op0) as [[c t]|] eqn:EC.
  - assert (ND : ~ dead op0) by exact (cnot_not_dead _ _ _ EC).
    pose proof (inv_okop _ _ _ _ I N0 ND) as OK0. pose proof (cnot_used _ _ _ EC OK0) as UP. pose proof (cnot_ne _ _ _ EC OK0) as NCT.
    apply UP in U0. apply UP in U1.
    destruct (cnot_inv _ _ _ EC) as (s0 & E0).
    assert (UP' : forall q, In q (used op0) <-> q = q0 \/ q = q1) by (intros q; rewrite UP; lia).
    destruct isC.
    + (* CNOT, CNOT *)
      destruct (Nat.eqb_spec q0 t) as [E1|E1], (Nat.eqb_spec q1 c) as [E2|E2]; cbn [andb]; try lia.
      * subst t c. apply (CANCEL s0); auto. intros b.
        rewrite (run2 _ _ _ _ (run_cx _ _ _ _ EC OK0)), (run_cx _ _ _ _ SHAPE OK), via_via.
        f_equal. rewrite (via_ext _ (fun x => x)) by (intros; apply cxb_cxb; auto). apply via_id.
      * assert (q0 = c) by lia. assert (q1 = t) by lia. subst c t. clear E1 E2.
        destruct r0 as [|pp0 rr0] eqn:R0; auto. destruct r1 as [|pp1 rr1] eqn:R1; auto.
        destruct (Nat.eqb_spec pp0 pp1) as [<-|]; [|exact K]. cbn [negb].
        destruct (nth_error done pp0) as [pop|] eqn:NP; auto.
        destruct (is_cnot pop) as [[pc pt]|] eqn:EP; auto.
        destruct (Nat.eqb_spec q0 pt) as [<-|]; [|exact K]. destruct (Nat.eqb_spec q1 pc) as [<-|]; [|exact K]. cbn [andb].
        assert (NDP : ~ dead pop) by exact (cnot_not_dead _ _ _ EP).
        pose proof (inv_okop _ _ _ _ I NP NDP) as OKP. destruct (cnot_inv _ _ _ EP) as (sp & EPP).
        assert (LT : pp0 < p0).
        { pose proof (i_desc _ I q0) as Z. simpl in Z. rewrite D0 in Z. apply Z. simpl. auto. }
        destruct (sorted2_swap q1 q0 ltac:(auto)) as (x & y & SW & NXY & SB).
        set (pop' := set_gate pop gSWAP [] (sorted2 q1 q0)).
        assert (OKP' : op_ok pop') by (unfold pop'; rewrite EPP; simpl set_gate; rewrite SW; apply std_sw_ok; auto).
        assert (EP' : is_swap pop' = Some (x, y)) by (unfold pop'; rewrite EPP; simpl; rewrite SW; reflexivity).
        assert (UPP : forall q, In q (used pop) <-> In q (used pop')).
        { intros q. rewrite (cnot_used _ _ _ EP OKP). unfold pop'. rewrite EPP. simpl. rewrite app_nil_r, sorted2_In. tauto. }
        subst op0.
        split.
        -- apply inv_add_dead; [|apply set_I_dead].
           assert (I1 : Inv (upd done pp0 pop', d)).
           { apply (inv_rewrite done d pp0 pop); auto. unfold pop'. rewrite EPP. exact Logic.I. }
           apply (inv_kill (upd done pp0 pop') d p0 (OStd s0) _ q0 q1 (pp0 :: rr0) (pp0 :: rr1)); auto; try apply set_I_dead.
           rewrite upd_nth. destruct (Nat.eqb_spec pp0 p0); [lia|auto].
        -- simpl fst. destruct (split_two done pp0 p0 pop (OStd s0) pop' (set_I (OStd s0)) NP N0 LT) as (A & B & D & Q1 & Q2 & QB & QD).
           fold pop'. change (OStd {| o_type := gI; o_par := o_par s0; o_ctl := []; o_tgt := o_tgt s0 |}) with (set_I (OStd s0)).
           rewrite Q2. eapply same_trans; [|apply same_app; [exact S|apply same_refl]]. simpl fst. rewrite Q1 at 1.
           rewrite <- !app_assoc. simpl. rewrite <- !app_assoc. simpl. apply same_sym.
           assert (CL : forall o r, pp0 < r -> r <> p0 -> nth_error done r = Some o -> clear [q0; q1] o).
           { intros o r L1 L2 E. apply clear_of; [eapply inv_local; eauto|].
             intros q [<-|[<-|[]]] U; [apply (inv_second done d q0 p0 pp0 rr0 r o)|apply (inv_second done d q1 p0 pp0 rr1 r o)]; auto. }
           apply (triple_rewrite [q0; q1]); auto.
           ++ apply Forall_forall. intros o H. destruct (QB _ H) as (r & L1 & E). apply (CL o r); auto; lia.
           ++ apply Forall_forall. intros o H. destruct (QD _ H) as (r & L1 & E). apply (CL o r); auto; lia.
           ++ intros q H. apply UP' in H. simpl. intuition.
           ++ intros q H. assert (In q (used (OStd s0))) by (simpl in *; rewrite app_nil_r in H; apply in_or_app; auto).
              apply UP' in H0. simpl. intuition.
           ++ intros b. rewrite (run3 _ _ _ _ _ _ (run_cx _ _ _ _ EP OKP) (run_cx _ _ _ _ EC OK0)), (run_cx _ _ _ _ SHAPE OK).
              change (OStd {| o_type := gI; o_par := o_par s0; o_ctl := []; o_tgt := o_tgt s0 |}) with (set_I (OStd s0)).
              change (OStd {| o_type := gI; o_par := o_par so; o_ctl := []; o_tgt := o_tgt so |}) with (set_I (OStd so)).
              rewrite (run3 _ _ _ _ _ _ (run_sw _ _ _ b EP' OKP') (dead_run _ _ (set_I_dead s0))), (dead_run _ _ (set_I_dead so)).
              rewrite !via_via. f_equal. apply via_ext. intros bs. rewrite SB. apply swb_cx3. auto.
    + (* CNOT, SWAP *)
      destruct (is_swap op0); apply (TWO s0); auto; try (intros; lia).
      all: intros b; rewrite (run2 _ _ _ _ (run_cx _ _ _ _ EC OK0)), (run_sw _ _ _ _ SHAPE OK), via_via;
        f_equal; apply via_ext; intros bs;
        (destruct (Nat.eq_dec q0 c); [replace q0 with c by lia; replace q1 with t by lia | replace q0 with t by lia; replace q1 with c by lia; rewrite (swb_sym t c) by auto]);
        rewrite <- cx2_swb by auto; reflexivity.
  - destruct (is_swap op0) as [[a b0]|] eqn:ES; auto.
    assert (ND : ~ dead op0) by exact (swap_not_dead _ _ _ ES).
    pose proof (inv_okop _ _ _ _ I N0 ND) as OK0. pose proof (swap_used _ _ _ ES OK0) as UP. pose proof (swap_ne _ _ _ ES OK0) as NCT.
    apply UP in U0. apply UP in U1.
    destruct (swap_inv _ _ _ ES) as (s0 & E0).
    assert (UP' : forall q, In q (used op0) <-> q = q0 \/ q = q1) by (intros q; rewrite UP; lia).
    assert (SWE : forall bs, swb a b0 bs = swb q0 q1 bs).
    { intros bs. destruct (Nat.eq_dec a q0); [replace b0 with q1 by lia; subst; auto|].
      replace a with q1 by lia. replace b0 with q0 by lia. apply swb_sym. auto. }
    destruct isC.
    + (* SWAP, CNOT *)
      apply (TWO s0); auto; try (intros; lia).
      intros b. rewrite (run2 _ _ _ _ (run_sw _ _ _ _ ES OK0)), (run_cx _ _ _ _ SHAPE OK), via_via. f_equal. apply via_ext. intros bs.
      rewrite SWE, (swb_sym q0 q1) by auto. rewrite <- swb_cx2 by auto. reflexivity.
    + destruct ((q0 =? a) && (q1 =? b0) || (q0 =? b0) && (q1 =? a)); auto.
      apply (CANCEL s0); auto. intros b.
      rewrite (run2 _ _ _ _ (run_sw _ _ _ _ ES OK0)), (run_sw _ _ _ _ SHAPE OK), via_via.
      f_equal. rewrite (via_ext _ (fun x => x)); [apply via_id|]. intros bs. rewrite SWE. apply swb_swb. auto.
Qed.

Lemma loop_good (step : pstate -> cop -> pstate) :
  (forall l s o, good l s -> op_ok o -> local o -> good (l ++ [o]) (step s o)) ->
  forall l m s, good m s -> ops_ok l -> Forall local l -> good (m ++ l) (fold_left step l s).
Proof.
  intros H. induction l as [|o l IH]; intros m s G OK L; simpl; [rewrite app_nil_r; auto|].
  inversion OK; inversion L; subst. replace (m ++ o :: l) with ((m ++ [o]) ++ l) by (rewrite <- app_assoc; reflexivity).
  apply IH; auto.
Qed.
Lemma good_nil : good [] ([], fun _ => []).
Proof. split; [apply inv_nil|apply same_refl]. Qed.

Lemma swap_reconstruction_sound l : ops_ok l -> Forall local l -> same_run (swap_reconstruction l) l.
Proof.
  intros OK L. unfold swap_reconstruction. eapply same_trans; [apply remove_identities_sound|].
  apply (loop_good _ swap_step_good l [] _ good_nil OK L).
Qed.
Lemma cancel_cnots_sound l : ops_ok l -> Forall local l -> same_run (cancel_cnots l) l.
Proof.
  intros OK L. unfold cancel_cnots. eapply same_trans; [apply remove_identities_sound|].
  apply (loop_good _ cancel_step_good l [] _ good_nil OK L).
Qed.
