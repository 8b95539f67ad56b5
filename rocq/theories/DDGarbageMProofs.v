(* Reducing garbage qubits of matrices: proofs. *)
From Coq Require Import Reals Lra Psatz List Bool Arith Lia FunctionalExtensionality.
From Verif Require Import Cplx Qsem DDModel DDSpec DDProofs DDCanonProofs DDOpsProofs DDReduceModel DDReduceSpec DDReduceProofs
  DDGarbageProofs.
Import ListNotations.
Local Open Scope R_scope.

Lemma mchild_pos v x i j : mposE x -> mposE (mchild v x i j).
Proof.
  intros [A B]. unfold mchild. destruct (snd x) as [|q w t] eqn:E.
  - destruct eqb; split; auto; try (rewrite E; assumption); try exact Logic.I; apply nn_0.
  - destruct Nat.ltb; [destruct eqb; split; auto; try (rewrite E; assumption); try exact Logic.I; apply nn_0|].
    split; cbn [fst snd]; [apply nn_mul; auto; apply B|apply B].
Qed.
Lemma maddmag_base n x y : mcan0 n x -> mcan0 n y ->
  ezero (fst x) = true \/ ezero (fst y) = true \/ snd x = snd y ->
  exists r, (if ezero (fst x) then (if ezero (fst y) then DOk mzero else DOk (cmag (fst y), snd y))
          else if ezero (fst y) then DOk (cmag (fst x), snd x)
          else if mtree_eq_dec (snd x) (snd y) then DOk (root2 (fst x) (fst y), snd x) else DUb) = DOk r /\
          mcan0 n r /\ (mposE x -> mposE y -> mposE r) /\
          forall b c, Cnorm2 (meden n r b c) = Cnorm2 (meden n x b c) + Cnorm2 (meden n y b c).
Proof.
  intros Hx Hy K; destruct (ezero (fst x)) eqn:Zx.
  - apply ezero_true in Zx; destruct (ezero (fst y)) eqn:Zy.
    + apply ezero_true in Zy; exists mzero; split; [auto|split; [left; auto|split]].
      * intros _ _; split; [apply nn_0|exact Logic.I].
      * intros b c; unfold meden; rewrite Zx, Zy; cbn [fst mzero]. rewrite !Cmul_0_l, Cnorm2_0; ring.
    + apply ezero_false in Zy. destruct Hy as [|Hy]; [tauto|].
      eexists; split; [reflexivity|split; [right|split]].
      * eapply mcan_weight; eauto using cmag_neq.
      * intros _ [_ P]; split; auto; apply nn_mag.
      * intros b c; unfold meden; cbn [fst snd]; rewrite Zx, !Cnorm2_mul, cmag_norm, Cnorm2_0; ring.
  - apply ezero_false in Zx. destruct Hx as [|Hx]; [tauto|]. destruct (ezero (fst y)) eqn:Zy.
    + apply ezero_true in Zy. eexists; split; [reflexivity|split; [right|split]].
      * eapply mcan_weight; eauto using cmag_neq.
      * intros [_ P] _; split; auto; apply nn_mag.
      * intros b c; unfold meden; cbn [fst snd]; rewrite Zy, !Cnorm2_mul, cmag_norm, Cnorm2_0; ring.
    + destruct mtree_eq_dec as [E|E]; [|exfalso; destruct K as [?|[?|?]]; try congruence; apply ezero_true in H; tauto].
      eexists; split; [reflexivity|split; [right|split]].
      * eapply mcan_weight; eauto using root2_neq.
      * intros [_ P] _; split; auto; apply nn_root.
      * intros b c; unfold meden; cbn [fst snd]; rewrite !Cnorm2_mul, root2_norm, <- E; ring.
Qed.
Lemma maddmag_spec : forall n x y, mcan0 n x -> mcan0 n y ->
  exists r, maddmag n x y = DOk r /\ mcan0 n r /\ (mposE x -> mposE y -> mposE r) /\
    forall b c, Cnorm2 (meden n r b c) = Cnorm2 (meden n x b c) + Cnorm2 (meden n y b c).
Proof.
  induction n as [|v IH]; intros x y Hx Hy.
  all: pose proof (maddmag_base _ x y Hx Hy) as BASE.
  - cbn [maddmag].
    assert (K : ezero (fst x) = true \/ ezero (fst y) = true \/ snd x = snd y).
    { destruct (ezero (fst x)) eqn:Zx; auto. destruct (ezero (fst y)) eqn:Zy; auto.
      apply ezero_false in Zx, Zy. destruct Hx as [|Hx]; [tauto|]. destruct Hy as [|Hy]; [tauto|].
      right; right. unfold mcanon in *. destruct (snd x); [|destruct Hx as (_ & ? & _); lia].
      destruct (snd y); [auto|destruct Hy as (_ & ? & _); lia]. }
    destruct (BASE K) as (r & A & B).
    exists r. split; auto.
  - destruct (ezero (fst x)) eqn:Zx.
    { destruct BASE as (r & A & B); [auto|]. exists r; split; auto. cbn [maddmag]. rewrite Zx. auto. }
    destruct (ezero (fst y)) eqn:Zy.
    { destruct BASE as (r & A & B); [auto|]. exists r; split; auto. cbn [maddmag]. rewrite Zx, Zy. auto. }
    destruct (mtree_eq_dec (snd x) (snd y)) as [E|E].
    { destruct BASE as (r & A & B); [auto|]. exists r; split; auto. cbn [maddmag]. rewrite Zx, Zy.
      destruct mtree_eq_dec; [auto|tauto]. }
    clear BASE. cbn [maddmag]. rewrite Zx, Zy. destruct mtree_eq_dec; [tauto|].
    apply ezero_false in Zx, Zy.
    destruct (seq4_ok (fun i j => maddmag v (mchild v x i j) (mchild v y i j))
               (fun i j a => mcan0 v a /\ (mposE (mchild v x i j) -> mposE (mchild v y i j) -> mposE a) /\
                  forall b c, Cnorm2 (meden v a b c) =
                  Cnorm2 (meden v (mchild v x i j) b c) + Cnorm2 (meden v (mchild v y i j) b c))) as (g & Eg & Pg).
    { intros i j. apply IH; apply mchild_can; auto. }
    rewrite Eg; cbn [dbind]. eexists; split; [reflexivity|split; [|split]].
    + right. apply mmk_canon. intros i j. apply Pg.
    + intros P P'. apply mmk_pos. intros i j. apply Pg; apply mchild_pos; auto.
    + intros b c. rewrite mmk_den0 by (intros; apply Pg). rewrite (proj2 (proj2 (Pg _ _))).
      rewrite !mchild_den by (apply mcan0_lev; auto). auto.
Qed.

Section mat.
Variables (fl : list bool) (regular nw : bool).
Definition msummed (n : nat) (g e : medge) : Prop :=
  forall s k, Cnorm2 (entry regular n g s k) =
    if hit fl n s then 0 else fsum fl n (fun c => Cnorm2 (entry regular n e c k)) s.

Lemma entry_setb n e s k q i : (n <= q)%nat -> entry regular n e (setb s q i) k = entry regular n e s k.
Proof.
  intros H. unfold entry, meden. destruct regular; f_equal; apply mden_ext; intros x X; split; auto;
    apply setb_other; lia.
Qed.
Lemma maddmag_entry n x y : mcan0 n x -> mcan0 n y ->
  exists r, maddmag n x y = DOk r /\ mcan0 n r /\ (mposE x -> mposE y -> mposE r) /\
    forall s k, Cnorm2 (entry regular n r s k) = Cnorm2 (entry regular n x s k) + Cnorm2 (entry regular n y s k).
Proof.
  intros Hx Hy. destruct (maddmag_spec n x y Hx Hy) as (r & A & B & D & E).
  exists r. repeat split; auto; try apply D; auto. intros s k. unfold entry. destruct regular; apply E.
Qed.

(* a level without a node is an identity factor *)
Lemma fsum_lift n e s k i : mwf n e ->
  fsum fl n (fun c => Cnorm2 (entry regular (S n) e c k)) (setb s n i) =
  if eqb i (k n) then fsum fl n (fun c => Cnorm2 (entry regular n e c k)) s else 0.
Proof.
  intros W. rewrite fsum_setb by auto.
  rewrite (fsum_ext fl n _ (fun c => (if eqb i (k n) then 1 else 0) * Cnorm2 (entry regular n e c k))).
  - rewrite fsum_scal. destruct eqb; ring.
  - intros c. rewrite entry_lift, setb_same by auto. destruct eqb; [rewrite entry_setb by auto; ring|].
    rewrite Cnorm2_0; ring.
Qed.
Lemma fsum_lift_id n e s k : mwf n e ->
  fsum fl n (fun c => Cnorm2 (entry regular (S n) e c k)) s =
  if eqb (s n) (k n) then fsum fl n (fun c => Cnorm2 (entry regular n e c k)) s else 0.
Proof. intros W. rewrite <- (setb_id s n) at 1. apply fsum_lift; auto. Qed.

Lemma summed_up n g e : mcanon n g -> mwf n e -> msummed n g e ->
  msummed (S n) (if nth n fl false then mmk n (copy_side regular g) else g) e /\
  mcanon (S n) (if nth n fl false then mmk n (copy_side regular g) else g) /\
  (mposE g -> mposE (if nth n fl false then mmk n (copy_side regular g) else g)).
Proof.
  intros Cg W H.
  assert (CS : forall i j, mcan0 n (copy_side regular g i j)).
  { intros i j. unfold copy_side. destruct regular, i, j; cbn [m4]; auto using mcan0_zero; right; auto. }
  destruct (nth n fl false) eqn:F; split; [| split | | split].
  - intros s k. rewrite entry_node by auto. cbn [hit fsum]. rewrite F. cbn [andb]. rewrite !fsum_lift by auto.
    unfold copy_side, m4. destruct (two regular) as [R|R]; pick R; destruct (s n) eqn:Sn, (k n) eqn:Kn; cbn [eqb];
      pick R; rewrite ?orb_true_r, ?orb_false_r; rewrite ?entry_zero, ?Cnorm2_0; auto; rewrite H; destruct hit; ring.
  - apply mmk_canon; auto.
  - intros P. apply mmk_pos. intros i j. unfold copy_side. destruct regular, i, j; cbn [m4]; auto;
      (split; [apply nn_0|exact Logic.I]).
  - intros s k. rewrite !entry_lift by (auto; apply mcanon_wf; auto). cbn [hit fsum]. rewrite F. cbn [andb].
    rewrite orb_false_r, fsum_lift_id by auto. destruct eqb; [apply H|]. rewrite Cnorm2_0. destruct hit; auto.
  - apply (mcanon_mono n); auto.
  - auto.
Qed.
Lemma raise_gar : forall k from g e, (from + k <= length fl)%nat -> mcanon from g -> mwf from e ->
  msummed from g e ->
  exists g', raise (copy_side regular) fl from k g = DOk g' /\ mcanon (from + k) g' /\
    (mposE g -> mposE g') /\ msummed (from + k) g' e.
Proof.
  induction k as [|k IH]; intros from g e L Cg W H; cbn [raise].
  - rewrite Nat.add_0_r. eauto.
  - rewrite flagged_ok by lia. cbn [dbind]. rewrite <- plus_n_Sm.
    destruct (summed_up from g e Cg W H) as (A & B & P).
    destruct (IH (S from) _ e ltac:(lia) B (mlev_mono _ _ _ (Nat.le_succ_diag_r _) W) A) as (g' & E & D & P' & D').
    exists g'. repeat split; auto; apply P'; auto.
Qed.
Lemma raise_to_gar from upto g e : (from <= upto <= length fl)%nat -> mcanon from g -> mwf from e ->
  msummed from g e ->
  exists g', raise_to (copy_side regular) fl from upto g = DOk g' /\ mcanon upto g' /\
    (mposE g -> mposE g') /\ msummed upto g' e.
Proof.
  intros L Cg W H. unfold raise_to.
  destruct (raise_gar (upto - from) from g e ltac:(lia) Cg W H) as (g' & E & D).
  replace (from + (upto - from))%nat with upto in D by lia. eauto.
Qed.
Lemma summed_below n e : (n <= lowerbound fl)%nat -> msummed n e e.
Proof. intros H s k. rewrite hit_lb by auto. rewrite fsum_none; auto. intros; apply below_lb; lia. Qed.
Lemma summed_none n e : noneflag fl = true -> msummed n e e.
Proof. intros H s k. rewrite hit_none by auto. rewrite fsum_none; auto. intros; apply noneflag_all; auto. Qed.
Lemma summed_scale n x y g e : Cnorm2 x = Cnorm2 y -> msummed n g e -> msummed n (mscale x g) (mscale y e).
Proof.
  intros E H s k. rewrite entry_scale, Cnorm2_mul, H. destruct hit; [ring|].
  rewrite E, <- fsum_scal. apply fsum_ext. intros c. rewrite entry_scale, Cnorm2_mul; auto.
Qed.
Lemma summed_norm n g g' e : snd g = snd g' -> Cnorm2 (fst g) = Cnorm2 (fst g') -> msummed n g e -> msummed n g' e.
Proof.
  intros E N H s k. rewrite <- H. unfold entry, meden. rewrite E. destruct regular; rewrite !Cnorm2_mul, N; auto.
Qed.
Lemma summed_zero n : msummed n mzero mzero.
Proof.
  intros s k. rewrite entry_zero, Cnorm2_0. rewrite fsum_ext with (g := fun _ => 0) by (intros; rewrite entry_zero; apply Cnorm2_0).
  rewrite fsum_zero. destruct hit; auto.
Qed.
Lemma mcanon_w n g w : mcanon n g -> (fst g <> C0 -> w <> C0) -> mcanon n (w, snd g).
Proof.
  unfold mcanon; cbn [fst snd]. intros H K. destruct (snd g) eqn:E; [exact Logic.I|].
  eapply mcan_weight; eauto. apply K. destruct H; auto.
Qed.

Lemma mgarb_spec : forall t n w, mcan n w t -> (n <= length fl)%nat -> t <> MT ->
  exists f, mgarb fl (lowerbound fl) regular nw t = DOk f /\ mcanon (S (mvar t)) f /\
    (nw = true -> mposE f) /\ msummed (S (mvar t)) f (C1, t).
Proof.
  induction t as [|v ws s IH]; intros n w H L NT; [congruence|clear NT].
  cbn [mgarb mvar]. destruct H as (N & Q & U & NI & K).
  assert (TC : mcanon (S v) (C1, MNode v ws s)).
  { unfold mcanon; cbn. split; [apply C1_neq_C0|]. repeat split; auto. }
  destruct (negb nw && Nat.ltb v (lowerbound fl)) eqn:B.
  { apply andb_true_iff in B as [B1 B2]. apply Nat.ltb_lt in B2.
    eexists; split; [reflexivity|split; [auto|split]]; [intros ->; discriminate|apply summed_below; lia]. }
  match goal with |- context [seq4 ?f] => set (child := f) end.
  assert (CH : forall i j, exists g, child i j = DOk g /\ mcan0 v g /\ (nw = true -> mposE g) /\ msummed v g (ws i j, s i j)).
  { intros i j. unfold child. specialize (K i j). destruct (s i j) as [|q ws' s'] eqn:E.
    - destruct (ezero (ws i j)) eqn:Z.
      + apply ezero_true in Z. rewrite Z. eexists; split; [reflexivity|split; [left; auto|split]].
        * split; [apply nn_0|exact Logic.I].
        * apply summed_zero.
      + apply ezero_false in Z.
        destruct (le_lt_dec (lowerbound fl) v) as [LB|LB].
        * destruct (raise_to_gar (lowerbound fl) v mone mone) as (g & Eg & Cg & Pg & Dg);
            [lia|apply mcanon_T|exact Logic.I|apply summed_below; auto|].
          rewrite Eg. cbn [dbind]. eexists; split; [reflexivity|split; [|split]].
          -- right. apply mcanon_scale; auto. apply magif_neq; auto.
          -- intros T. destruct Pg as [A P]; [split; [apply nn_1|exact Logic.I]|].
             split; cbn [mscale fst snd]; auto. apply nn_mul; auto. rewrite T; apply nn_mag.
          -- replace (ws i j, MT) with (mscale (ws i j) mone) by (unfold mscale; cbn; f_equal; ring).
             apply summed_scale; auto. apply magif_norm.
        * unfold raise_to. replace (v - lowerbound fl)%nat with 0%nat by lia. cbn [raise dbind].
          eexists; split; [reflexivity|split; [|split]].
          -- right. apply mcanon_T.
          -- intros T. split; cbn [mscale fst snd mone]; [|exact Logic.I]. apply nn_mul; [apply nn_1|].
             rewrite T; apply nn_mag.
          -- replace (ws i j, MT) with (mscale (ws i j) mone) by (unfold mscale; cbn; f_equal; ring).
             apply summed_scale; [apply magif_norm|apply summed_below; lia].
    - destruct (IH i j v (ws i j)) as (f & Ef & Cf & Pf & Df); [rewrite E; auto|lia|rewrite E; congruence|].
      rewrite E in *. rewrite Ef. cbn [dbind mvar] in *.
      destruct K as (N' & Q' & U' & NI' & K').
      assert (TC' : mcanon (S q) (C1, MNode q ws' s')).
      { unfold mcanon; cbn. split; [apply C1_neq_C0|]. repeat split; auto. }
      destruct (raise_to_gar (S q) v f (C1, MNode q ws' s')) as (g & Eg & Cg & Pg & Dg);
        [lia|auto|apply mcanon_wf; auto|auto|].
      rewrite Eg. cbn [dbind]. eexists; split; [reflexivity|split; [|split]].
      + right. apply mcanon_w; auto. intros G. apply magif_neq, Cmul_neq0; auto.
      + intros T. split; [rewrite T; apply nn_mag|]. apply Pg, Pf; auto.
      + replace (ws i j, MNode q ws' s') with (mscale (ws i j) (C1, MNode q ws' s'))
          by (unfold mscale; cbn; f_equal; ring).
        apply (summed_norm v (mscale (ws i j) g)); auto; [cbn; rewrite magif_norm; auto|].
        apply summed_scale; auto. }
  assert (EN : forall a b, entry regular (S v) (C1, MNode v ws s) a b =
            entry regular v (if regular then (ws (a v) (b v), s (a v) (b v)) else (ws (b v) (a v), s (b v) (a v))) a b).
  { intros a b. unfold entry, meden; destruct regular; cbn [fst snd]; rewrite mden_node; ring. }
  assert (MV : forall a b i, fsum fl v (fun c => Cnorm2 (entry regular (S v) (C1, MNode v ws s) c b)) (setb a v i) =
     fsum fl v (fun c => Cnorm2 (entry regular v (if regular then (ws i (b v), s i (b v)) else (ws (b v) i, s (b v) i)) c b)) a).
  { intros a b i. rewrite fsum_setb by auto. apply fsum_ext. intros c. rewrite EN, setb_same, entry_setb; auto. }
  destruct (seq4_ok child (fun i j g => mcan0 v g /\ (nw = true -> mposE g) /\ msummed v g (ws i j, s i j)) CH) as (e & Ee & Pe).
  rewrite Ee. cbn [dbind]. rewrite flagged_ok by lia. cbn [dbind]. clear child CH Ee.
  assert (Ce : forall i j, mcan0 v (e i j)) by (intros; apply Pe).
  destruct (nth v fl false) eqn:F.
  - destruct (two regular) as [R|R]; pick R.
    + destruct (maddmag_entry v (e false false) (e true false)) as (x & Ex & Cx & Px & Dx); auto.
      destruct (maddmag_entry v (e false true) (e true true)) as (y & Ey & Cy & Py & Dy); auto.
      rewrite Ex; cbn [dbind]. rewrite Ey; cbn [dbind].
      assert (MC : forall i j, mcan0 v (m4 x y mzero mzero i j)) by (intros [] []; auto using mcan0_zero).
      eexists; split; [reflexivity|split; [apply mmk_canon; auto|split]].
      * intros T. apply mmk_pos. intros [] []; cbn [m4]; try (split; [apply nn_0|exact Logic.I]);
          [apply Py|apply Px]; apply Pe; auto.
      * intros a b. rewrite entry_node by auto. cbn [hit fsum]. rewrite F. cbn [andb]. rewrite !MV. pick R.
        unfold m4. destruct (a v); rewrite ?orb_true_r, ?orb_false_r; cbn [m4].
        -- destruct (b v); rewrite entry_zero; apply Cnorm2_0.
        -- destruct (b v); rewrite ?Dx, ?Dy, !(proj2 (proj2 (Pe _ _))); destruct hit; ring.
    + destruct (maddmag_entry v (e false false) (e false true)) as (x & Ex & Cx & Px & Dx); auto.
      destruct (maddmag_entry v (e true false) (e true true)) as (y & Ey & Cy & Py & Dy); auto.
      rewrite Ex; cbn [dbind]. rewrite Ey; cbn [dbind].
      assert (MC : forall i j, mcan0 v (m4 x mzero y mzero i j)) by (intros [] []; auto using mcan0_zero).
      eexists; split; [reflexivity|split; [apply mmk_canon; auto|split]].
      * intros T. apply mmk_pos. intros [] []; cbn [m4]; try (split; [apply nn_0|exact Logic.I]);
          [apply Py|apply Px]; apply Pe; auto.
      * intros a b. rewrite entry_node by auto. cbn [hit fsum]. rewrite F. cbn [andb]. rewrite !MV. pick R.
        unfold m4. destruct (a v); rewrite ?orb_true_r, ?orb_false_r; cbn [m4].
        -- destruct (b v); rewrite entry_zero; apply Cnorm2_0.
        -- destruct (b v); rewrite ?Dx, ?Dy, !(proj2 (proj2 (Pe _ _))); destruct hit; ring.
  - eexists; split; [reflexivity|split; [apply mmk_canon; auto|split]].
    + intros T. apply mmk_pos. intros; apply Pe; auto.
    + intros a b. rewrite entry_node by auto. cbn [hit fsum]. rewrite F. cbn [andb]. rewrite orb_false_r.
      pose proof (MV a b (a v)) as M. rewrite setb_id in M. rewrite M.
      destruct (two regular) as [R|R]; pick R; apply Pe.
Qed.

Lemma reduceGarbageM_spec n e : mcanon n e -> (n <= length fl)%nat ->
  (nw = true -> snd e = MT -> fst e <> C0) ->
  exists e', reduceGarbageM e fl regular nw = DOk e' /\ mcanon (length fl) e' /\
    (nw = true -> snd e <> MT -> mposE e') /\ msummed (length fl) e' e.
Proof.
  intros H L NZ. unfold reduceGarbageM.
  destruct e as [w t]. cbn [fst snd] in *.
  destruct (negb nw && _) eqn:B.
  { apply andb_true_iff in B as [B1 B2]. eexists; split; [reflexivity|split; [eapply mcanon_mono; eauto|split]].
    - intros ->; discriminate.
    - apply orb_true_iff in B2 as [NF|T]; [apply summed_none; auto|].
      destruct t; [|discriminate]. apply ezero_true in T. rewrite T. apply summed_zero. }
  destruct t as [|v ws s] eqn:Et.
  - destruct (ezero w) eqn:Z.
    + exfalso. apply ezero_true in Z. destruct nw; [apply NZ; auto|]. rewrite orb_true_r in B. discriminate.
    + destruct (raise_to_gar 0 (length fl) (w, MT) (w, MT)) as (g & Eg & Cg & Pg & Dg);
        [lia|apply mcanon_T|exact Logic.I|apply summed_below; lia|].
      exists g. repeat split; auto; tauto.
  - rewrite <- Et in *. assert (HN : w <> C0 /\ (v < n)%nat) by (subst t; destruct H as (? & ? & _); auto).
    destruct HN as [N Q].
    assert (TC : mcanon (S v) (C1, t)) by
      (subst t; destruct H as (? & ? & ? & ? & ?); unfold mcanon; cbn; split; [apply C1_neq_C0|]; repeat split; auto).
    assert (F : exists f, (if Nat.leb (lowerbound fl) v || nw then mgarb fl (lowerbound fl) regular nw t else DOk (C1, t)) = DOk f /\
                 mcanon (S v) f /\ (nw = true -> mposE f) /\ msummed (S v) f (C1, t)).
    { destruct (Nat.leb (lowerbound fl) v || nw) eqn:B2.
      - destruct (mgarb_spec t n w H L ltac:(subst; congruence)) as (f & Ef & Cf & Pf & Df). subst t; eauto.
      - apply orb_false_iff in B2 as [B2 B3]. apply Nat.leb_gt in B2.
        eexists; split; [reflexivity|split; [auto|split; [congruence|apply summed_below; lia]]]. }
    destruct F as (f & Ef & Cf & Pf & Df). rewrite Ef. cbn [dbind].
    destruct (raise_to_gar (S v) (length fl) f (C1, t)) as (g & Eg & Cg & Pg & Dg);
      [lia|auto|apply mcanon_wf; auto|auto|].
    rewrite Eg. cbn [dbind]. eexists; split; [reflexivity|split; [|split]].
    + apply mcanon_w; auto. intros G. apply magif_neq, Cmul_neq0; auto.
    + intros T _. split; [rewrite T; apply nn_mag|]. apply Pg, Pf; auto.
    + replace (w, t) with (mscale w (C1, t)) by (unfold mscale; cbn; f_equal; ring).
      apply (summed_norm (length fl) (mscale w g)); auto; [cbn; rewrite magif_norm; auto|].
      apply summed_scale; auto.
Qed.
End mat.
