(** Depth, counts, dynamic circuits. *)
From Coq Require Import String List Arith Bool NArith Lia.
From Verif Require Import Cplx Qsem GateModel GateSpec GraphModel IRModel IRSpec IRProofs GraphProofs OptModel OptProofs OptFinalProofs QasmIfModel CircModel QueryModel CircSpec QuerySpec.
Import ListNotations.
Local Open Scope list_scope.

(** ** Depth *)
Definition dep (d : list nat) (q : nat) : nat := nth q d 0.
Lemma dep_error d q : q < length d -> nth_error d q = Some (dep d q).
Proof. intros H. unfold dep. now apply nth_error_nth'. Qed.
Lemma dep_upd d q v r : q < length d -> dep (upd d q v) r = if Nat.eqb r q then v else dep d r.
Proof.
  intros H. unfold dep. destruct (Nat.ltb_spec r (length d)).
  - apply nth_error_nth. rewrite nth_error_upd by auto. rewrite (Nat.eqb_sym q r) || idtac. destruct (Nat.eqb r q); auto. now apply nth_error_nth'.
  - destruct (Nat.eqb_spec r q); [lia|]. rewrite !nth_overflow; auto. now rewrite upd_length.
Qed.
Lemma deepest_ok qs : forall d acc, (forall q, In q qs -> q < length d) -> exists m, deepest qs d acc = Some m /\ acc <= m /\
  (forall q, In q qs -> dep d q <= m) /\ (m = acc \/ exists q, In q qs /\ dep d q = m).
Proof.
  induction qs as [|q qs IH]; intros d acc H; cbn [deepest].
  - exists acc. split; auto. split; auto. split; [intros q []|auto].
  - rewrite dep_error by (apply H; simpl; auto). destruct (IH d (Nat.max acc (dep d q))) as (m & E & A & B & X); [intros; apply H; simpl; auto|].
    exists m. split; auto. split; [lia|]. split.
    + intros r [<-|I]; [lia|auto].
    + destruct X as [X|(r & I & X)]; [|right; exists r; simpl; auto].
      destruct (Nat.le_gt_cases (dep d q) acc); [left; lia|right; exists q; simpl; split; auto; lia].
Qed.
Lemma write_all_ok qs v : forall d, (forall q, In q qs -> q < length d) ->
  length (write_all qs v d) = length d /\ forall q, dep (write_all qs v d) q = if memn q qs then v else dep d q.
Proof.
  unfold write_all. induction qs as [|q qs IH]; intros d H; simpl; auto.
  destruct (IH (upd d q v)) as [L E]; [intros r I; rewrite upd_length; apply H; simpl; auto|].
  rewrite upd_length in L. split; auto. intros r. rewrite E, dep_upd by (apply H; simpl; auto). unfold memn. simpl. 
  destruct (Nat.eqb_spec r q); simpl; auto. destruct (existsb _ qs); auto.
Qed.
Lemma sync_ok qs d : (forall q, In q qs -> q < length d) -> exists d' m, sync qs d = Some d' /\ length d' = length d /\
  (forall q, In q qs -> dep d' q = S m /\ dep d q <= m) /\ (forall q, ~ In q qs -> dep d' q = dep d q) /\
  (m = 0 \/ exists q, In q qs /\ dep d q = m).
Proof.
  intros H. destruct (deepest_ok qs d 0 H) as (m & E & _ & B & X). unfold sync. rewrite E.
  destruct (write_all_ok qs (m + 1) d H) as [L W]. exists (write_all qs (m + 1) d), m. split; auto. split; auto. split; [|split].
  - intros q I. rewrite W. destruct (memn q qs) eqn:M; [split; [lia|auto]|]. exfalso. 
    assert (memn q qs = true); [|congruence]. unfold memn. apply existsb_exists. exists q. split; auto. apply Nat.eqb_refl.
  - intros q I. rewrite W. destruct (memn q qs) eqn:M; auto. exfalso. apply I. unfold memn in M. apply existsb_exists in M as (r & J & K).
    apply Nat.eqb_eq in K. now subst.
  - auto.
Qed.
Fixpoint sync_all (L : list (list nat)) (d : list nat) : option (list nat) :=
  match L with [] => Some d | s :: L' => match sync s d with Some d' => sync_all L' d' | None => None end end.
Lemma sync_all_app L M d : sync_all (L ++ M) d = match sync_all L d with Some d' => sync_all M d' | None => None end.
Proof. revert d. induction L as [|s L IH]; intros d; simpl; auto. destruct (sync s d); auto. Qed.
Lemma sync_step qs d : sync qs d = sync_all (step qs) d.
Proof. destruct qs as [|q qs]; [reflexivity|]. cbn [step sync_all]. now destruct (sync (q :: qs) d). Qed.
Lemma bump_steps qs : forall d, bump qs d = sync_all (map (fun q => [q]) qs) d.
Proof.
  induction qs as [|q qs IH]; intros d; cbn [bump map sync_all]; auto. unfold sync. cbn [deepest].
  destruct (nth_error d q) as [x|]; auto.
Qed.
Lemma add_depth_comp cu l d : add_depth (OComp cu l) d = add_depths l d.
Proof. simpl. revert d. induction l as [|o l IH]; intros d; simpl; auto. Qed.
Lemma timed_comp cu l : timed (OComp cu l) <-> Forall timed l.
Proof. simpl. induction l as [|o l IH]; split; intros H; auto; [destruct H; constructor; tauto|inversion H; tauto]. Qed.
Lemma add_depths_steps l : Forall (fun o => timed o -> forall d, add_depth o d = sync_all (steps o) d) l -> Forall timed l ->
  forall d, add_depths l d = sync_all (flat_map steps l) d.
Proof.
  induction 1 as [|o l H _ IH]; intros T d; simpl; auto. inversion T; subst. rewrite sync_all_app, H by auto.
  destruct (sync_all (steps o) d); auto.
Qed.
Lemma timed_targets o : match o with OComp _ _ => False | _ => True end -> timed (OClass (CBit 0 0 kEq) o) -> ctargets o ++ map fst (ccontrols o) = qubits o.
Proof.
  induction o as [s|qs cs|qs|k o IHo|cu l _] using cop_rect'; intros A B; simpl; auto; try (now rewrite app_nil_r); try contradiction.
  apply IHo; simpl in *; destruct o; auto.
Qed.
Lemma optype_eqb_neq a b : a <> b -> optype_eqb a b = false.
Proof. intros N. destruct (optype_eqb a b) eqn:E; auto. exfalso. apply N. destruct a, b; try discriminate; auto. Qed.
Lemma add_depth_steps o : timed o -> forall d, add_depth o d = sync_all (steps o) d.
Proof.
  induction o as [s|qs cs|qs|k o IHo|cu l H] using cop_rect'; intros T d.
  - cbn [add_depth steps]. destruct (optype_eqb (o_type s) gBarrier); [reflexivity|apply sync_step].
  - apply bump_steps.
  - apply bump_steps.
  - cbn [add_depth]. rewrite timed_targets.
    + cbn [steps]. destruct o; try apply sync_step. simpl in T. rewrite optype_eqb_neq by auto. apply sync_step.
    + simpl in T. destruct o; auto.
    + simpl in *. destruct o; auto.
  - rewrite add_depth_comp. apply timed_comp in T. cbn [steps]. now apply add_depths_steps.
Qed.

(** The invariant: the depth of a qubit is the number of layers after which it is
    free, and there is a chain of that length. *)
Record timing (L : list (list nat)) (d : list nat) : Prop := {
  tm_layers : exists t, (forall i q, i < length L -> In q (nth_step L i) -> t i < dep d q) /\
    (forall i j, i < j -> j < length L -> share (nth_step L i) (nth_step L j) -> t i < t j);
  tm_chain : forall q, 0 < dep d q -> exists c i, chain L (c ++ [i]) /\ In q (nth_step L i) /\ length (c ++ [i]) = dep d q
}.
Lemma nth_step_app1 L s i : i < length L -> nth_step (L ++ [s]) i = nth_step L i.
Proof. intros H. unfold nth_step. now apply app_nth1. Qed.
Lemma nth_step_last L s : nth_step (L ++ [s]) (length L) = s.
Proof. unfold nth_step. rewrite app_nth2, Nat.sub_diag by lia. reflexivity. Qed.
Lemma chain_more L s c : chain L c -> chain (L ++ [s]) c.
Proof.
  intros [A B]. split; [intros i I; rewrite app_length; simpl; specialize (A i I); lia|]. intros k K. destruct (B k K) as [X Y]. split; auto.
  rewrite !nth_step_app1; auto; apply A; apply nth_In; lia.
Qed.
Lemma chain_snoc L s c : chain L c -> (forall c' i, c = c' ++ [i] -> share (nth_step L i) s) -> chain (L ++ [s]) (c ++ [length L]).
Proof.
  intros [A B] H. destruct (chain_more L s c (conj A B)) as [A' B']. split.
  - intros i I. apply in_app_iff in I. destruct I as [I|[<-|[]]]; auto. rewrite app_length. simpl. lia.
  - intros k K. rewrite app_length in K. simpl in K. destruct (Nat.eq_dec (S k) (length c)) as [E|N].
    + destruct (exists_last (l := c)) as (c' & i & ->); [intros ->; discriminate|]. rewrite app_length in E. simpl in E.
      assert (k = length c') by lia. subst k.
      rewrite (app_nth1 (c' ++ [i]) [length L]) by (rewrite app_length; simpl; lia). rewrite (app_nth2 c' [i]) by lia. rewrite Nat.sub_diag.
      rewrite (app_nth2 (c' ++ [i])) by (rewrite app_length; simpl; lia). rewrite app_length. simpl length.
      replace (S (length c') - (length c' + 1)) with 0 by lia. simpl nth. assert (I : i < length L) by (apply A; apply in_app_iff; simpl; auto).
      split; auto. rewrite nth_step_app1, nth_step_last by auto. eauto.
    + rewrite !app_nth1 by lia. apply B'. lia.
Qed.
Lemma timing_nil n : timing [] (repeat 0 n).
Proof.
  assert (Z : forall q, dep (repeat 0 n) q = 0) by (intros q; unfold dep; apply nth_repeat). constructor.
  - exists (fun _ => 0). split; simpl; intros; lia.
  - intros q H. rewrite Z in H. lia.
Qed.
Lemma timing_step L d s : timing L d -> (forall q, In q s -> q < length d) -> exists d', sync s d = Some d' /\ length d' = length d /\ timing (L ++ [s]) d'.
Proof.
  intros [(t & T1 & T2) C] R. destruct (sync_ok s d R) as (d' & m & E & Le & A & B & X). exists d'. split; auto. split; auto.
  assert (G : forall q, dep d q <= dep d' q).
  { intros q. destruct (in_dec Nat.eq_dec q s) as [I|I]; [destruct (A q I); lia|rewrite B; auto]. }
  constructor.
  - exists (fun i => if i <? length L then t i else m). split.
    + intros i q Hi I. rewrite app_length in Hi. simpl in Hi. destruct (Nat.ltb_spec i (length L)).
      * rewrite nth_step_app1 in I by auto. specialize (T1 i q H I). specialize (G q). lia.
      * assert (i = length L) by lia. subst i. rewrite nth_step_last in I. destruct (A q I). lia.
    + intros i j Hij Hj S. rewrite app_length in Hj. simpl in Hj. rewrite nth_step_app1 in S by lia.
      destruct (Nat.ltb_spec i (length L)); [|lia]. destruct (Nat.ltb_spec j (length L)).
      * rewrite nth_step_app1 in S by auto. auto.
      * assert (j = length L) by lia. subst j. rewrite nth_step_last in S. destruct S as (q & I & J). specialize (T1 i q H I). destruct (A q J). lia.
  - intros q P. destruct (in_dec Nat.eq_dec q s) as [I|I].
    + destruct (A q I) as [Q _]. rewrite Q. destruct X as [->|(r & J & X)].
      * exists [], (length L). split; [|split; [now rewrite nth_step_last|reflexivity]]. apply (chain_snoc L s []).
        -- split; [intros i []|simpl; intros; lia].
        -- intros c' i K. destruct c'; discriminate.
      * destruct (Nat.eq_dec m 0) as [->|N].
        -- exists [], (length L). split; [|split; [now rewrite nth_step_last|reflexivity]]. apply (chain_snoc L s []).
           ++ split; [intros i []|simpl; intros; lia].
           ++ intros c' i K. destruct c'; discriminate.
        -- destruct (C r) as (c & i & C1 & C2 & C3); [lia|]. exists (c ++ [i]), (length L). split; [|split; [now rewrite nth_step_last|]].
           ++ apply chain_snoc; auto. intros c' i' K. apply app_inj_tail in K as [_ <-]. exists r. auto.
           ++ rewrite app_length, C3, X. simpl. lia.
    + rewrite B in P |- * by auto. destruct (C q P) as (c & i & C1 & C2 & C3). exists c, i. split; [now apply chain_more|].
      split; auto. rewrite nth_step_app1; auto. apply C1. apply in_app_iff. simpl. auto.
Qed.
Lemma timing_all M : forall L d, timing L d -> (forall s q, In s M -> In q s -> q < length d) -> exists d', sync_all M d = Some d' /\ length d' = length d /\ timing (L ++ M) d'.
Proof.
  induction M as [|s M IH]; intros L d T R; cbn [sync_all].
  - exists d. rewrite app_nil_r. auto.
  - destruct (timing_step L d s T) as (d1 & E & Le & T1); [intros q; apply R; simpl; auto|]. rewrite E.
    destruct (IH (L ++ [s]) d1 T1) as (d2 & E2 & L2 & T2); [intros x q I J; rewrite Le; apply (R x q); simpl; auto|].
    exists d2. split; auto. split; [congruence|]. rewrite <- app_assoc in T2. exact T2.
Qed.
Lemma schedule_chain L t d c : schedule L t d -> chain L c -> length c <= d.
Proof.
  intros [A B] [C D]. destruct c as [|i0 c0]; [simpl; lia|]. set (c := i0 :: c0) in *.
  assert (K : forall k, k < length c -> k <= t (nth k c 0)).
  { induction k as [|k IH]; intros H; [lia|]. destruct (D k H) as [X Y]. specialize (IH ltac:(lia)).
    assert (J : t (nth k c 0) < t (nth (S k) c 0)) by (apply B; auto; apply C; apply nth_In; auto). lia. }
  specialize (K (length c - 1)). assert (P : 0 < length c) by (simpl; lia). specialize (K ltac:(lia)).
  assert (Q : t (nth (length c - 1) c 0) < d) by (apply A, C, nth_In; lia). lia.
Qed.
Lemma fold_max d : forall x, (forall y, In y (x :: d) -> y <= fold_left Nat.max d x) /\ In (fold_left Nat.max d x) (x :: d).
Proof.
  induction d as [|y d IH]; intros x; simpl.
  - split; [intros z [->|[]]; lia|auto].
  - destruct (IH (Nat.max x y)) as [A B]. split.
    + intros z [<-|[<-|I]]; [specialize (A (Nat.max x y) (or_introl eq_refl)); lia|specialize (A (Nat.max x y) (or_introl eq_refl)); lia|apply A; simpl; auto].
    + destruct B as [B|B]; [|auto]. rewrite <- B. destruct (Nat.max_dec x y) as [->| ->]; auto.
Qed.
Lemma steps_qubits o s q : In s (steps o) -> In q s -> In q (qubits o).
Proof.
  induction o as [o|qs cs|qs|k o IHo|cu l H] using cop_rect'; intros I J.
  - cbn [steps] in I. destruct (optype_eqb _ _); [destruct I|]. cbn [qubits]. destruct (o_tgt o ++ map fst (o_ctl o)); [destruct I|].
    destruct I as [<-|[]]. auto.
  - cbn [steps qubits] in *. apply in_map_iff in I as (x & <- & I). destruct J as [<-|[]]. auto.
  - cbn [steps qubits] in *. apply in_map_iff in I as (x & <- & I). destruct J as [<-|[]]. auto.
  - cbn [qubits]. assert (K : In s (step (qubits o))).
    { cbn [steps] in I. destruct o; auto. destruct (optype_eqb _ _); [destruct I|auto]. }
    destruct (qubits o); [destruct K|]. destruct K as [<-|[]]. auto.
  - cbn [steps qubits] in *. apply in_flat_map in I as (x & I & K). apply in_flat_map. exists x. split; auto. rewrite Forall_forall in H. auto.
Qed.
Lemma steps_nonempty o s : In s (steps o) -> s <> [].
Proof.
  assert (P : forall l, In s (step l) -> s <> []) by (intros l I; destruct l; [destruct I|destruct I as [<-|[]]; discriminate]).
  induction o as [o|qs cs|qs|k o IHo|cu l H] using cop_rect'; intros I.
  - cbn [steps] in I. destruct (optype_eqb _ _); [destruct I|eauto].
  - cbn [steps] in I. apply in_map_iff in I as (x & <- & I). discriminate.
  - cbn [steps] in I. apply in_map_iff in I as (x & <- & I). discriminate.
  - cbn [steps] in I. destruct o; eauto.
  - cbn [steps] in I. apply in_flat_map in I as (x & I & K). rewrite Forall_forall in H. eauto.
Qed.
Theorem depth_ok n l : Forall timed l -> 0 < n -> (forall o q, In o l -> In q (qubits o) -> q < n) ->
  exists d, get_depth n l = Some d /\
    (exists c, chain (flat_map steps l) c /\ length c = d) /\ (forall c, chain (flat_map steps l) c -> length c <= d) /\
    (exists t, schedule (flat_map steps l) t d) /\ (forall t d', schedule (flat_map steps l) t d' -> d <= d').
Proof.
  intros T P R. set (L := flat_map steps l). 
  assert (E : add_depths l (repeat 0 n) = sync_all L (repeat 0 n)).
  { apply add_depths_steps; auto. apply Forall_forall. intros o _. apply add_depth_steps. }
  destruct (timing_all L [] (repeat 0 n) (timing_nil n)) as (d & E2 & Le & [(t & T1 & T2) C]).
  { intros s q I J. rewrite repeat_length. apply in_flat_map in I as (o & I & K). eapply R; eauto. eapply steps_qubits; eauto. }
  rewrite repeat_length in Le. simpl app in *.
  destruct d as [|x d]; [simpl in Le; lia|]. destruct (fold_max d x) as [M1 M2]. set (m := fold_left Nat.max d x) in *.
  assert (D : forall q, dep (x :: d) q <= m).
  { intros q. unfold dep. destruct (Nat.ltb_spec q (length (x :: d))); [apply M1; now apply nth_In|]. rewrite nth_overflow by auto. lia. }
  assert (CH : exists c, chain L c /\ length c = m).
  { destruct (Nat.eq_dec m 0) as [Z|N].
    - exists []. split; [split; [intros i []|simpl; intros; lia]|simpl; lia].
    - apply In_nth with (d := 0) in M2 as (q & _ & Q). destruct (C q) as (c & i & C1 & _ & C3); [unfold dep; rewrite Q; lia|].
      exists (c ++ [i]). split; auto. rewrite C3. unfold dep. now rewrite Q. }
  assert (SC : schedule L t m).
  { split; auto. intros i Hi. pose proof (nth_In L [] Hi) as I. apply in_flat_map in I as (o & I & K).
    pose proof (steps_nonempty _ _ K) as NE. destruct (nth i L []) as [|q s] eqn:Q; [congruence|].
    assert (t i < dep (x :: d) q) by (apply T1; auto; unfold nth_step; rewrite Q; simpl; auto). specialize (D q). lia. }
  exists m. split; [|split; [auto|split; [|split]]].
  - unfold get_depth. destruct l as [|o l]; [|now rewrite E, E2]. cbn in E2. inversion E2 as [E3]. f_equal.
    assert (Z : forall y, In y (x :: d) -> y = 0) by (intros y I; rewrite <- E3 in I; now apply repeat_spec in I). symmetry. auto.
  - intros c K. eapply schedule_chain; eauto.
  - eauto.
  - intros t' d' S. destruct CH as (c & K & <-). eapply schedule_chain; eauto.
Qed.

(** ** Counts *)
Lemma fold_count {A} (f : A -> nat) (g : nat -> A -> nat) l : (forall n a, g n a = n + f a) -> forall n, fold_left g l n = n + list_sum (map f l).
Proof. intros H. induction l as [|a l IH]; intros n; simpl; [lia|]. rewrite IH, H. lia. Qed.
Lemma flat_single l : (forall x, In x l -> match x with OComp _ _ => False | _ => True end) -> flat_map leaves l = l.
Proof. induction l as [|x l IH]; intros H; simpl; auto. rewrite IH by (intros; apply H; simpl; auto). specialize (H x (or_introl eq_refl)). destruct x; auto; contradiction. Qed.
Lemma sum_leaves {A} (f : A -> nat) (g : A -> list cop) l : (forall x, In x l -> f x = length (g x)) -> list_sum (map f l) = length (flat_map g l).
Proof. induction l as [|x l IH]; intros H; simpl; auto. rewrite app_length, IH, (H x); simpl; auto. intros; apply H; simpl; auto. Qed.
Lemma individual_ok l : Forall shallow l -> individual_ops l = length (flat_map leaves l).
Proof.
  intros H. unfold individual_ops. rewrite (fold_count (fun o => match o with OComp _ s => length s | _ => 1 end)) by (intros n a; destruct a; reflexivity).
  simpl. apply sum_leaves. intros x I. rewrite Forall_forall in H. specialize (H x I). destruct x; auto. simpl in *. now rewrite flat_single.
Qed.
Lemma lone_single o : is_unitary o && is_single o = lone o \/ exists cu l, o = OComp cu l.
Proof.
  destruct o as [s|qs cs|qs|c o|cu l]; simpl; eauto. left. unfold is_single. simpl. destruct (o_ctl s), (o_tgt s) as [|? [|? ?]]; reflexivity.
Qed.
Lemma single_comp o : match o with OComp _ _ => is_single o = false | _ => True end.
Proof. destruct o; auto. Qed.
Lemma filter_flat {A B} (p : B -> bool) (g : A -> list B) l : filter p (flat_map g l) = flat_map (fun x => filter p (g x)) l.
Proof. induction l; simpl; auto. now rewrite filter_app, IHl. Qed.
Lemma single_ok l : Forall shallow l -> single_qubit_ops l = length (filter lone (flat_map leaves l)).
Proof.
  intros H. unfold single_qubit_ops.
  rewrite (fold_count (fun o => match o with OComp _ s => length (filter (fun x => is_unitary x && is_single x) s) | _ => if is_unitary o && is_single o then 1 else 0 end)).
  2:{ intros n a. destruct a as [s|? ?|?|? ?|? ?]; cbn [is_unitary negb andb]; try lia. destruct (is_single (OStd s)); cbn [andb]; lia. }
  simpl. rewrite filter_flat. apply sum_leaves. intros x I. rewrite Forall_forall in H. specialize (H x I).
  destruct x as [s|? ?|?|? ?|cu l']; try reflexivity.
  - cbn [leaves filter]. destruct (lone_single (OStd s)) as [E|(? & ? & E)]; [rewrite E|discriminate]. destruct (lone (OStd s)); reflexivity.
  - cbn [leaves]. rewrite flat_single by exact H. f_equal. apply filter_ext_in. intros x J. specialize (H x J).
    destruct (lone_single x) as [E|(? & ? & ->)]; [auto|destruct H].
Qed.

(** ** Dynamic circuits *)
Lemma dynamic_comp cu l m : dynamic_op (OComp cu l) m = dynamic_ops l m.
Proof. simpl. revert m. induction l as [|o l IH]; intros m; simpl; auto. Qed.
Lemma dynamic_app A : forall B m, dynamic_ops (A ++ B) m =
  match dynamic_ops A m with None => None | Some (true, m') => Some (true, m') | Some (false, m') => dynamic_ops B m' end.
Proof. induction A as [|o A IH]; intros B m; simpl; auto. destruct (dynamic_op o m) as [[[] m']|]; auto. Qed.
Lemma dynamic_flat l : Forall (fun o => forall m, dynamic_ops (leaves o) m = dynamic_op o m) l -> forall m, dynamic_ops (flat_map leaves l) m = dynamic_ops l m.
Proof.
  induction 1 as [|o l H _ IH]; intros m; simpl; auto. rewrite dynamic_app, H. destruct (dynamic_op o m) as [[[] m']|]; auto.
Qed.
Lemma dynamic_leaves o : forall m, dynamic_ops (leaves o) m = dynamic_op o m.
Proof.
  induction o as [s|qs cs|qs|k o IHo|cu l H] using cop_rect'; intros m;
    try (cbn [leaves dynamic_ops]; destruct (dynamic_op _ m) as [[[] m']|]; reflexivity).
  cbn [leaves]. rewrite dynamic_comp. now apply dynamic_flat.
Qed.
Definition on (m : list bool) (q : nat) : Prop := nth q m false = true.
Lemma any_ok qs : forall m, (forall q, In q qs -> q < length m) -> exists b, any_measured qs m = Some b /\ (b = false <-> forall q, In q qs -> ~ on m q).
Proof.
  induction qs as [|q qs IH]; intros m H; cbn [any_measured].
  - exists false. split; auto. split; auto.
  - rewrite (nth_error_nth' m false) by (apply H; simpl; auto). destruct (IH m) as (b & -> & B); [intros; apply H; simpl; auto|].
    eexists. split; [reflexivity|]. rewrite orb_false_iff, B. unfold on. split.
    + intros [X Y] r [<-|I]; [congruence|auto].
    + intros Y. split; [|intros r I; apply Y; simpl; auto]. specialize (Y q (or_introl eq_refl)). destruct (nth q m false); congruence.
Qed.
Lemma mark_ok qs : forall m, (forall q, In q qs -> q < length m) -> exists m', mark qs m = Some m' /\ length m' = length m /\ forall q, on m' q <-> on m q \/ In q qs.
Proof.
  induction qs as [|q qs IH]; intros m H; cbn [mark].
  - exists m. split; auto. split; auto. intros q. simpl. tauto.
  - assert (Q : q < length m) by (apply H; simpl; auto). apply Nat.ltb_lt in Q as Q'. rewrite Q'.
    destruct (IH (upd m q true)) as (m' & E & L & O); [intros r I; rewrite upd_length; apply H; simpl; auto|].
    exists m'. split; auto. rewrite upd_length in L. split; auto. intros r. rewrite O. simpl.
    assert (U : on (upd m q true) r <-> on m r \/ q = r); [|tauto]. unfold on. destruct (Nat.ltb_spec r (length m)).
    + rewrite (nth_error_nth (upd m q true) r false (x := if Nat.eqb r q then true else nth r m false)).
      2:{ rewrite nth_error_upd by auto. destruct (Nat.eqb r q); auto. now apply nth_error_nth'. }
      destruct (Nat.eqb_spec r q); subst; intuition congruence.
    + rewrite !nth_overflow by (rewrite ?upd_length; auto). split; [discriminate|]. intros [K|K]; [discriminate|lia].
Qed.
Definition flat (o : cop) : Prop := match o with OComp _ _ => False | _ => True end.
Lemma leaves_flat o : Forall flat (leaves o).
Proof.
  induction o as [s|qs cs|qs|k o IHo|cu l H] using cop_rect'; try (constructor; [simpl; auto|constructor]). cbn [leaves].
  apply Forall_forall. intros x I. apply in_flat_map in I as (y & I & J). rewrite Forall_forall in H. specialize (H y I). rewrite Forall_forall in H. auto.
Qed.
(** Static after the qubits [M] have been measured. *)
Definition static_from (M : nat -> Prop) (L : list cop) : Prop := static L /\ forall s q, In (OStd s) L -> In q (qubits (OStd s)) -> ~ M q.
Lemma static_tail o L : static (o :: L) -> static L.
Proof.
  intros [A B]. split; [intros x I; apply A; simpl; auto|]. intros X qs cs Y s Z E. apply (B (o :: X) qs cs Y s Z). simpl. now rewrite E.
Qed.
Lemma static_std M s L : static_from M (OStd s :: L) <-> static_from M L /\ forall q, In q (qubits (OStd s)) -> ~ M q.
Proof.
  split.
  - intros [A B]. split; [split; [eapply static_tail; eauto|intros; eapply B; simpl; eauto]|]. intros q I. eapply B; simpl; eauto.
  - intros [[[A A'] B] X]. split; [split|].
    + intros o [<-|I]; eauto.
    + intros Y qs cs Z s' W E. destruct Y as [|y Y]; [discriminate|]. inversion E. eapply A'; eauto.
    + intros s' q [K|I] J; [inversion K; subst; auto|eauto].
Qed.
Lemma static_meas M qs cs L : static_from M (OMeas qs cs :: L) <-> static_from (fun q => M q \/ In q qs) L.
Proof.
  split.
  - intros [A B]. split; [eapply static_tail; eauto|]. intros s q I J [K|K]; [eapply B; simpl; eauto|].
    apply in_split in I as (Y & Z & ->). destruct A as [_ A]. apply (A [] qs cs Y s Z eq_refl q K J).
  - intros [[A A'] B]. split; [split|].
    + intros o [<-|I]; eauto.
    + intros Y qs' cs' Z s' W E. destruct Y as [|y Y].
      * simpl in E. inversion E; subst. intros q I J. apply (B s' q); auto. apply in_app_iff. simpl. auto.
      * inversion E; subst. eapply A'; eauto.
    + intros s q [K|I] J; [discriminate|]. intros X. apply (B s q I J). auto.
Qed.
Lemma dynamic_ok L : Forall flat L -> forall m, (forall o q, In o L -> In q (qubits o) -> q < length m) ->
  exists b m', dynamic_ops L m = Some (b, m') /\ (b = false <-> static_from (on m) L).
Proof.
  induction 1 as [|o L F _ IH]; intros m H.
  - exists false, m. split; auto. split; auto. intros _. split; [split; [intros o []|]|intros s q []].
    intros A qs cs B s C E. destruct A; discriminate.
  - assert (H' : forall x q, In x L -> In q (qubits x) -> q < length m) by (intros; eapply H; simpl; eauto).
    assert (Ho : forall q, In q (qubits o) -> q < length m) by (intros; eapply H; simpl; eauto).
    assert (N : (forall s, o <> OStd s) -> (forall qs cs, o <> OMeas qs cs) -> true = false <-> static_from (on m) (o :: L)).
    { intros N1 N2. split; [discriminate|]. intros [[A _] _]. destruct (A o (or_introl eq_refl)) as [[s ->]|(qs & cs & ->)]; [destruct (N1 s)|destruct (N2 qs cs)]; auto. }
    destruct o as [s|qs cs|qs|k o|cu l]; cbn [dynamic_ops dynamic_op].
    + destruct (any_ok (o_tgt s ++ map fst (o_ctl s)) m Ho) as (b & -> & B). destruct b.
      * exists true, m. split; auto. rewrite static_std. split; [discriminate|]. intros [_ X]. apply B. auto.
      * destruct (IH m H') as (b & m' & E & K). exists b, m'. split; auto. rewrite K, static_std. split; [|tauto]. intros X. split; auto. now apply B.
    + destruct (mark_ok qs m Ho) as (m1 & -> & Le & O). destruct (IH m1) as (b & m' & E & K); [rewrite Le; auto|].
      exists b, m'. split; auto. rewrite K, static_meas. unfold static_from. split; intros [A B]; split; auto; intros s q I J; specialize (B s q I J); rewrite O in *; auto.
    + exists true, m. split; auto. apply N; discriminate.
    + exists true, m. split; auto. apply N; discriminate.
    + destruct F.
Qed.
Lemma leaves_qubits o x q : In x (leaves o) -> In q (qubits x) -> In q (qubits o).
Proof.
  induction o as [s|qs cs|qs|k o IHo|cu l H] using cop_rect'; intros I J; try (destruct I as [<-|[]]; assumption).
  cbn [leaves qubits] in *. apply in_flat_map in I as (y & I & K). apply in_flat_map. exists y. split; auto. rewrite Forall_forall in H. auto.
Qed.
Lemma is_dynamic_ok s : (forall o q, In o (c_ops s) -> In q (qubits o) -> q <= max_key (c_lay s)) ->
  exists b, is_dynamic s = Some b /\ (b = false <-> static (flat_map leaves (c_ops s))).
Proof.
  intros H. unfold is_dynamic. rewrite <- dynamic_flat by (apply Forall_forall; intros o _; apply dynamic_leaves).
  destruct (dynamic_ok (flat_map leaves (c_ops s))) with (m := repeat false (max_key (c_lay s) + 1)) as (b & m' & -> & B).
  - apply Forall_forall. intros x I. apply in_flat_map in I as (y & I & J). pose proof (leaves_flat y) as F. rewrite Forall_forall in F. auto.
  - intros o q I J. rewrite repeat_length. apply in_flat_map in I as (y & I & K). enough (q <= max_key (c_lay s)) by lia. eapply H; eauto. eapply leaves_qubits; eauto.
  - exists b. split; auto. rewrite B. unfold static_from. split; [tauto|]. intros X. split; auto. intros s' q _ _ Y. unfold on in Y. rewrite nth_repeat in Y. discriminate.
Qed.

(** ** Measurements of a static circuit can be moved to its end *)
Lemma leaves_run l : same_run (flat_map leaves l) l.
Proof.
  apply run_flat. apply Forall_forall. intros o _. induction o as [s|qs cs|qs|k o IHo|cu l' H] using cop_rect'; try apply same_refl.
  cbn [leaves]. intros b. rewrite run_one, run_comp. apply run_flat. auto.
Qed.
Lemma deferred L : static L -> same_dist L (gates L ++ measurements L).
Proof.
  induction L as [|o L IH]; intros H; [apply sd_refl|]. pose proof (static_tail _ _ H) as H'. specialize (IH H').
  destruct (proj1 H o (or_introl eq_refl)) as [[s ->]|(qs & cs & ->)]; cbn [gates measurements filter].
  - simpl. now apply sd_cons.
  - apply (sd_trans _ (OMeas qs cs :: gates L ++ measurements L)); [now apply sd_cons|].
    change (same_dist ((OMeas qs cs :: gates L) ++ measurements L) (gates L ++ ([OMeas qs cs] ++ measurements L))). rewrite app_assoc. apply sd_app; [|apply sd_refl].
    apply move_meas_list. apply Forall_forall. intros x I. right. unfold gates in I. apply filter_In in I as [I J]. destruct x as [s|? ?|?|? ?|? ?]; try discriminate.
    split; [simpl; auto|]. split; [|simpl; tauto]. intros q Q. apply in_split in I as (Y & Z & ->). apply (proj2 H [] qs cs Y s Z eq_refl q Q).
Qed.

(** ** The depth does not depend on the order of operations without a common qubit *)
Lemma dep_ext d d' : length d = length d' -> (forall q, dep d q = dep d' q) -> d = d'.
Proof. intros L H. apply (nth_ext d d' 0 0); auto. intros n _. apply H. Qed.
Lemma deepest_None qs d acc : deepest qs d acc = None <-> exists q, In q qs /\ length d <= q.
Proof.
  revert acc. induction qs as [|q qs IH]; intros acc; cbn [deepest].
  - split; [discriminate|]. intros (q & [] & _).
  - destruct (nth_error d q) as [x|] eqn:E.
    + rewrite IH. split; intros (r & I & L); [exists r; simpl; auto|]. destruct I as [<-|I]; [|exists r; auto].
      apply nth_error_None in L. congruence.
    + split; auto. intros _. exists q. split; [simpl; auto|]. now apply nth_error_None.
Qed.
Lemma sync_None qs d : sync qs d = None <-> exists q, In q qs /\ length d <= q.
Proof. rewrite <- (deepest_None qs d 0). unfold sync. destruct (deepest qs d 0); split; auto; discriminate. Qed.
Lemma sync_in qs d d' : sync qs d = Some d' -> forall q, In q qs -> q < length d.
Proof.
  intros E q I. destruct (Nat.lt_ge_cases q (length d)) as [H|H]; auto. assert (sync qs d = None); [|congruence]. apply sync_None. eauto.
Qed.
Lemma sync_len qs d d' : sync qs d = Some d' -> length d' = length d.
Proof. intros E. destruct (sync_ok qs d (sync_in _ _ _ E)) as (d1 & m & E1 & L & _). rewrite E in E1. inversion E1. congruence. Qed.
Lemma deepest_ext qs d d' acc : length d = length d' -> (forall q, In q qs -> dep d q = dep d' q) -> deepest qs d acc = deepest qs d' acc.
Proof.
  intros L. revert acc. induction qs as [|q qs IH]; intros acc H; cbn [deepest]; auto.
  destruct (Nat.lt_ge_cases q (length d)) as [K|K].
  - rewrite !dep_error by congruence. rewrite (H q) by (simpl; auto). apply IH. intros; apply H; simpl; auto.
  - apply nth_error_None in K as K'. rewrite K'. rewrite L in K. apply nth_error_None in K. now rewrite K.
Qed.
Definition apart (a b : list nat) : Prop := forall q, In q a -> ~ In q b.
Definition then_sync (r : option (list nat)) (L : list (list nat)) : option (list nat) := match r with Some d => sync_all L d | None => None end.
Lemma sync_comm a b d : apart a b -> match sync a d with Some d' => sync b d' | None => None end = match sync b d with Some d' => sync a d' | None => None end.
Proof.
  intros D. destruct (sync a d) as [da|] eqn:A, (sync b d) as [db|] eqn:B.
  - destruct (sync_ok a d (sync_in _ _ _ A)) as (da' & ma & A' & La & A1 & A2 & _). rewrite A in A'. inversion A'; subst da'.
    destruct (sync_ok b d (sync_in _ _ _ B)) as (db' & mb & B' & Lb & B1 & B2 & _). rewrite B in B'. inversion B'; subst db'.
    assert (EB : deepest b da 0 = deepest b d 0) by (apply deepest_ext; auto; intros q I; apply A2; intros J; exact (D q J I)).
    assert (EA : deepest a db 0 = deepest a d 0) by (apply deepest_ext; auto; intros q I; apply B2; exact (D q I)).
    unfold sync in *. rewrite EA, EB. destruct (deepest a d 0) as [x|]; [|discriminate]. destruct (deepest b d 0) as [y|]; [|discriminate].
    inversion A; inversion B; subst. f_equal.
    assert (Ra : forall q, In q a -> q < length d) by (intros q I; rewrite <- La; destruct (Nat.lt_ge_cases q (length (write_all a (x + 1) d))) as [K|K]; auto;
      destruct (A1 q I) as [K1 _]; unfold dep in K1; rewrite nth_overflow in K1 by auto; discriminate).
    assert (Rb : forall q, In q b -> q < length d) by (intros q I; rewrite <- Lb; destruct (Nat.lt_ge_cases q (length (write_all b (y + 1) d))) as [K|K]; auto;
      destruct (B1 q I) as [K1 _]; unfold dep in K1; rewrite nth_overflow in K1 by auto; discriminate).
    destruct (write_all_ok a (x + 1) d Ra) as [L1 W1]. destruct (write_all_ok b (y + 1) d Rb) as [L2 W2].
    destruct (write_all_ok b (y + 1) (write_all a (x + 1) d)) as [L3 W3]; [rewrite L1; auto|].
    destruct (write_all_ok a (x + 1) (write_all b (y + 1) d)) as [L4 W4]; [rewrite L2; auto|].
    apply dep_ext; [congruence|]. intros q. rewrite W3, W4, W1, W2. destruct (memn q a) eqn:Qa, (memn q b) eqn:Qb; auto. exfalso.
    unfold memn in Qa, Qb. apply existsb_exists in Qa as (u & I & E). apply Nat.eqb_eq in E. subst u. apply existsb_exists in Qb as (u & J & E). apply Nat.eqb_eq in E. subst u. exact (D q I J).
  - apply sync_None in B as (q & I & L). apply sync_None. exists q. split; auto. now rewrite (sync_len _ _ _ A).
  - symmetry. apply sync_None in A as (q & I & L). apply sync_None. exists q. split; auto. now rewrite (sync_len _ _ _ B).
  - auto.
Qed.
Lemma sync_past a L : (forall s, In s L -> apart a s) -> forall d, match sync a d with Some d' => sync_all L d' | None => None end = match sync_all L d with Some d' => sync a d' | None => None end.
Proof.
  induction L as [|s L IH]; intros H d; cbn [sync_all]; [destruct (sync a d); auto|].
  pose proof (sync_comm a s d (H s (or_introl eq_refl))) as C. specialize (IH (fun x I => H x (or_intror I))).
  destruct (sync s d) as [d1|].
  - rewrite <- IH. destruct (sync a d) as [d2|]; [rewrite C|rewrite <- C]; auto.
  - destruct (sync a d) as [d2|]; auto. now rewrite C.
Qed.
Lemma sync_all_comm K L : (forall a b, In a K -> In b L -> apart a b) -> forall d, sync_all (K ++ L) d = sync_all (L ++ K) d.
Proof.
  induction K as [|a K IH]; intros H d; [now rewrite app_nil_r|]. cbn [app sync_all].
  transitivity (match sync a d with Some d' => sync_all (L ++ K) d' | None => None end).
  - destruct (sync a d); auto. apply IH. intros; apply H; simpl; auto.
  - rewrite sync_all_app. cbn [sync_all]. pose proof (sync_past a L (fun s I => H a s (or_introl eq_refl) I) d) as P.
    destruct (sync a d) as [d1|].
    + rewrite sync_all_app, P. destruct (sync_all L d); auto.
    + destruct (sync_all L d) as [d2|]; auto. now rewrite <- P.
Qed.
