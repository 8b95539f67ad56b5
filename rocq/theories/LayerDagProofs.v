(** Proofs about [constructDAG] for circuits without inverse neighbours. *)
From Coq Require Import List Arith ZArith Bool Lia Permutation Relation_Operators Operators_Properties.
From Verif Require Import GraphModel GraphProofs LayerModel LayerSpec LayerProofs.
Import ListNotations.

Section Dag.
Context {Op : Type}.
Variable used : Op -> list nat.
Variable isInverseOf : Op -> Op -> bool.
Variable commutesAtQubit : Op -> Op -> nat -> bool.
Variable opeq : Op -> Op -> bool.
Variable commutable : bool.
Variable ops : list Op.
Variable nq : nat.

Hypothesis Hset : forall o, In o ops -> NoDup (used o).
Hypothesis Hrange : forall o q, In o ops -> In q (used o) -> q < nq.
Hypothesis Heuc : forall a b c q, commutesAtQubit a b q = true -> commutesAtQubit a c q = true ->
  commutesAtQubit b c q = true.
Hypothesis Hinv : no_inverse_neighbours used isInverseOf ops.

Notation add_to_group := (add_to_group commutesAtQubit opeq commutable ops).
Notation process_qubit := (process_qubit isInverseOf commutesAtQubit opeq commutable ops).
Notation process_qubits := (process_qubits isInverseOf commutesAtQubit opeq commutable ops).
Notation process_ops := (process_ops used isInverseOf commutesAtQubit opeq commutable ops).
Notation process_rest := (process_rest commutesAtQubit opeq commutable ops).
Notation construct := (constructDAG used isInverseOf commutesAtQubit opeq commutable ops nq).

Definition edges := list (nat * nat * Z).
Definition E (p : edges) (u v : nat) : Prop := In (u, v, 1%Z) p.
Definition TC (p : edges) : nat -> nat -> Prop := clos_trans nat (E p).

Definition actsb (q i : nat) : bool :=
  match nth_error ops i with Some o => existsb (Nat.eqb q) (used o) | None => false end.

Lemma actsb_spec q i : actsb q i = true <-> acts used ops i q.
Proof.
  unfold actsb, acts. destruct (nth_error ops i) as [o|].
  - rewrite existsb_mem. split; [eauto|]. intros (o' & A & B). inversion A; now subst.
  - split; [discriminate|]. intros (o' & A & B). discriminate.
Qed.

Definition hist (q k : nat) : list nat := filter (actsb q) (seq 0 k).

Lemma hist_S q k : hist q (S k) = hist q k ++ (if actsb q k then [k] else []).
Proof.
  unfold hist. rewrite seq_S, filter_app. simpl. now destruct (actsb q k).
Qed.

Lemma hist_In q k i : In i (hist q k) <-> i < k /\ actsb q i = true.
Proof.
  unfold hist. rewrite filter_In, in_seq. split; intros [A B]; split; auto; lia.
Qed.

(** Commuting at [q]. *)
Definition cm (q i j : nat) : Prop := on2 ops (fun a b => commutesAtQubit a b q) i j = true.

Definition conflict (q i j : nat) : Prop := commutable = true -> ~ cm q i j.

Record Core (p : edges) (q : nat) (h cur pred : list nat) : Prop := {
  c_dec : exists rest, h = rest ++ pred ++ cur
     /\ (pred = [] -> rest = [])
     /\ (forall x y, In x rest -> In y pred -> TC p x y);
  c_cur : h <> [] -> cur <> [];
  c_edge : forall x y, In x pred -> In y cur -> E p x y;
  c_comm : match cur with
           | [] => True
           | g0 :: t => (commutable = false -> t = []) /\ forall x, In x t -> cm q g0 x
           end;
  c_sep : forall a i b j c, h = a ++ i :: b ++ j :: c -> conflict q i j -> TC p i j
}.

Lemma TC_mono p p' u v : (forall e, In e p -> In e p') -> TC p u v -> TC p' u v.
Proof.
  intros H T. induction T.
  - apply t_step. unfold E in *. auto.
  - eapply t_trans; eauto.
Qed.

Lemma Core_mono p p' q h cur pred :
  (forall e, In e p -> In e p') -> Core p q h cur pred -> Core p' q h cur pred.
Proof.
  intros H [(rest & A & B & C) D F G S]. constructor; auto.
  - exists rest. split; auto. split; auto. intros. eapply TC_mono; eauto.
  - intros. unfold E in *. auto.
  - intros. eapply TC_mono; eauto.
Qed.

Record GRel (l : layer) (sp : lspec) (k : nat) : Prop := {
  g_rel : Rel l sp;
  g_scoped : scoped sp;
  g_size : size sp = k;
  g_done : done sp = [];
  g_pos : forall u v z, In (u, v, z) (pending sp) -> z = 1%Z /\ u < v
}.

Lemma add_edges pred : forall l sp k c,
  GRel l sp k -> (forall x, In x pred -> x < c) -> c < k ->
  exists sp', GRel (fold_left (fun l p => addEnabledSuccessor l p c) pred l) sp' k
    /\ (forall e, In e (pending sp) -> In e (pending sp'))
    /\ (forall x, In x pred -> E (pending sp') x c).
Proof.
  induction pred as [|x pred IH]; intros l sp k c G H Hc; simpl.
  - exists sp. split; auto. split; auto. intros x [].
  - destruct G as [R S Z D P].
    assert (Hx : x < c) by (apply H; left; auto).
    set (sp1 := mkSpec (size sp) ((x, c, 1%Z) :: pending sp) (done sp)).
    assert (G1 : GRel (addEnabledSuccessor l x c) sp1 k).
    { constructor; unfold sp1; simpl; auto.
      - apply rel_enable; auto; lia.
      - destruct S as [S1 S2]. split; simpl; auto.
        intros a b z [Q|Q]; [inversion Q; subst; lia|eauto].
      - intros u v z [Q|Q]; [inversion Q; subst; auto|eauto]. }
    destruct (IH _ _ _ c G1) as (sp' & A & B & C); [intros; apply H; right; auto|auto|].
    exists sp'. split; auto. split.
    + intros e He. apply B. right. auto.
    + intros y [->|Hy]; auto. apply B. left. reflexivity.
Qed.

Lemma conflict_false q i j : conflict q i j -> commutable = true -> cm q i j -> False.
Proof. intros A B C. now apply A. Qed.

Lemma split_last {A} (l : list A) (c : A) a i b j d :
  l ++ [c] = a ++ i :: b ++ j :: d ->
  (d = [] /\ j = c /\ l = a ++ i :: b) \/ (exists d', d = d' ++ [c] /\ l = a ++ i :: b ++ j :: d').
Proof.
  intros H. destruct d as [|y d _] using rev_ind.
  - left. replace (a ++ i :: b ++ [j]) with ((a ++ i :: b) ++ [j]) in H
      by (rewrite <- app_assoc; reflexivity).
    apply app_inj_tail in H. destruct H as [-> ->]. auto.
  - right. exists d.
    replace (a ++ i :: b ++ j :: d ++ [y]) with ((a ++ i :: b ++ j :: d) ++ [y]) in H
      by (rewrite <- !app_assoc; simpl; rewrite <- app_assoc; reflexivity).
    apply app_inj_tail in H. destruct H as [-> ->]. auto.
Qed.

Lemma on2_euc q i j k : cm q i j -> cm q i k -> cm q j k.
Proof.
  unfold cm, on2. destruct (nth_error ops i), (nth_error ops j), (nth_error ops k); try discriminate.
  apply Heuc.
Qed.

(** Adding the looked-ahead vertex [c] to the groups of its qubit. *)
Lemma add_group dup l sp k s c q :
  GRel l sp k -> constructive s = [] -> destructive s = [] ->
  Core (pending sp) q (qubitOperations s) (currentGroup s) (predecessorGroup s) ->
  (forall x, In x (qubitOperations s) -> x < c) -> c < k ->
  exists l' s' sp', add_to_group dup l s c q = (l', s')
    /\ GRel l' sp' k /\ (forall e, In e (pending sp) -> In e (pending sp'))
    /\ constructive s' = [] /\ destructive s' = []
    /\ qubitOperations s' = qubitOperations s ++ [c]
    /\ lookahead s' = lookahead s
    /\ Core (pending sp') q (qubitOperations s') (currentGroup s') (predecessorGroup s').
Proof.
  intros G Hc Hd C Hlt Hck. unfold LayerModel.add_to_group. rewrite Hc, Hd. cbn [fold_left].
  set (fresh := match currentGroup s with [] => false | _ => _ end).
  set (pred := if fresh then currentGroup s else predecessorGroup s).
  set (cur := if fresh then [] else currentGroup s).
  destruct C as [(rest & CA & CB & CC) CD CE CF CS].
  assert (Hp : forall x, In x pred -> x < c).
  { intros x Hx. apply Hlt. rewrite CA, !in_app_iff. unfold pred in Hx. destruct fresh; auto. }
  destruct (add_edges pred l sp k c G Hp Hck) as (sp' & G' & M & Ed).
  eexists _, _, sp'. split; [reflexivity|]. split; [exact G'|]. split; [exact M|].
  cbn [constructive destructive qubitOperations currentGroup predecessorGroup lookahead].
  split; [auto|]. split; [auto|]. split; [auto|]. split; [auto|].
  (* everything outside the current group precedes [c] *)
  assert (NN : currentGroup s = [] -> qubitOperations s = []).
  { intros Q. destruct (qubitOperations s) eqn:QQ; auto. exfalso. apply CD; congruence. }
  assert (Out : forall x, In x (qubitOperations s) -> ~ In x cur -> TC (pending sp') x c).
  { intros x Hx Hn. unfold cur, pred in *. destruct fresh eqn:F.
    - rewrite CA, !in_app_iff in Hx.
      destruct (currentGroup s) as [|g0 t] eqn:Q; [unfold fresh in F; discriminate|].
      assert (G0 : TC (pending sp') g0 c) by (apply t_step, Ed; left; auto).
      destruct Hx as [Hx|[Hx|Hx]].
      + destruct (predecessorGroup s) as [|p0 tp] eqn:QP; [rewrite CB in Hx by auto; destruct Hx|].
        eapply t_trans; [eapply TC_mono; [exact M|apply (CC x p0); auto; left; auto]|].
        eapply t_trans; [|exact G0]. apply t_step. apply M. apply CE; left; auto.
      + eapply t_trans; [|exact G0]. apply t_step. apply M. apply CE; auto; left; auto.
      + apply t_step, Ed. auto.
    - rewrite CA, !in_app_iff in Hx. destruct Hx as [Hx|[Hx|Hx]]; [| |contradiction].
      + destruct (predecessorGroup s) as [|p0 tp] eqn:QP; [rewrite CB in Hx by auto; destruct Hx|].
        eapply t_trans; [eapply TC_mono; [exact M|apply (CC x p0); auto; left; auto]|].
        apply t_step, Ed. left; auto.
      + apply t_step, Ed. auto. }
  assert (Cm : cur <> [] -> commutable = true /\ forall x, In x cur -> cm q x c).
  { unfold cur. destruct fresh eqn:F; [congruence|]. intros NE.
    destruct (currentGroup s) as [|g0 t] eqn:Q; [congruence|].
    unfold fresh in F. apply orb_false_iff in F. destruct F as [F _].
    apply orb_false_iff in F. destruct F as [F1 F2]. apply negb_false_iff in F1.
    split; auto. cbn [head_conflict] in F2. apply negb_false_iff in F2.
    fold (cm q g0 c) in F2.
    intros x [->|Hx]; auto. eapply on2_euc; [|exact F2]. apply CF; auto. }
  constructor.
  - unfold pred, cur. destruct fresh eqn:F.
    + exists (rest ++ predecessorGroup s). split; [rewrite CA, <- !app_assoc; reflexivity|].
      destruct (currentGroup s) as [|g0 t] eqn:Q; [unfold fresh in F; discriminate|].
      split; [discriminate|].
      intros x y Hx Hy. apply in_app_iff in Hx. destruct Hx as [Hx|Hx].
      * destruct (predecessorGroup s) as [|p0 tp] eqn:QP; [rewrite CB in Hx by auto; destruct Hx|].
        eapply t_trans; [eapply TC_mono; [exact M|apply (CC x p0); auto; left; auto]|].
        apply t_step. apply M. apply CE; auto; left; auto.
      * apply t_step. apply M. apply CE; auto.
    + exists rest. split; [rewrite CA, <- !app_assoc; reflexivity|]. split; auto.
      intros. eapply TC_mono; eauto.
  - intros _. destruct cur; discriminate.
  - intros x y Hx Hy. apply in_app_iff in Hy. destruct Hy as [Hy|[<-|[]]].
    + unfold pred, cur in *. destruct fresh; [destruct Hy|]. apply M, CE; auto.
    + apply Ed; auto.
  - destruct cur as [|g0 t] eqn:Q; simpl.
    + split; auto. intros x [].
    + destruct Cm as [Cm1 Cm2]; [discriminate|]. split; [congruence|].
      intros x Hx. apply in_app_iff in Hx. destruct Hx as [Hx|[<-|[]]].
      * unfold cur in Q. destruct fresh; [discriminate|]. rewrite Q in CF. apply CF; auto.
      * apply Cm2. left; auto.
  - intros a i b j d Heq Hcf. apply split_last in Heq.
    destruct Heq as [(-> & -> & Heq)|(d' & -> & Heq)].
    + apply Out.
      * rewrite Heq. apply in_app_iff. right. left. auto.
      * intros Hi. destruct Cm as [Cm1 Cm2]; [intros Z; rewrite Z in Hi; destruct Hi|].
        apply Hcf; auto.
    + eapply TC_mono; [exact M|]. eapply CS; eauto.
Qed.

(** The state of one qubit after the operations in [h]. *)
Record QInv (p : edges) (q : nat) (s : qst) (h : list nat) : Prop := {
  q_c : constructive s = [];
  q_d : destructive s = [];
  q_h : match lookahead s with None => h = [] | Some c => h = qubitOperations s ++ [c] end;
  q_n : lookahead s = None -> qubitOperations s = [];
  q_core : Core p q (qubitOperations s) (currentGroup s) (predecessorGroup s)
}.

Lemma QInv_mono p p' q s h : (forall e, In e p -> In e p') -> QInv p q s h -> QInv p' q s h.
Proof. intros M [A B C D F]. constructor; auto. eapply Core_mono; eauto. Qed.

Lemma core_empty p q : Core p q [] [] [].
Proof.
  constructor; simpl; auto; try tauto.
  - exists []. split; auto. split; auto. intros x y [].
  - intros a i b j c H. destruct a; discriminate.
Qed.

Lemma qinv_empty p q : QInv p q qst_empty [].
Proof. constructor; simpl; auto. apply core_empty. Qed.

Lemma hist_last_lt q k qo c : hist q k = qo ++ [c] -> forall x, In x qo -> x < c.
Proof.
  revert qo c. induction k as [|k IH]; intros qo c H x Hx.
  - destruct qo; discriminate.
  - rewrite hist_S in H. destruct (actsb q k).
    + apply app_inj_tail in H. destruct H as [<- <-]. apply hist_In in Hx. lia.
    + rewrite app_nil_r in H. eapply IH; eauto.
Qed.

Lemma hist_last_gap q k qo c : hist q k = qo ++ [c] -> forall i, c < i < k -> actsb q i = false.
Proof.
  revert qo c. induction k as [|k IH]; intros qo c H i Hi; [lia|].
  rewrite hist_S in H. destruct (actsb q k) eqn:A.
  - apply app_inj_tail in H. destruct H as [_ <-]. lia.
  - rewrite app_nil_r in H. destruct (Nat.eq_dec i k); [subst; auto|]. eapply IH; eauto. lia.
Qed.

Lemma process_qubit_ok l sp k s q :
  GRel l sp (S k) -> QInv (pending sp) q s (hist q k) -> actsb q k = true ->
  exists l' s' sp', process_qubit l s k q = (l', s')
    /\ GRel l' sp' (S k) /\ (forall e, In e (pending sp) -> In e (pending sp'))
    /\ QInv (pending sp') q s' (hist q (S k)).
Proof.
  intros G [A B C N Co] Ha. unfold LayerModel.process_qubit.
  destruct (lookahead s) as [c|] eqn:L.
  - assert (Hc : In c (hist q k)) by (rewrite C; apply in_app_iff; right; left; auto).
    apply hist_In in Hc. destruct Hc as [Hck Hca].
    assert (I : on2 ops isInverseOf c k = false).
    { unfold on2. apply actsb_spec in Ha. apply actsb_spec in Hca.
      destruct Ha as (b & Eb & Ub), Hca as (a & Ea & Ua). rewrite Ea, Eb.
      eapply Hinv; eauto. intros i Hi Q. apply actsb_spec in Q.
      rewrite (hist_last_gap _ _ _ _ C i Hi) in Q. discriminate. }
    rewrite I. cbn [andb].
    destruct (add_group true l sp (S k) s c q G A B Co) as
      (l' & s' & sp' & E1 & E2 & E3 & E4 & E5 & E6 & E7 & E8).
    { eapply hist_last_lt; eauto. } { lia. }
    rewrite E1. eexists _, _, sp'. split; [reflexivity|]. split; [auto|]. split; [auto|].
    constructor; cbn [constructive destructive qubitOperations currentGroup predecessorGroup lookahead]; auto.
    + rewrite hist_S, Ha, C, E6. reflexivity.
    + intros; discriminate.
  - eexists _, _, sp. split; [reflexivity|]. split; [auto|]. split; [auto|].
    constructor; cbn [constructive destructive qubitOperations currentGroup predecessorGroup lookahead]; auto.
    + rewrite hist_S, Ha, C, N; auto.
Qed.

(** All qubits; those in [pre] have already seen operation [k]. *)
Definition AllQ (p : edges) (st : list qst) (k : nat) (seen : nat -> bool) : Prop :=
  length st = nq /\
  forall q s, nth_error st q = Some s -> QInv p q s (if seen q then hist q (S k) else hist q k).

Lemma process_qubits_ok k qs : forall l sp st seen,
  GRel l sp (S k) -> AllQ (pending sp) st k seen ->
  (forall q, In q qs -> q < nq /\ actsb q k = true /\ seen q = false) -> NoDup qs ->
  exists l' st' sp', process_qubits k qs l st = Some (l', st')
    /\ GRel l' sp' (S k)
    /\ AllQ (pending sp') st' k (fun q => seen q || existsb (Nat.eqb q) qs).
Proof.
  induction qs as [|q qs IH]; intros l sp st seen G [L Q] H N; simpl.
  - exists l, st, sp. split; auto. split; auto. split; auto.
    intros q s F. rewrite orb_false_r. apply Q; auto.
  - destruct (H q (or_introl eq_refl)) as (H1 & H2 & H3). inversion N; subst.
    destruct (nth_error st q) as [s|] eqn:F; [|apply nth_error_None in F; lia].
    pose proof (Q _ _ F) as QI. rewrite H3 in QI.
    destruct (process_qubit_ok _ _ _ _ _ G QI H2) as (l1 & s1 & sp1 & E1 & E2 & E3 & E4).
    rewrite E1.
    destruct (IH l1 sp1 (upd st q s1) (fun x => seen x || Nat.eqb x q)) as (l2 & st2 & sp2 & F1 & F2 & F3 & F4); auto.
    + split; [now rewrite upd_length|]. intros x t. rewrite nth_error_upd by lia.
      destruct (Nat.eqb_spec x q).
      * intros T; inversion T; subst. now rewrite orb_true_r.
      * rewrite orb_false_r. intros T. eapply QInv_mono; [exact E3|]. auto.
    + intros x Hx. destruct (H x (or_intror Hx)) as (Y1 & Y2 & Y3). split; auto. split; auto.
      rewrite Y3. simpl. apply Nat.eqb_neq. intros ->. contradiction.
    + exists l2, st2, sp2. split; auto. split; auto. split; auto.
      intros x t T. specialize (F4 x t T). rewrite <- orb_assoc in F4. exact F4.
Qed.

Lemma process_ops_ok rest : forall k l sp st,
  (forall i, nth_error rest i = nth_error ops (k + i)) ->
  GRel l sp k -> AllQ (pending sp) st k (fun _ => false) ->
  exists l' st' sp', process_ops k rest l st = Some (l', st')
    /\ GRel l' sp' (k + length rest) /\ AllQ (pending sp') st' (k + length rest) (fun _ => false).
Proof.
  induction rest as [|o rest IH]; intros k l sp st Hn G A; simpl.
  - exists l, st, sp. rewrite Nat.add_0_r. auto.
  - pose proof (Hn 0) as H0. simpl in H0. rewrite Nat.add_0_r in H0. symmetry in H0.
    pose proof (nth_error_In _ _ H0) as Ho.
    set (sp1 := mkSpec (S (size sp)) (pending sp) (done sp)).
    assert (G1 : GRel (layer_create l) sp1 (S k)).
    { destruct G as [R S Z D P]. constructor; unfold sp1; simpl; auto.
      - apply rel_create; auto.
      - destruct S as [S1 S2]. split; simpl.
        + intros a b z Q. apply S1 in Q. lia.
        + intros v Q. apply S2 in Q. lia. }
    destruct (process_qubits_ok k (used o) (layer_create l) sp1 st (fun _ => false)) as
      (l1 & st1 & sp2 & E1 & E2 & E3 & E4); auto.
    { intros q Hq. split; [eauto|]. split; auto. unfold actsb. rewrite H0. now apply existsb_mem. }
    rewrite E1. rewrite <- Nat.add_succ_comm.
    apply (IH (S k) l1 sp2 st1); auto.
    + intros i. specialize (Hn (S i)). simpl in Hn. rewrite Hn. f_equal. lia.
    + split; auto. intros q s F. pose proof (E4 q s F) as Y. simpl in Y.
      destruct (existsb (Nat.eqb q) (used o)) eqn:X; auto.
      assert (Z : actsb q k = false) by (unfold actsb; now rewrite H0).
      rewrite hist_S, Z, app_nil_r. auto.
Qed.

Definition sep (p : edges) (q : nat) (h : list nat) : Prop :=
  forall a i b j c, h = a ++ i :: b ++ j :: c -> conflict q i j -> TC p i j.

Lemma process_rest_ok st : forall q0 l sp n,
  GRel l sp n ->
  (forall i s, nth_error st i = Some s -> QInv (pending sp) (q0 + i) s (hist (q0 + i) n)) ->
  exists sp', GRel (process_rest q0 st l) sp' n
    /\ (forall e, In e (pending sp) -> In e (pending sp'))
    /\ (forall i, i < length st -> sep (pending sp') (q0 + i) (hist (q0 + i) n)).
Proof.
  induction st as [|s st IH]; intros q0 l sp n G H.
  - simpl. exists sp. split; auto. split; auto. intros i Hi. lia.
  - assert (H0 := H 0 s eq_refl). rewrite Nat.add_0_r in H0.
    assert (K : exists l1 sp1, (match lookahead s with
        | Some c => process_rest (S q0) st (fst (add_to_group false l s c q0))
        | None => process_rest (S q0) st l end) = process_rest (S q0) st l1
      /\ GRel l1 sp1 n /\ (forall e, In e (pending sp) -> In e (pending sp1))
      /\ sep (pending sp1) q0 (hist q0 n)).
    { destruct H0 as [A B C N Co]. destruct (lookahead s) as [c|] eqn:L.
      - assert (Hc : In c (hist q0 n)) by (rewrite C; apply in_app_iff; right; left; auto).
        apply hist_In in Hc.
        destruct (add_group false l sp n s c q0 G A B Co) as
          (l' & s' & sp' & E1 & E2 & E3 & E4 & E5 & E6 & E7 & E8).
        { eapply hist_last_lt; eauto. } { lia. }
        exists l', sp'. rewrite E1. split; auto. split; auto. split; auto.
        intros a i b j d Hh. rewrite C, <- E6 in Hh. eapply (c_sep _ _ _ _ _ E8); eauto.
      - exists l, sp. split; auto. split; auto. split; auto.
        intros a i b j d Hh. rewrite C in Hh. destruct a; discriminate. }
    destruct K as (l1 & sp1 & K1 & K2 & K3 & K4).
    assert (KK : process_rest q0 (s :: st) l = process_rest (S q0) st l1) by exact K1.
    rewrite KK.
    destruct (IH (S q0) l1 sp1 n K2) as (sp2 & I1 & I2 & I3).
    { intros i t T. specialize (H (S i) t T). rewrite Nat.add_succ_r in H.
      simpl. eapply QInv_mono; eauto. }
    exists sp2. split; auto. split; [auto|].
    intros [|i] Hi.
    + rewrite Nat.add_0_r. intros a x b y d Hh Hc. eapply TC_mono; [exact I2|]. eapply K4; eauto.
    + rewrite Nat.add_succ_r. apply (I3 i). simpl in Hi. lia.
Qed.

Lemma construct_ok :
  exists l sp, construct = Some l /\ GRel l sp (length ops)
    /\ forall q, q < nq -> sep (pending sp) q (hist q (length ops)).
Proof.
  unfold constructDAG.
  destruct (process_ops_ok ops 0 layer_empty lspec_empty (repeat qst_empty nq)) as
    (l & st & sp & A & B & C & D); auto.
  { constructor; simpl; auto; try tauto. apply rel_empty. split; simpl; tauto. }
  { split; [apply repeat_length|]. intros q s F. apply nth_error_In in F.
    apply repeat_spec in F. subst. apply qinv_empty. }
  rewrite A. simpl in B, C, D.
  destruct (process_rest_ok st 0 l sp (length ops) B) as (sp' & I1 & _ & I3).
  { intros i s F. exact (D i s F). }
  eexists _, sp'. split; [reflexivity|]. split; auto.
  intros q Hq. apply (I3 q). lia.
Qed.

Lemma nth_split2 (l : list nat) i j :
  NoDup l -> In i l -> In j l -> i <> j ->
  (exists a b c, l = a ++ i :: b ++ j :: c) \/ (exists a b c, l = a ++ j :: b ++ i :: c).
Proof.
  intros N Hi Hj Hne. apply in_split in Hi. destruct Hi as (a & b & ->).
  apply in_app_iff in Hj. destruct Hj as [Hj|[Hj|Hj]]; [|congruence|].
  - right. apply in_split in Hj. destruct Hj as (x & y & ->).
    exists x, y, b. rewrite <- app_assoc. reflexivity.
  - left. apply in_split in Hj. destruct Hj as (x & y & ->). eauto.
Qed.

Lemma hist_order q n a i b j c : hist q n = a ++ i :: b ++ j :: c -> i < j.
Proof.
  revert a i b j c. induction n as [|n IH]; intros a i b j c H.
  - destruct a; discriminate.
  - rewrite hist_S in H. destruct (actsb q n).
    + apply split_last in H. destruct H as [(_ & -> & H)|(d & _ & H)].
      * assert (In i (hist q n)) by (rewrite H; apply in_app_iff; right; left; auto).
        apply hist_In in H0. lia.
      * eapply IH; eauto.
    + rewrite app_nil_r in H. eapply IH; eauto.
Qed.

Lemma dependent_path p i j :
  (forall q, q < nq -> sep p q (hist q (length ops))) ->
  i < j -> dependent used commutesAtQubit commutable ops i j -> TC p i j.
Proof.
  intros S Hij (a & b & q & A & B & Ua & Ub & C).
  assert (Hq : q < nq) by (eapply Hrange; [eapply nth_error_In; exact A|auto]).
  assert (Ai : In i (hist q (length ops))).
  { apply hist_In. split; [apply nth_error_Some; congruence|]. apply actsb_spec. exists a; auto. }
  assert (Aj : In j (hist q (length ops))).
  { apply hist_In. split; [apply nth_error_Some; congruence|]. apply actsb_spec. exists b; auto. }
  assert (N : NoDup (hist q (length ops))) by (apply NoDup_filter, seq_NoDup).
  destruct (nth_split2 _ i j N Ai Aj) as [(x & y & z & H)|(x & y & z & H)]; [lia| |].
  - eapply S; eauto. intros Cm. unfold cm, on2. rewrite A, B. specialize (C Cm).
    rewrite C. discriminate.
  - apply hist_order in H. lia.
Qed.

(** ** Schedules *)
Lemma balance_pos p v : (forall a b z, In (a, b, z) p -> z = 1%Z) ->
  (0 <= balance p v)%Z /\ (balance p v = 0%Z -> forall a z, ~ In (a, v, z) p).
Proof.
  induction p as [|[[a b] z] p IH]; intros H.
  - split; [simpl; lia|]. intros _ x y [].
  - destruct IH as [I1 I2]; [intros; eapply H; right; eauto|].
    rewrite balance_cons. assert (z = 1%Z) by (eapply H; left; eauto). subst.
    destruct (Nat.eqb_spec b v).
    + split; [lia|]. intros; lia.
    + split; auto. intros Q x y [C|C]; [inversion C; subst; congruence|]. eapply I2; eauto.
Qed.

Lemma balance_zero p v : (forall a z, ~ In (a, v, z) p) -> balance p v = 0%Z.
Proof.
  intros H. apply balance_fresh. intros a b z C ->. eapply H; eauto.
Qed.

Lemma execute_all_ok vs : forall l sp l',
  Rel l sp -> execute_all vs l = Some l' ->
  (forall a b z, In (a, b, z) (pending sp) -> z = 1%Z) ->
  exists sp', Rel l' sp' /\ size sp' = size sp /\ done sp' = rev vs ++ done sp
    /\ NoDup vs
    /\ (forall v, In v vs -> v < size sp /\ ~ In v (done sp))
    /\ (forall e, In e (pending sp') <-> In e (pending sp) /\ ~ In (fst (fst e)) vs)
    /\ (forall u v, E (pending sp) u v -> In v vs -> before vs u v).
Proof.
  induction vs as [|v vs IH]; intros l sp l' R H P; simpl in H.
  - inversion H; subst. exists sp. split; auto. split; auto. split; auto.
    split; [constructor|]. split; [intros v []|]. split; [intros e; simpl; tauto|]. intros u v _ [].
  - destruct (layer_execute l v) as [l1| |] eqn:X; try discriminate.
    assert (Hv : v < size sp).
    { unfold layer_execute in X. destruct (nth_error (verts l) v) eqn:Y; [|discriminate].
      rewrite <- (r_len _ _ R). apply nth_error_Some. congruence. }
    destruct (rel_execute _ _ v R Hv) as [[(M1 & M2 & M3) (l2 & A & B)]|[_ A]]; [|congruence].
    rewrite X in A. inversion A; subst l2.
    assert (P1 : forall a b z, In (a, b, z) (pending (fire sp v)) -> z = 1%Z).
    { intros a b z C. unfold fire in C; simpl in C. apply filter_In in C. destruct C. eauto. }
    destruct (IH _ _ _ B H P1) as (sp' & I1 & I2 & I3 & I4 & I5 & I6 & I7).
    exists sp'. split; auto. split; auto. split; [rewrite I3; simpl; now rewrite <- app_assoc|].
    split.
    { constructor; auto. intros C. apply I5 in C. destruct C as [_ C]. apply C. simpl; auto. }
    split.
    { intros w [->|C]; auto. apply I5 in C. destruct C as [C1 C2]. split; auto.
      intros Q. apply C2. simpl; auto. }
    split.
    { intros [[a b] z]. rewrite I6. unfold fire; simpl. rewrite filter_In. simpl.
      rewrite negb_true_iff, Nat.eqb_neq. intuition auto. }
    intros u w Ed [->|Hw].
    + exfalso. destruct (balance_pos (pending sp) w P) as [_ Q]. eapply Q; eauto.
    + destruct (Nat.eq_dec u v).
      * subst u. apply in_split in Hw. destruct Hw as (a & b & ->).
        exists (v :: a), b. split; auto. left; auto.
      * destruct (I7 u w) as (a & b & Q1 & Q2); auto.
        { unfold E, fire; simpl. apply filter_In. split; auto. simpl.
          apply negb_true_iff, Nat.eqb_neq. auto. }
        exists (v :: a), b. rewrite Q1. split; auto. right; auto.
Qed.

Lemma before_trans vs i j k : NoDup vs -> before vs i j -> before vs j k -> before vs i k.
Proof.
  intros N (p & r & A & B) (p' & r' & C & D).
  exists p', r'. split; auto. subst vs. apply in_split in D. destruct D as (x & y & ->).
  rewrite <- app_assoc in C. simpl in C.
  assert (p = x).
  { clear - N C. revert x C. induction p as [|a p IH]; intros x C; destruct x as [|b x]; simpl in *; auto.
    - inversion C; subst. inversion N; subst. exfalso. apply H1. apply in_app_iff. right; left; auto.
    - inversion C; subst. inversion N; subst. exfalso. apply H2. apply in_app_iff. right; left; auto.
    - inversion C; subst. f_equal. inversion N; subst. eapply IH; eauto. }
  subst x. apply in_app_iff. auto.
Qed.

Lemma path_before p vs u v :
  NoDup vs -> (forall u v, E p u v -> In v vs -> before vs u v) ->
  TC p u v -> In v vs -> before vs u v.
Proof.
  intros N H T. apply clos_trans_tn1 in T. induction T as [y Ed|y z Ed T IH]; intros Hv; auto.
  pose proof (H _ _ Ed Hv) as B. eapply before_trans; [auto| |exact B].
  apply IH. destruct B as (a & b & -> & Q). apply in_app_iff; auto.
Qed.

Lemma c55_order :
  exists l, construct = Some l /\
  forall vs l', execute_all vs l = Some l' ->
    NoDup vs /\ (forall v, In v vs -> v < length ops)
    /\ (forall i j, i < j -> dependent used commutesAtQubit commutable ops i j -> In j vs -> before vs i j)
    /\ ((exists v, v < length ops /\ ~ In v vs) -> exists v l'', ~ In v vs /\ v < length ops
          /\ In v (exset l') /\ layer_execute l' v = Ret l'').
Proof.
  destruct construct_ok as (l & sp & A & G & S). exists l. split; auto.
  intros vs l' H. destruct G as [R Sc Z D P].
  destruct (execute_all_ok vs l sp l' R H) as (sp' & I1 & I2 & I3 & I4 & I5 & I6 & I7).
  { intros. eapply P; eauto. }
  split; auto. split; [intros v Hv; apply I5 in Hv; lia|]. split.
  - intros i j Hij Dp Hj. eapply path_before; eauto. apply dependent_path; auto.
  - intros Ex.
    assert (Mn : exists v, v < length ops /\ ~ In v vs /\ forall u, u < v -> In u vs).
    { destruct Ex as (v & V1 & V2). revert V1 V2.
      induction v as [v IH] using lt_wf_ind. intros V1 V2.
      destruct (Forall_dec (fun u => In u vs) (fun u => in_dec Nat.eq_dec u vs) (seq 0 v)) as [F|F].
      - exists v. split; auto. split; auto. intros u Hu. rewrite Forall_forall in F. apply F.
        apply in_seq. lia.
      - apply neg_Forall_Exists_neg in F; [|intros; apply in_dec, Nat.eq_dec].
        apply Exists_exists in F. destruct F as (u & F1 & F2). apply in_seq in F1.
        apply (IH u); auto; lia. }
    destruct Mn as (v & V1 & V2 & V3).
    assert (My : may_execute sp' v).
    { split; [lia|]. split.
      - rewrite I3, D, app_nil_r. rewrite <- in_rev. auto.
      - apply balance_zero. intros a z C. apply I6 in C. destruct C as [C1 C2]. simpl in C2.
        apply C2, V3. eapply P; eauto. }
    destruct (rel_execute _ _ v I1) as [[_ (l'' & Q & _)]|[Q _]]; [lia| |contradiction].
    exists v, l''. split; auto. split; auto. split; auto.
    apply (r_exact _ _ I1). apply (rel_may _ _ _ I1). auto.
Qed.

(** ** Meaning *)
Section Meaning.
Context {M : Type}.
Variable one : M.
Variable mul : M -> M -> M.
Hypothesis mul_assoc : forall a b c, mul a (mul b c) = mul (mul a b) c.
Variable sem : Op -> M.

Definition meaning (vs : list nat) : M :=
  fold_right (fun i m => match nth_error ops i with Some o => mul (sem o) m | None => m end) one vs.

Hypothesis Hsem : forall a b,
  (forall q, In q (used a) -> In q (used b) -> commutable = true /\ commutesAtQubit a b q = true) ->
  mul (sem a) (sem b) = mul (sem b) (sem a).

Lemma dep_dec i j : dependent used commutesAtQubit commutable ops i j
  \/ (forall a b, nth_error ops i = Some a -> nth_error ops j = Some b ->
        mul (sem a) (sem b) = mul (sem b) (sem a)).
Proof.
  destruct (nth_error ops i) as [a|] eqn:A; [|right; intros; discriminate].
  destruct (nth_error ops j) as [b|] eqn:B; [|right; intros; discriminate].
  destruct (existsb (fun q => existsb (Nat.eqb q) (used b)
              && negb (commutable && commutesAtQubit a b q)) (used a)) eqn:X.
  - left. apply existsb_exists in X. destruct X as (q & X1 & X2).
    apply andb_true_iff in X2. destruct X2 as [X2 X3]. apply existsb_mem in X2.
    exists a, b, q. repeat split; auto. intros ->. simpl in X3. now apply negb_true_iff in X3.
  - right. intros a' b' Q1 Q2. inversion Q1; inversion Q2; subst. apply Hsem.
    intros q Ha Hb.
    destruct (commutable && commutesAtQubit a' b' q) eqn:Y; [now apply andb_true_iff in Y|].
    exfalso. assert (existsb (fun q => existsb (Nat.eqb q) (used b')
              && negb (commutable && commutesAtQubit a' b' q)) (used a') = true); [|congruence].
    apply existsb_exists. exists q. split; auto. rewrite Y.
    apply andb_true_iff. split; auto. now apply existsb_mem.
Qed.

Lemma move_front x p r :
  (forall y, In y p -> forall a b, nth_error ops x = Some a -> nth_error ops y = Some b ->
     mul (sem a) (sem b) = mul (sem b) (sem a)) ->
  meaning (p ++ x :: r) = meaning (x :: p ++ r).
Proof.
  induction p as [|y p IH]; intros H; auto.
  simpl. simpl in IH. rewrite IH by (intros; eapply H; eauto; right; auto).
  destruct (nth_error ops x) as [a|] eqn:A; auto.
  destruct (nth_error ops y) as [b|] eqn:B; auto.
  rewrite !mul_assoc. f_equal. symmetry. apply (H y); auto. left; auto.
Qed.

Lemma reorder s : forall vs, Permutation s vs -> NoDup s ->
  (forall a i b j c, s = a ++ i :: b ++ j :: c ->
     dependent used commutesAtQubit commutable ops i j -> before vs i j) ->
  meaning vs = meaning s.
Proof.
  induction s as [|x s IH]; intros vs Pm N H.
  - apply Permutation_nil in Pm. now subst.
  - assert (Hx : In x vs) by (eapply Permutation_in; [exact Pm|left; auto]).
    apply in_split in Hx. destruct Hx as (p & r & ->).
    assert (Nv : NoDup (p ++ x :: r)) by (eapply Permutation_NoDup; eauto).
    apply Permutation_cons_app_inv in Pm.
    rewrite move_front.
    + simpl. inversion N; subst. rewrite (IH (p ++ r)); auto.
      intros a i b j c Q Dp. destruct (H (x :: a) i b j c) as (p' & r' & Q1 & Q2); [rewrite Q; auto|auto|].
      assert (Nj : j <> x).
      { intros ->. apply H2. rewrite Q. apply in_app_iff. right. right. apply in_app_iff. right; left; auto. }
      assert (Ni : i <> x).
      { intros ->. apply H2. rewrite Q. apply in_app_iff. right. left; auto. }
      (* remove x on both sides *)
      exists (remove Nat.eq_dec x p'), (remove Nat.eq_dec x r'). split.
      * assert (RR : remove Nat.eq_dec x (p ++ x :: r) = p ++ r).
        { rewrite remove_app. simpl. destruct (Nat.eq_dec x x); [|congruence].
          rewrite !notin_remove; auto.
          - intros C. apply NoDup_remove_2 in Nv. apply Nv, in_app_iff; auto.
          - intros C. apply NoDup_remove_2 in Nv. apply Nv, in_app_iff; auto. }
        rewrite <- RR, Q1, remove_app. simpl. destruct (Nat.eq_dec x j); [congruence|]. reflexivity.
      * apply in_in_remove; auto.
    + intros y Hy. destruct (dep_dec x y) as [Dp|Dp]; auto. exfalso.
      assert (Hys : In y s).
      { apply Permutation_sym in Pm. eapply Permutation_in; [exact Pm|]. apply in_app_iff; auto. }
      apply in_split in Hys. destruct Hys as (b & c & ->).
      destruct (H [] x b y c eq_refl Dp) as (p' & r' & Q1 & Q2).
      (* x before y in p ++ x :: r while y in p *)
      apply in_split in Hy. destruct Hy as (p1 & p2 & ->).
      apply in_split in Q2. destruct Q2 as (q1 & q2 & ->).
      assert (B1 : before ((p1 ++ y :: p2) ++ x :: r) x x).
      { apply (before_trans _ x y x Nv).
        - exists (q1 ++ x :: q2), r'. split; [rewrite Q1; reflexivity|]. apply in_app_iff. right; left; auto.
        - exists (p1 ++ y :: p2), r. split; auto. apply in_app_iff. right; left; auto. }
      destruct B1 as (w1 & w2 & W1 & W2). rewrite W1 in Nv.
      apply NoDup_remove_2 in Nv. apply Nv, in_app_iff; auto.
Qed.

Lemma seq_split_order n a i b j c : seq 0 n = a ++ i :: b ++ j :: c -> i < j.
Proof.
  revert a i b j c. induction n as [|n IH]; intros a i b j c H.
  - destruct a; discriminate.
  - rewrite seq_S in H. simpl in H. apply split_last in H. destruct H as [(_ & -> & H)|(d & _ & H)].
    + assert (In i (seq 0 n)) by (rewrite H; apply in_app_iff; right; left; auto).
      apply in_seq in H0. lia.
    + eapply IH; eauto.
Qed.

Lemma c55_meaning :
  exists l, construct = Some l /\
  forall vs l', execute_all vs l = Some l' -> (forall v, v < length ops -> In v vs) ->
    meaning vs = meaning (seq 0 (length ops)).
Proof.
  destruct c55_order as (l & A & B). exists l. split; auto. intros vs l' H All.
  destruct (B vs l' H) as (N & Rg & Or & _).
  apply reorder.
  - apply NoDup_Permutation; [apply seq_NoDup|auto|].
    intros x. rewrite in_seq. split; [intros; apply All; lia|]. intros C. apply Rg in C. lia.
  - apply seq_NoDup.
  - intros a i b j c Q Dp. apply Or; auto.
    + eapply seq_split_order; eauto.
    + apply All. destruct Dp as (? & ? & ? & _ & Y & _). apply nth_error_Some. congruence.
Qed.
End Meaning.
End Dag.
