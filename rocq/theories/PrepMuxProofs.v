(** Multiplexed rotations. *)
From Coq Require Import Reals Lra Lia List Arith Bool FunctionalExtensionality.
From Verif Require Import Cplx Qsem GateModel GateSpec IRModel IRSpec AlgoModel AlgoBaseProofs AlgoStateProofs PrepModel.
Import ListNotations.
Local Open Scope nat_scope.

Definition rzst (a : R) (q : nat) : state -> state :=
  op1 (cos (a / 2), - sin (a / 2))%R C0 C0 (cos (a / 2), sin (a / 2))%R q.
Definition rot (t : optype) (a : R) (q : nat) : state -> state :=
  match t with gRZ => rzst a q | _ => ryst a q end.
Definition is_rot (t : optype) : Prop := t = gRZ \/ t = gRY.

Lemma acts_rot t a q : is_rot t -> acts [g1p t a q] (rot t a q).
Proof.
  intros [-> | ->]; [|apply acts_ry]. eapply acts_ext. { apply acts_std. reflexivity. }
  intros psi. cbn [o_ctl o_tgt]. unfold rzMat. rewrite capply_m2. apply functional_extensionality. intros x.
  unfold cop1, rot, rzst, RtoC. reflexivity.
Qed.
Lemma half_add a b : ((a + b) / 2 = a / 2 + b / 2)%R. Proof. field. Qed.
Lemma half_opp a : (- a / 2 = - (a / 2))%R. Proof. field. Qed.
Lemma rot_add t a b q psi : rot t a q (rot t b q psi) = rot t (a + b) q psi.
Proof.
  assert (Y : ryst a q (ryst b q psi) = ryst (a + b) q psi).
  { unfold ryst. rewrite op1_op1, half_add, cos_plus, sin_plus. f_equal; apply Ceq; cbn; ring. }
  destruct t; try exact Y. unfold rot, rzst. rewrite op1_op1, half_add, cos_plus, sin_plus. f_equal; apply Ceq; cbn; ring.
Qed.
Lemma op1_x a b c d q psi : xst q (op1 a b c d q psi) = op1 d c b a q (xst q psi).
Proof.
  apply functional_extensionality. intros x. unfold xst, op1. rewrite !setb_setb, !setb_same. destruct (x q); cbn [negb]; rewrite ?setb_setb; ring.
Qed.
Lemma rot_x t a q psi : xst q (rot t a q psi) = rot t (- a) q (xst q psi).
Proof.
  assert (Y : xst q (ryst a q psi) = ryst (- a) q (xst q psi)).
  { unfold ryst. rewrite op1_x, half_opp, cos_neg, sin_neg, Ropp_involutive. reflexivity. }
  destruct t; try exact Y. unfold rot, rzst. rewrite op1_x, half_opp, cos_neg, sin_neg, Ropp_involutive. reflexivity.
Qed.
Lemma rot_local t a q psi phi x : (forall v, psi (setb x q v) = phi (setb x q v)) -> rot t a q psi x = rot t a q phi x.
Proof. intros H. destruct t; apply op1_restrict; auto. Qed.
Lemma rot_0 t q psi x : rot t 0 q psi x = psi x.
Proof.
  assert (Y : ryst 0 q psi x = psi x).
  { unfold ryst. replace (0 / 2)%R with 0%R by field. rewrite cos_0, sin_0, Ropp_0. apply op1_id. }
  destruct t; try exact Y. unfold rot, rzst. replace (0 / 2)%R with 0%R by field. rewrite cos_0, sin_0, Ropp_0. apply op1_id.
Qed.

(** A rotation whose angle depends on the other qubits. *)
Definition mux (t : optype) (f : bits -> R) (q : nat) (psi : state) : state := fun x => rot t (f x) q psi x.
Definition indep (f : bits -> R) (q : nat) : Prop := forall x v, f (setb x q v) = f x.

Lemma mux_set t f q psi x v : indep f q -> mux t f q psi (setb x q v) = rot t (f x) q psi (setb x q v).
Proof. intros I. unfold mux. now rewrite I. Qed.
Lemma mux_mux t f g q psi : indep g q -> mux t f q (mux t g q psi) = mux t (fun x => f x + g x)%R q psi.
Proof.
  intros I. apply functional_extensionality. intros x. unfold mux at 1. unfold mux at 2. rewrite <- rot_add.
  apply rot_local. intros v. now apply mux_set.
Qed.
Lemma cx_off c q psi x : x c = false -> cxst c q psi x = psi x.
Proof. intros E. unfold cxst. now rewrite E, xorb_false_r, setb_id. Qed.
Lemma cx_on c q psi x : x c = true -> cxst c q psi x = xst q psi x.
Proof. intros E. unfold cxst, xst. rewrite E. destruct (x q); reflexivity. Qed.
Lemma cx_after t c q a1 a2 psi : c <> q -> indep a1 q -> indep a2 q ->
  mux t a2 q (cxst c q (mux t a1 q psi)) = cxst c q (mux t (fun x => if x c then a1 x - a2 x else a1 x + a2 x)%R q psi).
Proof.
  intros N I1 I2. apply functional_extensionality. intros x. unfold mux at 1. destruct (x c) eqn:E.
  - rewrite cx_on by auto. unfold xst. rewrite mux_set by (intros y v; cbv beta; rewrite setb_other by auto; destruct (y c); now rewrite I1, I2). rewrite E.
    replace (a1 x - a2 x)%R with (- a2 x + a1 x)%R by ring. rewrite <- rot_add.
    transitivity (rot t (a2 x) q (xst q (rot t (a1 x) q psi)) x).
    + apply rot_local. intros v. rewrite cx_on by (now rewrite setb_other by auto). unfold xst. rewrite setb_setb. now apply mux_set.
    + replace (a2 x) with (- - a2 x)%R at 1 by ring. rewrite <- rot_x. reflexivity.
  - rewrite cx_off by auto. unfold mux at 2. rewrite E, Rplus_comm, <- rot_add.
    apply rot_local. intros v. rewrite cx_off by (now rewrite setb_other by auto). now apply mux_set.
Qed.
Lemma cx_before t c q a1 a2 psi : c <> q -> indep a1 q -> indep a2 q ->
  mux t a1 q (cxst c q (mux t a2 q psi)) = mux t (fun x => if x c then a1 x - a2 x else a1 x + a2 x)%R q (cxst c q psi).
Proof.
  intros N I1 I2. apply functional_extensionality. intros x. unfold mux at 1. unfold mux at 2. destruct (x c) eqn:E.
  - unfold Rminus. rewrite <- rot_add. apply rot_local. intros v. rewrite cx_on by (now rewrite setb_other by auto).
    unfold xst at 1. rewrite setb_setb, mux_set by auto.
    transitivity (xst q (rot t (a2 x) q psi) (setb x q v)). { unfold xst. now rewrite setb_setb. }
    rewrite rot_x. apply rot_local. intros w. rewrite setb_setb, cx_on by (now rewrite setb_other by auto). reflexivity.
  - rewrite <- rot_add. apply rot_local. intros v. rewrite cx_off by (now rewrite setb_other by auto). rewrite mux_set by auto.
    apply rot_local. intros w. rewrite setb_setb, cx_off by (now rewrite setb_other by auto). reflexivity.
Qed.
Lemma cx_cx c q psi : c <> q -> cxst c q (cxst c q psi) = psi.
Proof.
  intros N. apply functional_extensionality. intros x. unfold cxst. rewrite setb_setb, setb_same, setb_other by auto.
  rewrite xorb_assoc, xorb_nilpotent, xorb_false_r. now rewrite setb_id.
Qed.
Lemma cx_comm c d q psi : c <> q -> d <> q -> cxst c q (cxst d q psi) = cxst d q (cxst c q psi).
Proof.
  intros N M. apply functional_extensionality. intros x. unfold cxst. rewrite !setb_setb, !setb_same, !setb_other by auto.
  f_equal. f_equal. destruct (x q), (x c), (x d); reflexivity.
Qed.

(** ** Indices *)
(** The number formed by the [k] bits from [i] on. *)
Fixpoint idx (k i : nat) (x : bits) : nat :=
  match k with 0 => 0 | S k => (if x i then 1 else 0) + 2 * idx k (S i) x end.
Lemma idx_lt k i x : idx k i x < 2 ^ k.
Proof. revert i. induction k as [|k IH]; intros i; cbn; [lia|]. specialize (IH (S i)). destruct (x i); lia. Qed.
Lemma idx_snoc k i x : idx (S k) i x = idx k i x + (if x (i + k) then 2 ^ k else 0).
Proof.
  revert i. induction k as [|k IH]; intros i. { cbn. replace (i + 0) with i by lia. destruct (x i); reflexivity. }
  cbn [idx]. cbn [idx] in IH. rewrite IH. replace (S i + k) with (i + S k) by lia. cbn [Nat.pow]. destruct (x i), (x (i + S k)); lia.
Qed.
Lemma idx_ext k i x y : (forall q, i <= q < i + k -> x q = y q) -> idx k i x = idx k i y.
Proof. revert i. induction k as [|k IH]; intros i H; cbn; auto. rewrite (H i) by lia. rewrite (IH (S i)); auto. intros q Q. apply H. lia. Qed.
Lemma idx_set k i x q v : q < i -> idx k i (setb x q v) = idx k i x.
Proof. intros L. apply idx_ext. intros p P. apply setb_other. lia. Qed.

(** ** The weights of the angles *)
Lemma fold_acc (l : list (R * R)) a : fold_left (fun s p => s + fst p * snd p)%R l a = (a + fold_left (fun s p => s + fst p * snd p) l 0)%R.
Proof.
  revert a. induction l as [|x l IH]; intros a; cbn [fold_left]; [ring|]. rewrite IH, (IH (0 + _)%R). ring.
Qed.
Lemma combine_app {A B} (r1 r2 : list A) (v1 v2 : list B) : length r1 = length v1 -> combine (r1 ++ r2) (v1 ++ v2) = combine r1 v1 ++ combine r2 v2.
Proof. revert v1. induction r1 as [|x r IH]; intros [|y v] H; try discriminate H; cbn; auto. f_equal. apply IH. now injection H. Qed.
Lemma rowProd_app r1 r2 v1 v2 : length r1 = length v1 -> rowProd (r1 ++ r2) (v1 ++ v2) = (rowProd r1 v1 + rowProd r2 v2)%R.
Proof. intros H. unfold rowProd. rewrite combine_app, fold_left_app, fold_acc by auto. reflexivity. Qed.
Lemma rowProd_unit p i h : forall a v, length v = h ->
  rowProd (map (fun y => p * y)%R (map (fun j => if i =? j then 1%R else 0%R) (seq a h))) v =
  if (a <=? i) && (i <? a + h) then (p * nth (i - a) v 0)%R else 0%R.
Proof.
  induction h as [|h IH]; intros a v L; destruct v as [|y v]; try discriminate L.
  - unfold rowProd. cbn [seq map combine fold_left]. destruct (Nat.leb_spec a i), (Nat.ltb_spec i (a + 0)); try lia; reflexivity.
  - cbn [seq map]. injection L as L. unfold rowProd in *. cbn [combine fold_left fst snd]. rewrite fold_acc, IH by auto.
    destruct (Nat.eqb_spec i a) as [->|N].
    + rewrite Nat.leb_refl, Nat.sub_diag. destruct (Nat.leb_spec (S a) a); [lia|]. destruct (Nat.ltb_spec a (a + S h)); [|lia]. cbn [andb nth]. ring.
    + destruct (Nat.leb_spec (S a) i), (Nat.leb_spec a i), (Nat.ltb_spec i (S a + h)), (Nat.ltb_spec i (a + S h)); try lia; cbn [andb]; try ring.
      replace (i - a) with (S (i - S a)) by lia. cbn [nth]. ring.
Qed.
Lemma weights_eq h u v : length u = h -> length v = h ->
  matrixVectorProd (kroneckerProduct [[(/ 2)%R; (/ 2)%R]; [(/ 2)%R; (- / 2)%R]] (createIdentity h)) (u ++ v) =
  map (fun i => / 2 * nth i u 0 + / 2 * nth i v 0)%R (seq 0 h) ++ map (fun i => / 2 * nth i u 0 - / 2 * nth i v 0)%R (seq 0 h).
Proof.
  intros U V. unfold kroneckerProduct, matrixVectorProd, createIdentity. cbn [flat_map]. rewrite app_nil_r, map_app, !map_map. f_equal; apply map_ext_in; intros i I; apply in_seq in I;
  rewrite app_nil_r, rowProd_app by (rewrite !map_length, seq_length; auto); rewrite !rowProd_unit by auto; cbn [Nat.leb andb plus];
  destruct (Nat.ltb_spec i h); try lia; rewrite Nat.sub_0_r; ring.
Qed.

(** ** The multiplexer *)
Definition ang (k i : nat) (l : list R) (x : bits) : R := nth (idx k (S i) x) l 0%R.
Lemma ang_indep k i l : indep (ang k i l) i.
Proof. intros x v. unfold ang. now rewrite idx_set by lia. Qed.
Definition cxk (k i : nat) (psi : state) : state := match k with 0 => psi | _ => cxst (k + i) i psi end.
Lemma cxk_cxk k i psi : cxk k i (cxk k i psi) = psi.
Proof. destruct k; auto. apply cx_cx. lia. Qed.
Lemma nth_map_seq (f : nat -> R) h j : j < h -> nth j (map f (seq 0 h)) 0%R = f j.
Proof. intros L. rewrite (nth_indep _ 0%R (f 0)) by (now rewrite map_length, seq_length). rewrite map_nth, seq_nth by auto. reflexivity. Qed.

Lemma acts_one_rot t a i : is_rot t -> acts [g1p t a i] (fun psi => mux t (fun _ => a) i psi).
Proof. intros H. apply (acts_ext _ _ _ (acts_rot t a i H)). reflexivity. Qed.
Lemma shift_cx i k : shift_op i (cg1 gX k 0) = cg1 gX (k + i) i. Proof. reflexivity. Qed.
Lemma multiplex_acts t i : is_rot t -> forall k l, length l = 2 ^ k ->
  acts (map (shift_op i) (multiplex_ops k t l false)) (fun psi => cxk k i (mux t (ang k i l) i psi)) /\
  acts (rev (map (shift_op i) (multiplex_ops k t l false))) (fun psi => mux t (ang k i l) i (cxk k i psi)).
Proof.
  intros T. induction k as [|k IH]; intros l L.
  - destruct l as [|a [|? ?]]; try discriminate L. split; apply acts_one_rot; auto.
  - cbn [multiplex_ops].
    assert (LU : length (firstn (2 ^ k) l) = 2 ^ k) by (rewrite firstn_length, L; cbn; lia).
    assert (LV : length (skipn (2 ^ k) l) = 2 ^ k) by (rewrite skipn_length, L; cbn; lia).
    rewrite <- (firstn_skipn (2 ^ k) l) in L |- *. set (u := firstn (2 ^ k) l) in *. set (v := skipn (2 ^ k) l) in *. clearbody u v. clear l.
    rewrite L. replace (2 ^ S k / 2) with (2 ^ k) by (cbn [Nat.pow]; rewrite Nat.mul_comm, Nat.div_mul; lia).
    rewrite (weights_eq (2 ^ k) u v LU LV). set (a1 := map _ (seq 0 (2 ^ k))). set (a2 := map _ (seq 0 (2 ^ k))).
    assert (L1 : length a1 = 2 ^ k) by (unfold a1; now rewrite map_length, seq_length).
    assert (L2 : length a2 = 2 ^ k) by (unfold a2; now rewrite map_length, seq_length).
    rewrite firstn_app, L1, Nat.sub_diag, firstn_O, app_nil_r, firstn_all2 by lia.
    rewrite skipn_app, L1, Nat.sub_diag, skipn_O, skipn_all2 by lia. cbn [app].
    destruct (IH a1 L1) as [P1 Q1]. destruct (IH a2 L2) as [P2 Q2]. rewrite app_nil_r, map_app. cbn [map]. rewrite shift_cx, map_rev.
    assert (G : ang (S k) i (u ++ v) = fun x => if x (S k + i) then (ang k i a1 x - ang k i a2 x)%R else (ang k i a1 x + ang k i a2 x)%R).
    { apply functional_extensionality. intros x. unfold ang. rewrite idx_snoc. pose proof (idx_lt k (S i) x) as B. unfold a1, a2. rewrite !nth_map_seq by auto.
      replace (S i + k) with (S k + i) by lia. destruct (x (S k + i)).
      - rewrite app_nth2 by lia. rewrite LU. replace (idx k (S i) x + 2 ^ k - 2 ^ k) with (idx k (S i) x) by lia. field.
      - rewrite Nat.add_0_r, app_nth1 by lia. field. }
    rewrite G. split.
    + eapply acts_ext. { apply acts_app; [exact P1|]. apply acts_cons; [apply acts_cx|exact Q2]. }
      intros psi. cbv beta. change (cxk (S k) i ?p) with (cxst (S k + i) i p).
      rewrite <- (cx_after t (S k + i) i (ang k i a1) (ang k i a2)) by (try apply ang_indep; lia). f_equal.
      destruct k; auto. cbn [cxk]. rewrite (cx_comm (S (S k) + i)) by lia. rewrite cx_cx by lia. reflexivity.
    + rewrite rev_app_distr. cbn [rev]. rewrite rev_involutive, <- app_assoc. eapply acts_ext.
      { apply acts_app; [exact P2|]. apply acts_cons; [apply acts_cx|exact Q1]. }
      intros psi. cbv beta. change (cxk (S k) i psi) with (cxst (S k + i) i psi).
      rewrite <- (cx_before t (S k + i) i (ang k i a1) (ang k i a2)) by (try apply ang_indep; lia). f_equal.
      destruct k; auto. cbn [cxk]. rewrite (cx_comm (S (S k) + i)) by lia. rewrite cx_cx by lia. reflexivity.
Qed.
Lemma multiplex_last k t l : multiplex_ops (S k) t l true = multiplex_ops (S k) t l false ++ [cg1 gX (S k) 0].
Proof. cbn [multiplex_ops]. rewrite !app_nil_r, <- !app_assoc. cbn [app]. reflexivity. Qed.
Lemma multiplex_full t i k l : is_rot t -> length l = 2 ^ k ->
  acts (map (shift_op i) (multiplex_ops k t l true)) (mux t (ang k i l) i) /\
  acts (rev (map (shift_op i) (multiplex_ops k t l true))) (mux t (ang k i l) i).
Proof.
  intros T L. destruct (multiplex_acts t i T k l L) as [P Q]. destruct k as [|k].
  - split; [exact P|exact Q].
  - rewrite multiplex_last, map_app. cbn [map]. rewrite shift_cx, rev_app_distr. cbn [rev app]. split.
    + eapply acts_ext; [apply acts_app; [exact P|apply acts_cx]|]. intros psi. cbn [cxk]. apply cx_cx. lia.
    + eapply acts_ext; [apply acts_cons; [apply acts_cx|exact Q]|]. intros psi. cbn [cxk]. now rewrite cx_cx by lia.
Qed.
