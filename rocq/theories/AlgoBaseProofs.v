(** Action of the gates used by the circuit generators. *)
From Coq Require Import Reals Lra List Arith Bool Lia NArith ZArith FunctionalExtensionality.
From Verif Require Import Cplx Qsem GateModel GateSpec IRModel IRSpec OutcomeSpec AlgoModel.
Import ListNotations.
Local Open Scope nat_scope.

(** The operations [l] perform [f] without any measurement. *)
Definition acts (l : list cop) (f : state -> state) : Prop := forall psi m, run l (psi, m) = [(f psi, m)].

Lemma acts_nil : acts [] (fun psi => psi).
Proof. intros psi m. reflexivity. Qed.
Lemma run_app l l' b : run (l ++ l') b = flat_map (run l') (run l b).
Proof.
  revert b. induction l as [|o l IH]; intros b; cbn [app run]; [cbn; now rewrite app_nil_r|].
  induction (run_op o b) as [|x r IHr]; cbn [flat_map]; auto. rewrite flat_map_app, IHr, IH. auto.
Qed.
Lemma acts_app l l' f g : acts l f -> acts l' g -> acts (l ++ l') (fun psi => g (f psi)).
Proof. intros A B psi m. rewrite run_app, A. cbn [flat_map]. now rewrite B, app_nil_r. Qed.
Lemma acts_cons o l f g : acts [o] f -> acts l g -> acts (o :: l) (fun psi => g (f psi)).
Proof. intros A B. exact (acts_app [o] l f g A B). Qed.
Lemma acts_run l f psi m : acts l f -> run l (psi, m) = [(f psi, m)].
Proof. auto. Qed.
Lemma acts_ext l f g : acts l f -> (forall psi, f psi = g psi) -> acts l g.
Proof. intros A E psi m. now rewrite A, E. Qed.

Lemma run_one o b : run [o] b = run_op o b.
Proof. cbn [run]. induction (run_op o b); cbn; auto. congruence. Qed.
Lemma acts_std s f : sem s = Some f -> acts [OStd s] f.
Proof. intros E psi m. rewrite run_one. cbn. unfold semf. now rewrite E. Qed.

Lemma csum_1 f : csum (allb 1) f = (f [false] + f [true])%C.
Proof. unfold csum. cbn. ring. Qed.

Ltac by_bits q := destruct (q : bool).

(** ** One-qubit matrices *)
Definition op1 (a b c d : C) (q : nat) (psi : state) : state := fun x =>
  if x q then (c * psi (setb x q false) + d * psi (setb x q true))%C
  else (a * psi (setb x q false) + b * psi (setb x q true))%C.
Lemma apply_m2 a b c d q psi : apply (m2 a b c d) [q] psi = op1 a b c d q psi.
Proof.
  apply functional_extensionality. intros x. unfold apply, op1. cbn [length map]. rewrite csum_1.
  cbn [setl]. destruct (x q); reflexivity.
Qed.
Definition cop1 (cs : list ctl) (a b c d : C) (q : nat) (psi : state) : state := fun x =>
  if sat cs x then op1 a b c d q psi x else psi x.
Lemma capply_m2 cs a b c d q psi : capply cs (m2 a b c d) [q] psi = cop1 cs a b c d q psi.
Proof. unfold capply, cop1. now rewrite apply_m2. Qed.

(** Hadamard *)
Definition hst (q : nat) (psi : state) : state := fun x =>
  (RtoC sq2 * (psi (setb x q false) + (if x q then - C1 else C1) * psi (setb x q true)))%C.
Lemma acts_h q : acts [g1 gH q] (hst q).
Proof.
  eapply acts_ext. { apply acts_std. reflexivity. }
  intros psi. cbn [o_ctl o_tgt]. rewrite capply_m2. apply functional_extensionality. intros x.
  unfold cop1, op1, hst. cbn [sat forallb]. rewrite RtoC_opp. destruct (x q); ring.
Qed.

(** X and controlled X *)
Definition xst (q : nat) (psi : state) : state := fun x => psi (setb x q (negb (x q))).
Definition cxst (c q : nat) (psi : state) : state := fun x => psi (setb x q (xorb (x q) (x c))).
Lemma acts_x q : acts [g1 gX q] (xst q).
Proof.
  eapply acts_ext. { apply acts_std. reflexivity. }
  intros psi. cbn [o_ctl o_tgt]. rewrite capply_m2. apply functional_extensionality. intros x.
  unfold cop1, op1, xst. cbn [sat forallb]. destruct (x q); cbn [negb]; ring.
Qed.
Lemma acts_cx c q : acts [cg1 gX c q] (cxst c q).
Proof.
  eapply acts_ext. { apply acts_std. reflexivity. }
  intros psi. cbn [o_ctl o_tgt]. rewrite capply_m2. apply functional_extensionality. intros x.
  unfold cop1, op1, cxst. unfold sat. cbn [forallb fst snd]. destruct (x c); cbn.
  - destruct (x q); cbn [xorb]; ring.
  - rewrite xorb_false_r, setb_id. auto.
Qed.

(** Diagonal gates *)
Definition dg (f : bits -> C) (psi : state) : state := fun x => (f x * psi x)%C.
Lemma op1_diag a d q psi x : op1 a C0 C0 d q psi x = ((if x q then d else a) * psi x)%C.
Proof.
  unfold op1. destruct (x q) eqn:E.
  - rewrite <- E, setb_id. ring.
  - rewrite <- E at 1. rewrite setb_id. ring.
Qed.
Lemma cop1_diag cs d q psi : cop1 cs C1 C0 C0 d q psi = dg (fun x => if sat cs x && x q then d else C1) psi.
Proof.
  apply functional_extensionality. intros x. unfold cop1, dg. destruct (sat cs x); cbn [andb].
  - apply op1_diag.
  - ring.
Qed.
Definition cph (a : R) (c q : nat) : state -> state := dg (fun x => if x c && x q then Cexp a else C1).
Lemma sat1 c x : sat [(c, true)] x = x c.
Proof. unfold sat. cbn. destruct (x c); auto. Qed.
Lemma sem_single t ps cs q M : single_matrix t ps = Some M ->
  sem {| o_type := t; o_par := ps; o_ctl := cs; o_tgt := [q] |} = Some (capply cs M [q]).
Proof.
  intros H. destruct t; try discriminate H; destruct ps as [|? [|? [|? ?]]]; try discriminate H; injection H as <-; reflexivity.
Qed.
Lemma acts_diag1 t ps c q d a : single_matrix t ps = Some (m2 C1 C0 C0 d) -> d = Cexp a ->
  acts [OStd {| o_type := t; o_par := ps; o_ctl := [(c, true)]; o_tgt := [q] |}] (cph a c q).
Proof.
  intros M ->. eapply acts_ext. { apply acts_std, sem_single, M. }
  intros psi. rewrite capply_m2, cop1_diag. unfold cph. f_equal.
  apply functional_extensionality. intros x. now rewrite sat1.
Qed.
Lemma Cexp_PI2 : Cexp (PI / 2) = (0, 1)%R.
Proof. unfold Cexp. now rewrite cos_PI2, sin_PI2. Qed.
Lemma sq2_eq : sq2 = (1 / sqrt 2)%R.
Proof. unfold sq2. lra. Qed.
Lemma Cexp_PI4 : Cexp (PI / 4) = (sq2, sq2).
Proof. unfold Cexp. now rewrite cos_PI4, sin_PI4, sq2_eq. Qed.
Lemma acts_cz c q : acts [cg1 gZ c q] (cph PI c q).
Proof. apply (acts_diag1 gZ [] c q (RtoC (-1))); auto. rewrite Cexp_PI. apply Ceq; cbn; lra. Qed.
Lemma acts_cs c q : acts [cg1 gS c q] (cph (PI / 2) c q).
Proof. apply (acts_diag1 gS [] c q (0, 1)%R); auto. now rewrite Cexp_PI2. Qed.
Lemma acts_ct c q : acts [cg1 gT c q] (cph (PI / 4) c q).
Proof. apply (acts_diag1 gT [] c q (sq2, sq2)); auto. now rewrite Cexp_PI4. Qed.
Lemma acts_csdg c q : acts [cg1 gSdg c q] (cph (- (PI / 2)) c q).
Proof. apply (acts_diag1 gSdg [] c q (0, -1)%R); auto. rewrite <- Cexp_conj, Cexp_PI2. apply Ceq; cbn; lra. Qed.
Lemma acts_ctdg c q : acts [cg1 gTdg c q] (cph (- (PI / 4)) c q).
Proof. apply (acts_diag1 gTdg [] c q (sq2, - sq2)%R); auto. rewrite <- Cexp_conj, Cexp_PI4. reflexivity. Qed.
Lemma acts_cp a c q : acts [cg1p gP a c q] (cph a c q).
Proof. apply (acts_diag1 gP [a] c q (cos a, sin a)); auto. Qed.
Lemma acts_mcz cs q : acts [mcg1 gZ cs q] (dg (fun x => if sat cs x && x q then (- C1)%C else C1)).
Proof.
  eapply acts_ext. { apply acts_std. reflexivity. }
  intros psi. cbn [o_ctl o_tgt]. rewrite capply_m2, cop1_diag. f_equal. apply functional_extensionality. intros x.
  destruct (sat cs x && x q); auto. apply Ceq; cbn; lra.
Qed.

(** Y rotation *)
Definition ryst (a : R) (q : nat) : state -> state :=
  op1 (RtoC (cos (a / 2))) (RtoC (- sin (a / 2))) (RtoC (sin (a / 2))) (RtoC (cos (a / 2))) q.
Lemma acts_ry a q : acts [g1p gRY a q] (ryst a q).
Proof.
  eapply acts_ext. { apply acts_std. reflexivity. }
  intros psi. cbn [o_ctl o_tgt]. unfold ryMat. rewrite capply_m2. apply functional_extensionality. intros x.
  unfold cop1, ryst, RtoC. reflexivity.
Qed.

(** Swap *)
Definition swst (a b : nat) (psi : state) : state := fun x => psi (setb (setb x a (x b)) b (x a)).
Lemma acts_swap a b : a <> b -> acts [swap_op a b] (swst a b).
Proof.
  intros N. eapply acts_ext. { apply acts_std. reflexivity. }
  intros psi. cbn [o_ctl o_tgt]. apply functional_extensionality. intros x. unfold capply, apply. cbn [sat forallb length map allb app].
  unfold swst. unfold csum. cbn [fold_right setl map app].
  assert (E : forall v w, setb (setb x b v) a w = setb (setb x a w) b v) by (intros; apply setb_comm; auto).
  rewrite !E. destruct (x a), (x b); cbn; ring.
Qed.

(** ** Lists of gates *)
Lemma acts_map {A} (g : A -> cop) (f : A -> state -> state) l : (forall a, In a l -> acts [g a] (f a)) ->
  acts (map g l) (fun psi => fold_left (fun p a => f a p) l psi).
Proof.
  induction l as [|a l IH]; intros H; cbn [map fold_left]; [apply acts_nil|].
  eapply acts_ext; [apply acts_cons; [apply H; left; auto|apply IH; intros; apply H; right; auto]|]. auto.
Qed.
Lemma acts_flat_map {A} (g : A -> list cop) (f : A -> state -> state) l : (forall a, In a l -> acts (g a) (f a)) ->
  acts (flat_map g l) (fun psi => fold_left (fun p a => f a p) l psi).
Proof.
  induction l as [|a l IH]; intros H; cbn [flat_map fold_left]; [apply acts_nil|].
  eapply acts_ext; [apply acts_app; [apply H; left; auto|apply IH; intros; apply H; right; auto]|]. auto.
Qed.

Lemma range_0 n : range 0 n = seq 0 n. Proof. unfold range. now rewrite Nat.sub_0_r. Qed.
Lemma range_In a b x : In x (range a b) <-> a <= x < b.
Proof. unfold range. rewrite in_seq. lia. Qed.
Lemma range_S a b : a <= b -> range a (S b) = range a b ++ [b].
Proof. intros H. unfold range. replace (S b - a) with (S (b - a)) by lia. rewrite seq_S. f_equal. f_equal. lia. Qed.
Lemma range_nil a b : b <= a -> range a b = [].
Proof. intros H. unfold range. now replace (b - a) with 0 by lia. Qed.
Lemma range_NoDup a b : NoDup (range a b). Proof. apply seq_NoDup. Qed.
