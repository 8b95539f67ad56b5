(* Circuits: sequential and recursive construction of the functionality, simulation. *)
From Coq Require Import Reals Lra List Bool Arith Lia FunctionalExtensionality.
From Verif Require Import Cplx Qsem GateModel GateSpec GateProofs OpProofs IRModel IRSpec IRProofs OptModel
  OptDagProofs OptElideProofs DDModel DDSpec DDProofs DDCanonProofs DDOpsProofs DDGateProofs DDProps SimModel SimOpProofs SimPermProofs.
Import ListNotations.
Local Open Scope nat_scope.

Definition acts (n : nat) (ds : list medge) (psi : state) : state := fold_left (fun s d => mact n d s) ds psi.
Lemma acts_app n a b psi : acts n (a ++ b) psi = acts n b (acts n a psi).
Proof. unfold acts. apply fold_left_app. Qed.

(* the diagrams of the operations, in order *)
Fixpoint steps (n : nat) (l : list cop) (p : perm) : dres (perm * list medge) :=
  match l with
  | [] => DOk (p, [])
  | o :: r => dbind (op_or_swap n p o) (fun pd => dbind (steps n r (fst pd)) (fun qs => DOk (fst qs, snd pd :: snd qs)))
  end.

(* circuits whose operations have diagrams and whose qubits are all in the layout *)
Definition good (n : nat) (l : list cop) (p : perm) : Prop :=
  pgood n p /\ Forall dd_ok l /\ incl (flat_map used l) (keys p).

(* the same qubits on the same levels, possibly exchanged *)
Definition same_dom (p p' : perm) : Prop :=
  (forall x, In x (keys p') <-> In x (keys p)) /\
  (forall v, (exists k, plookup p' k = Some v) <-> (exists k, plookup p k = Some v)).
Lemma same_dom_refl p : same_dom p p. Proof. split; tauto. Qed.
Lemma same_dom_trans p q r : same_dom p q -> same_dom q r -> same_dom p r.
Proof. intros [A B] [C D]. split; [intros x; rewrite C; auto|intros v; rewrite D; auto]. Qed.

Definition tracks (n : nat) (p p' : perm) (F : state -> state) (U : state -> state) : Prop :=
  forall pi, agrees pi p -> inj pi -> exists pi', agrees pi' p' /\ inj pi' /\ (permutes n pi -> permutes n pi') /\
    forall psi, F (move pi psi) = move pi' (U psi).

Lemma is_swap_std o a b : is_swap o = Some (a, b) -> exists s, o = OStd s /\ In a (used o) /\ In b (used o).
Proof.
  destruct o as [[t ps cs ts]| | | |]; cbn; try discriminate. destruct t; try discriminate. destruct cs; try discriminate.
  destruct ts as [|x [|y r]]; try discriminate. intros E. injection E as -> ->. eexists. split; [reflexivity|]. cbn. auto.
Qed.
Lemma swap_perm_spec n p o a b : pgood n p -> dd_ok o -> is_swap o = Some (a, b) -> incl (used o) (keys p) ->
  exists p', swap_perm p a b = DOk p' /\ pgood n p' /\ same_dom p p' /\
    (forall F, (forall psi, F psi = psi) -> tracks n p p' F (uact o)).
Proof.
  intros P OK E K. destruct (is_swap_std _ _ _ E) as (s & -> & Ua & Ub). destruct OK as (OK & _).
  pose proof (swap_ne _ _ _ E OK) as N. unfold swap_perm.
  destruct (proj1 (plookup_some p a) (K a Ua)) as (x & Ea). destruct (proj1 (plookup_some p b) (K b Ub)) as (y & Eb).
  rewrite Ea, Eb. eexists. split; [reflexivity|]. destruct P as (NP & ND & LI & B).
  assert (L : forall z, plookup (pset (pset p a y) b x) z = if Nat.eqb z b then Some x else if Nat.eqb z a then Some y else plookup p z).
  { intros z. rewrite !plookup_pset. auto. }
  split; [|split].
  - split; [apply pset_nonnil|]. split; [apply pset_nodup, pset_nodup; auto|]. split.
    + intros u v w. rewrite !L.
      destruct (Nat.eqb_spec u b) as [->|], (Nat.eqb_spec v b) as [->|]; auto.
      * destruct (Nat.eqb_spec v a) as [->|]; intros X Y.
        -- injection X as <-. injection Y as ->. apply (LI _ _ x); auto.
        -- injection X as <-. exfalso. apply n1. apply (LI _ _ x); auto.
      * destruct (Nat.eqb_spec u a) as [->|]; intros X Y.
        -- injection Y as <-. injection X as ->. apply (LI _ _ x); auto.
        -- injection Y as <-. exfalso. apply n1. apply (LI _ _ x); auto.
      * destruct (Nat.eqb_spec u a) as [->|], (Nat.eqb_spec v a) as [->|]; auto; intros X Y.
        -- injection X as <-. exfalso. apply n1. apply (LI _ _ y); auto.
        -- injection Y as <-. exfalso. apply n0. apply (LI _ _ y); auto.
        -- apply (LI _ _ w); auto.
    + intros u v. rewrite L. destruct (Nat.eqb u b); [intros X; injection X as <-; eauto|].
      destruct (Nat.eqb u a); [intros X; injection X as <-; eauto|eauto].
  - split; [intros z; rewrite !pset_keys; split; [intros [->|[->|H]]; auto|auto]|].
    intros v. split; intros (k & H).
    + rewrite L in H. destruct (Nat.eqb k b); [injection H as <-; eauto|]. destruct (Nat.eqb k a); [injection H as <-; eauto|eauto].
    + destruct (Nat.eq_dec k a) as [->|A]; [exists b; rewrite L, Nat.eqb_refl; congruence|].
      destruct (Nat.eq_dec k b) as [->|B']; [exists a; rewrite L, Nat.eqb_refl; destruct (Nat.eqb_spec a b); congruence|].
      exists k. rewrite L. destruct (Nat.eqb_spec k b); [lia|]. destruct (Nat.eqb_spec k a); [lia|]. auto.
  - intros F HF pi A I. exists (transpose pi a b). split; [apply transpose_agrees; auto|]. split; [apply transpose_inj; auto|]. split.
    + intros PP. assert (PA : pi a = x) by (apply A; rewrite papply_nonnil; auto). assert (PB : pi b = y) by (apply A; rewrite papply_nonnil; auto).
      apply transpose_permutes; auto; [rewrite PA|rewrite PB]; eauto.
    + intros psi. rewrite HF. pose proof (swap_moved pi s a b I E OK (psi, fun _ => false)) as M. rewrite run_one in M.
      cbn in M. unfold bmove in M. cbn in M. injection M as M. exact M.
Qed.

Lemma op_or_swap_spec n p o : pgood n p -> dd_ok o -> incl (used o) (keys p) ->
  exists p' d, op_or_swap n p o = DOk (p', d) /\ mcanon n d /\ pgood n p' /\ same_dom p p' /\
    tracks n p p' (mact n d) (uact o).
Proof.
  intros P OK K. unfold op_or_swap. destruct (is_swap o) as [[a b]|] eqn:E.
  - destruct (swap_perm_spec n p o a b P OK E K) as (p' & -> & P' & K' & T). cbn [dbind]. exists p', mone.
    split; [auto|]. split; [exact Logic.I|]. split; [auto|]. split; [auto|]. apply T. apply mact_mone.
  - destruct (pgood_pi n p P) as (pi0 & A0 & I0).
    destruct (getDD_spec n p pi0 o A0 I0 OK (pgood_placed n p pi0 _ P A0 K)) as (d & E0 & Cd & _). rewrite E0. cbn [dbind].
    exists p, d. split; [auto|]. split; [auto|]. split; [auto|]. split; [apply same_dom_refl|]. intros pi A I.
    destruct (getDD_spec n p pi o A I OK (pgood_placed n p pi _ P A K)) as (d' & E' & _ & D). rewrite E0 in E'. injection E' as <-.
    exists pi. auto.
Qed.

Lemma tracks_comp n p q r F G U V : tracks n p q F U -> tracks n q r G V -> tracks n p r (fun psi => G (F psi)) (fun psi => V (U psi)).
Proof.
  intros H K pi A I. destruct (H pi A I) as (pi1 & A1 & I1 & P1 & D1). destruct (K pi1 A1 I1) as (pi2 & A2 & I2 & P2 & D2).
  exists pi2. split; [auto|]. split; [auto|]. split; [auto|]. intros psi. rewrite D1, D2. auto.
Qed.
Lemma tracks_refl n p : tracks n p p (fun psi => psi) (fun psi => psi).
Proof. intros pi A I. exists pi. auto. Qed.

Lemma good_cons n o l p : good n (o :: l) p -> pgood n p /\ dd_ok o /\ incl (used o) (keys p) /\
  forall p', pgood n p' -> same_dom p p' -> good n l p'.
Proof.
  intros (P & D & K). inversion D; subst. cbn in K. split; [auto|]. split; [auto|]. split; [intros x X; apply K, in_or_app; auto|].
  intros p' P' [K' _]. split; [auto|]. split; [auto|]. intros x X. apply K', K, in_or_app. auto.
Qed.

Lemma steps_spec n l : forall p, good n l p ->
  exists p' ds, steps n l p = DOk (p', ds) /\ Forall (mcanon n) ds /\ length ds = length l /\ pgood n p' /\
    same_dom p p' /\ tracks n p p' (acts n ds) (uacts l).
Proof.
  induction l as [|o l IH]; intros p G; cbn [steps].
  - exists p, []. split; [auto|]. split; [constructor|]. split; [auto|]. split; [apply G|]. split; [apply same_dom_refl|]. apply tracks_refl.
  - destruct (good_cons _ _ _ _ G) as (P & D & K & GC).
    destruct (op_or_swap_spec n p o P D K) as (p1 & d & E & Cd & P1 & K1 & T1). rewrite E. cbn [dbind fst snd].
    destruct (IH p1 (GC p1 P1 K1)) as (p2 & ds & E2 & C2 & L2 & P2 & K2 & T2). rewrite E2. cbn [dbind fst snd].
    exists p2, (d :: ds). split; [auto|]. split; [constructor; auto|]. split; [cbn; auto|]. split; [auto|].
    split; [apply (same_dom_trans p p1 p2); auto|]. exact (tracks_comp _ _ _ _ _ _ _ _ T1 T2).
Qed.

(** ** The loops perform the steps *)
Lemma func_loop_steps n l : forall p p' ds, steps n l p = DOk (p', ds) -> Forall (mcanon n) ds -> forall e, mcanon n e ->
  exists e', func_loop n l p e = DOk (p', e') /\ mcanon n e' /\ forall psi, mact n e' psi = acts n ds (mact n e psi).
Proof.
  induction l as [|o l IH]; intros p p' ds S F e Ce; cbn [steps func_loop] in *.
  - injection S as <- <-. exists e. auto.
  - unfold op_or_swap in S. destruct (is_swap o) as [[a b]|].
    + destruct (swap_perm p a b) as [p1| |]; cbn [dbind fst snd] in S; try discriminate.
      destruct (steps n l p1) as [[p2 ds2]| |] eqn:E2; cbn [dbind fst snd] in S; try discriminate. injection S as <- <-.
      inversion F; subst. cbn [dbind]. destruct (IH _ _ _ E2 H2 e Ce) as (e' & E' & C' & D'). exists e'. split; [auto|]. split; [auto|].
      intros psi. rewrite D'. unfold acts. cbn [fold_left]. rewrite mact_mone. auto.
    + destruct (getDD n p o) as [d| |]; cbn [dbind fst snd] in S; try discriminate.
      destruct (steps n l p) as [[p2 ds2]| |] eqn:E2; cbn [dbind fst snd] in S; try discriminate. injection S as <- <-.
      inversion F; subst. cbn [dbind]. destruct (mm_spec n d e H1 Ce) as (r & Er & Cr & Dr). rewrite Er. cbn [dbind].
      destruct (IH _ _ _ E2 H2 r Cr) as (e' & E' & C' & D'). exists e'. split; [auto|]. split; [auto|].
      intros psi. rewrite D', Dr. reflexivity.
Qed.
Lemma sim_loop_steps n l : forall p p' ds, steps n l p = DOk (p', ds) -> Forall (mcanon n) ds -> forall e, vcanon n e ->
  exists e', sim_loop n l p e = DOk (p', e') /\ vcanon n e' /\ veden e' = acts n ds (veden e).
Proof.
  induction l as [|o l IH]; intros p p' ds S F e Ce; cbn [steps sim_loop] in *.
  - injection S as <- <-. exists e. auto.
  - unfold op_or_swap in S. destruct (is_swap o) as [[a b]|].
    + destruct (swap_perm p a b) as [p1| |]; cbn [dbind fst snd] in S; try discriminate.
      destruct (steps n l p1) as [[p2 ds2]| |] eqn:E2; cbn [dbind fst snd] in S; try discriminate. injection S as <- <-.
      inversion F; subst. cbn [dbind]. destruct (IH _ _ _ E2 H2 e Ce) as (e' & E' & C' & D'). exists e'. split; [auto|]. split; [auto|].
      rewrite D'. unfold acts. cbn [fold_left]. rewrite mact_mone. auto.
    + destruct (getDD n p o) as [d| |]; cbn [dbind fst snd] in S; try discriminate.
      destruct (steps n l p) as [[p2 ds2]| |] eqn:E2; cbn [dbind fst snd] in S; try discriminate. injection S as <- <-.
      inversion F; subst. cbn [dbind]. destruct (mv_spec n d e H1 Ce) as (r & Er & Cr & Dr). rewrite Er. cbn [dbind].
      destruct (IH _ _ _ E2 H2 r Cr) as (e' & E' & C' & D'). exists e'. split; [auto|]. split; [auto|].
      rewrite D', Dr. reflexivity.
Qed.

(** ** The recursive construction *)
Lemma steps_app n a b : forall p, steps n (a ++ b) p =
  dbind (steps n a p) (fun pa => dbind (steps n b (fst pa)) (fun pb => DOk (fst pb, snd pa ++ snd pb))).
Proof.
  induction a as [|o a IH]; intros p; cbn [steps app].
  - cbn [dbind fst snd]. destruct (steps n b p) as [[? ?]| |]; auto.
  - destruct (op_or_swap n p o) as [[p1 d]| |]; cbn [dbind fst snd]; auto. rewrite IH.
    destruct (steps n a p1) as [[p2 ds]| |]; cbn [dbind fst snd]; auto.
    destruct (steps n b p2) as [[p3 es]| |]; cbn [dbind fst snd]; auto.
Qed.
Lemma steps_app_inv n a b p p' ds : steps n (a ++ b) p = DOk (p', ds) ->
  exists p1 da db, steps n a p = DOk (p1, da) /\ steps n b p1 = DOk (p', db) /\ ds = da ++ db.
Proof.
  rewrite steps_app. destruct (steps n a p) as [[p1 da]| |]; cbn [dbind fst snd]; try discriminate.
  destruct (steps n b p1) as [[p2 db]| |] eqn:E; cbn [dbind fst snd]; try discriminate. intros H. injection H as <- <-.
  exists p1, da, db. auto.
Qed.

Lemma idx_left d k : Nat.ldiff (2 ^ S d * k) (Nat.shiftl 1 d) = 2 ^ S d * k.
Proof.
  apply Nat.bits_inj. intros i. rewrite Nat.ldiff_spec, Nat.shiftl_1_l, Nat.pow2_bits_eqb.
  destruct (Nat.eqb_spec d i) as [<-|]; [|apply andb_true_r]. cbn [negb]. rewrite andb_false_r.
  rewrite Nat.mul_comm. symmetry. apply Nat.mul_pow2_bits_low. lia.
Qed.
Lemma idx_right d k : Nat.lor (2 ^ S d * k) (Nat.shiftl 1 d) = 2 ^ S d * k + 2 ^ d.
Proof.
  rewrite Nat.shiftl_1_l.
  assert (Z : Nat.land (2 ^ S d * k) (2 ^ d) = 0).
  { apply Nat.bits_inj. intros i. rewrite Nat.land_spec, Nat.pow2_bits_eqb, Nat.bits_0.
    destruct (Nat.eqb_spec d i) as [<-|]; [|apply andb_false_r]. rewrite andb_true_r.
    rewrite Nat.mul_comm. apply Nat.mul_pow2_bits_low. lia. }
  rewrite Nat.add_nocarry_lxor by auto. symmetry. apply Nat.lxor_lor. auto.
Qed.
Lemma firstn_split {A} (l : list A) a b : firstn (a + b) l = firstn a l ++ firstn b (skipn a l).
Proof. revert l. induction a as [|a IH]; intros [|x l]; cbn; auto; [now rewrite firstn_nil|]. now rewrite IH. Qed.
Lemma skipn_add {A} (l : list A) a b : skipn b (skipn a l) = skipn (a + b) l.
Proof. revert l. induction a as [|a IH]; intros [|x l]; cbn; auto. now rewrite skipn_nil. Qed.
Lemma skipn_cons {A} (l : list A) i x : nth_error l i = Some x -> skipn i l = x :: skipn (S i) l.
Proof. revert l. induction i as [|i IH]; intros [|y l]; cbn; try discriminate; [intros E; injection E as ->; auto|apply IH]. Qed.

Lemma func_rec_spec n ops : forall d k s p p' ds, 2 ^ S d * k < length ops ->
  steps n (firstn (2 ^ S d) (skipn (2 ^ S d * k) ops)) p = DOk (p', ds) -> Forall (mcanon n) ds ->
  exists m, func_rec n ops (S d) (2 ^ S d * k) s p = DOk (Nat.ltb (2 ^ S d * k + 2 ^ S d) (length ops), m :: s, p') /\
    mcanon n m /\ forall psi, mact n m psi = acts n ds psi.
Proof.
  induction d as [|d IH]; intros k s p p' ds L S F.
  - cbn [func_rec]. change (2 ^ 1) with 2 in *. set (i := 2 * k) in *.
    destruct (nth_error ops i) as [o|] eqn:E1; [|apply nth_error_None in E1; lia].
    rewrite (skipn_cons ops i o E1) in S.
    destruct (Nat.eqb_spec (Datatypes.S i) (length ops)) as [LE|LE].
    + rewrite (skipn_all2 ops) in S by lia. cbn [firstn steps] in S.
      destruct (op_or_swap n p o) as [[p1 e]| |]; cbn [dbind fst snd] in S; try discriminate. injection S as <- <-.
      cbn [dbind]. inversion F; subst. exists e. destruct (Nat.ltb_spec (i + 2) (length ops)); [lia|]. auto.
    + destruct (nth_error ops (Datatypes.S i)) as [o'|] eqn:E2; [|apply nth_error_None in E2; lia].
      rewrite (skipn_cons ops (Datatypes.S i) o' E2) in S. cbn [firstn steps] in S.
      destruct (op_or_swap n p o) as [[p1 e]| |]; cbn [dbind fst snd] in S; try discriminate.
      destruct (op_or_swap n p1 o') as [[p2 f]| |] eqn:E3; cbn [dbind fst snd] in S; try discriminate. injection S as <- <-.
      cbn [dbind]. rewrite E3. cbn [dbind]. inversion F as [|? ? Fe F']; inversion F' as [|? ? Ff _]; subst.
      destruct (mm_spec n f e Ff Fe) as (m & Em & Cm & Dm). rewrite Em. cbn [dbind]. exists m.
      split; [|split; [auto|intros psi; rewrite Dm; reflexivity]]. do 3 f_equal.
      destruct (Nat.eqb_spec (Datatypes.S i) (length ops - 1)), (Nat.ltb_spec (i + 2) (length ops)); cbn; auto; lia.
  - change (func_rec n ops (Datatypes.S (Datatypes.S d)) (2 ^ Datatypes.S (Datatypes.S d) * k) s p) with
      (dbind (func_rec n ops (Datatypes.S d) (Nat.ldiff (2 ^ Datatypes.S (Datatypes.S d) * k) (Nat.shiftl 1 (Datatypes.S d))) s p)
        (fun '(more, s1, p1) => if negb more then DOk (false, s1, p1) else
           dbind (func_rec n ops (Datatypes.S d) (Nat.lor (2 ^ Datatypes.S (Datatypes.S d) * k) (Nat.shiftl 1 (Datatypes.S d))) s1 p1)
             (fun '(success, s2, p2) => match s2 with e :: f :: r => dbind (multiplyMM e f) (fun m => DOk (success, m :: r, p2)) | _ => DUb end))).
    rewrite idx_left, idx_right.
    assert (E : 2 ^ Datatypes.S (Datatypes.S d) * k = 2 ^ Datatypes.S d * (2 * k)) by (rewrite (Nat.pow_succ_r' 2 (Datatypes.S d)); lia).
    assert (E2 : 2 ^ Datatypes.S (Datatypes.S d) * k + 2 ^ Datatypes.S d = 2 ^ Datatypes.S d * (2 * k + 1)) by lia.
    assert (E3 : 2 ^ Datatypes.S (Datatypes.S d) = 2 ^ Datatypes.S d + 2 ^ Datatypes.S d) by (rewrite (Nat.pow_succ_r' 2 (Datatypes.S d)); lia).
    rewrite E3 in S at 1. rewrite firstn_split in S. apply steps_app_inv in S. destruct S as (p1 & da & db & Sa & Sb & ->).
    apply Forall_app in F. destruct F as [Fa Fb].
    rewrite E2, E in *. rewrite skipn_add in Sb.
    destruct (IH (2 * k) s p p1 da L Sa Fa) as (f & Ef & Cf & Df). rewrite Ef. cbn [dbind].
    destruct (Nat.ltb_spec (2 ^ Datatypes.S d * (2 * k) + 2 ^ Datatypes.S d) (length ops)) as [M|M]; cbn [negb].
    + replace (2 ^ Datatypes.S d * (2 * k) + 2 ^ Datatypes.S d) with (2 ^ Datatypes.S d * (2 * k + 1)) in * by lia.
      destruct (IH (2 * k + 1) (f :: s) p1 p' db M Sb Fb) as (e & Ee & Ce & De). rewrite Ee. cbn [dbind].
      destruct (mm_spec n e f Ce Cf) as (m & Em & Cm & Dm). rewrite Em. cbn [dbind]. exists m.
      split; [|split; [auto|intros psi; rewrite Dm, De, Df, acts_app; auto]]. do 4 f_equal. lia.
    + rewrite (skipn_all2 ops) in Sb by lia. rewrite firstn_nil in Sb. cbn in Sb. injection Sb as <- <-.
      exists f. rewrite app_nil_r. split; [|auto]. do 3 f_equal. symmetry. apply Nat.ltb_ge. lia.
Qed.

(** ** Whole circuits *)
(* the output permutation is a std::map injective on levels, speaking about qubits and levels of the layout *)
Definition out_ok (p out : perm) : Prop :=
  NoDup (map fst out) /\ NoDup (map snd out) /\
  forall i g, In (i, g) out -> In i (keys p) /\ exists k, plookup p k = Some g.
Definition circ_ok (c : qcirc) : Prop :=
  0 < qc_n c /\ good (qc_n c) (qc_ops c) (qc_init c) /\ out_ok (qc_init c) (qc_out c).

Lemma out_cp n p p' out : pgood n p' -> same_dom p p' -> out_ok p out -> cp_ok n p' out.
Proof.
  intros (_ & ND & LI & B) [K V] (NK & NV & H). split; [auto|]. split; [auto|]. split; [auto|]. split; [auto|]. split; [auto|].
  intros i g I. destruct (H i g I) as [A1 A2]. split; [apply plookup_some, K, A1|apply V, A2].
Qed.
Definition agrees_out (pi : nat -> nat) (out : perm) : Prop := forall q l, plookup out q = Some l -> pi q = l.
Lemma moves_agrees sg pi p p' out : NoDup (map fst out) -> p <> [] -> agrees pi p -> moves sg p p' out ->
  (forall i g, In (i, g) out -> In i (keys p)) -> agrees_out (fun q => sg (pi q)) out.
Proof.
  intros ND NP A [M1 M2] H q l E. pose proof (plookup_In _ _ _ E) as I. pose proof (H _ _ I) as K. apply plookup_some in K.
  destruct K as (r & R). pose proof (M2 _ _ I) as X. rewrite M1, R in X. cbn in X. injection X as <-. f_equal. apply A. rewrite papply_nonnil; auto.
Qed.

Lemma cpV_zero n e : vcanon n e -> match snd e with VT => ezero (fst e) | _ => false end = true -> veden e = fun _ => C0.
Proof.
  intros _ H. apply functional_extensionality. intros b. unfold veden. destruct (snd e); [|discriminate].
  unfold ezero in H. destruct (Ceq_dec (fst e) C0) as [->|]; [ring|discriminate].
Qed.
(* changePermutation moves the content, also of the zero vector *)
Lemma changeV n from to e : cp_ok n from to -> vcanon n e ->
  exists sg from' from1 e', changePermutationV n e from to = DOk (from', e') /\ vcanon n e' /\ moved_v sg e e' /\ permutes n sg /\
    moves sg from from1 to /\ (match snd e with VT => ezero (fst e) | _ => false end = false -> from' = from1).
Proof.
  intros K V. destruct (cpV_spec n from to e K V) as (sg & f1 & e1 & E & C1 & M & P & _ & MV). unfold changePermutationV.
  destruct (match snd e with VT => ezero (fst e) | _ => false end) eqn:Z.
  - exists sg, from, f1, e. split; [auto|]. split; [auto|]. split; [|split; [auto|split; [auto|discriminate]]].
    unfold moved_v. rewrite (cpV_zero n e V Z). reflexivity.
  - exists sg, f1, f1, e1. auto 10.
Qed.
Lemma changeM n from to e : cp_ok n from to -> mcanon n e ->
  exists sg from' from1 e', changePermutationM n true e from to = DOk (from', e') /\ mcanon n e' /\ moved_l n sg e e' /\ permutes n sg /\
    moves sg from from1 to /\ (match snd e with MT => ezero (fst e) | _ => false end = false -> from' = from1).
Proof.
  intros K V. destruct (cpM_spec n from to e K V) as (sg & f1 & e1 & E & C1 & M & P & _ & MV). unfold changePermutationM.
  destruct (match snd e with MT => ezero (fst e) | _ => false end) eqn:Z.
  - exists sg, from, f1, e. split; [auto|]. split; [auto|]. split; [|split; [auto|split; [auto|discriminate]]].
    intros psi. destruct e as [w t]. cbn in Z. destruct t; [|discriminate]. unfold ezero in Z. destruct (Ceq_dec w C0) as [->|]; [|discriminate].
    rewrite mact_MT, scal_zero. reflexivity.
  - exists sg, f1, f1, e1. auto 10.
Qed.
(* both change permutations alike *)
Lemma cp_same_sigma n to : forall from e v, cp_ok n from to -> mcanon n e -> vcanon n v ->
  exists sg from' e' v', cp_loop n multiplyMM to from e = DOk (from', e') /\ cp_loop n multiplyMV to from v = DOk (from', v') /\
    mcanon n e' /\ vcanon n v' /\ moved_l n sg e e' /\ moved_v sg v v' /\ permutes n sg.
Proof.
  intros from e v K E V.
  set (mul := fun s (x : medge * vedge) => dbind (multiplyMM s (fst x)) (fun a => dbind (multiplyMV s (snd x)) (fun b => DOk (a, b)))).
  destruct (cp_loop_spec n mul (fun x => mcanon n (fst x) /\ vcanon n (snd x)) (fun sg x y => moved_l n sg (fst x) (fst y) /\ moved_v sg (snd x) (snd y)))
    with (to := to) (from := from) (on := (e, v)) as (sg & f & [e' v'] & X & [C1 C2] & [M1 M2] & P & _); auto.
  - intros s x y [a b] Cs Ds N [Ca Cb]. cbn [fst snd] in *.
    destruct (mm_spec n s a Cs Ca) as (r & E1 & Cr & D1). destruct (mv_spec n s b Cs Cb) as (r2 & E2 & Cr2 & D2).
    exists (r, r2). unfold mul. cbn [fst snd]. rewrite E1. cbn [dbind]. rewrite E2. cbn [dbind]. split; [auto|]. split; [auto|].
    split; [intros psi; rewrite D1; apply Ds|unfold moved_v; rewrite D2; apply Ds].
  - intros x _. split; [intros psi|]; reflexivity.
  - intros s t a b c [H1 H2] [H3 H4]. split; [intros psi; rewrite H3, H1|unfold moved_v in *; rewrite H4, H2]; apply move_move.
  - exists sg, f, e', v'. cbn [fst snd] in *.
    assert (G : forall to from e v f e' v', cp_loop n mul to from (e, v) = DOk (f, (e', v')) ->
      cp_loop n multiplyMM to from e = DOk (f, e') /\ cp_loop n multiplyMV to from v = DOk (f, v')).
    { clear. induction to as [|[i goal] to IH]; intros from e v f e' v' H; cbn [cp_loop] in *; [injection H as <- <- <-; auto|].
      destruct (plookup from i); [|discriminate]. destruct (Nat.eqb _ _); [auto|].
      destruct (plookup from (find_val from goal)); [|discriminate]. destruct (makeTwoQubitGateDD _ _ _ _ _) as [s| |]; cbn [dbind] in *; try discriminate.
      unfold mul in H at 1. cbn [fst snd] in H. destruct (multiplyMM s e) as [a| |]; cbn [dbind] in *; try discriminate.
      destruct (multiplyMV s v) as [b| |]; cbn [dbind] in *; try discriminate. auto. }
    destruct (G _ _ _ _ _ _ _ X). auto 10.
Qed.

Theorem functionality_recursive c : circ_ok c -> 2 <= length (qc_ops c) ->
  exists e, buildFunctionality c = DOk e /\ buildFunctionalityRecursive c = DOk e.
Proof.
  intros (N & G & O) L. unfold buildFunctionality, buildFunctionalityRecursive. destruct (Nat.eqb_spec (qc_n c) 0); [lia|].
  set (nq := qc_n c) in *.
  destruct (steps_spec nq _ _ G) as (p' & ds & S & F & _ & P' & K' & _).
  destruct (func_loop_steps nq _ _ _ _ S F mone (mone_canon nq)) as (e & E & Ce & De). rewrite E. cbn [dbind].
  assert (M : exists m, func_rec nq (qc_ops c) (Nat.log2_up (length (qc_ops c))) 0 [] (qc_init c) = DOk (false, [m], p') /\ mcanon nq m /\
    forall psi, mact nq m psi = acts nq ds psi).
  { destruct (Nat.log2_up (length (qc_ops c))) as [|d] eqn:LU; [apply Nat.log2_up_null in LU; lia|].
    assert (B : length (qc_ops c) <= 2 ^ Datatypes.S d) by (rewrite <- LU; apply Nat.log2_up_spec; lia).
    destruct (func_rec_spec nq (qc_ops c) d 0 [] (qc_init c) p' ds) as (m & Em & Cm & Dm); auto.
    - rewrite Nat.mul_0_r. lia.
    - rewrite Nat.mul_0_r. cbn [skipn]. rewrite firstn_all2 by auto. exact S.
    - rewrite Nat.mul_0_r in Em. destruct (Nat.ltb_spec (0 + 2 ^ Datatypes.S d) (length (qc_ops c))); [lia|]. exists m. auto. }
  destruct M as (m & Em & Cm & Dm).
  assert (m = e). { apply (mact_inj nq); auto. intros psi. rewrite Dm, De, mact_mone. auto. } subst m.
  destruct (changeM nq p' (qc_out c) e) as (sg & f' & f1 & e' & X & _); auto; [apply (out_cp nq (qc_init c)); auto|].
  rewrite X. cbn [dbind]. exists e'. split; [auto|].
  destruct (qc_ops c) as [|o1 [|o2 ops]]; cbn [length] in L; try lia. rewrite Em. cbn [dbind]. rewrite X. reflexivity.
Qed.

Lemma vscal_canon n e k : vcanon n e -> vcanon n (vlook ((fst e * k)%C, snd e)).
Proof. intros H. apply vlook_canon, vcan0_scale. right. auto. Qed.
Lemma vscal_den e k : veden (vlook ((fst e * k)%C, snd e)) = sscal k (veden e).
Proof. apply functional_extensionality. intros b. rewrite vlook_den. unfold veden, sscal. cbn [fst snd]. ring. Qed.
Lemma Cexp_0 : Cexp 0 = C1.
Proof. unfold Cexp. rewrite cos_0, sin_0. reflexivity. Qed.
Lemma phase_step c e : vcanon (qc_n c) e ->
  exists r, (if Rlt_dec 0 (Rabs (qc_phase c)) then DOk (vlook ((fst e * Cexp (qc_phase c))%C, snd e)) else DOk e) = DOk r /\
    vcanon (qc_n c) r /\ veden r = sscal (Cexp (qc_phase c)) (veden e).
Proof.
  intros H. destruct (Rlt_dec 0 (Rabs (qc_phase c))) as [P|P].
  - eexists. split; [reflexivity|]. split; [apply vscal_canon; auto|apply vscal_den].
  - exists e. split; [auto|]. split; [auto|].
    assert (Z : qc_phase c = 0%R). { destruct (Req_dec (qc_phase c) 0) as [|NZ]; auto. apply Rabs_pos_lt in NZ. lra. }
    rewrite Z, Cexp_0, sscal_1. auto.
Qed.

(* simulation carries out the circuit: psi on the circuit's qubits, the levels given by the layouts *)
Theorem simulate_correct c inp : circ_ok c -> vcanon (qc_n c) inp ->
  exists out, simulate c inp = DOk out /\ vcanon (qc_n c) out /\
    forall pi psi, agrees_out pi (qc_init c) -> inj pi -> veden inp = move pi psi ->
    exists pi' chi, inj pi' /\ agrees_out pi' (qc_out c) /\ (permutes (qc_n c) pi -> permutes (qc_n c) pi') /\
      (forall m, run_qc c (psi, m) = [(chi, m)]) /\ veden out = move pi' chi.
Proof.
  intros (N & G & O) V. unfold simulate. set (nq := qc_n c) in *.
  destruct (steps_spec nq _ _ G) as (p' & ds & S & F & _ & P' & K' & T).
  destruct (sim_loop_steps nq _ _ _ _ S F inp V) as (e & E & Ce & De). rewrite E. cbn [dbind].
  destruct (changeV nq p' (qc_out c) e) as (sg & f' & f1 & e' & X & Ce' & MV & PS & MM & _); auto; [apply (out_cp nq (qc_init c)); auto|].
  rewrite X. cbn [dbind]. destruct (phase_step c e' Ce') as (r & Er & Cr & Dr). rewrite Er. exists r. split; [auto|]. split; [auto|].
  destruct G as (PG & FD & _). intros pi psi A I D.
  assert (A' : agrees pi (qc_init c)) by (intros q l H; apply A; rewrite papply_nonnil in H; auto; apply PG).
  destruct (T pi A' I) as (pi' & A1 & I1 & P1 & D1).
  exists (fun q => sg (pi' q)), (sscal (Cexp (qc_phase c)) (uacts (qc_ops c) psi)). split; [|split; [|split; [|split]]].
  - intros x y H. apply I1. destruct PS as (IS & _). apply IS. exact H.
  - destruct O as (O1 & _ & O3). apply (moves_agrees sg pi' p' f1); auto; [apply P'|]. intros i g H. apply K'. eapply O3; eauto.
  - intros PP. apply permutes_comp; auto.
  - intros m. unfold run_qc. rewrite run_uacts' by auto. reflexivity.
  - rewrite Dr. unfold moved_v in MV. rewrite MV, De, D, D1. reflexivity.
Qed.

(* the functionality does the same, apart from the global phase *)
Theorem functionality_simulate c inp : circ_ok c -> vcanon (qc_n c) inp ->
  exists f r out, buildFunctionality c = DOk f /\ multiplyMV f inp = DOk r /\ simulate c inp = DOk out /\
    veden out = sscal (Cexp (qc_phase c)) (veden r) /\ (qc_phase c = 0%R -> out = r).
Proof.
  intros (N & G & O) V. unfold simulate, buildFunctionality. destruct (Nat.eqb_spec (qc_n c) 0); [lia|]. set (nq := qc_n c) in *.
  destruct (steps_spec nq _ _ G) as (p' & ds & S & F & _ & P' & K' & T).
  destruct (sim_loop_steps nq _ _ _ _ S F inp V) as (v & Ev & Cv & Dv). rewrite Ev. cbn [dbind].
  destruct (func_loop_steps nq _ _ _ _ S F mone (mone_canon nq)) as (e & Ee & Ce & De). rewrite Ee. cbn [dbind].
  assert (K : cp_ok nq p' (qc_out c)) by (apply (out_cp nq (qc_init c)); auto).
  destruct (cp_same_sigma nq (qc_out c) p' e v K Ce Cv) as (sg & f' & e1 & v1 & X1 & X2 & Ce1 & Cv1 & M1 & M2 & PS).
  assert (Y : exists fa ea, changePermutationM nq true e p' (qc_out c) = DOk (fa, ea) /\ mcanon nq ea /\ moved_l nq sg e ea).
  { unfold changePermutationM. destruct (match snd e with MT => ezero (fst e) | _ => false end) eqn:Z; [|exists f', e1; auto].
    exists p', e. split; [auto|]. split; [auto|]. intros psi. destruct e as [w t]. cbn in Z. destruct t; [|discriminate]. unfold ezero in Z.
    destruct (Ceq_dec w C0) as [->|]; [|discriminate]. rewrite mact_MT, scal_zero. reflexivity. }
  assert (W : exists fb vb, changePermutationV nq v p' (qc_out c) = DOk (fb, vb) /\ vcanon nq vb /\ moved_v sg v vb).
  { unfold changePermutationV. destruct (match snd v with VT => ezero (fst v) | _ => false end) eqn:Z; [|exists f', v1; auto].
    exists p', v. split; [auto|]. split; [auto|]. unfold moved_v. rewrite (cpV_zero nq v Cv Z). reflexivity. }
  destruct Y as (fa & ea & -> & Cea & Ma), W as (fb & vb & -> & Cvb & Mb). cbn [dbind].
  destruct (mv_spec nq ea inp Cea V) as (r & Er & Cr & Dr). destruct (phase_step c vb Cvb) as (out & Eo & Co & Do).
  assert (Q : veden vb = veden r).
  { unfold moved_v in Mb. rewrite Mb, Dr, Ma, Dv, De, mact_mone. reflexivity. }
  exists ea, r, out. split; [auto|]. split; [auto|]. split; [auto|]. rewrite <- Q. split; [auto|].
  intros Z. apply (vcanon_unique nq); auto. intros b. rewrite Do, Z, Cexp_0, sscal_1, Q. auto.
Qed.
