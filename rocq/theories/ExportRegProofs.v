(* Registers: written sorted, declared again with the same ranges; indices and their names. *)
From Coq Require Import ZArith NArith Bool List String Arith Lia Permutation Sorted.
From Verif Require Import Qsem GateModel GateSpec IRModel IRSpec QasmConstModel QasmIfModel QasmGateModel ExportModel ExportSpec.
Import ListNotations.
Local Open Scope nat_scope.

Definition lt_start (a b : string * (nat * nat)) : Prop := start a < start b.
Lemma insert_perm r l : ~ In (start r) (map start l) -> Permutation (insert_reg r l) (r :: l).
Proof.
  induction l as [|x l IH]; intros N; [reflexivity|]. cbn [insert_reg]. cbn in N. unfold start in N. destruct (Nat.ltb_spec (fst (snd r)) (fst (snd x))); [reflexivity|].
  destruct (Nat.eqb_spec (fst (snd r)) (fst (snd x))) as [E|E]; [exfalso; apply N; left; now rewrite E|].
  rewrite IH by (intros I; apply N; right; exact I). constructor.
Qed.
Lemma insert_sorted r l : StronglySorted lt_start l -> StronglySorted lt_start (insert_reg r l).
Proof.
  induction 1 as [|x l S IH F]; [repeat constructor|]. cbn [insert_reg]. destruct (Nat.ltb_spec (fst (snd r)) (fst (snd x))) as [L|L].
  - constructor; [constructor; auto|]. constructor; [exact L|]. eapply Forall_impl; [|exact F]. unfold lt_start, start in *. intros y K. lia.
  - destruct (Nat.eqb_spec (fst (snd r)) (fst (snd x))) as [E|E]; [constructor; auto|]. constructor; auto.
    clear IH S. induction l as [|y l IH]; cbn [insert_reg]; [constructor; [unfold lt_start, start; lia|constructor]|]. inversion F; subst.
    destruct (Nat.ltb _ _); [constructor; [unfold lt_start, start; lia|constructor; auto]|]. destruct (Nat.eqb _ _); constructor; auto.
Qed.
Lemma sorted_gen l : forall acc, StronglySorted lt_start acc -> NoDup (map start (acc ++ l)) ->
  Permutation (fold_left (fun acc r => insert_reg r acc) l acc) (acc ++ l) /\ StronglySorted lt_start (fold_left (fun acc r => insert_reg r acc) l acc).
Proof.
  induction l as [|r l IH]; intros acc S N; cbn [fold_left]; [rewrite app_nil_r; auto|].
  assert (P : Permutation (insert_reg r acc) (r :: acc)).
  { apply insert_perm. rewrite map_app in N. cbn in N. apply NoDup_remove_2 in N. intros I. apply N, in_or_app. auto. }
  destruct (IH (insert_reg r acc)) as [A B]; [apply insert_sorted; auto| |].
  - eapply Permutation_NoDup; [|exact N]. apply Permutation_map. rewrite P. symmetry. apply Permutation_middle.
  - split; auto. rewrite A, P. cbn. apply Permutation_middle.
Qed.
Lemma starts_differ l n : divides l n -> NoDup (map start l).
Proof.
  intros (N & F & C & D). assert (ND : NoDup l) by (eapply NoDup_map_inv; eauto). clear C N.
  induction l as [|r l IH]; cbn; [constructor|]. inversion ND; inversion F; subst. constructor.
  - intros I. apply in_map_iff in I. destruct I as (r' & E & I). assert (r = r') as <-; [|auto].
    rewrite Forall_forall in F. destruct (F r' (or_intror I)) as [Z _]. apply (D r r' (start r)); [left|right| |]; auto; unfold contains; lia.
  - apply IH; auto. intros a b i A B. apply D; right; auto.
Qed.
Lemma sorted_perm l n : divides l n -> Permutation (sortedRegs l) l /\ StronglySorted lt_start (sortedRegs l).
Proof. intros D. apply (sorted_gen l []); [constructor|]. cbn. eapply starts_differ; eauto. Qed.
Lemma divides_perm l l' n : Permutation l l' -> divides l n -> divides l' n.
Proof.
  intros P (A & B & C & D). split; [|split; [|split]].
  - eapply Permutation_NoDup; [|exact A]. now apply Permutation_map.
  - eapply Permutation_Forall; eauto.
  - intros i I. destruct (C i I) as (r & R & K). exists r. split; auto. eapply Permutation_in; eauto.
  - intros r r' i I J. apply D; eapply Permutation_in; try (symmetry; exact P); auto.
Qed.
Lemma declare_tiles l : forall first n, StronglySorted lt_start l -> Forall (fun r => 0 < size r /\ first <= start r /\ start r + size r <= n) l ->
  (forall i, first <= i < n -> exists r, In r l /\ contains r i) -> (forall r r' i, In r l -> In r' l -> contains r i -> contains r' i -> r = r') ->
  declare first (map (fun r => (fst r, snd (snd r))) l) = l.
Proof.
  induction l as [|r l IH]; intros first n S F C D; [reflexivity|]. inversion S as [|? ? S' SF]; inversion F as [|? ? (R1 & R2 & R3) F']; subst.
  assert (E : start r = first).
  { destruct (C first) as (r' & [<-|I] & K); [lia|unfold contains in K; lia|]. rewrite Forall_forall in SF. specialize (SF r' I). unfold lt_start, contains in *. lia. }
  destruct r as [nm [s k]]. cbn [map declare fst snd]. unfold start in E. cbn in E. subst s. f_equal. unfold start, size in R1, R2, R3. cbn in R1, R2, R3.
  assert (G : forall r', In r' l -> first + k <= start r').
  { intros r' I. rewrite Forall_forall in SF, F'. specialize (SF r' I). destruct (F' r' I) as (A1 & A2 & A3). unfold lt_start in SF. unfold start in SF at 1. cbn in SF.
    destruct (Nat.le_gt_cases (first + k) (start r')); auto. exfalso.
    assert (X : (nm, (first, k)) = r') by (apply (D _ _ (start r')); [left; auto|right; auto| |]; unfold contains, start, size; cbn; unfold start, size in *; lia).
    subst r'. unfold start in SF. cbn in SF. lia. }
  apply (IH (first + k) n); auto.
  - rewrite Forall_forall in *. intros r' I. destruct (F' r' I) as (A1 & A2 & A3). specialize (G r' I). auto.
  - intros i I. destruct (C i) as (r' & [<-|J] & K); [lia| |eauto]. unfold contains, start, size in K. cbn in K. lia.
  - intros a b i A B. apply D; right; auto.
Qed.
Lemma declare_back l n : divides l n -> declare 0 (decls l) = sortedRegs l.
Proof.
  intros D. destruct (sorted_perm l n D) as [P S]. pose proof (divides_perm _ _ n (Permutation_sym P) D) as (A & B & C & E).
  unfold decls. apply (declare_tiles _ 0 n); auto.
  - eapply Forall_impl; [|exact B]. cbn. intros r [? ?]. lia.
  - intros i I. apply C. lia.
Qed.

Lemma reg_find_in l n r : divides l n -> In r l -> reg_find (fst r) l = Some (start r, size r).
Proof.
  intros (N & _). induction l as [|[k v] l IH]; intros I; [destruct I|]. cbn in N. inversion N as [|? ? NI N']; subst. cbn [reg_find].
  destruct (String.eqb_spec k (fst r)) as [E|E].
  - destruct I as [<-|I]; [destruct v; reflexivity|]. exfalso. apply NI. rewrite E. now apply in_map.
  - destruct I as [<-|I]; [cbn in E; congruence|auto].
Qed.
Lemma reg_at_in l n r i : divides l n -> In r l -> contains r i -> reg_at i l = ROk r.
Proof.
  intros (_ & _ & _ & D) I K. induction l as [|[nm [s k]] l IH]; [destruct I|]. cbn [reg_at].
  destruct (Nat.leb_spec s i), (Nat.ltb_spec i (s + k)); cbn [andb].
  1: f_equal; apply (D _ _ i); [left; auto|exact I|unfold contains, start, size; cbn; lia|exact K].
  all: destruct I as [<-|I]; [unfold contains, start, size in K; cbn in K; lia|]; apply IH; auto; intros a b j A B; apply D; right; auto.
Qed.
Definition name_of (r : string * (nat * nat)) (i : nat) : operand := {| op_name := fst r; op_index := Some (i - start r) |}.
Definition nm (l : cregs) (i : nat) : operand := match elem l i with ROk o => o | _ => {| op_name := ""; op_index := None |} end.
Lemma elem_in l n r i : divides l n -> In r l -> contains r i -> elem l i = ROk (name_of r i).
Proof. intros D I K. unfold elem. rewrite (reg_at_in l n r i) by auto. reflexivity. Qed.
Lemma elem_nm l n i : divides l n -> i < n -> elem l i = ROk (nm l i).
Proof. intros D I. destruct D as (A & B & C & E). destruct (C i I) as (r & R & K). unfold nm. rewrite (elem_in l n r i); [reflexivity|repeat split; auto|auto|auto]. Qed.
Lemma mapr_ok {A B} (f : A -> res B) g l : (forall x, In x l -> f x = ROk (g x)) -> mapr f l = ROk (map g l).
Proof. induction l as [|x l IH]; intros H; [reflexivity|]. cbn [mapr map]. rewrite (H x (or_introl eq_refl)), IH by (intros y I; apply H; right; auto). reflexivity. Qed.
Lemma elems_nm l n is : divides l n -> below n is -> mapr (elem l) is = ROk (map (nm l) is).
Proof. intros D B. apply mapr_ok. intros x I. unfold below in B. rewrite Forall_forall in B. eapply elem_nm; eauto. Qed.

(* the names are understood by the reader *)
Lemma find_sorted l n k : divides l n -> reg_find k (sortedRegs l) = reg_find k l.
Proof.
  intros D. destruct (sorted_perm l n D) as [P _]. pose proof (divides_perm _ _ n (Permutation_sym P) D) as D'.
  assert (X : forall m, divides m n -> forall s z, reg_find k m = Some (s, z) -> In (k, (s, z)) m).
  { clear. intros m _ s z. induction m as [|[k' v] m IH]; [discriminate|]. cbn [reg_find]. destruct (String.eqb_spec k' k) as [->|]; intros E; [injection E as <-; left; auto|right; auto]. }
  destruct (reg_find k l) as [[s z]|] eqn:E.
  - apply X in E; auto. apply (reg_find_in _ n (k, (s, z)) D'). eapply Permutation_in; [symmetry; exact P|exact E].
  - destruct (reg_find k (sortedRegs l)) as [[s z]|] eqn:F; auto. apply X in F; auto. apply (Permutation_in _ P) in F. apply (reg_find_in _ n _ D) in F. cbn in F. congruence.
Qed.
Lemma nm_back l n i : divides l n -> i < n -> translateGateOperand (sortedRegs l) (nm l i) = ROk (i, 1).
Proof.
  intros D I. destruct D as (A & B & C & E). destruct (C i I) as (r & R & K). assert (D : divides l n) by (repeat split; auto).
  unfold nm. rewrite (elem_in l n r i) by auto. unfold translateGateOperand, name_of. cbn [op_name op_index]. rewrite (find_sorted l n), (reg_find_in l n r) by auto. unfold contains in K.
  destruct (Nat.ltb_spec (i - start r) (size r)); [|lia]. do 2 f_equal. lia.
Qed.
Lemma nm_bit l n i : divides l n -> (Z.of_nat n <= 2 ^ 64)%Z -> i < n -> translateBitOperand (sortedRegs l) (op_name (nm l i)) (idx_text (nm l i)) = ROk [i].
Proof.
  intros D W I. destruct D as (A & B & C & E). destruct (C i I) as (r & R & K). assert (D : divides l n) by (repeat split; auto).
  unfold nm. rewrite (elem_in l n r i) by auto. unfold translateBitOperand, name_of, idx_text. cbn [op_name op_index]. rewrite (find_sorted l n), (reg_find_in l n r) by auto. unfold contains in K.
  cbn [evaluatePositiveConstant]. rewrite Z.mod_small by lia. destruct (N.leb_spec (N.of_nat (size r)) (Z.to_N (Z.of_nat (i - start r)))); [lia|].
  do 2 f_equal. lia.
Qed.
Lemma nm_name l n i : divides l n -> i < n -> exists r, In r l /\ contains r i /\ nm l i = name_of r i.
Proof.
  intros D I. destruct D as (A & B & C & E). destruct (C i I) as (r & R & K). exists r. split; [auto|split; [auto|]]. unfold nm. rewrite (elem_in l n r i); [reflexivity|repeat split; auto|auto|auto].
Qed.
Lemma whole_back l n r : divides l n -> In r l -> translateQubits (sortedRegs l) (whole_operand r) = ROk (seq (start r) (size r)).
Proof. intros D I. unfold translateQubits, translateGateOperand, whole_operand. cbn [op_name op_index]. rewrite (find_sorted l n), (reg_find_in l n r) by auto. reflexivity. Qed.
Lemma whole_bits l n r : divides l n -> In r l -> translateBitOperand (sortedRegs l) (fst r) [] = ROk (seq (start r) (size r)).
Proof. intros D I. unfold translateBitOperand. rewrite (find_sorted l n), (reg_find_in l n r) by auto. reflexivity. Qed.
Lemma nm_qubits l n i : divides l n -> i < n -> translateQubits (sortedRegs l) (nm l i) = ROk [i].
Proof. intros D I. unfold translateQubits. rewrite (nm_back l n) by auto. reflexivity. Qed.

Lemma last_in {A} (l : list A) x : l <> [] -> In (last l x) l.
Proof. induction l as [|y [|z l] IH]; intros H; [congruence|left; auto|]. right. apply IH. discriminate. Qed.
Lemma last_default {A} (l : list A) x y : l <> [] -> last l x = last l y.
Proof. induction l as [|a [|b l] IH]; intros H; [congruence|auto|]. apply IH. discriminate. Qed.
Lemma whole_yes l n qs r : divides l n -> is_whole l qs r -> exists q qs', qs = q :: qs' /\ whole l q (last qs q) = ROk (Some r).
Proof.
  intros D [I ->]. destruct D as (A & B & C & E). assert (D : divides l n) by (repeat split; auto). rewrite Forall_forall in B. destruct (B r I) as [Z L].
  destruct (size r) as [|k] eqn:K; [lia|]. exists (start r), (seq (S (start r)) k). split; [reflexivity|].
  assert (EL : last (seq (start r) (S k)) (start r) = start r + k) by (rewrite seq_S, last_last; reflexivity). cbn [seq] in EL |- *. rewrite EL. unfold whole.
  rewrite (reg_at_in l n r (start r)), (reg_at_in l n r (start r + k)); auto; try (unfold contains; rewrite K; lia). cbn [bind].
  fold (start r) (size r). rewrite String.eqb_refl, !Nat.eqb_refl, K. cbn [andb]. replace (start r + S k - 1) with (start r + k) by lia. now rewrite Nat.eqb_refl.
Qed.
Lemma whole_no l n q qs : divides l n -> below n (q :: qs) -> ~ looks_whole l (q :: qs) -> whole l q (last (q :: qs) q) = ROk None.
Proof.
  intros D F NW. assert (Q : q < n) by (inversion F; auto). assert (Q' : last (q :: qs) q < n) by (unfold below in F; rewrite Forall_forall in F; apply F, last_in; discriminate).
  destruct D as (A & B & C & E). assert (D : divides l n) by (repeat split; auto). destruct (C q Q) as (r & R & K), (C _ Q') as (r' & R' & K').
  unfold whole. rewrite (reg_at_in l n r q), (reg_at_in l n r') by auto. cbn [bind]. destruct (_ && _) eqn:X; [|reflexivity]. exfalso. apply NW.
  apply andb_true_iff in X. destruct X as [X X4]. apply andb_true_iff in X. destruct X as [X X3]. apply andb_true_iff in X. destruct X as [X1 X2].
  apply String.eqb_eq in X1. apply Nat.eqb_eq in X3, X4. fold (start r) (start r') (size r') in *.
  assert (r' = r) as ->. { pose proof (reg_find_in l n r D R) as Y. pose proof (reg_find_in l n r' D R') as Y'. rewrite X1, Y' in Y. injection Y as Y1 Y2. destruct r as [a [b c]], r' as [a' [b' c']]. unfold start, size in *. cbn in *. congruence. }
  exists r, q. split; [auto|]. split; [discriminate|]. split; [symmetry; exact X3|]. unfold start, size in *. lia.
Qed.
