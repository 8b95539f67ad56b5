(* Real-number table and tagged pointers: properties C08-C10. *)
From Coq Require Import ZArith NArith QArith Qabs Reals List Bool Lia Lra Lqa.
From Verif Require Import RealTableModel RealTableProofs TagModel TagProofs.
Import ListNotations.

(** ** C08: lookups of real numbers *)
Section C08.
Local Open Scope Q_scope.
(* whatever the table looks like, the returned number is within the tolerance and is in the table *)
Theorem C08_tolerance : forall eps t v, 0 <= eps -> Qabs (numval (snd (lookup eps t v)) - v) <= eps.
Proof. intros. apply lookup_near; auto. Qed.
Print Assumptions C08_tolerance.
Theorem C08_entry : forall eps t v s e, 0 <= eps -> snd (lookup eps t v) = (s, NEntry e) ->
  exists k, In e (buckets (fst (lookup eps t v)) k).
Proof.
  intros eps t v s e P. unfold lookup. destruct (approxZero eps v); [discriminate|]. destruct (Qltb v 0).
  - pose proof (entry_nn eps t (Qabs v) e). destruct lookupNonNegative as [t' p]. cbn in *. intros [= _ ->]. auto.
  - pose proof (entry_nn eps t v e). destruct lookupNonNegative as [t' p]. cbn in *. intros [= _ ->]. auto.
Qed.
Print Assumptions C08_entry.
(* Histories of lookups and collections in which the tolerance interval of every value lies in one bucket.
   Missing: values at the border of two buckets, where the property is false (below). *)
Definition calm_value (eps v : Q) : Prop :=
  Qabs v <= eps \/ hash (Qabs v + eps) = hash (Qabs v - eps).
Definition calm_step (eps : Q) (s : tstep) : Prop := match s with TLookup v => calm_value eps v | TCollect _ => True end.
Lemma Qabs_id v : Qltb v 0 = false -> Qabs v = v.
Proof.
  intros H. apply negb_false_iff, Qle_bool_iff in H. destruct v as [n d]. unfold Qle in H. cbn in *. f_equal. lia.
Qed.
Lemma calm_inv eps t v : 0 <= eps -> inv eps t -> calm_value eps v -> inv eps (fst (lookup eps t v)).
Proof.
  intros P I [Z|A].
  - apply Qle_bool_iff in Z. unfold lookup, approxZero. rewrite Z. auto.
  - apply lookup_inv; auto. intros N _. rewrite <- (Qabs_id v N). auto.
Qed.
Lemma run_inv eps l t : 0 <= eps -> inv eps t -> Forall (calm_step eps) l -> inv eps (trun eps t l).
Proof.
  intros P I F. revert t I. induction F as [|s l Hs F IH]; intros t I; cbn; auto. apply IH. destruct s as [v|k]; cbn.
  - apply calm_inv; auto.
  - apply (collect_inv eps k t); auto.
Qed.
Lemma init_inv eps : 0 <= eps -> eps < 1 # 2 -> calm eps (1 # 2) -> inv eps (init eps).
Proof.
  intros P L Cv. apply lookupNN_inv; auto. intros k. cbn. split; [constructor|tauto].
Qed.
Theorem C08_repeat_partial : forall eps l v, 0 <= eps -> eps < 1 # 2 -> hash ((1 # 2) + eps) = hash ((1 # 2) - eps) ->
  Forall (calm_step eps) l -> calm_value eps v ->
  let t := trun eps (init eps) l in
  lookup eps (fst (lookup eps t v)) v = lookup eps t v.
Proof.
  intros eps l v P L Ci F Cv t. pose proof (run_inv eps l _ P (init_inv eps P L Ci) F) as I. fold t in I.
  unfold lookup. destruct (approxZero eps v) eqn:Z; cbn [fst]; [auto|]. destruct Cv as [Cv|Ca].
  { apply Qle_bool_iff in Cv. unfold approxZero in Z. congruence. }
  destruct (Qltb v 0) eqn:N.
  - destruct (lookupNonNegative eps t (Qabs v)) as [t' p] eqn:E. cbn [fst]. 
    rewrite (repeat_nn eps P t (Qabs v) t' p I (RealTableProofs.neg_of eps v Z N) Ca E). auto.
  - destruct (lookupNonNegative eps t v) as [t' p] eqn:E. cbn [fst].
    rewrite (repeat_nn eps P t v t' p I (pos_of eps v Z N) (eq_ind _ (calm eps) Ca _ (Qabs_id v N)) E). auto.
Qed.
Print Assumptions C08_repeat_partial.
(* a stored value is found again, with either sign, however many other values have come since *)
Theorem C08_stored_partial : forall eps l k e, 0 <= eps -> eps < 1 # 2 -> hash ((1 # 2) + eps) = hash ((1 # 2) - eps) ->
  Forall (calm_step eps) l ->
  let t := trun eps (init eps) l in
  In e (buckets t k) -> lookup eps t (snd e) = (t, (false, NEntry e)) /\ lookup eps t (- snd e) = (t, (true, NEntry e)).
Proof.
  intros eps l k e P L Ci F t X. pose proof (run_inv eps l _ P (init_inv eps P L Ci) F) as I. fold t in I.
  destruct (I k) as [G H]. destruct (H e X) as ((Pe & _) & _). pose proof (stored_nn eps P t k e I X) as S1. unfold lookup.
  assert (Z : approxZero eps (snd e) = false) by (apply Qle_bool_false; rewrite Qabs_pos by lra; auto).
  assert (Z' : approxZero eps (- snd e) = false) by (unfold approxZero in *; rewrite Qabs_opp; auto).
  assert (N : Qltb (snd e) 0 = false) by (unfold Qltb; apply negb_false_iff, Qle_bool_iff; lra).
  assert (N' : Qltb (- snd e) 0 = true) by (apply (proj2 (Qltb_true _ _)); lra).
  rewrite Z, Z', N, N', S1. split; auto.
  assert (E : Qabs (- snd e) = snd e).
  { destruct (snd e) as [n d]. unfold Qlt in Pe. cbn in Pe |- *. f_equal. destruct eps as [en ed]; cbn in *. unfold Qle in P. cbn in P. nia. }
  rewrite E, S1. auto.
Qed.
Print Assumptions C08_stored_partial.
(** A value at the upper border of a bucket is inserted at the front of that bucket but looked for at its back:
    with the default tolerance the second lookup of the same value returns another entry. *)
Definition tol : Q := 1 # 4398046511104.    (* 2^-42, RealNumber.hpp: eps *)
Definition vmid : Q := 100 # 65536.
Definition vborder : Q := (201 # 131072) - (1 # 9007199254740992).
Theorem C08_repeat_refuted : exists l v, 
  let t := trun tol (init tol) l in
  snd (lookup tol (fst (lookup tol t v)) v) <> snd (lookup tol t v) /\
  numval (snd (lookup tol (fst (lookup tol t v)) v)) = numval (snd (lookup tol t v)).
Proof. exists [TLookup vmid], vborder. vm_compute. split; [discriminate|reflexivity]. Qed.
Print Assumptions C08_repeat_refuted.
Example C08_ex :
  let t := trun tol (init tol) [TLookup (1 # 3); TLookup (- (1 # 3)); TLookup ((1 # 3) + (1 # 9007199254740992)); TCollect (fun i => Nat.eqb i 1)] in
  snd (lookup tol t (1 # 3)) = (false, NEntry (1%nat, 1 # 3)) /\
  snd (lookup tol t ((-1 # 3) - (1 # 9007199254740992))) = (true, NEntry (1%nat, 1 # 3)).
Proof. vm_compute. auto. Qed.
(* the hypotheses hold: the default tolerance and these values *)
Example C08_ex_calm : 0 <= tol /\ tol < 1 # 2 /\ hash ((1 # 2) + tol) = hash ((1 # 2) - tol) /\
  Forall (calm_step tol) [TLookup (1 # 3); TLookup (- (1 # 3)); TLookup ((1 # 3) + (1 # 9007199254740992)); TCollect (fun i => Nat.eqb i 1)].
Proof.
  split; [vm_compute; discriminate|]. split; [reflexivity|]. split; [reflexivity|].
  apply Forall_cons; [right; vm_compute; reflexivity|]. apply Forall_cons; [right; vm_compute; reflexivity|].
  apply Forall_cons; [right; vm_compute; reflexivity|]. apply Forall_cons; [exact I|]. apply Forall_nil.
Qed.
End C08.

(** ** C09: signs in pointers *)
Section C09.
Local Open Scope N_scope.
Theorem C09_sign : forall mem a, N.even a = true ->
  getAlignedPointer (getNegativePointer a) = a /\ getAlignedPointer a = a /\
  isNegativePointer (getNegativePointer a) = true /\ isNegativePointer a = false /\
  val mem (getNegativePointer a) = (- val mem a)%R.
Proof.
  intros mem a H. assert (B : N.testbit a 0 = false) by (rewrite N.bit0_odd, <- N.negb_even, H; auto).
  destruct (neg_of a B) as (A1 & A2 & A3 & A4). repeat split; auto. unfold val. rewrite A1, A2, A3. auto.
Qed.
Print Assumptions C09_sign.
(* every pointer, every memory: flipping negates the value, and is an involution except on a signed zero *)
Theorem C09_flip : forall mem zero e, N.even zero = true -> mem zero = 0%R ->
  val mem (flipPointerSign zero e) = (- val mem e)%R /\
  flipPointerSign zero e <> getNegativePointer zero /\
  (e <> getNegativePointer zero -> flipPointerSign zero (flipPointerSign zero e) = e) /\
  (e <> zero -> getAlignedPointer (flipPointerSign zero e) = getAlignedPointer e).
Proof.
  intros mem zero e H Z. assert (B : N.testbit zero 0 = false) by (rewrite N.bit0_odd, <- N.negb_even, H; auto).
  split; [apply val_flip; auto|]. split; [apply flip_proper; auto|]. split; [apply flip_flip; auto|].
  intros Hn. unfold flipPointerSign. apply N.eqb_neq in Hn. rewrite Hn. apply xor_align.
Qed.
Print Assumptions C09_flip.
Theorem C09_complex : forall mem zero a, N.even zero = true -> mem zero = 0%R ->
  fst a <> getNegativePointer zero -> snd a <> getNegativePointer zero ->
  (val mem (fst (conjc zero a)) = val mem (fst a) /\ val mem (snd (conjc zero a)) = (- val mem (snd a))%R) /\
  (val mem (fst (negc zero a)) = (- val mem (fst a))%R /\ val mem (snd (negc zero a)) = (- val mem (snd a))%R) /\
  conjc zero (conjc zero a) = a /\ negc zero (negc zero a) = a.
Proof.
  intros mem zero [r i] H Z Pr Pi. cbn [fst snd] in *. unfold conjc, negc; cbn [fst snd].
  destruct (C09_flip mem zero r H Z) as (A & _ & F & _). destruct (C09_flip mem zero i H Z) as (A' & _ & F' & _).
  rewrite A, A', F, F' by auto. repeat split; auto.
Qed.
Print Assumptions C09_complex.
(* the pointers the library makes: an entry or a static number, the same with a sign unless it is the zero,
   and flips of those; none of them is the zero with a sign *)
Inductive made (zero : N) : N -> Prop :=
| made_entry a : N.even a = true -> made zero a
| made_neg a : N.even a = true -> a <> zero -> made zero (getNegativePointer a)
| made_flip e : made zero e -> made zero (flipPointerSign zero e).
Theorem C09_never_signed_zero : forall zero e, N.even zero = true -> made zero e -> e <> getNegativePointer zero.
Proof.
  intros zero e H M. assert (B : N.testbit zero 0 = false) by (rewrite N.bit0_odd, <- N.negb_even, H; auto).
  destruct M as [a Ha|a Ha Na|e M].
  - intros E. apply (f_equal (fun x => N.testbit x 0)) in E. rewrite N.bit0_odd, <- N.negb_even, Ha in E.
    unfold getNegativePointer in E. rewrite N.lor_spec, B in E. discriminate.
  - intros E. apply Na. assert (Ba : N.testbit a 0 = false) by (rewrite N.bit0_odd, <- N.negb_even, Ha; auto).
    destruct (neg_of a Ba) as (_ & A & _). destruct (neg_of zero B) as (_ & A' & _). congruence.
  - apply flip_proper; auto.
Qed.
Print Assumptions C09_never_signed_zero.
(* what lookup returns is such a pointer: the sign is never put on the zero *)
Theorem C09_lookup_sign : forall eps t v, (0 <= eps)%Q -> snd (lookup eps t v) = (true, NZero) -> False.
Proof.
  intros eps t v P. unfold lookup. destruct (approxZero eps v); [discriminate|]. destruct (Qltb v 0).
  - pose proof (near_nn eps P t (Qabs v)) as [_ N]. destruct lookupNonNegative as [t' p]. cbn in *. congruence.
  - destruct lookupNonNegative as [t' p]. discriminate.
Qed.
Print Assumptions C09_lookup_sign.
(* counting references through a signed pointer changes the count of the number itself and nothing else;
   static numbers keep their count, and so do numbers whose count is saturated; no count leaves its 32 bits *)
Theorem C09_refcount : forall statics refs a e, N.even a = true -> a <> 0 -> e = a \/ e = getNegativePointer a ->
  (In a statics -> incRefR statics refs e = (refs, false) /\ decRefR statics refs e = Some (refs, false)) /\
  (~ In a statics -> refs a < maxRef -> exists r, incRefR statics refs e = (r, true) /\ r a = refs a + 1 /\
     (forall b, b <> a -> r b = refs b) /\ (refs a + 1 < maxRef -> exists r', decRefR statics r e = Some (r', true) /\ forall b, r' b = refs b)) /\
  (refs a = maxRef -> incRefR statics refs e = (refs, false) /\ decRefR statics refs e = Some (refs, false)) /\
  ((forall b, refs b <= maxRef) -> forall b, fst (incRefR statics refs e) b <= maxRef).
Proof.
  intros statics refs a e H N0 He. assert (B : N.testbit a 0 = false) by (rewrite N.bit0_odd, <- N.negb_even, H; auto).
  destruct (neg_of a B) as (_ & A1 & _ & A2).
  assert (Ea : getAlignedPointer e = a) by (destruct He; subst; auto). unfold incRefR, decRefR. rewrite Ea.
  unfold noRefCountingNeeded. apply N.eqb_neq in N0. rewrite N0. cbn [orb]. split; [|split; [|split]].
  - intros I. assert (E : existsb (N.eqb a) statics = true) by (apply existsb_exists; exists a; split; auto; apply N.eqb_refl).
    rewrite E. auto.
  - intros I L. assert (E : existsb (N.eqb a) statics = false).
    { destruct (existsb (N.eqb a) statics) eqn:X; auto. apply existsb_exists in X as (b & Xb & Q). apply N.eqb_eq in Q. subst. tauto. }
    rewrite E. cbn [orb]. destruct (N.eqb_spec (refs a) maxRef); [lia|]. eexists. split; [reflexivity|].
    rewrite updN_same. split; [auto|]. split; [intros b Hb; apply updN_other; auto|]. intros L2.
    destruct (N.eqb_spec (refs a + 1) maxRef); [lia|]. destruct (N.eqb_spec (refs a + 1) 0); [lia|].
    eexists. split; [reflexivity|]. intros b. unfold updN. destruct (N.eqb_spec b a) as [->|]; [lia|auto].
  - intros ->. rewrite N.eqb_refl, orb_true_r. auto.
  - intros B' b. destruct (existsb (N.eqb a) statics || N.eqb (refs a) maxRef) eqn:X; cbn [fst]; auto. apply orb_false_iff in X as [_ X]. apply N.eqb_neq in X.
    unfold updN. pose proof (B' a). destruct (N.eqb_spec b a); auto. lia.
Qed.
Print Assumptions C09_refcount.
Example C09_ex : let mem := fun a => if N.eqb a 16 then 0%R else 3%R in
  val mem (flipPointerSign 16 48) = (- (3))%R /\ flipPointerSign 16 49 = 48 /\ flipPointerSign 16 16 = 16 /\ made 16 (flipPointerSign 16 49).
Proof.
  repeat split. apply made_flip. apply (made_neg 16 48); [reflexivity|discriminate].
Qed.
End C09.

(** ** C10: flags of density-matrix edges *)
Section C10.
Local Open Scope N_scope.
(* Apply and revert leave all nodes as they were (the local edges keep their weight and lose their tags),
   for every combination of flags, assertions on or off, unless both edges are tagged and lead to the same node. *)
Theorem C10_round_trip_partial : forall debug zero h x y, N.even zero = true ->
  tag_ok (dp x) -> tag_ok (dp y) ->
  (alignD (dp x) <> 0 -> stored zero (h (alignD (dp x)))) -> (alignD (dp y) <> 0 -> stored zero (h (alignD (dp y)))) ->
  alignD (dp x) <> alignD (dp y) \/ alignD (dp x) = 0 \/ isDensity (dp x) = false \/ isDensity (dp y) = false ->
  roundTrip debug zero h x y =
    TOk (h, {| dp := alignD (dp x); dw := dw x |}, {| dp := alignD (dp y); dw := dw y |}).
Proof.
  intros. assert (B : N.testbit zero 0 = false) by (rewrite N.bit0_odd, <- N.negb_even, H; auto).
  apply round_trip; auto.
Qed.
Print Assumptions C10_round_trip_partial.
(* a node whose third edge has weight i *)
Definition nodeC : dnode := {| flags := 8; e0 := {| dp := 0; dw := (24, 16) |}; e1 := {| dp := 0; dw := (16, 16) |};
   e2 := {| dp := 0; dw := (16, 24) |}; e3 := {| dp := 0; dw := (24, 16) |} |}.
(** Two tagged edges to one node: the assertion fails, or without assertions the node is left with the
    conjugate weight. *)
Theorem C10_alias_refuted : exists zero h x y, N.even zero = true /\ tag_ok (dp x) /\ tag_ok (dp y) /\
  stored zero (h (alignD (dp x))) /\ alignD (dp y) = alignD (dp x) /\
  roundTrip true zero h x y = TAbort /\
  exists h' x' y', roundTrip false zero h x y = TOk (h', x', y') /\ e2 (h' (alignD (dp x))) <> e2 (h (alignD (dp x))).
Proof.
  exists 16, (fun _ => nodeC), {| dp := 32 + 4; dw := (24, 16) |}, {| dp := 32 + 4; dw := (24, 16) |}.
  split; [reflexivity|]. split; [right; reflexivity|]. split; [right; reflexivity|]. split.
  { repeat split; cbn; discriminate. }
  split; [reflexivity|]. split; [reflexivity|]. eexists. eexists. eexists. split; [reflexivity|]. vm_compute. discriminate.
Qed.
Print Assumptions C10_alias_refuted.
(** An edge carrying the conjugation flag without the density-matrix flag is dereferenced misaligned. *)
Theorem C10_tags_refuted : exists zero h x y, N.even zero = true /\ stored zero (h (alignD (dp x))) /\ stored zero (h (alignD (dp y))) /\
  alignD (dp x) <> alignD (dp y) /\ roundTrip true zero h x y = TUb.
Proof.
  exists 16, (fun _ => nodeC), {| dp := 32 + 1; dw := (24, 16) |}, {| dp := 64; dw := (24, 16) |}.
  split; [reflexivity|]. split; [repeat split; cbn; discriminate|]. split; [repeat split; cbn; discriminate|].
  split; [discriminate|reflexivity].
Qed.
Print Assumptions C10_tags_refuted.
(* in between, the conjugate flag exchanges the off-diagonal successors and conjugates the weights *)
Example C10_ex : exists h', applyDm true 16 (fun _ => nodeC) (32 + 5) = TOk (h', 32) /\
  dw (e1 (h' 32)) = (16, 25) /\ dw (e2 (h' 32)) = (16, 16) /\ dp (e1 (h' 32)) = 5 /\
  exists h'', revertDm 16 h' 32 = TOk h'' /\ h'' 32 = nodeC.
Proof. eexists. split; [reflexivity|]. repeat split. eexists. split; reflexivity. Qed.
End C10.
