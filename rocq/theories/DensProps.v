(** C113: measuring a qubit of a density matrix. *)
From Coq Require Import Reals Lra List Bool Arith Lia.
From Verif Require Import Cplx Qsem DDModel DDSpec DDProofs DDCanonProofs DDOpsProofs DDGateProofs DDReduceProofs TravDiagProofs DensModel DensSpec DensProofs.
Import ListNotations.
Local Open Scope R_scope.

(** C113 (partial): the outcome is one exactly for draws above the probability of zero, and the new matrix is the projected one
    divided by the probability of the outcome. Missing: matrices where a projection has a diagram with skipped levels, for
    which this is false (below). *)
Theorem C113_collapse_partial : forall n nq e index d, mcanon (S n) e -> mvar (snd e) = n -> snd e <> MT -> (S n <= nq)%nat -> (index < S n)%nat ->
  (forall i e', mcanon (S n) e' -> (forall r c, meden (S n) e' r c = projected index i (meden (S n) e) r c) -> full (S n) (fst e') (snd e')) ->
  let p i := born (S n) index i (meden (S n) e) in
  exists bit r, measureDensity nq e index d = DOk (bit, r) /\ (bit = true <-> fst (p false) < d) /\
    (p bit = C0 -> r = None) /\
    (p bit <> C0 -> exists e', r = Some e' /\ mcanon (S n) e' /\ forall x y, meden (S n) e' x y = (projected index bit (meden (S n) e) x y / p bit)%C).
Proof. exact measure_ok. Qed.
Print Assumptions C113_collapse_partial.

(** C113: in particular it holds for all pure states. *)
Theorem C113_pure : forall n nq e index d, mcanon (S n) e -> fst e <> C0 -> pure (meden (S n) e) -> (S n <= nq)%nat -> (index < S n)%nat ->
  let p i := born (S n) index i (meden (S n) e) in
  exists bit r, measureDensity nq e index d = DOk (bit, r) /\ (bit = true <-> fst (p false) < d) /\
    (p bit = C0 -> r = None) /\
    (p bit <> C0 -> exists e', r = Some e' /\ mcanon (S n) e' /\ pure (meden (S n) e') /\
       forall x y, meden (S n) e' x y = (projected index bit (meden (S n) e) x y / p bit)%C).
Proof.
  intros n nq e index d Ce W P Hn L p.
  assert (F : full (S n) (fst e) (snd e)) by (apply pure_full; [exact Ce|now destruct e]).
  assert (T : snd e <> MT /\ mvar (snd e) = n).
  { destruct (snd e) as [|v ws s]; [destruct F as [F|F]; [discriminate|contradiction]|]. destruct F as [F _]. injection F as ->. split; [discriminate|reflexivity]. }
  destruct T as [T1 T2]. destruct (measure_ok n nq e index d Ce T2 T1 Hn L) as (bit & r & E & B & N0 & N1).
  { intros i e' C' D. apply pure_full; [exact C'|]. replace (fst e', snd e') with e' by now destruct e'.
    intros x y x' y'. rewrite !D. now apply projected_pure. }
  exists bit, r. split; [exact E|]. split; [exact B|]. split; [exact N0|]. intros Z. destruct (N1 Z) as (e' & -> & C' & D).
  exists e'. split; [reflexivity|]. split; [exact C'|]. split; [|exact D].
  intros x y x' y'. rewrite !D. pose proof (projected_pure index bit _ P x y x' y') as Q. unfold Cdiv.
  match type of Q with (?a * ?b = ?c * ?d)%C => transitivity (a * b * (/ p bit * / p bit))%C; [unfold p; ring|rewrite Q; unfold p; ring] end.
Qed.
Print Assumptions C113_pure.

(** The two probabilities add up to the trace. *)
Theorem C113_total : forall n index A, (born n index false A + born n index true A)%C = bsum n (fun b => A b b) (fun _ => false).
Proof.
  intros n index A. unfold born. rewrite <- bsum_add. apply bsum_ext. intros b. unfold projected. destruct (b index); cbn [Bool.eqb andb]; ring.
Qed.
Print Assumptions C113_total.

(** |0><0| on qubit 1 and the maximally mixed state on qubit 0, whose level is skipped *)
Definition corner (i j : bool) : C := if i || j then C0 else C1.
Definition half_mixed : medge := (RtoC (/ 2), MNode 1 corner (fun _ _ => MT)).
Lemma corner_ok : munit corner /\ ~ mident corner (fun _ _ => MT).
Proof.
  split.
  - exists (false, false). split; [reflexivity|]. intros [[|] [|]]; cbn [before fst snd negb andb corner orb]; rewrite ?Cnorm2_0, ?Cnorm2_1; lra.
  - intros (_ & _ & _ & E & _). cbn [corner orb] in E. now apply C1_neq_C0.
Qed.
Lemma half_canon : mcanon 2 half_mixed.
Proof.
  destruct corner_ok as [U N]. unfold mcanon, half_mixed. cbn [fst snd mcan]. split; [intros E; injection E as E; lra|]. split; [lia|]. split; [exact U|]. split; [exact N|].
  intros i j. exact I.
Qed.
Lemma half_den r c : meden 2 half_mixed r c = if (negb (r 1%nat) && negb (c 1%nat)) && eqb (r 0%nat) (c 0%nat) then RtoC (/ 2) else C0.
Proof. unfold meden, half_mixed, corner. cbn. destruct (r 1%nat), (c 1%nat), (r 0%nat), (c 0%nat); cbn; apply Ceq; cbn; ring. Qed.

(** C113 (refuted): qubit 1 of this state is zero with probability one, but for draws above one half one is reported, and the
    weight of the new matrix is zero divided by zero. *)
Theorem C113_skipped_refuted : exists n e index, mcanon (S n) e /\ (index < S n)%nat /\
  born (S n) index false (meden (S n) e) = C1 /\ born (S n) index true (meden (S n) e) = C0 /\
  forall d, / 2 < d -> measureDensity (S n) e index d = DOk (true, None).
Proof.
  exists 1%nat, half_mixed, 1%nat. split; [exact half_canon|]. split; [lia|].
  assert (B : born 2 1 false (meden 2 half_mixed) = C1 /\ born 2 1 true (meden 2 half_mixed) = C0).
  { unfold born, bsum, projected. rewrite !half_den. cbn. split; apply Ceq; cbn; lra. }
  destruct B as [B0 B1]. split; [exact B0|]. split; [exact B1|]. intros d Hd.
  destruct (project_ok 2 2 half_mixed 1 false half_canon (le_n 2) ltac:(lia)) as (z & Ez & Cz & Dz).
  destruct (project_ok 2 2 half_mixed 1 true half_canon (le_n 2) ltac:(lia)) as (o & Eo & Co & Do).
  assert (Z : z = half_mixed).
  { apply (mcanon_unique 2); [exact Cz|exact half_canon|]. intros r c. rewrite Dz. unfold projected. rewrite half_den. destruct (r 1%nat), (c 1%nat); reflexivity. }
  assert (O : o = mzero).
  { apply (meden_zero_canon 2); [exact Co|]. intros r c. rewrite Do. unfold projected. rewrite half_den. destruct (r 1%nat), (c 1%nat); reflexivity. }
  subst z o. unfold measureDensity. unfold half_mixed at 1. cbn [snd]. rewrite Ez. cbn [dbind]. unfold half_mixed at 1 2. cbn [fst snd dtrace].
  assert (H2 : RtoC (/ 2) <> C0) by (intros E; injection E as E; lra). unfold ezero.
  destruct (Ceq_dec (RtoC (/ 2)) C0); [contradiction|]. cbn [Nat.leb corner orb]. destruct (Ceq_dec C1 C0) as [E|_]; [now destruct (C1_neq_C0 E)|].
  destruct (Ceq_dec C0 C0) as [_|N]; [|congruence]. cbn [dbind].
  match goal with |- context [Rlt_dec ?a d] => destruct (Rlt_dec a d) as [_|N] end; [|exfalso; apply N; cbn; lra].
  rewrite Eo. cbn [dbind]. unfold mzero. cbn [fst snd dtrace]. unfold ezero. destruct (Ceq_dec C0 C0) as [_|N]; [|congruence]. cbn [dbind].
  unfold ezero. destruct (Ceq_dec C0 C0) as [_|N]; [|congruence]. reflexivity.
Qed.
Print Assumptions C113_skipped_refuted.
(** C113 (refuted): the maximally mixed state has no node at all. *)
Theorem C113_mixed_refuted : exists n e index, mcanon (S n) e /\ (index < S n)%nat /\
  bsum (S n) (fun b => meden (S n) e b b) (fun _ => false) = C1 /\ forall d, measureDensity (S n) e index d = DUb.
Proof.
  exists 0%nat, (RtoC (/ 2), MT), 0%nat. split; [exact I|]. split; [lia|]. split; [|reflexivity].
  unfold bsum, meden. cbn. apply Ceq; cbn; lra.
Qed.
Print Assumptions C113_mixed_refuted.

(** ** Example: |+><+| *)
Definition plus_density : medge := (RtoC (/ 2), MNode 0 (fun _ _ => C1) (fun _ _ => MT)).
Lemma plus_canon : mcanon 1 plus_density.
Proof.
  unfold mcanon, plus_density. cbn [fst snd mcan]. split; [intros E; injection E as E; lra|]. split; [lia|]. split; [|split; [|intros; exact I]].
  - exists (false, false). split; [reflexivity|]. intros [[|] [|]]; cbn [before fst snd negb andb]; rewrite ?Cnorm2_1; lra.
  - intros (_ & E & _). now apply C1_neq_C0.
Qed.
Lemma plus_den r c : meden 1 plus_density r c = RtoC (/ 2).
Proof. unfold meden, plus_density. cbn. apply Ceq; cbn; ring. Qed.
Example C113_ex : exists e', measureDensity 1 plus_density 0 (3 / 4) = DOk (true, Some e') /\ forall x y, meden 1 e' x y = if x 0%nat && y 0%nat then C1 else C0.
Proof.
  assert (B : forall i, born 1 0 i (meden 1 plus_density) = RtoC (/ 2)).
  { intros i. unfold born, bsum, projected. rewrite !plus_den. destruct i; cbn; apply Ceq; cbn; ring. }
  destruct (C113_pure 0 1 plus_density 0 (3 / 4) plus_canon) as (bit & r & E & H & _ & N); [intros E; injection E as E; lra| |lia|lia|].
  { intros r c r' c'. rewrite !plus_den. reflexivity. }
  rewrite B in H. assert (bit = true) as -> by (apply H; cbn; lra). rewrite B in N. destruct N as (e' & -> & _ & _ & D); [intros Z; injection Z as Z; lra|].
  exists e'. split; [exact E|]. intros x y. rewrite D. unfold projected. rewrite plus_den. assert (H2 : RtoC (/ 2) <> C0) by (intros Z; injection Z as Z; lra).
  destruct (x 0%nat), (y 0%nat); cbn [Bool.eqb andb]; field; exact H2.
Qed.
(** A mixed state that meets the condition of C113_collapse_partial: three quarters |0><0| and one quarter |1><1| *)
Definition biased : medge := (RtoC (3 / 4), MNode 0 (fun i j => if i then if j then RtoC (/ 3) else C0 else if j then C0 else C1) (fun _ _ => MT)).
Definition corner1 (i j : bool) : C := if i && j then C1 else C0.
Lemma biased_canon : mcanon 1 biased.
Proof.
  unfold mcanon, biased. cbn [fst snd mcan]. split; [intros E; injection E as E; lra|]. split; [lia|]. split; [|split; [|intros; exact I]].
  - exists (false, false). split; [reflexivity|]. intros [[|] [|]]; cbn [before fst snd negb andb]; rewrite ?Cnorm2_1, ?Cnorm2_0, ?Cnorm2_RtoC; lra.
  - intros (_ & _ & _ & E & _). injection E as E. lra.
Qed.
Lemma biased_den r c : meden 1 biased r c = if eqb (r 0%nat) (c 0%nat) then if r 0%nat then RtoC (/ 4) else RtoC (3 / 4) else C0.
Proof. unfold meden, biased. cbn. destruct (r 0%nat), (c 0%nat); cbn; apply Ceq; cbn; lra. Qed.
Lemma biased_full i e' : mcanon 1 e' -> (forall r c, meden 1 e' r c = projected 0 i (meden 1 biased) r c) -> full 1 (fst e') (snd e').
Proof.
  intros C' D. destruct corner_ok as [U N].
  assert (E : e' = if i then (RtoC (/ 4), MNode 0 corner1 (fun _ _ => MT)) else (RtoC (3 / 4), MNode 0 corner (fun _ _ => MT))).
  { apply (mcanon_unique 1); [exact C'| |].
    - destruct i; unfold mcanon; cbn [fst snd mcan]; (split; [intros E; injection E as E; lra|]); (split; [lia|]).
      + split; [|split; [|intros; exact I]].
        * exists (true, true). split; [reflexivity|]. intros [[|] [|]]; cbn [before fst snd negb andb corner1]; rewrite ?Cnorm2_1, ?Cnorm2_0; lra.
        * intros (E & _). cbn [corner1 andb] in E. symmetry in E. now apply C1_neq_C0.
      + split; [exact U|]. split; [exact N|]. intros; exact I.
    - intros r c. rewrite D. unfold projected. rewrite biased_den. destruct i; unfold meden, corner, corner1; cbn; destruct (r 0%nat), (c 0%nat); cbn; apply Ceq; cbn; ring. }
  rewrite E. destruct i; cbn [fst snd full]; (split; [reflexivity|]); intros j; now left.
Qed.
Example C113_ex_biased : exists e', measureDensity 1 biased 0 (4 / 5) = DOk (true, Some e') /\ forall x y, meden 1 e' x y = if x 0%nat && y 0%nat then C1 else C0.
Proof.
  assert (B : forall i : bool, born 1 0 i (meden 1 biased) = if i then RtoC (/ 4) else RtoC (3 / 4)).
  { intros i. unfold born, bsum, projected. rewrite !biased_den. destruct i; cbn; apply Ceq; cbn; ring. }
  destruct (C113_collapse_partial 0 1 biased 0 (4 / 5) biased_canon) as (bit & r & E & H & _ & N); [reflexivity|discriminate|lia|lia|exact biased_full|].
  rewrite B in H. assert (bit = true) as -> by (apply H; cbn; lra). rewrite B in N. destruct N as (e' & -> & _ & D); [intros Z; injection Z as Z; lra|].
  assert (H2 : RtoC (/ 4) <> C0) by (intros Z; injection Z as Z; lra).
  exists e'. split; [exact E|]. intros x y. rewrite D. unfold projected. rewrite biased_den.
  destruct (x 0%nat), (y 0%nat); cbn [Bool.eqb andb]; field; exact H2.
Qed.
