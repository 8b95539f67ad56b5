(** C79: serialisation of decision diagrams. *)
From Coq Require Import Reals Lra List Bool ZArith Arith Lia FunctionalExtensionality.
From Verif Require Import Cplx Qsem DDModel DDSpec DDProofs DDGateProofs DDStateProofs DDMoreProps SerModel SerProofs.
Import ListNotations.

(** C79: a vector diagram with at least one node is written - the traversal
    terminates - and what is written is read back as the same diagram, in both
    formats. Missing: diagrams without a node, where this is false (below). *)
Theorem C79_vectors_partial bin n e : vcanon n e -> snd e <> VT ->
  exists lines, vserializes bin e lines /\ (forall l, vserializes bin e l -> l = lines) /\ vdeserialize (fst e) lines = e.
Proof.
  intros Ca NT. destruct (vserialize_ok bin n e Ca NT) as (lines & S & D). exists lines. split; [auto|split; [|auto]].
  intros l L. eapply vserializes_unique; eauto.
Qed.
Print Assumptions C79_vectors_partial.
(** C79: the same for matrix diagrams, whatever levels they skip. *)
Theorem C79_matrices_partial bin n e : mcanon n e -> snd e <> MT -> mdeserialize (fst e) (mserialize bin e) = e.
Proof. apply mserialize_ok. Qed.
Print Assumptions C79_matrices_partial.

(** A diagram without a node - an identity matrix of any size - is read back as
    zero. *)
Theorem C79_identity_refuted : exists e, mcanon 3 e /\ (forall b, meden 3 e b b = C1)
  /\ forall bin b d, meden 3 (mdeserialize (fst e) (mserialize bin e)) b d = C0.
Proof.
  exists mone. split; [exact I|split].
  - intros b. unfold meden. cbn. rewrite !eqb_reflx. ring.
  - intros bin b d. unfold meden, mdeserialize, mserialize. cbn [mone snd fst mser ms_out fold_left]. ring.
Qed.
Print Assumptions C79_identity_refuted.
Theorem C79_scalar_refuted : exists e, vcanon 0 e /\ fst e = C1
  /\ forall bin l, vserializes bin e l -> vdeserialize (fst e) l = vzero.
Proof.
  exists vone. split; [now left|split; [auto|]]. intros bin l H. cbn in H. subst l. unfold vdeserialize, vzero. cbn. f_equal. ring.
Qed.
Print Assumptions C79_scalar_refuted.

(** A three-qubit operator with shared nodes of different levels (that of
    C21_matrix_refuted) survives. *)
Example C79_example : forall bin, mdeserialize C1 (mserialize bin (C1, tR)) = (C1, tR).
Proof. intros bin. apply (C79_matrices_partial bin 3 (C1, tR)); [apply tR_can|discriminate]. Qed.
(** |+>, in text format: one line, both successors terminal. *)
Example C79_example_vector : vserializes false (C1, plus)
  [{| vl_idx := 0; vl_v := 0; vl_e := fun i => if i then Some (-1, RtoC s22)%Z else Some (-1, RtoC s22)%Z |}].
Proof.
  assert (Z : ezero (RtoC s22) = false).
  { apply ezero_false. intros H. injection H as H. pose proof s22_sq. rewrite H in *. lra. }
  exists 3%nat. unfold plus. cbn [vsiter vsstep andb negb app vmemi vfindi vfinish]. rewrite Z. cbn [orb vfinish].
  unfold vwrite. cbn [fst snd]. rewrite Z. cbn [orb negb vref app]. reflexivity.
Qed.
