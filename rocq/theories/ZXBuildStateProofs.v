(* The maps of single spiders, edges and gadgets, and the gates composed of them. *)
From Coq Require Import Reals QArith ZArith Bool List Arith Lia Lra FunctionalExtensionality.
From Verif Require Import Cplx Qsem GateModel GateSpec IRModel PiModel ZXModel ZXSpec ZXSemProofs ZXRule2Proofs ZXBuildModel ZXBuildSpec ZXBuildProofs.
Import ListNotations.
Local Close Scope Q_scope.
Local Open Scope nat_scope.
Local Open Scope C_scope.

Definition hf : C := RtoC (/ 2).
Lemma hf2 : hf + hf = C1.
Proof. unfold hf. rewrite <- RtoC_add, <- RtoC_1. f_equal. lra. Qed.
Lemma kaphf : kap * kap = hf.
Proof. unfold kap, hf. rewrite <- RtoC_mul. f_equal. rewrite <- Rinv_mult. f_equal. apply sqrt_sqrt. lra. Qed.
Lemma Ci2 : Ci * Ci = - C1.
Proof. apply Ceq; cbn; ring. Qed.

Definition zph (e : C) (q : nat) (psi : state) : state := fun y => (if y q then e else C1) * psi y.
Definition xph (e : C) (q : nat) (psi : state) : state := fun y => hf * (C1 + e) * psi y + hf * (C1 - e) * psi (setb y q (negb (y q))).
Definition hdm (q : nat) (psi : state) : state := fun y => kap * (psi (setb y q false) + sg (y q) * psi (setb y q true)).
Definition cxm (c t : nat) (psi : state) : state := fun y => psi (setb y t (xorb (y t) (y c))).
Definition czm (c t : nat) (psi : state) : state := fun y => sg (y c && y t) * psi y.
Definition rzzm (e : C) (p q : nat) (psi : state) : state := fun y => (if xorb (y p) (y q) then e else C1) * psi y.
Definition rxxm (e : C) (p q : nat) (psi : state) : state :=
  fun y => hf * (C1 + e) * psi y + hf * (C1 - e) * psi (setb (setb y q (negb (y q))) p (negb (y p))).
Definition rzxm (e : C) (p q : nat) (psi : state) : state :=
  fun y => hf * (C1 + e) * psi y + sg (y p) * (hf * (C1 - e)) * psi (setb y q (negb (y q))).

(* ---- views of a state at the qubits of a gate ---------------------------------------------------------------------- *)
Definition V1 (q : nat) (psi : state) (y : bits) (a : bool) : C := psi (setb y q a).
Definition V2 (p q : nat) (psi : state) (y : bits) (a b : bool) : C := psi (setb (setb y q b) p a).
Definition V3 (p q r : nat) (psi : state) (y : bits) (a b c : bool) : C := psi (setb (setb (setb y r c) q b) p a).
Lemma V1_eq q f g : (forall y a, V1 q f y a = V1 q g y a) -> f = g.
Proof. intros H. apply functional_extensionality. intros y. specialize (H y (y q)). unfold V1 in H. now rewrite !setb_id in H. Qed.
Lemma V2_eq p q f g : (forall y a b, V2 p q f y a b = V2 p q g y a b) -> f = g.
Proof. intros H. apply functional_extensionality. intros y. specialize (H y (y p) (y q)). unfold V2 in H. now rewrite !setb_id in H. Qed.
Lemma V3_eq p q r f g : (forall y a b c, V3 p q r f y a b c = V3 p q r g y a b c) -> f = g.
Proof. intros H. apply functional_extensionality. intros y. specialize (H y (y p) (y q) (y r)). unfold V3 in H. now rewrite !setb_id in H. Qed.

Ltac vw := intros; unfold V1, V2, V3, zph, xph, hdm, cxm, czm, rzzm, rxxm, rzxm, swapq, sscal, u1, u2;
  repeat (rewrite ?setb_same; match goal with |- context [setb ?f ?q ?v ?x] => rewrite (setb_other f q v x) by congruence end); rewrite ?setb_same; auto.
(* pushes an update past the others to the one of the same qubit *)
Lemma sb_12 y p q (a b c : bool) : p <> q -> setb (setb (setb y q b) p a) q c = setb (setb y q c) p a.
Proof. intros N. rewrite (setb_comm _ p q) by auto. now rewrite setb_setb. Qed.

Section One.
Variable q : nat.
Lemma V1_sscal c psi y a : V1 q (sscal c psi) y a = c * V1 q psi y a. Proof. reflexivity. Qed.
Lemma V1_z e psi y a : V1 q (zph e q psi) y a = (if a then e else C1) * V1 q psi y a. Proof. vw. Qed.
Lemma V1_x e psi y a : V1 q (xph e q psi) y a = hf * (C1 + e) * V1 q psi y a + hf * (C1 - e) * V1 q psi y (negb a).
Proof. vw. now rewrite setb_setb. Qed.
Lemma V1_h psi y a : V1 q (hdm q psi) y a = kap * (V1 q psi y false + sg a * V1 q psi y true).
Proof. vw. now rewrite !setb_setb. Qed.
Lemma V1_u1 K psi y a : V1 q (u1 K q psi) y a = bsum (fun c => K c a * V1 q psi y c).
Proof. vw. unfold bsum. now rewrite !setb_setb. Qed.
Lemma V1_ap M psi y a : V1 q (apply M [q] psi) y a = M [a] [false] * V1 q psi y false + M [a] [true] * V1 q psi y true.
Proof. unfold V1, apply. cbn [length allb map csum app setl]. cbn. rewrite setb_same, !setb_setb. ring. Qed.
End One.
Section Two.
Variables p q : nat.
Hypothesis N : p <> q.
Lemma V2_sscal c psi y a b : V2 p q (sscal c psi) y a b = c * V2 p q psi y a b. Proof. reflexivity. Qed.
Lemma V2_zp e psi y a b : V2 p q (zph e p psi) y a b = (if a then e else C1) * V2 p q psi y a b. Proof. vw. Qed.
Lemma V2_zq e psi y a b : V2 p q (zph e q psi) y a b = (if b then e else C1) * V2 p q psi y a b. Proof. vw. Qed.
Lemma V2_xp e psi y a b : V2 p q (xph e p psi) y a b = hf * (C1 + e) * V2 p q psi y a b + hf * (C1 - e) * V2 p q psi y (negb a) b.
Proof. vw. now rewrite setb_setb. Qed.
Lemma V2_xq e psi y a b : V2 p q (xph e q psi) y a b = hf * (C1 + e) * V2 p q psi y a b + hf * (C1 - e) * V2 p q psi y a (negb b).
Proof. vw. now rewrite sb_12. Qed.
Lemma V2_hp psi y a b : V2 p q (hdm p psi) y a b = kap * (V2 p q psi y false b + sg a * V2 p q psi y true b).
Proof. vw. now rewrite !setb_setb. Qed.
Lemma V2_hq psi y a b : V2 p q (hdm q psi) y a b = kap * (V2 p q psi y a false + sg b * V2 p q psi y a true).
Proof. vw. now rewrite !sb_12. Qed.
Lemma V2_cpq psi y a b : V2 p q (cxm p q psi) y a b = V2 p q psi y a (xorb b a).
Proof. vw. now rewrite !sb_12. Qed.
Lemma V2_cqp psi y a b : V2 p q (cxm q p psi) y a b = V2 p q psi y (xorb a b) b.
Proof. vw. now rewrite !setb_setb. Qed.
Lemma V2_cz psi y a b : V2 p q (czm p q psi) y a b = sg (a && b) * V2 p q psi y a b. Proof. vw. Qed.
Lemma V2_rzz e psi y a b : V2 p q (rzzm e p q psi) y a b = (if xorb a b then e else C1) * V2 p q psi y a b. Proof. vw. Qed.
Lemma V2_rxx e psi y a b : V2 p q (rxxm e p q psi) y a b = hf * (C1 + e) * V2 p q psi y a b + hf * (C1 - e) * V2 p q psi y (negb a) (negb b).
Proof. vw. now rewrite !sb_12, ?setb_setb by congruence. Qed.
Lemma V2_rzx e psi y a b : V2 p q (rzxm e p q psi) y a b = hf * (C1 + e) * V2 p q psi y a b + sg a * (hf * (C1 - e)) * V2 p q psi y a (negb b).
Proof. vw. now rewrite sb_12. Qed.
Lemma V2_swap psi y a b : V2 p q (swapq p q psi) y a b = V2 p q psi y b a.
Proof. vw. now rewrite !sb_12, ?setb_setb by congruence. Qed.
Lemma V2_u2 ia ib G psi y a b : V2 p q (u2 ia ib G p q psi) y a b = bsum (fun c => bsum (fun d => dgK ia ib G c d a b * V2 p q psi y c d)).
Proof. vw. unfold bsum. repeat rewrite ?sb_12, ?setb_setb by congruence. reflexivity. Qed.
Lemma V2_ap M psi y a b : V2 p q (apply M [p; q] psi) y a b =
  M [a; b] [false; false] * V2 p q psi y false false + M [a; b] [false; true] * V2 p q psi y false true +
  M [a; b] [true; false] * V2 p q psi y true false + M [a; b] [true; true] * V2 p q psi y true true.
Proof.
  unfold V2, apply. cbn [length allb map csum app setl]. cbn. rewrite setb_same. rewrite !(setb_other _ p _ q) by congruence. rewrite setb_same.
  repeat rewrite ?sb_12, ?setb_setb by congruence. ring.
Qed.
Lemma V2_cap M psi y a b : V2 p q (capply [(p, true)] M [q] psi) y a b =
  if a then M [b] [false] * V2 p q psi y a false + M [b] [true] * V2 p q psi y a true else V2 p q psi y a b.
Proof.
  unfold V2, capply, apply, sat. cbn [forallb fst snd length allb map csum app setl]. cbn. rewrite setb_same. rewrite !(setb_other _ p _ q) by congruence. rewrite setb_same.
  rewrite !sb_12 by auto. destruct a; cbn; [ring|reflexivity].
Qed.
End Two.
Section Three.
Variables p q r : nat.
Hypotheses (N1 : p <> q) (N2 : p <> r) (N3 : q <> r).
Lemma sb_13 y (a b c d : bool) : setb (setb (setb (setb y r c) q b) p a) r d = setb (setb (setb y r d) q b) p a.
Proof. rewrite (setb_comm _ p r), sb_12 by auto. reflexivity. Qed.
Lemma V3_zp e psi y a b c : V3 p q r (zph e p psi) y a b c = (if a then e else C1) * V3 p q r psi y a b c. Proof. vw. Qed.
Lemma V3_zq e psi y a b c : V3 p q r (zph e q psi) y a b c = (if b then e else C1) * V3 p q r psi y a b c. Proof. vw. Qed.
Lemma V3_zr e psi y a b c : V3 p q r (zph e r psi) y a b c = (if c then e else C1) * V3 p q r psi y a b c. Proof. vw. Qed.
Lemma V3_hr psi y a b c : V3 p q r (hdm r psi) y a b c = kap * (V3 p q r psi y a b false + sg c * V3 p q r psi y a b true).
Proof. vw. now rewrite !sb_13. Qed.
Lemma V3_cpq psi y a b c : V3 p q r (cxm p q psi) y a b c = V3 p q r psi y a (xorb b a) c.
Proof. vw. now rewrite sb_12. Qed.
Lemma V3_cpr psi y a b c : V3 p q r (cxm p r psi) y a b c = V3 p q r psi y a b (xorb c a).
Proof. vw. now rewrite sb_13. Qed.
Lemma V3_cqr psi y a b c : V3 p q r (cxm q r psi) y a b c = V3 p q r psi y a b (xorb c b).
Proof. vw. now rewrite sb_13. Qed.
Lemma V3_cap M psi y a b c : V3 p q r (capply [(p, true); (q, true)] M [r] psi) y a b c =
  if a && b then M [c] [false] * V3 p q r psi y a b false + M [c] [true] * V3 p q r psi y a b true else V3 p q r psi y a b c.
Proof.
  unfold V3, capply, apply, sat. cbn [forallb fst snd length allb map csum app setl]. cbn. rewrite setb_same.
  rewrite !(setb_other _ p _ q), !(setb_other _ p _ r), !(setb_other _ q _ r), !setb_same by congruence.
  rewrite !sb_13. destruct a, b; cbn; try reflexivity. ring.
Qed.
End Three.
