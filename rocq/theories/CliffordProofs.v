(** Clifford gates on two qubits: action on Pauli operators. *)
From Coq Require Import Reals List Arith Bool NArith Lia Lra FunctionalExtensionality.
From Verif Require Import Cplx Qsem GateModel GateSpec IRModel IRSpec AlgoModel AlgoBaseProofs CliffordSpec CliffordModel.
Import ListNotations.

(** ** States of two qubits *)
Definition sst := bool -> bool -> C.
Definition smap := sst -> sst.
Definition lift (a b : nat) (F : smap) (psi : state) : state := fun v => F (fun x y => psi (setb (setb v a x) b y)) (v a) (v b).
Lemma lift_comp a b F G psi : a <> b -> lift a b F (lift a b G psi) = lift a b (fun p => F (G p)) psi.
Proof.
  intros N. apply functional_extensionality. intros v. unfold lift. f_equal.
  apply functional_extensionality. intros x. apply functional_extensionality. intros y.
  rewrite setb_other, !setb_same by auto. f_equal.
  apply functional_extensionality. intros x'. apply functional_extensionality. intros y'. f_equal.
  rewrite (setb_comm (setb v a x) b a y x') by auto. rewrite setb_setb, setb_setb. reflexivity.
Qed.
Lemma lift_id a b psi : lift a b (fun p => p) psi = psi.
Proof. apply functional_extensionality. intros v. unfold lift. now rewrite setb_id, setb_id. Qed.
(* a state that depends on the two qubits only *)
Lemma lift_pair a b F (p : sst) v : a <> b -> lift a b F (fun v => p (v a) (v b)) v = F p (v a) (v b).
Proof.
  intros N. unfold lift. f_equal. apply functional_extensionality. intros x. apply functional_extensionality. intros y.
  rewrite (setb_other _ b y a) by auto. now rewrite !setb_same.
Qed.
Lemma bits_of a b x y : a <> b -> exists v : bits, v a = x /\ v b = y.
Proof. intros N. exists (setb (setb (fun _ => false) a x) b y). split; [rewrite setb_other by auto|]; apply setb_same. Qed.
Lemma lift_eq a b F G c : a <> b -> (forall psi, lift a b F psi = sscal c (lift a b G psi)) -> forall p x y, F p x y = (c * G p x y)%C.
Proof.
  intros N E p x y. destruct (bits_of a b x y N) as (v & <- & <-). specialize (E (fun v => p (v a) (v b))).
  apply (f_equal (fun f => f v)) in E. unfold sscal in E. now rewrite !lift_pair in E by auto.
Qed.

(** ** Pauli operators: i^k X^x Z^z on each qubit *)
Definition pl := (nat * (bool * bool) * (bool * bool))%type.
Fixpoint ik (k : nat) : C := match k with O => C1 | S k => (Ci * ik k)%C end.
Definition sg (b : bool) : C := if b then (- C1)%C else C1.
Definition pact (P : pl) : smap := let '(k, (xa, za), (xb, zb)) := P in
  fun p x y => (ik k * (sg (za && xorb x xa) * (sg (zb && xorb y xb) * p (xorb x xa) (xorb y xb))))%C.
Definition pmul (P Q : pl) : pl := let '(k, (xa, za), (xb, zb)) := P in let '(l, (xa', za'), (xb', zb')) := Q in
  (Nat.modulo (k + l + (if za && xa' then 2 else 0) + (if zb && xb' then 2 else 0)) 4, (xorb xa xa', xorb za za'), (xorb xb xb', xorb zb zb')).
Lemma ik_add k l : ik (k + l) = (ik k * ik l)%C.
Proof. induction k as [|k IH]; cbn [Nat.add ik]; [|rewrite IH]; ring. Qed.
Lemma ik4 : ik 4 = C1. Proof. cbn. apply Ceq; cbn; ring. Qed.
Lemma ik_mod (k : nat) : ik (k mod 4) = ik k.
Proof.
  rewrite (Nat.div_mod k 4) at 2 by discriminate. rewrite ik_add. replace (ik (4 * (k / 4))) with C1; [ring|].
  induction (k / 4) as [|m IH]; auto. replace (4 * S m) with (4 + 4 * m) by lia. rewrite ik_add, <- IH, ik4. ring.
Qed.
Lemma ik2 (b : bool) : ik (if b then 2 else 0) = sg b. Proof. destruct b; cbn; [apply Ceq; cbn; ring|reflexivity]. Qed.
Lemma sg_step z z' x u : (sg (z && u) * sg (z' && xorb u x) = sg (z && x) * sg (xorb z z' && xorb u x))%C.
Proof. destruct z, z', x, u; cbn; ring. Qed.
Lemma pmul_ok P Q p : pact P (pact Q p) = pact (pmul P Q) p.
Proof.
  destruct P as [[k [xa za]] [xb zb]], Q as [[l [xa' za']] [xb' zb']]. apply functional_extensionality. intros x. apply functional_extensionality. intros y.
  unfold pmul, pact. rewrite ik_mod, !ik_add, !ik2, <- !xorb_assoc.
  transitivity (ik k * ik l * (sg (za && xorb x xa) * sg (za' && xorb (xorb x xa) xa')) * (sg (zb && xorb y xb) * sg (zb' && xorb (xorb y xb) xb')) * p (xorb (xorb x xa) xa') (xorb (xorb y xb) xb'))%C; [ring|].
  rewrite !sg_step. ring.
Qed.
Definition pX (s : bool) : pl := if s then (0, (false, false), (true, false)) else (0, (true, false), (false, false)).
Definition pZ (s : bool) : pl := if s then (0, (false, false), (false, true)) else (0, (false, true), (false, false)).
Definition pid : pl := (0, (false, false), (false, false)).
Definition ph (k : nat) : pl := (k, (false, false), (false, false)).
Definition pw (b : bool) (P : pl) : pl := if b then P else pid.
Lemma pid_ok p : pact pid p = p.
Proof. apply functional_extensionality. intros x. apply functional_extensionality. intros y. unfold pact, pid. cbn. rewrite !xorb_false_r. ring. Qed.
Lemma split_ok k xa za xb zb p : pact (k, (xa, za), (xb, zb)) p = pact (ph k) (pact (pw xa (pX false)) (pact (pw za (pZ false)) (pact (pw xb (pX true)) (pact (pw zb (pZ true)) p)))).
Proof.
  apply functional_extensionality. intros x. apply functional_extensionality. intros y. destruct xa, za, xb, zb; cbn; rewrite ?xorb_false_r, ?xorb_true_r; destruct x, y; cbn; ring.
Qed.

(** ** Gates *)
Inductive g2 := GH (s : bool) | GS (s : bool) | GSd (s : bool) | GX (s : bool) | GY (s : bool) | GZ (s : bool) | GC (s : bool).
Definition hh (p0 p1 : C) (x : bool) : C := (RtoC sq2 * (p0 + sg x * p1))%C.
Definition gmap (g : g2) : smap := fun p x y =>
  match g with
  | GH false => hh (p false y) (p true y) x
  | GH true => hh (p x false) (p x true) y
  | GS s => ((if (if s then y else x) then Ci else C1) * p x y)%C
  | GSd s => ((if (if s then y else x) then - Ci else C1) * p x y)%C
  | GX false => p (negb x) y
  | GX true => p x (negb y)
  | GY false => ((if x then Ci else - Ci) * p (negb x) y)%C
  | GY true => ((if y then Ci else - Ci) * p x (negb y))%C
  | GZ s => (sg (if s then y else x) * p x y)%C
  | GC false => p x (xorb y x)
  | GC true => p (xorb x y) y
  end.
(* the images of X and Z on the qubit e *)
Definition imgX (g : g2) (e : bool) : pl :=
  match g with
  | GH s => if Bool.eqb s e then pZ e else pX e
  | GS s => if Bool.eqb s e then pmul (ph 1) (pmul (pX e) (pZ e)) else pX e
  | GSd s => if Bool.eqb s e then pmul (ph 3) (pmul (pX e) (pZ e)) else pX e
  | GX s => pX e
  | GY s | GZ s => if Bool.eqb s e then pmul (ph 2) (pX e) else pX e
  | GC s => if Bool.eqb s e then pmul (pX false) (pX true) else pX e
  end.
Definition imgZ (g : g2) (e : bool) : pl :=
  match g with
  | GH s => if Bool.eqb s e then pX e else pZ e
  | GS s | GSd s | GZ s => pZ e
  | GX s | GY s => if Bool.eqb s e then pmul (ph 2) (pZ e) else pZ e
  | GC s => if Bool.eqb s e then pZ e else pmul (pZ false) (pZ true)
  end.
Lemma Ci2 : (Ci * Ci = - C1)%C. Proof. apply Ceq; cbn; ring. Qed.
Ltac csol := unfold hh; cbn; repeat match goal with |- context [RtoC sq2] => generalize (RtoC sq2); intros ? end; cbn; apply Ceq; cbn; ring.
Lemma imgX_ok g e p : gmap g (pact (pX e) p) = pact (imgX g e) (gmap g p).
Proof.
  apply functional_extensionality. intros x. apply functional_extensionality. intros y.
  destruct g as [[]|[]|[]|[]|[]|[]|[]], e, x, y; csol.
Qed.
Lemma imgZ_ok g e p : gmap g (pact (pZ e) p) = pact (imgZ g e) (gmap g p).
Proof.
  apply functional_extensionality. intros x. apply functional_extensionality. intros y.
  destruct g as [[]|[]|[]|[]|[]|[]|[]], e, x, y; csol.
Qed.
Lemma gmap_scal g k p : gmap g (pact (ph k) p) = pact (ph k) (gmap g p).
Proof.
  apply functional_extensionality. intros x. apply functional_extensionality. intros y. unfold pact, ph. cbn [andb sg]. 
  destruct g as [[]|[]|[]|[]|[]|[]|[]]; unfold gmap, hh; rewrite ?xorb_false_r; cbv beta; rewrite ?xorb_false_r; ring.
Qed.
(* the image of a Pauli operator *)
Definition cg (g : g2) (P : pl) : pl := let '(k, (xa, za), (xb, zb)) := P in
  pmul (ph k) (pmul (pw xa (imgX g false)) (pmul (pw za (imgZ g false)) (pmul (pw xb (imgX g true)) (pw zb (imgZ g true))))).
Lemma cg_ok g P p : gmap g (pact P p) = pact (cg g P) (gmap g p).
Proof.
  destruct P as [[k [xa za]] [xb zb]]. unfold cg. rewrite split_ok, <- !pmul_ok, gmap_scal. f_equal.
  assert (A : forall c e q, gmap g (pact (pw c (pX e)) q) = pact (pw c (imgX g e)) (gmap g q)) by (intros [] e q; cbn [pw]; [apply imgX_ok|now rewrite !pid_ok]).
  assert (B : forall c e q, gmap g (pact (pw c (pZ e)) q) = pact (pw c (imgZ g e)) (gmap g q)) by (intros [] e q; cbn [pw]; [apply imgZ_ok|now rewrite !pid_ok]).
  now rewrite A, B, A, B.
Qed.
Fixpoint gmaps (l : list g2) (p : sst) : sst := match l with [] => p | g :: l => gmaps l (gmap g p) end.
Fixpoint conj (l : list g2) (P : pl) : pl := match l with [] => P | g :: l => conj l (cg g P) end.
Lemma conj_ok l : forall P p, gmaps l (pact P p) = pact (conj l P) (gmaps l p).
Proof. induction l as [|g l IH]; intros P p; cbn [gmaps conj]; auto. now rewrite cg_ok, IH. Qed.
Lemma gmaps_app l m p : gmaps (l ++ m) p = gmaps m (gmaps l p). Proof. revert p. induction l; intros p; cbn; auto. Qed.
Lemma conj_app l m P : conj (l ++ m) P = conj m (conj l P). Proof. revert P. induction l; intros P; cbn; auto. Qed.

(** ** Inverses, linearity *)
Definition ginv (g : g2) : g2 := match g with GS s => GSd s | GSd s => GS s | _ => g end.
Lemma sq2_2 : (RtoC sq2 * RtoC sq2 + RtoC sq2 * RtoC sq2 = C1)%C.
Proof.
  rewrite <- RtoC_mul, <- RtoC_add. unfold sq2. replace (/ sqrt 2 * / sqrt 2)%R with (/ 2)%R.
  - replace (/ 2 + / 2)%R with 1%R by (unfold Rdiv; field). reflexivity.
  - rewrite <- Rinv_mult. rewrite sqrt_sqrt; [reflexivity|lra].
Qed.
Lemma hh_hh u v x : hh (hh u v false) (hh u v true) x = (if x then v else u).
Proof.
  unfold hh. transitivity ((RtoC sq2 * RtoC sq2 + RtoC sq2 * RtoC sq2) * (if x then v else u))%C; [destruct x; cbn; ring|]. rewrite sq2_2. ring.
Qed.
Lemma ginv_ok g p : gmap (ginv g) (gmap g p) = p /\ gmap g (gmap (ginv g) p) = p.
Proof.
  assert (H : forall g p, gmap (ginv g) (gmap g p) = p).
  { clear g p. intros g p. apply functional_extensionality. intros x. apply functional_extensionality. intros y.
    destruct g as [[]|[]|[]|[]|[]|[]|[]]; cbn [ginv gmap]; rewrite ?hh_hh, ?negb_involutive; try (destruct x, y; reflexivity); destruct x, y; try csol; try reflexivity. }
  split; auto. rewrite <- (H (ginv g) p) at 2. destruct g; reflexivity.
Qed.
Definition ginvs (l : list g2) : list g2 := map ginv (rev l).
Lemma ginvs_ok l : forall p, gmaps (ginvs l) (gmaps l p) = p /\ gmaps l (gmaps (ginvs l) p) = p.
Proof.
  unfold ginvs. induction l as [|g l IH]; intros p; [split; reflexivity|]. cbn [rev]. rewrite map_app. cbn [map]. rewrite !gmaps_app. cbn [gmaps]. split.
  - destruct (IH (gmap g p)) as [-> _]. apply ginv_ok.
  - destruct (ginv_ok g (gmaps (map ginv (rev l)) p)) as [_ ->]. apply IH.
Qed.
Definition lin (F : smap) : Prop := forall c p q x y, F (fun x y => c * p x y + q x y)%C x y = (c * F p x y + F q x y)%C.
Lemma gmap_lin g : lin (gmap g).
Proof. intros c p q x y. destruct g as [[]|[]|[]|[]|[]|[]|[]]; unfold gmap, hh; ring. Qed.
Lemma gmaps_lin l : lin (gmaps l).
Proof.
  induction l as [|g l IH]; intros c p q x y; [reflexivity|]. cbn [gmaps]. rewrite <- IH. f_equal. apply functional_extensionality. intros x'. apply functional_extensionality. intros y'. apply gmap_lin.
Qed.
Lemma lin_scal F c p x y : lin F -> F (fun x y => c * p x y)%C x y = (c * F p x y)%C.
Proof.
  intros L. transitivity (F (fun x y => c * p x y + (fun _ _ => C0) x y)%C x y); [f_equal; apply functional_extensionality; intros x'; apply functional_extensionality; intros y'; ring|].
  rewrite L. assert (Z : F (fun _ _ => C0) x y = C0).
  { pose proof (L (- C1)%C (fun _ _ => C0) (fun _ _ => C0) x y) as Z. cbv beta in Z. replace (fun _ _ : bool => (- C1 * C0 + C0)%C) with (fun _ _ : bool => C0) in Z by (apply functional_extensionality; intros; apply functional_extensionality; intros; ring).
    rewrite Z. ring. }
  rewrite Z. ring.
Qed.

(** ** Pauli operators are different if their descriptions are *)
Definition normal (P : pl) : Prop := fst (fst P) < 4.
Lemma ik_inj k l : k < 4 -> l < 4 -> ik k = ik l -> k = l.
Proof.
  intros A B E. destruct k as [|[|[|[|k]]]]; [| | | |lia]; destruct l as [|[|[|[|l]]]]; try lia; exfalso; cbn in E; inversion E; lra.
Qed.
Lemma ik_neq k : ik k <> C0.
Proof.
  induction k as [|k IH]; cbn [ik]; [apply C1_neq_C0|]. apply Cmul_neq0; auto. intros X. inversion X. lra.
Qed.
Definition e2 (s t : bool) : sst := fun x y => if Bool.eqb x s && Bool.eqb y t then C1 else C0.
Lemma pact_inj P Q : normal P -> normal Q -> (forall p x y, pact P p x y = pact Q p x y) -> P = Q.
Proof.
  destruct P as [[k [xa za]] [xb zb]], Q as [[l [xa' za']] [xb' zb']]. unfold normal. cbn [fst]. intros A B E.
  assert (T : forall s t, (ik k * (sg (za && s) * sg (zb && t)) = ik l * (sg (za' && xorb (xorb s xa) xa') * (sg (zb' && xorb (xorb t xb) xb') * e2 s t (xorb (xorb s xa) xa') (xorb (xorb t xb) xb'))))%C).
  { intros s t. specialize (E (e2 s t) (xorb s xa) (xorb t xb)). unfold pact in E. rewrite (xorb_assoc s xa xa), (xorb_assoc t xb xb), !xorb_nilpotent, !xorb_false_r in E.
    unfold e2 at 1 in E. rewrite !Bool.eqb_reflx in E. cbn [andb] in E. rewrite <- E. ring. }
  assert (N0 : forall u v w, (ik u * (sg v * sg w) <> C0)%C) by (intros u [] []; cbn; intros X; apply (ik_neq u); [transitivity (ik u * (- C1 * - C1))%C|transitivity (- (ik u * (- C1 * C1)))%C|transitivity (- (ik u * (C1 * - C1)))%C|transitivity (ik u * (C1 * C1))%C]; try ring; rewrite X; ring).
  assert (XA : xa = xa' /\ xb = xb').
  { pose proof (T false false) as H. unfold e2 in H. destruct xa, xa', xb, xb'; auto; exfalso; cbn in H; apply (N0 k (za && false) (zb && false)); cbn; rewrite !andb_false_r in *; cbn in *; rewrite H; ring. }
  destruct XA as [-> ->].
  assert (T' : forall s t, (ik k * (sg (za && s) * sg (zb && t)) = ik l * (sg (za' && s) * sg (zb' && t)))%C).
  { intros s t. rewrite T. rewrite (xorb_assoc s), (xorb_assoc t), !xorb_nilpotent, !xorb_false_r. unfold e2. rewrite !Bool.eqb_reflx. cbn [andb]. ring. }
  assert (K : ik k = ik l).
  { pose proof (T' false false) as H. rewrite !andb_false_r in H. cbn in H. transitivity (ik k * (C1 * C1))%C; [ring|]. rewrite H. ring. }
  assert (SI : forall u v : bool, (ik k * (sg u * C1) = ik k * (sg v * C1))%C -> u = v).
  { intros u v H. apply Cmul_cancel_l in H; [|apply ik_neq]. destruct u, v; auto; exfalso; cbn in H; inversion H; lra. }
  apply ik_inj in K; auto. subst l. f_equal; [f_equal|]; f_equal.
  - apply SI. pose proof (T' true false) as H. rewrite !andb_true_r, !andb_false_r in H. exact H.
  - apply SI. pose proof (T' false true) as H. rewrite !andb_true_r, !andb_false_r in H. cbn [sg] in H. transitivity (ik k * (C1 * sg zb))%C; [ring|]. rewrite H. ring.
Qed.
Lemma pmul_normal P Q : normal (pmul P Q).
Proof. destruct P as [[k [xa za]] [xb zb]], Q as [[l [xa' za']] [xb' zb']]. unfold normal, pmul. cbn [fst]. apply Nat.mod_upper_bound. discriminate. Qed.
Lemma cg_normal g P : normal (cg g P). Proof. destruct P as [[k [xa za]] [xb zb]]. apply pmul_normal. Qed.
Lemma conj_normal l : forall P, normal P -> normal (conj l P). Proof. induction l as [|g l IH]; intros P N; cbn [conj]; auto using cg_normal. Qed.

(** ** Tableaux: the images of X and Z on both qubits *)
Definition tab (l : list g2) : list pl := map (conj l) [pX false; pZ false; pX true; pZ true].
Definition prop2 (l m : list g2) : Prop := exists c, forall p x y, gmaps l p x y = (c * gmaps m p x y)%C.
Lemma pact_scal P c p x y : pact P (fun x y => c * p x y)%C x y = (c * pact P p x y)%C.
Proof. destruct P as [[k [xa za]] [xb zb]]. unfold pact. ring. Qed.
Lemma prop_tab l m : prop2 l m -> tab l = tab m.
Proof.
  intros [c E]. unfold tab. apply map_ext_in. intros P I.
  assert (N : normal P) by (destruct I as [<-|[<-|[<-|[<-|[]]]]]; cbv; lia).
  apply pact_inj; auto using conj_normal. intros p x y.
  rewrite <- (proj2 (ginvs_ok l p)). rewrite <- conj_ok. rewrite E, conj_ok, <- pact_scal.
  f_equal. apply functional_extensionality. intros x'. apply functional_extensionality. intros y'. symmetry. apply E.
Qed.
Lemma sst_split p x y : p x y = (p false false * e2 false false x y + (p false true * e2 false true x y + (p true false * e2 true false x y + (p true true * e2 true true x y + C0))))%C.
Proof. destruct x, y; cbn; ring. Qed.
Lemma lin_split F p x y : lin F -> F p x y = (p false false * F (e2 false false) x y + (p false true * F (e2 false true) x y + (p true false * F (e2 true false) x y + p true true * F (e2 true true) x y)))%C.
Proof.
  intros L. replace p with (fun x y => (p false false * e2 false false x y + (fun x y => p false true * e2 false true x y + (fun x y => p true false * e2 true false x y + (fun x y => p true true * e2 true true x y) x y) x y) x y)%C) at 1.
  - rewrite L. f_equal. rewrite L. f_equal. rewrite L. f_equal. now apply lin_scal.
  - apply functional_extensionality. intros x'. apply functional_extensionality. intros y'. rewrite (sst_split p x' y'). ring.
Qed.
(* an operator that commutes with X and Z on both qubits is a number *)
Lemma schur F : lin F -> (forall e p, F (pact (pX e) p) = pact (pX e) (F p)) -> (forall e p, F (pact (pZ e) p) = pact (pZ e) (F p)) ->
  exists c, forall p x y, F p x y = (c * p x y)%C.
Proof.
  intros L HX HZ. exists (F (e2 false false) false false).
  assert (ez : forall e s t, pact (pZ e) (e2 s t) = (fun x y => (sg (if e then t else s) * e2 s t x y)%C)).
  { intros e s t. apply functional_extensionality. intros x. apply functional_extensionality. intros y. destruct e, s, t, x, y; cbn; ring. }
  assert (D : forall s t x y, F (e2 s t) x y = (F (e2 s t) x y * e2 s t x y)%C).
  { intros s t x y. pose proof (HZ false (e2 s t)) as A. pose proof (HZ true (e2 s t)) as B. rewrite ez in A, B.
    apply (f_equal (fun f => f x y)) in A. apply (f_equal (fun f => f x y)) in B. rewrite lin_scal in A, B by auto.
    assert (pz : forall e p, pact (pZ e) p x y = (sg (if e then y else x) * p x y)%C).
    { intros e p. clear A B. destruct e; unfold pZ, pact; cbn [ik andb sg]; rewrite !xorb_false_r; ring. }
    rewrite pz in A, B. generalize dependent (F (e2 s t) x y). intros z A B.
    assert (Q : forall u v : bool, Bool.eqb v u = false -> (sg u * z = sg v * z)%C -> z = C0).
    { intros u v N H. destruct z as [z1 z2]. destruct u, v; try discriminate N; inversion H; apply Ceq; cbn in *; lra. }
    unfold e2. destruct (Bool.eqb x s) eqn:E; [destruct (Bool.eqb y t) eqn:E'|]; cbn [andb]; [ring| |].
    - rewrite (Q t y E' B). ring.
    - rewrite (Q s x E A). ring. }
  assert (ex : forall e s t, pact (pX e) (e2 s t) = e2 (if e then s else negb s) (if e then negb t else t)).
  { intros e s t. apply functional_extensionality. intros x. apply functional_extensionality. intros y. destruct e, s, t, x, y; cbn; ring. }
  assert (S : forall s t, F (e2 s t) s t = F (e2 false false) false false).
  { assert (S1 : forall t, F (e2 true t) true t = F (e2 false t) false t).
    { intros t. pose proof (HX false (e2 false t)) as A. rewrite ex in A. apply (f_equal (fun f => f true t)) in A. cbn [negb] in A. rewrite A. destruct t; cbn; ring. }
    assert (S2 : F (e2 false true) false true = F (e2 false false) false false).
    { pose proof (HX true (e2 false false)) as A. rewrite ex in A. apply (f_equal (fun f => f false true)) in A. cbn [negb] in A. rewrite A. cbn. ring. }
    intros [] []; rewrite ?S1, ?S2; reflexivity. }
  assert (D' : forall s t x y, F (e2 s t) x y = (F (e2 false false) false false * e2 s t x y)%C).
  { intros s t x y. destruct (Bool.eqb x s && Bool.eqb y t) eqn:E.
    - apply andb_true_iff in E as [E1 E2]. apply Bool.eqb_prop in E1, E2. subst. rewrite S. unfold e2 at 3. rewrite !Bool.eqb_reflx. cbn [andb]. ring.
    - rewrite D. assert (Z : e2 s t x y = C0) by (unfold e2; now rewrite E). rewrite Z. ring. }
  intros p x y. rewrite (lin_split F p x y L). generalize dependent (F (e2 false false) false false). intros c _ D'. rewrite !D', (sst_split p x y). ring.
Qed.
Lemma tab_prop l m : tab l = tab m -> prop2 l m.
Proof.
  intros E. unfold tab in E. cbn [map] in E. injection E as E1 E2 E3 E4.
  assert (C : forall P, conj l P = conj m P -> forall p, gmaps (ginvs m) (gmaps l (pact P p)) = pact P (gmaps (ginvs m) (gmaps l p))).
  { intros P H p. rewrite conj_ok, H. rewrite <- (proj2 (ginvs_ok m (gmaps l p))) at 1. rewrite <- conj_ok. apply ginvs_ok. }
  destruct (schur (fun p => gmaps (ginvs m) (gmaps l p))) as [c S].
  - intros c p q x y. rewrite <- (gmaps_lin (ginvs m)). f_equal. apply functional_extensionality. intros x'. apply functional_extensionality. intros y'. apply gmaps_lin.
  - intros [] p; apply C; assumption.
  - intros [] p; apply C; assumption.
  - exists c. intros p x y. rewrite <- (proj2 (ginvs_ok m (gmaps l p))). 
    replace (gmaps (ginvs m) (gmaps l p)) with (fun x y => (c * p x y)%C) by (apply functional_extensionality; intros x'; apply functional_extensionality; intros y'; symmetry; apply S).
    apply lin_scal. apply gmaps_lin.
Qed.
