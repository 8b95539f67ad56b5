(** Random Clifford circuits: the operators of the generated circuits. *)
From Coq Require Import Reals List Arith Bool NArith Lia Lra FunctionalExtensionality FMapPositive.
From Verif Require Import Cplx Qsem GateModel GateSpec IRModel IRSpec IRProofs AlgoModel AlgoBaseProofs CliffordSpec CliffordModel CliffordProofs.
Import ListNotations.

(** ** Gates as operators *)
Definition side (a b : nat) (s : bool) : nat := if s then b else a.
Definition interp (a b : nat) (g : g2) : cop :=
  match g with
  | GH s => g1 gH (side a b s) | GS s => g1 gS (side a b s) | GSd s => g1 gSdg (side a b s)
  | GX s => g1 gX (side a b s) | GY s => g1 gY (side a b s) | GZ s => g1 gZ (side a b s)
  | GC s => cg1 gX (side a b s) (side a b (negb s))
  end.
Lemma interp_ok a b g : a <> b -> acts [interp a b g] (lift a b (gmap g)).
Proof.
  intros N.
  assert (E1 : forall v x, setb (setb v a x) b (v b) = setb v a x) by (intros v x; rewrite <- (setb_other v a x b) by auto; apply setb_id).
  assert (E2 : forall v y, setb (setb v a (v a)) b y = setb v b y) by (intros; now rewrite setb_id).
  destruct g as [s|s|s|s|s|s|s]; cbn [interp].
  - eapply acts_ext; [apply acts_h|]. intros psi. apply functional_extensionality. intros v. unfold lift, hst. destruct s; cbn [gmap side]; unfold hh, sg; now rewrite ?E1, ?E2.
  - eapply acts_ext. { apply acts_std. reflexivity. }
    intros psi. cbn [o_ctl o_tgt g1]. rewrite capply_m2. apply functional_extensionality. intros v. unfold cop1, lift. cbn [sat forallb]. rewrite op1_diag. cbn [gmap]. rewrite E1, setb_id. destruct s; cbn [side]; f_equal; destruct (v _); apply Ceq; cbn; ring.
  - eapply acts_ext. { apply acts_std. reflexivity. }
    intros psi. cbn [o_ctl o_tgt g1]. rewrite capply_m2. apply functional_extensionality. intros v. unfold cop1, lift. cbn [sat forallb]. rewrite op1_diag. cbn [gmap]. rewrite E1, setb_id. destruct s; cbn [side]; f_equal; destruct (v _); apply Ceq; cbn; ring.
  - eapply acts_ext; [apply acts_x|]. intros psi. apply functional_extensionality. intros v. unfold lift, xst. destruct s; cbn [gmap side]; now rewrite ?E1, ?E2.
  - eapply acts_ext. { apply acts_std. reflexivity. }
    intros psi. cbn [o_ctl o_tgt g1]. rewrite capply_m2. apply functional_extensionality. intros v. unfold cop1, lift, op1. cbn [sat forallb]. destruct s; cbn [side gmap]; rewrite ?E1, ?E2; destruct (v _); cbn [negb]; apply Ceq; cbn; ring.
  - eapply acts_ext. { apply acts_std. reflexivity. }
    intros psi. cbn [o_ctl o_tgt g1]. rewrite capply_m2. apply functional_extensionality. intros v. unfold cop1, lift. cbn [sat forallb]. rewrite op1_diag. cbn [gmap]. rewrite E1, setb_id. destruct s; cbn [side]; f_equal; destruct (v _); apply Ceq; cbn; ring.
  - eapply acts_ext; [apply acts_cx|]. intros psi. apply functional_extensionality. intros v. unfold lift, cxst. destruct s; cbn [gmap side negb]; now rewrite ?E1, ?E2.
Qed.
Lemma interps_ok a b l : a <> b -> acts (map (interp a b) l) (lift a b (gmaps l)).
Proof.
  intros N. induction l as [|g l IH]; cbn [map].
  - eapply acts_ext; [apply acts_nil|]. intros psi. symmetry. apply lift_id.
  - eapply acts_ext; [apply acts_cons; [now apply interp_ok|exact IH]|]. intros psi. cbv beta. now rewrite lift_comp.
Qed.
Lemma acts_fun l f g psi : acts l f -> acts l g -> f psi = g psi.
Proof. intros A B. specialize (A psi (fun _ => false)). specialize (B psi (fun _ => false)). rewrite A in B. congruence. Qed.
Lemma same_op_tab a b l m : a <> b -> (same_operator (map (interp a b) l) (map (interp a b) m) <-> tab l = tab m).
Proof.
  intros N. split.
  - intros (U & V & A & B & c & E). apply prop_tab. exists c. apply (lift_eq a b); auto. intros psi.
    rewrite (acts_fun _ _ _ psi (interps_ok a b l N) A), E. f_equal. apply (acts_fun _ _ _ psi B (interps_ok a b m N)).
  - intros E. apply tab_prop in E as [c E]. exists (lift a b (gmaps l)), (lift a b (gmaps m)).
    split; [now apply interps_ok|]. split; [now apply interps_ok|]. exists c. intros psi. apply functional_extensionality. intros v. unfold lift, sscal. apply E.
Qed.

(** ** The generated circuits *)
Definition chad (b : N) (s : bool) : list g2 := if N.eqb b 0 then [] else [GH s].
Definition crot (k : N) (s : bool) : list g2 := if N.eqb k 1 then [GH s; GS s] else if N.eqb k 2 then [GSd s; GH s] else [].
Definition cpau (k : N) (s : bool) : list g2 := if N.eqb k 1 then [GZ s] else if N.eqb k 2 then [GX s] else if N.eqb k 3 then [GY s] else [].
Lemma chad_ok a b k s : had k (side a b s) = map (interp a b) (chad k s). Proof. unfold had, chad. now destruct (N.eqb _ _). Qed.
Lemma crot_ok a b k s : rot k (side a b s) = map (interp a b) (crot k s). Proof. unfold rot, crot. destruct (N.eqb _ _); auto. now destruct (N.eqb _ _). Qed.
Lemma cpau_ok a b k s : pauli k (side a b s) = map (interp a b) (cpau k s). Proof. unfold pauli, cpau. destruct (N.eqb _ _); auto. destruct (N.eqb _ _); auto. now destruct (N.eqb _ _). Qed.
Local Open Scope N_scope.
Definition code1 (idx : N) : list g2 := let id := idx mod 24 in chad (id / 12 mod 2) false ++ crot (id / 4 mod 3) false ++ cpau (id mod 4) false.
Definition body2 (id : N) : list g2 :=
  if id <? 36 then
    chad (id / 9 mod 2) false ++ chad (id / 18 mod 2) true ++ crot (id mod 3) false ++ crot (id / 3 mod 3) true
  else if id <? 360 then
    let id := id - 36 in
    chad (id / 81 mod 2) false ++ chad (id / 162 mod 2) true ++ crot (id mod 3) false ++ crot (id / 3 mod 3) true ++
    [GC false] ++ crot (id / 9 mod 3) false ++ crot (id / 27 mod 3) true
  else if id <? 684 then
    let id := id - 360 in
    chad (id / 81 mod 2) false ++ chad (id / 162 mod 2) true ++ crot (id mod 3) false ++ crot (id / 3 mod 3) true ++
    [GC false; GC true] ++ crot (id / 9 mod 3) false
  else
    let id := id - 684 in
    chad (id / 9 mod 2) false ++ chad (id / 18 mod 2) true ++ crot (id mod 3) false ++ [GC false; GC true; GC false].
Definition code2 (idx : N) : list g2 := let id := idx mod 11520 in
  body2 (id / 16) ++ cpau (id mod 16 mod 4) false ++ cpau (id mod 16 / 4) true.
Lemma code1_ok b idx : clifford1 idx = map (interp 0 b) (code1 idx).
Proof. unfold clifford1, code1. rewrite !map_app, <- chad_ok, <- crot_ok, <- cpau_ok. reflexivity. Qed.
Lemma code2_ok a b idx : clifford2 idx a b = map (interp a b) (code2 idx).
Proof.
  unfold clifford2, code2, body2. rewrite !map_app, <- !cpau_ok. f_equal.
  destruct (_ <? 36); [now rewrite !map_app, <- !chad_ok, <- !crot_ok|].
  destruct (_ <? 360); [now rewrite !map_app, <- !chad_ok, <- !crot_ok|].
  destruct (_ <? 684); now rewrite !map_app, <- !chad_ok, <- !crot_ok.
Qed.
Local Close Scope N_scope.

(** ** Clifford operators *)
Lemma clifford_gen n (U : state -> state) :
  (forall psi, U (sscal Ci psi) = sscal Ci (U psi)) ->
  (forall q, q < n -> exists g, pauli_op n g /\ forall psi, U (opX q psi) = g (U psi)) ->
  (forall q, q < n -> exists g, pauli_op n g /\ forall psi, U (opZ q psi) = g (U psi)) -> clifford_op n U.
Proof.
  intros HI HX HZ f P. induction P as [|q L|q L| |f g _ (f' & Pf & Ef) _ (g' & Pg & Eg)]; auto.
  - exists (fun psi => psi). split; [constructor|auto].
  - exists (sscal Ci). split; [constructor|auto].
  - exists (fun psi => f' (g' psi)). split; [now constructor|]. intros psi. now rewrite Ef, Eg.
Qed.
Lemma clifford_comp n U V : clifford_op n U -> clifford_op n V -> clifford_op n (fun psi => V (U psi)).
Proof. intros A B f P. destruct (A f P) as (g & Pg & Eg). destruct (B g Pg) as (h & Ph & Eh). exists h. split; auto. intros psi. now rewrite Eg, Eh. Qed.
Lemma clifford_id n : clifford_op n (fun psi => psi).
Proof. intros f P. now exists f. Qed.
Lemma clifford_ext n U V : (forall psi, U psi = V psi) -> clifford_op n U -> clifford_op n V.
Proof. intros E A f P. destruct (A f P) as (g & Pg & Eg). exists g. split; auto. intros psi. now rewrite <- !E. Qed.
Lemma pauli_ext n f g : pauli_op n f -> f = g -> pauli_op n g. Proof. now intros ? <-. Qed.
Lemma pauli_pow n k : pauli_op n (sscal (ik k)).
Proof.
  induction k as [|k IH]; cbn [ik].
  - apply (pauli_ext n _ _ (po_id n)). apply functional_extensionality. intros psi. apply functional_extensionality. intros v. unfold sscal. ring.
  - apply (pauli_ext n _ _ (po_comp n _ _ (po_i n) IH)). apply functional_extensionality. intros psi. apply functional_extensionality. intros v. unfold sscal. ring.
Qed.
Lemma lift_X a b s : a <> b -> lift a b (pact (pX s)) = opX (side a b s).
Proof.
  intros N. apply functional_extensionality. intros psi. apply functional_extensionality. intros v. unfold lift, opX.
  destruct s; cbn [pX side]; unfold pact; cbn [ik andb sg]; rewrite ?xorb_false_r, ?xorb_true_r.
  - rewrite setb_id. ring.
  - rewrite <- (setb_other v a (negb (v a)) b) by auto. rewrite setb_id. ring.
Qed.
Lemma lift_Z a b s : a <> b -> lift a b (pact (pZ s)) = opZ (side a b s).
Proof.
  intros N. apply functional_extensionality. intros psi. apply functional_extensionality. intros v. unfold lift, opZ.
  destruct s; cbn [pZ side]; unfold pact; cbn [ik andb sg]; rewrite ?xorb_false_r, !setb_id; unfold sg; ring.
Qed.
Lemma lift_ph a b k : lift a b (pact (ph k)) = sscal (ik k).
Proof.
  apply functional_extensionality. intros psi. apply functional_extensionality. intros v. unfold lift, sscal, ph, pact. cbn [andb sg]. rewrite !xorb_false_r, !setb_id. ring.
Qed.
Lemma lift_pid a b : lift a b (pact pid) = fun psi => psi.
Proof. apply functional_extensionality. intros psi. transitivity (lift a b (fun p => p) psi); [|apply lift_id]. unfold lift. apply functional_extensionality. intros v. now rewrite pid_ok. Qed.
(* the description of a Pauli operator that acts on b only if [q] *)
Definition within (w : bool) (P : pl) : Prop := w = true \/ snd P = (false, false).
Lemma lift_pauli n a b w P : a <> b -> a < n -> (w = true -> b < n) -> within w P -> pauli_op n (lift a b (pact P)).
Proof.
  intros N A B W. destruct P as [[k [xa za]] [xb zb]].
  assert (X : forall c s, (s = true -> c = true -> w = true) -> pauli_op n (lift a b (pact (pw c (pX s))))).
  { intros [] s H; cbn [pw]; [rewrite lift_X by auto; constructor; destruct s; cbn [side]; auto|rewrite lift_pid; constructor]. }
  assert (Z : forall c s, (s = true -> c = true -> w = true) -> pauli_op n (lift a b (pact (pw c (pZ s))))).
  { intros [] s H; cbn [pw]; [rewrite lift_Z by auto; constructor; destruct s; cbn [side]; auto|rewrite lift_pid; constructor]. }
  assert (K : pauli_op n (lift a b (pact (ph k)))) by (rewrite lift_ph; apply pauli_pow).
  assert (WB : (xb = true -> w = true) /\ (zb = true -> w = true)).
  { destruct W as [->|W]; auto. cbn [snd] in W. injection W as -> ->. split; discriminate. }
  destruct WB as [WX WZ].
  refine (pauli_ext n _ _ (po_comp n _ _ K (po_comp n _ _ (X xa false _) (po_comp n _ _ (Z za false _) (po_comp n _ _ (X xb true _) (Z zb true _))))) _); try discriminate; auto.
  apply functional_extensionality. intros psi. cbv beta. rewrite !lift_comp by auto.
  unfold lift. apply functional_extensionality. intros v. now rewrite split_ok.
Qed.
Lemma lift_clifford n a b w l : a <> b -> a < n -> (w = true -> b < n) ->
  (forall s, (s = true -> w = true) -> within w (conj l (pX s)) /\ within w (conj l (pZ s))) -> (w = false -> n = S a) ->
  (w = false -> forall q, q < n -> q <> b) -> clifford_op n (lift a b (gmaps l)).
Proof.
  intros N A B W O Q. apply clifford_gen.
  - intros psi. rewrite <- (lift_ph a b 1) || idtac.
    apply functional_extensionality. intros v. unfold lift, sscal. apply lin_scal. apply gmaps_lin.
  - intros q L. destruct (Nat.eq_dec q a) as [->|Na]; [|destruct (Nat.eq_dec q b) as [->|Nb]].
    + exists (lift a b (pact (conj l (pX false)))). split; [apply (lift_pauli n a b w); auto; apply W; discriminate|].
      intros psi. change a with (side a b false) at 2. rewrite <- (lift_X a b false) by auto. rewrite !lift_comp by auto. unfold lift. apply functional_extensionality. intros v. now rewrite conj_ok.
    + assert (T : w = true) by (destruct w; auto; exfalso; now apply (Q eq_refl b L)).
      exists (lift a b (pact (conj l (pX true)))). split; [apply (lift_pauli n a b w); auto; apply W; auto|].
      intros psi. change b with (side a b true) at 2. rewrite <- (lift_X a b true) by auto. rewrite !lift_comp by auto. unfold lift. apply functional_extensionality. intros v. now rewrite conj_ok.
    + exists (opX q). split; [now constructor|]. intros psi. apply functional_extensionality. intros v. unfold lift, opX. rewrite !(setb_other v q) by auto.
      f_equal. apply functional_extensionality. intros x. apply functional_extensionality. intros y. rewrite !setb_other by auto. f_equal. rewrite (setb_comm (setb v a x) b q) by auto. now rewrite (setb_comm v a q) by auto.
  - intros q L. destruct (Nat.eq_dec q a) as [->|Na]; [|destruct (Nat.eq_dec q b) as [->|Nb]].
    + exists (lift a b (pact (conj l (pZ false)))). split; [apply (lift_pauli n a b w); auto; apply W; discriminate|].
      intros psi. change a with (side a b false) at 2. rewrite <- (lift_Z a b false) by auto. rewrite !lift_comp by auto. unfold lift. apply functional_extensionality. intros v. now rewrite conj_ok.
    + assert (T : w = true) by (destruct w; auto; exfalso; now apply (Q eq_refl b L)).
      exists (lift a b (pact (conj l (pZ true)))). split; [apply (lift_pauli n a b w); auto; apply W; auto|].
      intros psi. change b with (side a b true) at 2. rewrite <- (lift_Z a b true) by auto. rewrite !lift_comp by auto. unfold lift. apply functional_extensionality. intros v. now rewrite conj_ok.
    + exists (opZ q). split; [now constructor|]. intros psi. apply functional_extensionality. intros v. unfold lift, opZ. rewrite <- lin_scal by apply gmaps_lin.
      f_equal. apply functional_extensionality. intros x. apply functional_extensionality. intros y. rewrite !setb_other by auto. reflexivity.
Qed.
Lemma two_clifford n a b l : a <> b -> a < n -> b < n -> clifford_op n (lift a b (gmaps l)).
Proof. intros N A B. apply (lift_clifford n a b true); auto; try discriminate. intros s _. split; now left. Qed.
Definition oneside (g : g2) : bool := match g with GH s | GS s | GSd s | GX s | GY s | GZ s => negb s | GC _ => false end.
Lemma oneside_conj l : forallb oneside l = true -> forall P, snd P = (false, false) -> snd (conj l P) = (false, false).
Proof.
  induction l as [|g l IH]; intros O P E; cbn [conj]; auto. cbn [forallb] in O. apply andb_true_iff in O as [Og O]. apply IH; auto.
  destruct P as [[k [xa za]] [xb zb]]. cbn [snd] in E. injection E as -> ->. destruct g as [[]|[]|[]|[]|[]|[]|s]; try discriminate Og; destruct xa, za; reflexivity.
Qed.
Lemma one_clifford b l : b <> 0 -> forallb oneside l = true -> clifford_op 1 (lift 0 b (gmaps l)).
Proof.
  intros N O. apply (lift_clifford 1 0 b false); auto; try discriminate; try lia.
  intros [] H; [discriminate (H eq_refl)|]. split; right; now apply oneside_conj.
Qed.
Lemma code1_oneside i : forallb oneside (code1 i) = true.
Proof.
  unfold code1. rewrite !forallb_app. unfold chad, crot, cpau. repeat destruct (N.eqb _ _); reflexivity.
Qed.

(** ** Which indices give the same operator *)
Lemma seqN_in n (i : N) : (i < N.of_nat n)%N -> In i (map N.of_nat (seq 0 n)).
Proof. intros L. apply in_map_iff. exists (N.to_nat i). rewrite N2Nat.id. split; auto. apply in_seq. lia. Qed.
Local Open Scope N_scope.
(* 0 <= n < k, without unary arithmetic; the checks below go through small enumerations, since coqchk has no virtual machine *)
Fixpoint upN (k : nat) (n : N) : list N := match k with O => [] | S k => n :: upN k (N.succ n) end.
Lemma upN_in k : forall n i, n <= i -> i < n + N.of_nat k -> In i (upN k n).
Proof.
  induction k as [|k IH]; intros n i A B; [lia|]. cbn [upN]. destruct (N.eq_dec n i) as [E|E]; [now left|]. right. apply IH; lia.
Qed.
(* the part of an index behind the Pauli gates with the unused digit set to 0 *)
Definition canD (d : N) : N :=
  if d <? 360 then d else if d <? 684 then let e := d - 360 in 360 + e - 27 * (e / 27 mod 3) else let e := d - 684 in 684 + e - 3 * (e / 3 mod 3).
Definition can (i : N) : N := 16 * canD (i / 16) + i mod 16.
Definition fiberD (d : N) : list N := if d <? 360 then [d] else let c := canD d in if d <? 684 then [c; c + 27; c + 54] else [c; c + 3; c + 6].
Definition fiber (i : N) : list N := map (fun d => 16 * d + i mod 16) (fiberD (i / 16)) ++ if i =? 0 then [11520] else [].
Definition bodies : list N := upN 720 0.
Lemma bodies_in d : d < 720 -> In d bodies. Proof. intros L. apply upN_in; [apply N.le_0_l|exact L]. Qed.
Lemma g2_dec (g h : g2) : {g = h} + {g <> h}. Proof. decide equality; apply bool_dec. Defined.
Lemma pl_dec (P Q : pl) : {P = Q} + {P <> Q}. Proof. repeat decide equality. Defined.
Definition tab_eqb (l m : list g2) : bool := if list_eq_dec pl_dec (tab l) (tab m) then true else false.
(* signs are left out *)
Definition encb (c : positive) (b : bool) : positive := if b then xI c else xO c.
Definition encp (c : positive) (P : pl) : positive := let '(_, (xa, za), (xb, zb)) := P in encb (encb (encb (encb c xa) za) xb) zb.
Definition enc (l : list pl) : positive := fold_left encp l xH.
Definition is (o : option N) (i : N) : bool := match o with Some j => N.eqb i j | None => false end.
Definition keys : list (positive * N) := map (fun d => (enc (tab (body2 d)), canD d)) bodies.
Definition table_check : bool := (fun l => (fun t => forallb (fun kc => is (PositiveMap.find (fst kc) t) (snd kc)) l) (fold_left (fun m kc => PositiveMap.add (fst kc) (snd kc) m) l (PositiveMap.empty N))) keys.
Lemma table_ok : table_check = true. Proof. vm_compute. reflexivity. Qed.
Lemma enc_can d e : d < 720 -> e < 720 -> enc (tab (body2 d)) = enc (tab (body2 e)) -> canD d = canD e.
Proof.
  intros A B E. pose proof table_ok as T. unfold table_check in T. cbv beta in T. rewrite forallb_forall in T.
  assert (I : forall x, x < 720 -> In (enc (tab (body2 x)), canD x) keys) by (intros x L; unfold keys; apply in_map_iff; exists x; split; [reflexivity|now apply bodies_in]).
  pose proof (T _ (I d A)) as Td. pose proof (T _ (I e B)) as Te. cbn [fst snd] in Td, Te. rewrite E in Td. destruct (PositiveMap.find _ _); cbn [is] in *; [|discriminate]. apply N.eqb_eq in Td, Te. congruence.
Qed.
Lemma body_ok : forallb (fun d => if list_eq_dec g2_dec (body2 d) (body2 (canD d)) then true else false) bodies = true.
Proof. vm_compute. reflexivity. Qed.
Lemma body_can d : d < 720 -> body2 d = body2 (canD d).
Proof. intros L. pose proof body_ok as T. rewrite forallb_forall in T. specialize (T d (bodies_in d L)). cbv beta in T. destruct (list_eq_dec _ _ _); [assumption|discriminate]. Qed.
(* Pauli gates change signs *)
Definition cp (p : N) : list g2 := cpau (p mod 4) false ++ cpau (p / 4) true.
Definition code_bits (c : N) : bool * bool := match c with 1 => (false, true) | 2 => (true, false) | 3 => (true, true) | _ => (false, false) end.
Definition sgn (p : N) (P : pl) : bool := let '(_, (xa, za), (xb, zb)) := P in let '(x, z) := code_bits (p mod 4) in let '(x', z') := code_bits (p / 4) in xorb (xorb (x && za) (z && xa)) (xorb (x' && zb) (z' && xb)).
Definition flip (b : bool) (P : pl) : pl := let '(k, u, v) := P in ((if b then match k with 0 => 2 | 1 => 3 | 2 => 0 | 3 => 1 | k => k end else k)%nat, u, v).
Definition bools : list bool := [false; true].
Lemma flip_ok : forallb (fun p => forallb (fun k => forallb (fun xa => forallb (fun za => forallb (fun xb => forallb (fun zb =>
  if pl_dec (conj (cp p) (k, (xa, za), (xb, zb))) (flip (sgn p (k, (xa, za), (xb, zb))) (k, (xa, za), (xb, zb))) then true else false) bools) bools) bools) bools) [0; 1; 2; 3]%nat) (upN 16 0) = true.
Proof. vm_compute. reflexivity. Qed.
Lemma in_bools b : In b bools. Proof. destruct b; cbn; auto. Qed.
Lemma conj_cp p P : p < 16 -> normal P -> conj (cp p) P = flip (sgn p P) P.
Proof.
  intros L N. destruct P as [[k [xa za]] [xb zb]]. unfold normal in N. cbn [fst] in N. pose proof flip_ok as T. rewrite forallb_forall in T. specialize (T p (upN_in 16 0 p (N.le_0_l p) L)). cbv beta in T.
  rewrite forallb_forall in T. specialize (T k ltac:(cbn; lia)). cbv beta in T.
  rewrite forallb_forall in T. specialize (T xa (in_bools xa)). cbv beta in T. rewrite forallb_forall in T. specialize (T za (in_bools za)). cbv beta in T.
  rewrite forallb_forall in T. specialize (T xb (in_bools xb)). cbv beta in T. rewrite forallb_forall in T. specialize (T zb (in_bools zb)). cbv beta in T. destruct (pl_dec _ _); [assumption|discriminate].
Qed.
Lemma tab_cp l p : p < 16 -> tab (l ++ cp p) = map (fun P => flip (sgn p P) P) (tab l).
Proof.
  intros L. unfold tab. rewrite map_map. apply map_ext_in. intros P I. rewrite conj_app. apply conj_cp; [exact L|]. apply conj_normal. cbn in I. destruct I as [<-|[<-|[<-|[<-|[]]]]]; cbv; lia.
Qed.
Lemma enc_flip p : forall l c, fold_left encp (map (fun P => flip (sgn p P) P) l) c = fold_left encp l c.
Proof. induction l as [|[[k [xa za]] [xb zb]] l IH]; intros c; [reflexivity|]. cbn [map fold_left]. rewrite IH. reflexivity. Qed.
Lemma enc_cp l p : p < 16 -> enc (tab (l ++ cp p)) = enc (tab l).
Proof. intros L. rewrite tab_cp by exact L. apply enc_flip. Qed.
Definition signs (t : list pl) (p : N) : positive := fold_left (fun c P => encb c (sgn p P)) t xH.
Fixpoint distinct (l : list positive) : bool := match l with [] => true | x :: r => forallb (fun y => negb (Pos.eqb x y)) r && distinct r end.
Definition signs_check (l : list g2) : bool := (fun t => distinct (map (signs t) (upN 16 0))) (tab l).
Lemma signs_ok : forallb (fun d => signs_check (body2 d)) bodies = true. Proof. vm_compute. reflexivity. Qed.
Lemma distinct_NoDup l : distinct l = true -> NoDup l.
Proof.
  induction l as [|x r IH]; intros H; constructor; cbn [distinct] in H; apply andb_true_iff in H as [H1 H2]; [|auto].
  intros I. rewrite forallb_forall in H1. specialize (H1 x I). rewrite Pos.eqb_refl in H1. discriminate.
Qed.
Lemma NoDup_snoc {A} (l : list A) x : NoDup l -> ~ In x l -> NoDup (l ++ [x]).
Proof. intros N I. apply (NoDup_Add (a := x) (l := l)); [|auto]. rewrite <- (app_nil_r l) at 1. apply Add_app. Qed.
Lemma NoDup_map_inj {A B} (f : A -> B) (l : list A) x y : NoDup (map f l) -> In x l -> In y l -> f x = f y -> x = y.
Proof.
  induction l as [|a l IH]; intros N I J E; [destruct I|]. cbn [map] in N. inversion N as [|? ? N1 N2]; subst. destruct I as [<-|I], J as [<-|J]; auto.
  - destruct N1. rewrite E. now apply in_map.
  - destruct N1. rewrite <- E. now apply in_map.
Qed.
Lemma flip_inj a b P : normal P -> flip a P = flip b P -> a = b.
Proof. destruct P as [[k u] v]. unfold normal. cbn [fst]. intros N. destruct k as [|[|[|[|k]]]]; [| | | |lia]; destruct a, b; cbn; intros E; try reflexivity; discriminate E. Qed.
Lemma signs_eq p q : forall l c, Forall normal l -> map (fun P => flip (sgn p P) P) l = map (fun P => flip (sgn q P) P) l -> fold_left (fun c P => encb c (sgn p P)) l c = fold_left (fun c P => encb c (sgn q P)) l c.
Proof.
  induction l as [|P l IH]; intros c F E; [reflexivity|]. cbn [map] in E. inversion F as [|? ? NP NF]; subst. injection E as E1 E2. cbn [fold_left]. rewrite (flip_inj _ _ P NP E1). now apply IH.
Qed.
Lemma tab_normal l : Forall normal (tab l).
Proof. unfold tab. apply Forall_forall. intros P I. apply in_map_iff in I as (Q & <- & I). apply conj_normal. cbn in I. destruct I as [<-|[<-|[<-|[<-|[]]]]]; cbv; lia. Qed.
Lemma code2_split i : i < 11520 -> code2 i = body2 (i / 16) ++ cp (i mod 16). Proof. intros L. unfold code2, cp. now rewrite N.mod_small. Qed.
Lemma div16 i : i < 11520 -> i / 16 < 720. Proof. intros L. apply N.div_lt_upper_bound; lia. Qed.
Lemma mod16 i : i mod 16 < 16. Proof. apply N.mod_lt. discriminate. Qed.
Lemma can_iff i j : can i = can j <-> canD (i / 16) = canD (j / 16) /\ i mod 16 = j mod 16.
Proof. unfold can. pose proof (mod16 i) as A. pose proof (mod16 j) as B. revert A B. generalize (i mod 16), (j mod 16), (canD (i / 16)), (canD (j / 16)). intros p q c d A B. lia. Qed.
Lemma tab_can i j : i < 11520 -> j < 11520 -> (tab (code2 i) = tab (code2 j) <-> can i = can j).
Proof.
  intros A B. rewrite can_iff, !code2_split by assumption. pose proof (div16 i A) as Di. pose proof (div16 j B) as Dj. pose proof (mod16 i) as Mi. pose proof (mod16 j) as Mj. split.
  - intros E. assert (C : canD (i / 16) = canD (j / 16)) by (apply enc_can; auto; rewrite <- (enc_cp _ (i mod 16) Mi), <- (enc_cp (body2 (j / 16)) (j mod 16) Mj); now rewrite E). split; [exact C|].
    rewrite (body_can _ Di), (body_can _ Dj), C, <- (body_can _ Dj) in E. rewrite !tab_cp in E by assumption.
    pose proof signs_ok as T. rewrite forallb_forall in T. specialize (T _ (bodies_in _ Dj)). cbv beta in T. unfold signs_check in T. cbv beta in T. apply distinct_NoDup in T.
    apply (NoDup_map_inj _ _ _ _ T); [apply upN_in; [apply N.le_0_l|exact Mi]|apply upN_in; [apply N.le_0_l|exact Mj]|]. apply signs_eq; [apply tab_normal|exact E].
  - intros [C ->]. now rewrite (body_can _ Di), (body_can _ Dj), C.
Qed.
Lemma code2_mod n : code2 (n mod 11520) = code2 n.
Proof. unfold code2. now rewrite N.mod_mod by discriminate. Qed.
Lemma fiberD_ok : forallb (fun d => existsb (N.eqb d) (fiberD (canD d)) && (if list_eq_dec N.eq_dec (fiberD d) (fiberD (canD d)) then true else false) &&
  forallb (fun n => (n <? 720) && (canD n =? canD d)) (fiberD d)) bodies = true.
Proof. vm_compute. reflexivity. Qed.
Lemma fiberD_spec d e : e < 720 -> (In d (fiberD e) <-> d < 720 /\ canD d = canD e).
Proof.
  intros L. pose proof fiberD_ok as T. rewrite forallb_forall in T. split.
  - intros I. specialize (T e (bodies_in e L)). cbv beta in T. apply andb_true_iff in T as [_ T]. rewrite forallb_forall in T. specialize (T d I). cbv beta in T. apply andb_true_iff in T as [A B]. split; [now apply N.ltb_lt|now apply N.eqb_eq].
  - intros [Ld C]. pose proof (T d (bodies_in d Ld)) as Td. pose proof (T e (bodies_in e L)) as Te. cbv beta in Td, Te. apply andb_true_iff in Td as [Td _], Te as [Te _]. apply andb_true_iff in Td as [Td _], Te as [_ Te].
    destruct (list_eq_dec _ _ _) as [E|]; [|discriminate]. rewrite E, <- C. apply existsb_exists in Td as (x & I & X). apply N.eqb_eq in X. now subst x.
Qed.
Lemma fiber_spec a b r n : a <> b -> r < 11520 -> (In n (fiber r) <-> drawn n /\ same_operator (clifford2 n a b) (clifford2 r a b)).
Proof.
  intros N L. rewrite !code2_ok, same_op_tab by auto. rewrite <- (code2_mod n). rewrite tab_can by (auto; now apply N.mod_lt). rewrite can_iff. unfold drawn, fiber. rewrite in_app_iff, in_map_iff.
  pose proof (div16 r L) as Dr. pose proof (mod16 r) as Mr. destruct (N.lt_trichotomy n 11520) as [Lt|[->|Gt]].
  - rewrite (N.mod_small n) by exact Lt. pose proof (N.div_mod n 16 ltac:(discriminate)) as Dn. pose proof (mod16 n) as Mn. split.
    + intros [(d & E & I)|I]; [|destruct (r =? 0); [destruct I as [I|[]]; lia|destruct I]]. apply (fiberD_spec d _ Dr) in I as [Ld C].
      assert (En : n / 16 = d) by (symmetry; apply N.div_unique with (r mod 16); lia). assert (Em : n mod 16 = r mod 16) by (symmetry; apply N.mod_unique with d; lia). rewrite En. repeat split; [lia|exact C|exact Em].
    + intros (_ & C & Em). left. exists (n / 16). split; [lia|]. apply (fiberD_spec _ _ Dr). split; [now apply div16|exact C].
  - change (11520 mod 11520) with 0. change (0 / 16) with 0. change (0 mod 16) with 0. change (canD 0) with 0. split.
    + intros [(d & E & I)|I]; [apply (fiberD_spec d _ Dr) in I as [Ld _]; lia|]. destruct (N.eqb_spec r 0) as [->|]; [|destruct I]. split; [lia|]. split; reflexivity.
    + intros (_ & C & Em). right. assert (Z : In (r / 16) (fiberD 0)) by (apply fiberD_spec; [lia|]; split; [exact Dr|now symmetry]). destruct Z as [Z|[]].
      pose proof (N.div_mod r 16 ltac:(discriminate)) as D. rewrite <- Z, <- Em in D. cbn in D. subst r. now left.
  - split; [|intros [D _]; lia]. intros [(d & E & I)|I]; [apply (fiberD_spec d _ Dr) in I as [Ld _]; lia|]. destruct (r =? 0); [destruct I as [I|[]]; lia|destruct I].
Qed.
Lemma fiber_length r : r < 11520 -> NoDup (fiber r) /\ length (fiber r) = if r =? 0 then 2%nat else if r <? 5760 then 1%nat else 3%nat.
Proof.
  intros L. unfold fiber, fiberD. assert (E : (r / 16 <? 360) = (r <? 5760)).
  { pose proof (N.div_mod r 16 ltac:(discriminate)) as D. pose proof (mod16 r) as M. clear L. revert D M. generalize (r / 16), (r mod 16). intros d m D M. destruct (N.ltb_spec d 360), (N.ltb_spec r 5760); try reflexivity; lia. }
  rewrite E. destruct (N.eqb_spec r 0) as [->|N]; [split; [repeat constructor; cbn; intuition discriminate|reflexivity]|].
  destruct (N.ltb_spec r 5760); [split; [repeat constructor; cbn; intuition|reflexivity]|]. generalize (canD (r / 16)), (r mod 16). intros c p.
  destruct (r / 16 <? 684); cbn [map app]; (split; [repeat constructor; cbn [In]; intuition lia|reflexivity]).
Qed.

(** One qubit *)
Definition table1 : list (list pl) := map (fun i => tab (code1 (N.of_nat i))) (seq 0 24).
Definition cgs (g : g2) (t : list pl) : list pl := map (cg g) t.
Lemma tab_snoc l g : tab (l ++ [g]) = cgs g (tab l).
Proof. unfold tab, cgs. rewrite map_map. apply map_ext. intros P. rewrite conj_app. reflexivity. Qed.
Lemma table1_closed : forallb (fun t => forallb (fun g => if in_dec (list_eq_dec pl_dec) (cgs g t) table1 then true else false) [GH false; GS false; GSd false; GX false; GY false; GZ false]) table1 = true.
Proof. vm_compute. reflexivity. Qed.
Lemma code1_mod n : code1 (n mod 24) = code1 n.
Proof. unfold code1. now rewrite N.mod_mod by discriminate. Qed.
Definition indices1 : list N := map N.of_nat (seq 0 24).
Lemma table1_inj : forallb (fun i => forallb (fun j => negb (tab_eqb (code1 i) (code1 j)) || (i =? j)) indices1) indices1 = true.
Proof. vm_compute. reflexivity. Qed.
Lemma tab1_inj i j : i < 24 -> j < 24 -> tab (code1 i) = tab (code1 j) -> i = j.
Proof.
  intros A B E. pose proof table1_inj as T. rewrite forallb_forall in T. specialize (T i (seqN_in 24 _ A)). cbv beta in T. rewrite forallb_forall in T. specialize (T j (seqN_in 24 _ B)). cbv beta in T.
  unfold tab_eqb in T. destruct (list_eq_dec _ _ _); [|contradiction]. now apply N.eqb_eq.
Qed.
Lemma gates1_code q b l : gates1 q l -> exists m, l = map (interp q b) m /\ forallb oneside m = true.
Proof.
  induction 1 as [|t l I _ (m & -> & O)]; [now exists []|].
  assert (G : exists g, g1 t q = interp q b g /\ oneside g = true).
  { destruct I as [<-|[<-|[<-|[<-|[<-|[<-|[]]]]]]]; [exists (GH false)|exists (GS false)|exists (GSd false)|exists (GX false)|exists (GY false)|exists (GZ false)]; split; reflexivity. }
  destruct G as (g & -> & Og). exists (m ++ [g]). rewrite map_app, forallb_app, O. cbn [map forallb]. now rewrite Og.
Qed.
Lemma oneside_in_table m : forallb oneside m = true -> In (tab m) table1.
Proof.
  induction m as [|g m IH] using rev_ind; intros O.
  - vm_compute. tauto.
  - rewrite forallb_app in O. apply andb_true_iff in O as [O Og]. specialize (IH O). rewrite tab_snoc.
    pose proof table1_closed as T. rewrite forallb_forall in T. specialize (T _ IH). cbv beta in T. rewrite forallb_forall in T.
    specialize (T g). cbv beta in T. cbn [forallb] in Og. rewrite andb_true_r in Og.
    destruct (in_dec _ _ _) as [I|]; [exact I|]. discriminate T. destruct g as [[]|[]|[]|[]|[]|[]|s]; try discriminate Og; cbn; tauto.
Qed.
