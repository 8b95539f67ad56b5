(* makeGateDD and makeTwoQubitGateDD build the controlled gate they are asked for. *)
From Coq Require Import Reals Lra Psatz List Bool Arith Lia FunctionalExtensionality Sorted.
From Verif Require Import Cplx Qsem DDModel DDSpec DDProofs DDCanonProofs DDOpsProofs.
Import ListNotations.
Local Open Scope R_scope.

(* r and c agree on the qubits below n that are not in ts *)
Definition agree_off (n : nat) (ts : list nat) (r c : bits) : bool :=
  forallb (fun q => existsb (Nat.eqb q) ts || eqb (r q) (c q)) (seq 0 n).
Definition delta (b : bool) : C := if b then C1 else C0.

Lemma forallb_ext_in {A} (f g : A -> bool) l : (forall x, In x l -> f x = g x) -> forallb f l = forallb g l.
Proof. induction l; cbn; intros H; auto. rewrite H, IHl; auto. Qed.
Lemma agree_off_S n ts r c : agree_off (S n) ts r c = agree_off n ts r c && (existsb (Nat.eqb n) ts || eqb (r n) (c n)).
Proof. unfold agree_off. rewrite seq_S, forallb_app. cbn [forallb Nat.add]. rewrite andb_true_r. auto. Qed.
Lemma mem_false q ts : existsb (Nat.eqb q) ts = false <-> ~ In q ts.
Proof.
  split.
  - intros H I. assert (existsb (Nat.eqb q) ts = true); [|congruence].
    apply existsb_exists. exists q; split; auto. apply Nat.eqb_refl.
  - intros H. destruct (existsb (Nat.eqb q) ts) eqn:E; auto. apply existsb_exists in E as (x & A & B).
    apply Nat.eqb_eq in B; subst; tauto.
Qed.
Lemma mden_MT n r c : mden n MT r c = delta (agree_off n [] r c).
Proof.
  induction n as [|n IH]; cbn [mden]; auto. rewrite agree_off_S. cbn [existsb orb]. rewrite IH.
  destruct (eqb (r n) (c n)); rewrite ?andb_true_r, ?andb_false_r; auto.
Qed.
Lemma sat_app cs ds b : sat (cs ++ ds) b = sat cs b && sat ds b.
Proof. unfold sat. apply forallb_app. Qed.
Lemma sat_one q p b : sat [(q, p)] b = eqb (b q) p.
Proof. unfold sat; cbn. apply andb_true_r. Qed.

Section inv.
  (* X, Y: what the block is when the controls are satisfied / not satisfied *)
  Variables X Y : nat -> bits -> bits -> C.
  Definition liftable (k : nat) : Prop :=
    (forall r c, X (S k) r c = if eqb (r k) (c k) then X k r c else C0) /\
    (forall r c, Y (S k) r c = if eqb (r k) (c k) then Y k r c else C0).
  Definition Inv (k : nat) (done : list ctl) (e : medge) : Prop :=
    mcanon k e /\ forall r c, meden k e r c = if sat done r then X k r c else Y k r c.

  Lemma inv_lift k q done e : (k <= q)%nat -> (forall x, (k <= x < q)%nat -> liftable x) ->
    Inv k done e -> Inv q done e.
  Proof.
    intros H L [A B]. replace q with (q - k + k)%nat in * by lia.
    set (d := (q - k)%nat) in *. clearbody d. clear H q.
    induction d as [|d IH]; cbn [Nat.add]; [split; auto|].
    destruct IH as [C D]; [intros; apply L; lia|].
    split; [unfold mcanon; eapply mcan_mono; [|apply C]; lia|].
    intros r c. unfold meden. rewrite mden_lift by (eapply mcan_lev; apply C).
    destruct (L (d + k)%nat) as [LX LY]; [lia|]. rewrite LX, LY.
    destruct (eqb _ _); [apply D|]. destruct (sat done r); ring.
  Qed.
  Lemma inv_ctl q p done e idl : Inv q done e -> mcanon q idl -> (forall r c, meden q idl r c = Y q r c) ->
    liftable q -> Inv (S q) (done ++ [(q, p)]) (mmk q (ctl_edges p e idl)).
  Proof.
    intros [A B] CI DI [LX LY].
    assert (W : forall i j, mcanon q (ctl_edges p e idl i j)).
    { intros i j. unfold ctl_edges. destruct (eqb i j); [destruct (eqb i p); auto|exact Logic.I]. }
    split; [apply mmk_canon; auto|].
    intros r c. rewrite mmk_den by (intros; apply mcanon_wf, W). rewrite LX, LY, sat_app, sat_one.
    unfold ctl_edges. destruct (eqb (r q) (c q)).
    - destruct (eqb (r q) p); [rewrite andb_true_r; auto|rewrite andb_false_r; auto].
    - unfold meden; cbn [fst mzero]. destruct (_ && _); ring.
  Qed.
End inv.

Definition ctl_sorted (cs : list ctl) : Prop := StronglySorted (fun a b => (fst a < fst b)%nat) cs.

(* the agreement families *)
Definition XM (ts : list nat) (f : bits -> bits -> C) (k : nat) (r c : bits) : C :=
  if agree_off k ts r c then f r c else C0.
Lemma XM_lift ts f k : ~ In k ts -> forall r c, XM ts f (S k) r c = if eqb (r k) (c k) then XM ts f k r c else C0.
Proof.
  intros H r c. unfold XM. rewrite agree_off_S. apply mem_false in H. rewrite H. cbn [orb].
  destruct (eqb (r k) (c k)); rewrite ?andb_true_r, ?andb_false_r; auto.
Qed.

(* a family of blocks, one for every pair (i, j) of an index type *)
Lemma mdelta_den n b r c : meden n (mdelta b) r c = XM [] (fun _ _ => delta b) n r c.
Proof.
  unfold meden, XM. destruct b; cbn [mdelta mone mzero fst snd delta].
  - rewrite mden_MT. unfold delta. destruct (agree_off n [] r c); ring.
  - destruct (agree_off n [] r c); ring.
Qed.
Lemma mdelta_canon n b : mcanon n (mdelta b).
Proof. destruct b; exact Logic.I. Qed.

Definition below (t : nat) (cs : list ctl) : Prop := Forall (fun c => (fst c < t)%nat) cs.
Definition above (t : nat) (cs : list ctl) : Prop := Forall (fun c => (t < fst c)%nat) cs.

(* lines below the target *)
Lemma gate_below_spec (F : bool -> bool -> bits -> bits -> C) (G : list nat) t : forall cs k done em,
  ctl_sorted cs -> (k <= t)%nat -> Forall (fun c => (k <= fst c)%nat) cs -> ~ In t (map fst cs) ->
  (forall x, (k <= x)%nat -> ~ In x G) ->
  (forall i j, Inv (XM G (F i j)) (fun n r c => meden n (mdelta (eqb i j)) r c) k done (em i j)) ->
  exists lo rest k' em', cs = lo ++ rest /\ gate_below t cs em = (rest, em') /\ above t rest /\ ctl_sorted rest /\
    (k' <= t)%nat /\ (k <= k')%nat /\
    forall i j, Inv (XM G (F i j)) (fun n r c => meden n (mdelta (eqb i j)) r c) k' (done ++ lo) (em' i j).
Proof.
  induction cs as [|[q p] cs IH]; intros k done em Hs Hk Hc Ht HG HI; cbn [gate_below].
  - exists [], [], k, em. rewrite (app_nil_r done). split; [auto|]. split; [auto|]. split; [constructor|]. split; [constructor|]. split; [auto|]. split; [auto|]. exact HI.
  - assert (Sq : ctl_sorted cs /\ Forall (fun c => (q < fst c)%nat) cs) by (inversion Hs; auto).
    destruct Sq as [Sq Fq].
    destruct (Nat.ltb_spec q t).
    + assert (Lq : (k <= q)%nat) by (inversion Hc; auto).
      assert (LF : forall i j x, (k <= x)%nat -> liftable (XM G (F i j)) (fun n r c => meden n (mdelta (eqb i j)) r c) x).
      { intros i j x Hx. split; [intros; apply XM_lift; auto|].
        intros r c. rewrite !mdelta_den. apply XM_lift. auto. }
      destruct (IH (S q) (done ++ [(q, p)]) (fun i j => mmk q (ctl_edges p (em i j) (mdelta (eqb i j)))))
        as (lo & rest & k' & em' & E1 & E2 & E3 & E4 & E5 & E6 & E7); auto.
      * cbn in Ht. tauto.
      * intros; apply HG; lia.
      * intros i j. apply inv_ctl; auto using mdelta_canon.
        apply (inv_lift _ _ k); auto. intros; apply LF; lia.
      * exists ((q, p) :: lo), rest, k', em'. split; [rewrite E1; auto|]. split; [auto|]. split; [auto|].
        split; [auto|]. split; [auto|]. split; [lia|]. intros i j. specialize (E7 i j).
        rewrite <- app_assoc in E7. auto.
    + exists [], ((q, p) :: cs), k, em. rewrite (app_nil_r done). split; [auto|]. split; [auto|].
      cbn in Ht. assert (t < q)%nat by lia.
      split; [|auto].
      constructor; [auto|]. rewrite Forall_forall in Fq |- *. intros x Hx. apply Fq in Hx. cbn in *; lia.
Qed.

(* lines above the target(s) *)
Lemma gate_above_spec (f : bits -> bits -> C) (G : list nat) : forall cs k done e,
  ctl_sorted cs -> Forall (fun c => (k <= fst c)%nat) cs -> (forall x, (k <= x)%nat -> ~ In x G) ->
  Inv (XM G f) (fun n r c => meden n mone r c) k done e ->
  forall n, (k <= n)%nat -> Forall (fun c => (fst c < n)%nat) cs ->
  Inv (XM G f) (fun n r c => meden n mone r c) n (done ++ cs) (gate_above cs e).
Proof.
  assert (LF : forall x, ~ In x G -> liftable (XM G f) (fun n r c => meden n mone r c) x).
  { intros x Hx. split; [intros; apply XM_lift; auto|].
    intros r c. change mone with (mdelta true). rewrite !mdelta_den. apply XM_lift. auto. }
  induction cs as [|[q p] cs IH]; intros k done e Hs Hc HG HI n Hn Hb; cbn [gate_above].
  - rewrite app_nil_r. apply (inv_lift _ _ k); auto. intros; apply LF, HG; lia.
  - assert (Lq : (k <= q)%nat) by (inversion Hc; auto).
    assert (Sq : ctl_sorted cs /\ Forall (fun c => (q < fst c)%nat) cs) by (inversion Hs; auto).
    destruct Sq as [Sq Fq].
    assert (q < n)%nat by (inversion Hb; auto).
    specialize (IH (S q) (done ++ [(q, p)]) (mmk q (ctl_edges p e mone))).
    rewrite <- app_assoc in IH. apply IH; auto.
    + intros; apply HG; lia.
    + apply inv_ctl; auto.
      * apply (inv_lift _ _ k); auto. intros; apply LF, HG; lia.
      * exact Logic.I.
    + inversion Hb; auto.
Qed.

Definition ctls_ok (n : nat) (cs : list ctl) (ts : list nat) : Prop :=
  ctl_sorted cs /\ Forall (fun c => (fst c < n)%nat) cs /\ Forall (fun t => (t < n)%nat) ts /\
  forall t, In t ts -> ~ In t (map fst cs).

(* the entry (r, c) of a controlled gate with the payload matrix entry f r c on targets ts *)
Definition cgate (n : nat) (cs : list ctl) (ts : list nat) (f : bits -> bits -> C) (r c : bits) : C :=
  if sat cs r then XM ts f n r c else delta (agree_off n [] r c).

Lemma agree_off_nil k r c q : agree_off k [] r c = true -> (q < k)%nat -> eqb (r q) (c q) = true.
Proof.
  intros H L. unfold agree_off in H. rewrite forallb_forall in H. apply (H q). apply in_seq; lia.
Qed.

Lemma ctl_sorted_ge cs k : ctl_sorted cs -> above k cs -> Forall (fun c => (S k <= fst c)%nat) cs.
Proof. intros _ H. eapply Forall_impl; [|apply H]. cbn; intros; lia. Qed.

(* makeDDNode at a target turns a family of blocks into one block *)
Lemma target_step (F : bool -> bool -> bits -> bits -> C) (G : list nat) t done em :
  ~ In t G ->
  (forall i j, Inv (XM G (F i j)) (fun n r c => meden n (mdelta (eqb i j)) r c) t done (em i j)) ->
  Inv (XM (t :: G) (fun r c => F (r t) (c t) r c)) (fun n r c => meden n mone r c) (S t) done (mmk t em).
Proof.
  intros HG H. split; [apply mmk_canon; intros; right; apply H|].
  intros r c. rewrite mmk_den by (intros i j; apply mcanon_wf, H). rewrite (proj2 (H _ _)).
  destruct (sat done r).
  - unfold XM. rewrite agree_off_S. cbn [existsb]. rewrite Nat.eqb_refl. cbn [orb]. rewrite andb_true_r.
    replace (agree_off t (t :: G) r c) with (agree_off t G r c); auto.
    unfold agree_off. apply forallb_ext_in. intros q Hq. apply in_seq in Hq. cbn [existsb].
    destruct (Nat.eqb_spec q t); [lia|auto].
  - change mone with (mdelta true). rewrite !mdelta_den. unfold XM. rewrite agree_off_S. cbn [existsb orb].
    destruct (eqb (r t) (c t)), (agree_off t [] r c); auto.
Qed.

Lemma existsb_ctl_lt n cs : Forall (fun c : ctl => (fst c < n)%nat) cs -> existsb (fun c => Nat.leb n (fst c)) cs = false.
Proof.
  intros H. destruct (existsb (fun c : ctl => Nat.leb n (fst c)) cs) eqn:E; auto. apply existsb_exists in E as (x & A & B).
  rewrite Forall_forall in H. apply H in A. apply Nat.leb_le in B. lia.
Qed.

Lemma Inv_ext X X' Y Y' k done e :
  (forall r c, X k r c = X' k r c) -> (forall r c, Y k r c = Y' k r c) -> Inv X Y k done e -> Inv X' Y' k done e.
Proof. intros A B [C D]. split; auto. intros r c. rewrite D, A, B. auto. Qed.

(* C13 *)
Lemma makeGateDD_spec n nqubits mat cs t : (n <= nqubits)%nat -> ctls_ok n cs [t] ->
  exists e, makeGateDD nqubits mat cs t = DOk e /\ mcanon n e /\
    forall r c, meden n e r c = cgate n cs [t] (fun r c => mat (r t) (c t)) r c.
Proof.
  intros Hn (Hs & Hc & Ht & Hd).
  assert (Htn : (t < n)%nat) by (inversion Ht; auto).
  unfold makeGateDD. rewrite existsb_ctl_lt by (eapply Forall_impl; [|apply Hc]; cbn; intros; lia).
  destruct (Nat.leb_spec nqubits t); [lia|]. cbn [orb].
  assert (E : (match cs with [] => DOk (mmk t (fun i j => (mat i j, MT)))
       | _ => let '(rest, em') := gate_below t cs (fun i j => (mat i j, MT)) in DOk (gate_above rest (mmk t em')) end)
       = let '(rest, em') := gate_below t cs (fun i j => (mat i j, MT)) in DOk (gate_above rest (mmk t em'))).
  { destruct cs; auto. }
  rewrite E; clear E.
  destruct (gate_below_spec (fun i j _ _ => mat i j) [] t cs 0 [] (fun i j => (mat i j, MT)))
    as (lo & rest & k' & em' & E1 & E2 & E3 & E4 & E5 & E6 & E7); auto; try lia.
  - apply Forall_forall. intros; lia.
  - apply Hd; left; auto.
  - intros i j. split; [exact Logic.I|]. intros r c. cbn [sat forallb XM]. unfold meden, XM; cbn [fst snd mden agree_off seq forallb]. ring.
  - rewrite E2. eexists; split; [reflexivity|].
    assert (I : Inv (XM [t] (fun r c => mat (r t) (c t))) (fun n r c => meden n mone r c) n cs (gate_above rest (mmk t em'))).
    { rewrite E1. apply (gate_above_spec _ [t] rest (S t) lo); auto.
      - intros x Hx [<-|[]]. lia.
      - apply (target_step (fun i j _ _ => mat i j) []); auto.
        intros i j. apply (inv_lift _ _ k'); [auto| |apply E7].
        intros x Hx. split; [intros; apply XM_lift; auto|].
        intros r c. rewrite !mdelta_den. apply XM_lift. auto.
      - rewrite E1 in Hc. apply Forall_app in Hc. apply Hc. }
    destruct I as [A B]. split; auto. intros r c. rewrite B. unfold cgate. destruct (sat cs r); auto.
    change mone with (mdelta true). rewrite mdelta_den. auto.
Qed.

Lemma gate2_below_spec (F : bool -> bool -> bool -> bool -> C) t : forall cs k done em,
  ctl_sorted cs -> (k <= t)%nat -> Forall (fun c => (k <= fst c)%nat) cs -> ~ In t (map fst cs) ->
  (forall i1 i0 j1 j0, Inv (XM [] (fun _ _ => F i1 i0 j1 j0))
     (fun n r c => meden n (mdelta (eqb i1 j1 && eqb i0 j0)) r c) k done (em i1 i0 j1 j0)) ->
  exists lo rest k' em', cs = lo ++ rest /\ gate2_below t cs em = (rest, em') /\ above t rest /\ ctl_sorted rest /\
    (k' <= t)%nat /\
    forall i1 i0 j1 j0, Inv (XM [] (fun _ _ => F i1 i0 j1 j0))
     (fun n r c => meden n (mdelta (eqb i1 j1 && eqb i0 j0)) r c) k' (done ++ lo) (em' i1 i0 j1 j0).
Proof.
  induction cs as [|[q p] cs IH]; intros k done em Hs Hk Hc Ht HI; cbn [gate2_below].
  - exists [], [], k, em. rewrite (app_nil_r done). split; [auto|]. split; [auto|]. split; [constructor|]. split; [constructor|]. split; [auto|]. exact HI.
  - assert (Sq : ctl_sorted cs /\ Forall (fun c => (q < fst c)%nat) cs) by (inversion Hs; auto).
    destruct Sq as [Sq Fq].
    destruct (Nat.ltb_spec q t).
    + assert (Lq : (k <= q)%nat) by (inversion Hc; auto).
      assert (LF : forall i1 i0 j1 j0 x, liftable (XM [] (fun _ _ => F i1 i0 j1 j0)) (fun n r c => meden n (mdelta (eqb i1 j1 && eqb i0 j0)) r c) x).
      { intros i1 i0 j1 j0 x. split; [intros; apply XM_lift; auto|].
        intros r c. rewrite !mdelta_den. apply XM_lift. auto. }
      destruct (IH (S q) (done ++ [(q, p)]) (fun i1 i0 j1 j0 => mmk q (ctl_edges p (em i1 i0 j1 j0) (mdelta (eqb i1 j1 && eqb i0 j0)))))
        as (lo & rest & k' & em' & E1 & E2 & E3 & E4 & E5 & E7); auto.
      * cbn in Ht. tauto.
      * intros i1 i0 j1 j0. apply inv_ctl; auto using mdelta_canon.
        apply (inv_lift _ _ k); auto.
      * exists ((q, p) :: lo), rest, k', em'. split; [rewrite E1; auto|]. split; [auto|]. split; [auto|].
        split; [auto|]. split; [auto|]. intros i1 i0 j1 j0. specialize (E7 i1 i0 j1 j0).
        rewrite <- app_assoc in E7. auto.
    + exists [], ((q, p) :: cs), k, em. rewrite (app_nil_r done). split; [auto|]. split; [auto|].
      cbn in Ht. assert (t < q)%nat by lia.
      split; [|auto].
      constructor; [auto|]. rewrite Forall_forall in Fq |- *. intros x Hx. apply Fq in Hx. cbn in *; lia.
Qed.

(* the smaller target of a two-qubit gate: the idle block is the identity of the larger target's bits *)
Lemma target_step2 (F : bool -> bool -> bool -> bool -> C) t done em row col :
  (forall i j, Inv (XM [] (fun _ _ => F row i col j))
     (fun n r c => meden n (mdelta (eqb row col && eqb i j)) r c) t done (em i j)) ->
  Inv (XM [t] (fun r c => F row (r t) col (c t))) (fun n r c => meden n (mdelta (eqb row col)) r c) (S t) done (mmk t em).
Proof.
  intros H. split; [apply mmk_canon; intros; right; apply H|].
  intros r c. rewrite mmk_den by (intros i j; apply mcanon_wf, H). rewrite (proj2 (H _ _)).
  destruct (sat done r).
  - unfold XM. rewrite agree_off_S. cbn [existsb]. rewrite Nat.eqb_refl. cbn [orb]. rewrite andb_true_r.
    replace (agree_off t [t] r c) with (agree_off t [] r c); auto.
    unfold agree_off. apply forallb_ext_in. intros q Hq. apply in_seq in Hq. cbn [existsb].
    destruct (Nat.eqb_spec q t); [lia|auto].
  - rewrite !mdelta_den. unfold XM. rewrite agree_off_S. cbn [existsb orb].
    destruct (eqb (r t) (c t)), (agree_off t [] r c), (eqb row col); auto.
Qed.

(* C14: the first target is the more significant bit of the matrix index *)
Lemma makeTwoQubitGateDD_spec n nqubits (mat : mat4) cs t0 t1 : (n <= nqubits)%nat -> t0 <> t1 -> ctls_ok n cs [t0; t1] ->
  exists e, makeTwoQubitGateDD nqubits mat cs t0 t1 = DOk e /\ mcanon n e /\
    forall r c, meden n e r c = cgate n cs [t0; t1] (fun r c => mat (r t0) (r t1) (c t0) (c t1)) r c.
Proof.
  intros Hn Hne (Hs & Hc & Ht & Hd).
  assert (H0 : (t0 < n)%nat) by (inversion Ht; auto).
  assert (H1 : (t1 < n)%nat) by (inversion Ht as [|? ? _ K]; inversion K; auto).
  unfold makeTwoQubitGateDD. rewrite existsb_ctl_lt by (eapply Forall_impl; [|apply Hc]; cbn; intros; lia).
  destruct (Nat.leb_spec nqubits t0); [lia|]. destruct (Nat.leb_spec nqubits t1); [lia|]. cbn [orb].
  set (lo := Nat.min t0 t1). set (hi := Nat.max t0 t1).
  assert (LH : (lo < hi)%nat) by (unfold lo, hi; lia).
  assert (NL : ~ In lo (map fst cs)).
  { unfold lo. destruct (Nat.min_spec t0 t1) as [[_ ->]|[_ ->]]; apply Hd; cbn; auto. }
  assert (NH : ~ In hi (map fst cs)).
  { unfold hi. destruct (Nat.max_spec t0 t1) as [[_ ->]|[_ ->]]; apply Hd; cbn; auto. }
  destruct (gate2_below_spec mat lo cs 0 [] (fun i1 i0 j1 j0 => (mat i1 i0 j1 j0, MT)))
    as (l1 & r1 & k1 & em & E1 & E2 & E3 & E4 & E5 & E7); auto; try lia.
  { apply Forall_forall. intros; lia. }
  { intros i1 i0 j1 j0. split; [exact Logic.I|]. intros r c. unfold meden, XM; cbn [sat forallb fst snd mden agree_off seq]. ring. }
  rewrite E2.
  (* lift all sixteen blocks to the smaller target *)
  assert (L7 : forall i1 i0 j1 j0, Inv (XM [] (fun _ _ => mat i1 i0 j1 j0))
     (fun n r c => meden n (mdelta (eqb i1 j1 && eqb i0 j0)) r c) lo l1 (em i1 i0 j1 j0)).
  { intros. apply (inv_lift _ _ k1); [auto| |apply E7].
    intros x Hx. split; [intros; apply XM_lift; auto|]. intros r c. rewrite !mdelta_den. apply XM_lift. auto. }
  set (em0 := fun row col => mmk lo (fun i j => if Nat.ltb t1 t0 then em row i col j else em i row j col)).
  set (F := fun row col (r c : bits) =>
     if Nat.ltb t1 t0 then mat row (r lo) col (c lo) else mat (r lo) row (c lo) col).
  assert (I0 : forall row col, Inv (XM [lo] (F row col)) (fun n r c => meden n (mdelta (eqb row col)) r c) (S lo) l1 (em0 row col)).
  { intros row col. unfold em0, F. destruct (Nat.ltb t1 t0).
    - apply (target_step2 mat lo l1 (fun i j => em row i col j) row col). intros; apply L7.
    - apply (target_step2 (fun a b c d => mat b a d c) lo l1 (fun i j => em i row j col) row col).
      intros i j. eapply Inv_ext; [| |apply L7]; [reflexivity|]. intros r c. cbn beta. rewrite andb_comm. auto. }
  destruct (gate_below_spec F [lo] hi r1 (S lo) l1 em0)
    as (l2 & r2 & k2 & em1 & G1 & G2 & G3 & G4 & G5 & G6 & G7); auto; try lia.
  { intros K. apply NH. rewrite E1, map_app, in_app_iff; auto. }
  { intros x Hx [<-|[]]. lia. }
  unfold em0 in G2 |- *. rewrite G2. eexists; split; [reflexivity|].
  assert (I : Inv (XM [hi; lo] (fun r c => F (r hi) (c hi) r c)) (fun n r c => meden n mone r c) n cs (gate_above r2 (mmk hi em1))).
  { rewrite E1, G1, app_assoc. apply (gate_above_spec _ [hi; lo] r2 (S hi) (l1 ++ l2)); auto.
    - intros x Hx [<-|[<-|[]]]; lia.
    - apply target_step; [intros [|[]]; lia|].
      intros i j. apply (inv_lift _ _ k2); [auto| |apply G7].
      intros x Hx. assert (~ In x [lo]) by (intros [|[]]; lia). split; [intros; apply XM_lift; auto|].
      intros r c. rewrite !mdelta_den. apply XM_lift. auto.
    - unfold hi; lia.
    - rewrite E1, G1 in Hc. apply Forall_app in Hc as [_ Hc]. apply Forall_app in Hc. apply Hc. }
  destruct I as [A B]. split; auto. intros r c. rewrite B. unfold cgate. destruct (sat cs r).
  - unfold XM.
    assert (AG : agree_off n [hi; lo] r c = agree_off n [t0; t1] r c).
    { unfold agree_off. apply forallb_ext_in. intros q _. cbn [existsb]. unfold hi, lo.
      destruct (Nat.max_spec t0 t1) as [[X1 ->]|[X1 ->]]; destruct (Nat.min_spec t0 t1) as [[X2 ->]|[X2 ->]]; try lia;
        destruct (Nat.eqb q t0), (Nat.eqb q t1); auto. }
    rewrite AG. destruct (agree_off n [t0; t1] r c); auto.
    unfold F, hi, lo. destruct (Nat.ltb_spec t1 t0).
    + rewrite Nat.max_l, Nat.min_r by lia. auto.
    + rewrite Nat.max_r, Nat.min_l by lia. auto.
  - change mone with (mdelta true). rewrite mdelta_den. auto.
Qed.

(* ---- the gate as an operator on states --------------------------------------------------------------- *)

(* collapse of the sum over assignments that agree with b0 off ts *)
Fixpoint pick (n : nat) (ts : list nat) (b0 : bits) (g : bits -> C) (b : bits) : C :=
  match n with
  | O => g b
  | S k => if existsb (Nat.eqb k) ts
           then (pick k ts b0 g (setb b k false) + pick k ts b0 g (setb b k true))%C
           else pick k ts b0 g (setb b k (b0 k))
  end.
Lemma bsum_pick n ts b0 g b :
  bsum n (fun c => if agree_off n ts b0 c then g c else C0) b = pick n ts b0 g b.
Proof.
  assert (K : forall n f b b', (forall c, (forall q, (n <= q)%nat -> c q = b q) -> f c = C0) -> b = b' -> bsum n f b' = C0).
  { clear. induction n as [|n IH]; intros f b b' H <-; cbn [bsum]; [apply H; auto|].
    assert (E : forall v, bsum n f (setb b n v) = C0).
    { intros v. apply (IH f (setb b n v)); auto. intros c Hc. apply H. intros q Hq.
      rewrite Hc by lia. apply setb_other; lia. }
    rewrite !E. ring. }
  assert (EXT : forall n f h b, (forall c, (forall q, (n <= q)%nat -> c q = b q) -> f c = h c) -> bsum n f b = bsum n h b).
  { clear. induction n as [|n IH]; intros f h b H; cbn [bsum]; [apply H; auto|].
    f_equal; apply IH; intros c Hc; apply H; intros q Hq; rewrite Hc by lia; apply setb_other; lia. }
  revert b. induction n as [|n IH]; intros b; cbn [bsum pick]; auto.
  assert (E : forall v, bsum n (fun c => if agree_off (S n) ts b0 c then g c else C0) (setb b n v) =
      if existsb (Nat.eqb n) ts || eqb (b0 n) v then pick n ts b0 g (setb b n v) else C0).
  { intros v. rewrite <- IH. destruct (_ || _) eqn:Q.
    - apply EXT. intros c Hc. rewrite agree_off_S, (Hc n), setb_same, Q, andb_true_r by lia. auto.
    - apply (K n _ (setb b n v)); auto. intros c Hc. rewrite agree_off_S, (Hc n), setb_same, Q, andb_false_r by lia. auto. }
  rewrite !E. destruct (existsb (Nat.eqb n) ts); cbn [orb]; auto.
  destruct (b0 n); cbn [eqb]; ring.
Qed.
Lemma pick_none n ts b0 g b : (forall q, In q ts -> (n <= q)%nat) -> (forall q, (q < n)%nat -> b q = b0 q) ->
  pick n ts b0 g b = g b.
Proof.
  revert b. induction n as [|n IH]; intros b H E; cbn [pick]; auto.
  assert (M : existsb (Nat.eqb n) ts = false) by (apply mem_false; intros I; apply H in I; lia).
  rewrite M, <- E, setb_id by lia. apply IH; [intros q I; apply H in I; lia|intros; apply E; lia].
Qed.
(* the first target in the list may be split off *)
Lemma pick_split n t ts b0 g b : (t < n)%nat -> ~ In t ts -> 
  pick n (t :: ts) b0 g b = (pick n ts b0 (fun c => g (setb c t false)) b + pick n ts b0 (fun c => g (setb c t true)) b)%C.
Proof.
  intros Ht Hn.
  assert (ADD : forall n g h b, pick n ts b0 (fun c => (g c + h c)%C) b = (pick n ts b0 g b + pick n ts b0 h b)%C).
  { clear. induction n as [|n IH]; intros; cbn [pick]; auto. destruct existsb; rewrite ?IH; ring. }
  assert (LOW : forall n g b, (n <= t)%nat -> pick n (t :: ts) b0 g b = pick n ts b0 g b).
  { clear. induction n as [|n IH]; intros; cbn [pick existsb]; auto.
    destruct (Nat.eqb_spec n t); [lia|]. cbn [orb]. rewrite !IH by lia. auto. }
  assert (SET : forall n g b v, (n <= t)%nat -> pick n ts b0 g (setb b t v) = pick n ts b0 (fun c => g (setb c t v)) b).
  { clear. induction n as [|n IH]; intros g b v H; cbn [pick]; auto.
    rewrite !(setb_comm b t n) by lia. rewrite !IH by lia. auto. }
  assert (SET2 : forall n g b v u, (n <= t)%nat -> pick n ts b0 (fun c => g (setb c t v)) (setb b t u) = pick n ts b0 (fun c => g (setb c t v)) b).
  { intros m h b1 v u Hm. rewrite SET by auto. f_equal. apply functional_extensionality. intros c. rewrite setb_setb. auto. }
  revert g b. induction n as [|n IH]; intros g b; [lia|].
  cbn [pick]. destruct (Nat.eq_dec n t) as [->|Q].
  - cbn [existsb]. rewrite Nat.eqb_refl. cbn [orb]. apply mem_false in Hn. rewrite Hn.
    rewrite !LOW, !SET2, !SET by lia. auto.
  - cbn [existsb]. destruct (Nat.eqb_spec n t); [tauto|]. cbn [orb].
    destruct (existsb (Nat.eqb n) ts); rewrite !IH by lia; ring.
Qed.

Lemma agree_refl n ts b c : (forall q, ~ In q ts -> b q = c q) -> agree_off n ts b c = true.
Proof.
  intros H. unfold agree_off. apply forallb_forall. intros q _.
  destruct (existsb (Nat.eqb q) ts) eqn:E; auto. apply mem_false in E. rewrite (H q E). apply eqb_reflx.
Qed.

Lemma cgate_act n e cs ts (M : mat) psi :
  NoDup ts -> (forall t, In t ts -> (t < n)%nat) ->
  (forall r c, meden n e r c = cgate n cs ts (fun r c => M (map r ts) (map c ts)) r c) ->
  mact n e psi = capply cs M ts psi.
Proof.
  intros ND Hts H. apply functional_extensionality. intros b. unfold mact, capply.
  rewrite (bsum_ext n _ (fun c => if sat cs b then (if agree_off n ts b c then M (map b ts) (map c ts) * psi c else C0)
                                  else (if agree_off n [] b c then psi c else C0))%C).
  2:{ intros c. rewrite H. unfold cgate, XM, delta. destruct (sat cs b); destruct (agree_off _ _ _ _); ring. }
  destruct (sat cs b).
  - rewrite (bsum_pick n ts b). unfold apply.
    assert (G : forall ts, NoDup ts -> (forall t, In t ts -> (t < n)%nat) -> forall g,
        pick n ts b g b = csum (allb (length ts)) (fun v => g (setl b ts v))).
    { clear. induction ts as [|t ts IH]; intros ND Hts g.
      - cbn [allb length]. rewrite pick_none by (cbn; intuition auto). unfold csum. cbn. ring.
      - inversion ND; subst. rewrite pick_split by (auto; apply Hts; cbn; auto).
        rewrite !IH by (auto; intros; apply Hts; cbn; auto).
        cbn [length allb]. rewrite csum_app, !csum_map. f_equal; apply csum_ext; intros v Hv;
          cbn [setl]; f_equal; try apply setl_setb_comm; auto; symmetry; apply setl_setb_comm; auto. }
    rewrite G by auto. apply csum_ext. intros v Hv. apply allb_In in Hv. rewrite setl_map by auto. auto.
  - rewrite (bsum_pick n [] b). apply pick_none; auto. intros q [].
Qed.
