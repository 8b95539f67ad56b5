(* The weight of a ZX diagram in terms of adjacency, and how the elementary updates change it. *)
From Coq Require Import Reals QArith Qreals ZArith Bool List Arith Lia Lra Permutation FunctionalExtensionality.
From Verif Require Import Cplx Qsem PiModel PiProps ZXModel ZXSpec.
Import ListNotations.
Local Close Scope Q_scope.
Local Open Scope nat_scope.

(* ---- products ---------------------------------------------------------------------------------------------------- *)
Lemma cprod_ext {A} (l : list A) f g : (forall a, In a l -> f a = g a) -> cprod l f = cprod l g.
Proof. induction l; cbn; intros H; auto. rewrite H, IHl; auto. Qed.
Lemma cprod_app {A} (l m : list A) f : cprod (l ++ m) f = (cprod l f * cprod m f)%C.
Proof. induction l; cbn; [ring|]. rewrite IHl. ring. Qed.
Lemma cprod_mul {A} (l : list A) f g : cprod l (fun a => (f a * g a)%C) = (cprod l f * cprod l g)%C.
Proof. induction l; cbn; [ring|]. rewrite IHl. ring. Qed.
Lemma cprod_one {A} (l : list A) f : (forall a, In a l -> f a = C1) -> cprod l f = C1.
Proof. induction l; cbn; intros H; auto. rewrite H, IHl; auto. ring. Qed.
Lemma cprod_neq0 {A} (l : list A) f : (forall a, In a l -> f a <> C0) -> cprod l f <> C0.
Proof. induction l; cbn; intros H; [apply C1_neq_C0|]. apply Cmul_neq0; auto. Qed.
Lemma cprod_map {A B} (l : list A) (m : A -> B) f : cprod (map m l) f = cprod l (fun a => f (m a)).
Proof. induction l; cbn; auto. now rewrite IHl. Qed.
Lemma cprod_filter {A} (l : list A) p f : cprod (filter p l) f = cprod l (fun a => if p a then f a else C1).
Proof. induction l; cbn; auto. destruct (p a); cbn; rewrite IHl; auto. ring. Qed.
Lemma cprod_perm {A} (l m : list A) f : Permutation l m -> cprod l f = cprod m f.
Proof. induction 1; cbn; auto; try congruence; try ring. Qed.
Lemma cprod_comm {A B} (l : list A) (m : list B) f : cprod l (fun a => cprod m (fun b => f a b)) = cprod m (fun b => cprod l (fun a => f a b)).
Proof.
  induction l; cbn. - now rewrite cprod_one. - rewrite IHl. now rewrite <- cprod_mul.
Qed.
(* a product with one factor different *)
Lemma cprod_single {A} (dec : forall a b : A, {a = b} + {a <> b}) (l : list A) a w f : NoDup l -> In a l ->
  (forall b, In b l -> f b = if dec b a then w else C1) -> cprod l f = w.
Proof.
  induction l as [|c l IH]; cbn; [tauto|]. intros N I H. inversion N; subst. destruct I as [->|I].
  - rewrite H by auto. destruct (dec a a); [|congruence]. rewrite cprod_one; [ring|]. intros b B. rewrite H by auto. destruct (dec b a); auto. subst; tauto.
  - rewrite H by auto. destruct (dec c a); [subst; tauto|]. rewrite IH; auto. ring.
Qed.
Lemma cprod_at (l : list nat) a f : NoDup l -> In a l -> cprod l (fun b => if b =? a then f b else C1) = f a.
Proof.
  intros N I. apply (cprod_single Nat.eq_dec _ a); auto. intros b _. destruct (Nat.eqb_spec b a), (Nat.eq_dec b a); subst; auto; congruence.
Qed.
Lemma cprod_at_none (l : list nat) a f : ~ In a l -> cprod l (fun b => if b =? a then f b else C1) = C1.
Proof. intros N. apply cprod_one. intros b B. destruct (Nat.eqb_spec b a); subst; tauto. Qed.
Lemma cprod_seq_single n a w f : a < n -> (forall b, b < n -> f b = if b =? a then w else C1) -> cprod (seq 0 n) f = w.
Proof.
  intros A H. apply (cprod_single Nat.eq_dec _ a); [apply seq_NoDup|apply in_seq; lia|]. intros b B. apply in_seq in B. rewrite H by lia.
  destruct (Nat.eqb_spec b a), (Nat.eq_dec b a); auto; congruence.
Qed.

(* products over unordered pairs *)
Definition dprod (n : nat) (g : nat -> nat -> C) : C :=
  cprod (seq 0 n) (fun i => cprod (seq 0 n) (fun j => if i <? j then g i j else C1)).
Lemma dprod_ext n g g' : (forall i j, i < n -> j < n -> i <> j -> g i j = g' i j) -> dprod n g = dprod n g'.
Proof.
  intros H. apply cprod_ext. intros i Hi. apply cprod_ext. intros j Hj. apply in_seq in Hi, Hj. destruct (Nat.ltb_spec i j); auto. apply H; lia.
Qed.
Lemma dprod_mul n g g' : dprod n (fun i j => (g i j * g' i j)%C) = (dprod n g * dprod n g')%C.
Proof.
  unfold dprod. rewrite <- cprod_mul. apply cprod_ext. intros i _. rewrite <- cprod_mul. apply cprod_ext. intros j _. destruct (i <? j); auto. ring.
Qed.
Lemma dprod_one n : dprod n (fun _ _ => C1) = C1.
Proof. unfold dprod. apply cprod_one. intros. apply cprod_one. intros. now destruct (a <? a0). Qed.
Definition on_pair (a b i j : nat) : bool := ((i =? a) && (j =? b)) || ((i =? b) && (j =? a)).
Lemma dprod_pair n a b w : a < n -> b < n -> a <> b -> dprod n (fun i j => if on_pair a b i j then w else C1) = w.
Proof.
  intros A B N. unfold dprod, on_pair.
  apply (cprod_seq_single n (Nat.min a b)); [lia|]. intros i Hi. destruct (Nat.eqb_spec i (Nat.min a b)) as [->|Ni].
  - apply (cprod_seq_single n (Nat.max a b)); [lia|]. intros j Hj.
    destruct (Nat.ltb_spec (Nat.min a b) j), (Nat.eqb_spec (Nat.min a b) a), (Nat.eqb_spec (Nat.min a b) b), (Nat.eqb_spec j a), (Nat.eqb_spec j b), (Nat.eqb_spec j (Nat.max a b));
      cbn; auto; try lia.
  - apply cprod_one. intros j Hj. apply in_seq in Hj. destruct (Nat.ltb_spec i j); auto.
    destruct (Nat.eqb_spec i a), (Nat.eqb_spec i b), (Nat.eqb_spec j a), (Nat.eqb_spec j b); cbn; auto; try lia.
Qed.
(* one pair gains a factor *)
Lemma dprod_update n g g' a b w : a < n -> b < n -> a <> b ->
  (forall i j, i < n -> j < n -> i <> j -> g' i j = if on_pair a b i j then (g i j * w)%C else g i j) ->
  dprod n g' = (dprod n g * w)%C.
Proof.
  intros A B N H. rewrite <- (dprod_pair n a b w A B N) at 1. rewrite <- dprod_mul. apply dprod_ext. intros i j Hi Hj Nij. rewrite H by auto.
  destruct (on_pair a b i j); auto. ring.
Qed.
(* splitting off the pairs at one vertex *)
Lemma dprod_split n g v : v < n -> (forall i j, i < n -> j < n -> g i j = g j i) ->
  dprod n g = (dprod n (fun i j => if (i =? v) || (j =? v) then C1 else g i j) * cprod (seq 0 n) (fun u => if u =? v then C1 else g v u))%C.
Proof.
  intros V S.
  assert (E : cprod (seq 0 n) (fun u => if u =? v then C1 else g v u) = dprod n (fun i j => if (i =? v) || (j =? v) then g i j else C1)).
  { unfold dprod. transitivity (cprod (seq 0 n) (fun i => cprod (seq 0 n) (fun j => ((if j =? v then if i <? v then g v i else C1 else C1) * (if i =? v then if v <? j then g v j else C1 else C1))%C))).
    - transitivity (cprod (seq 0 n) (fun i => ((if i <? v then g v i else C1) * (if i =? v then cprod (seq 0 n) (fun j => if v <? j then g v j else C1) else C1))%C)).
      + rewrite cprod_mul. rewrite (cprod_at _ v (fun _ => cprod (seq 0 n) (fun j => if v <? j then g v j else C1))) by (auto using seq_NoDup; apply in_seq; lia).
        rewrite <- cprod_mul. apply cprod_ext. intros u U. destruct (Nat.eqb_spec u v), (Nat.ltb_spec u v), (Nat.ltb_spec v u); subst; try lia; ring.
      + apply cprod_ext. intros i Hi. rewrite cprod_mul. f_equal.
        * symmetry. apply (cprod_at (seq 0 n) v (fun _ => if i <? v then g v i else C1)); [apply seq_NoDup|apply in_seq; lia].
        * destruct (i =? v); auto. symmetry. apply cprod_one. auto.
    - apply cprod_ext. intros i Hi. apply cprod_ext. intros j Hj. apply in_seq in Hi, Hj.
      destruct (Nat.eqb_spec j v) as [Ej|Ej], (Nat.eqb_spec i v) as [Ei|Ei]; cbn [orb].
      + rewrite Ei, Ej, Nat.ltb_irrefl. ring.
      + rewrite Ej, (S i v) by lia. destruct (i <? v); ring.
      + rewrite Ei. destruct (v <? j); ring.
      + destruct (i <? j); ring. }
  rewrite E, <- dprod_mul. apply dprod_ext. intros i j _ _ _. destruct ((i =? v) || (j =? v)); ring.
Qed.

(* ---- adjacency --------------------------------------------------------------------------------------------------- *)
Definition hv (d : diag) (u v : nat) : option bool := option_map snd (getEdge d u v).
Lemma find_In (l : list edge) v h : NoDup (map fst l) -> (find (fun e => fst e =? v) l = Some (v, h) <-> In (v, h) l).
Proof.
  induction l as [|[w k] l IH]; cbn; [split; [discriminate|tauto]|]. intros N. inversion N; subst. destruct (Nat.eqb_spec w v) as [->|E].
  - split; [intros [= ->]; auto|]. intros [[= ->]|I]; auto. exfalso. apply H1. apply (in_map fst) in I. auto.
  - rewrite IH by auto. split; auto. intros [[= ? ?]|]; [congruence|auto].
Qed.
Lemma find_fst (l : list edge) v e : find (fun e => fst e =? v) l = Some e -> fst e = v.
Proof. intros H. apply find_some in H as [_ H]. now apply Nat.eqb_eq in H. Qed.
Lemma hv_In d u v h : NoDup (map fst (d_edges d u)) -> (hv d u v = Some h <-> In (v, h) (d_edges d u)).
Proof.
  intros N. rewrite <- find_In by auto. unfold hv, getEdge. destruct (find _ _) as [[w k]|] eqn:E; cbn.
  - apply find_fst in E as E'. cbn in E'. subst w. split; congruence.
  - split; discriminate.
Qed.
Lemma hv_In' d u v h : hv d u v = Some h -> In (v, h) (d_edges d u).
Proof.
  unfold hv, getEdge. destruct (find _ _) as [[w k]|] eqn:E; cbn; [|discriminate]. intros [= ->]. apply find_fst in E as E'. cbn in E'. subst. now apply find_some in E.
Qed.
Lemma hv_none d u v : hv d u v = None <-> ~ In v (map fst (d_edges d u)).
Proof.
  unfold hv, getEdge. destruct (find _ _) as [[w k]|] eqn:E; cbn.
  - split; [discriminate|]. intros H. exfalso. apply H. apply find_fst in E as E'. cbn in E'. subst w. apply find_some in E as [E _]. apply (in_map fst) in E. auto.
  - split; auto. intros _ I. apply in_map_iff in I as ([w k] & <- & I). apply (find_none _ _ E) in I. cbn in I. now rewrite Nat.eqb_refl in I.
Qed.
Lemma live_lt d v : zwf d -> live d v = true -> v < d_size d.
Proof. intros Z L. unfold live in L. destruct (Nat.lt_ge_cases v (d_size d)) as [|H]; auto. rewrite (z_out d Z v H) in L. discriminate. Qed.
Lemma hv_sym d u v : zwf d -> live d u = true -> live d v = true -> hv d u v = hv d v u.
Proof.
  intros Z U V. destruct (hv d u v) as [h|] eqn:E.
  - apply hv_In in E; [|now apply (z_nodup d Z)]. destruct (z_sym d Z u v h U E) as (_ & _ & I). symmetry. apply hv_In; auto. now apply (z_nodup d Z).
  - destruct (hv d v u) as [h|] eqn:E'; auto. apply hv_In in E'; [|now apply (z_nodup d Z)]. destruct (z_sym d Z v u h V E') as (_ & _ & I).
    apply hv_In in I; [congruence|now apply (z_nodup d Z)].
Qed.
Lemma hv_live d u v h : zwf d -> live d u = true -> hv d u v = Some h -> live d v = true /\ u <> v.
Proof. intros Z U E. apply hv_In in E; [|now apply (z_nodup d Z)]. destruct (z_sym d Z u v h U E); tauto. Qed.

(* ---- weights with some vertices left out -------------------------------------------------------------------------- *)
Section Weights.
Variable rho : nat -> R.
Definition phw (d : diag) (v : nat) (x : bits) : C := if x v then pexp rho (vphase d v) else C1.
Definition pv (ex : nat -> bool) (d : diag) (x : bits) : C :=
  cprod (seq 0 (d_size d)) (fun v => if inner d v && negb (ex v) then phw d v x else C1).
Definition ew (d : diag) (x : bits) (u v : nat) : C := match hv d u v with Some h => wgt (eh d u v h) (x u) (x v) | None => C1 end.
Definition eg (ex : nat -> bool) (d : diag) (x : bits) (u v : nat) : C :=
  if live d u && live d v && negb (ex u) && negb (ex v) then ew d x u v else C1.
Definition pe (ex : nat -> bool) (d : diag) (x : bits) : C := dprod (d_size d) (eg ex d x).
Definition wx (ex : nat -> bool) (d : diag) (x : bits) : C := (pv ex d x * pe ex d x)%C.
Definition none : nat -> bool := fun _ => false.
Definition plus (ex : nat -> bool) (v : nat) : nat -> bool := fun u => ex u || (u =? v).

Lemma wgt_sym h x y : wgt h x y = wgt h y x.
Proof. now destruct h, x, y. Qed.
Lemma eh_sym d u v h : eh d u v h = eh d v u h.
Proof. unfold eh. now destruct h, (isX d u), (isX d v). Qed.
Lemma ew_sym d x u v : zwf d -> live d u = true -> live d v = true -> ew d x u v = ew d x v u.
Proof. intros Z U V. unfold ew. rewrite hv_sym by auto. destruct (hv d v u); auto. now rewrite wgt_sym, eh_sym. Qed.
Lemma eg_sym ex d x u v : zwf d -> eg ex d x u v = eg ex d x v u.
Proof.
  intros Z. unfold eg. destruct (live d u) eqn:U, (live d v) eqn:V; cbn; auto. rewrite (andb_comm (negb (ex u))). destruct (_ && _); auto. now apply ew_sym.
Qed.
(* the product over a row as a product over vertex numbers *)
Lemma row_prod (n : nat) (l : list edge) (F : nat -> bool -> C) : NoDup (map fst l) -> (forall e, In e l -> fst e < n) ->
  cprod l (fun e => F (fst e) (snd e)) =
  cprod (seq 0 n) (fun u => match option_map snd (find (fun e => fst e =? u) l) with Some h => F u h | None => C1 end).
Proof.
  induction l as [|[w k] l IH]; intros N B.
  - cbn. now rewrite cprod_one.
  - inversion N; subst. cbn [cprod fst snd]. rewrite IH; auto; [|intros; apply B; cbn; auto].
    transitivity (cprod (seq 0 n) (fun u => ((if u =? w then F w k else C1) * match option_map snd (find (fun e => fst e =? u) l) with Some h => F u h | None => C1 end)%C)).
    + rewrite cprod_mul. f_equal. symmetry. apply (cprod_at (seq 0 n) w (fun _ => F w k)); [apply seq_NoDup|apply in_seq; specialize (B (w, k) (or_introl eq_refl)); cbn in B; lia].
    + apply cprod_ext. intros u _. cbn [find fst]. rewrite (Nat.eqb_sym w u). destruct (Nat.eqb_spec u w) as [->|]; [|ring].
      assert (E : find (fun e => fst e =? w) l = None).
      { destruct (find (fun e : nat * bool => fst e =? w) l) as [e|] eqn:E; auto. apply find_fst in E as E1. apply find_some in E as [E _]. apply (in_map fst) in E. rewrite E1 in E. cbn in H1. tauto. }
      rewrite E. cbn. ring.
Qed.
Lemma weight_wx d x : zwf d -> weight rho d x = wx none d x.
Proof.
  intros Z. unfold weight, wx, pv, pe, interior, getVertices. f_equal.
  - rewrite cprod_filter. apply cprod_ext. intros v _. rewrite andb_true_r. reflexivity.
  - rewrite cprod_filter. unfold dprod. apply cprod_ext. intros v Hv. apply in_seq in Hv. destruct (live d v) eqn:L.
    + pose proof (row_prod (d_size d) (d_edges d v) (fun u h => if v <? u then wgt (eh d v u h) (x v) (x u) else C1) (z_nodup d Z v L)) as RP.
      rewrite RP.
      * apply cprod_ext. intros u _. fold (getEdge d v u). change (option_map snd (getEdge d v u)) with (hv d v u).
        unfold eg, ew. rewrite L. unfold none. cbn [negb]. rewrite !andb_true_r. cbn [andb]. destruct (hv d v u) as [h|] eqn:E.
        -- destruct (hv_live d v u h Z L E) as [Lu _]. rewrite Lu. reflexivity.
        -- destruct (v <? u), (live d u); auto.
      * intros [u h] I. destruct (z_sym d Z v u h L I) as (Lu & _). cbn. now apply live_lt.
    + symmetry. apply cprod_one. intros u _. unfold eg. rewrite L. cbn [andb]. now destruct (v <? u).
Qed.
(* the weight does not read the bits of left-out vertices, nor of dead ones *)
Lemma wx_ext ex d x y : (forall v, live d v = true -> ex v = false -> x v = y v) -> wx ex d x = wx ex d y.
Proof.
  intros H. unfold wx, pv, pe. f_equal.
  - apply cprod_ext. intros v _. unfold phw, inner. destruct (live d v) eqn:L, (isBoundary d v), (ex v) eqn:E; cbn; auto. now rewrite H.
  - apply dprod_ext. intros i j _ _ _. unfold eg, ew. destruct (live d i) eqn:Li, (live d j) eqn:Lj, (ex i) eqn:Ei, (ex j) eqn:Ej; cbn; auto. now rewrite !H.
Qed.
Lemma wx_ex_ext ex ex' d x : (forall v, ex v = ex' v) -> wx ex d x = wx ex' d x.
Proof. intros H. replace ex' with ex; auto. apply functional_extensionality; auto. Qed.
(* splitting off one vertex *)
Lemma wx_split ex d x v : zwf d -> live d v = true -> ex v = false ->
  wx ex d x = (wx (plus ex v) d x * ((if isBoundary d v then C1 else phw d v x) *
    cprod (d_edges d v) (fun e => if ex (fst e) then C1 else wgt (eh d v (fst e) (snd e)) (x v) (x (fst e)))))%C.
Proof.
  intros Z L Ex. pose proof (live_lt d v Z L) as V. unfold wx, pe.
  rewrite (dprod_split (d_size d) (eg ex d x) v V) by (intros; now apply eg_sym).
  assert (P1 : pv ex d x = (pv (plus ex v) d x * (if isBoundary d v then C1 else phw d v x))%C).
  { unfold pv. rewrite <- (cprod_at (seq 0 (d_size d)) v (fun _ => if isBoundary d v then C1 else phw d v x)) by (auto using seq_NoDup; apply in_seq; lia).
    rewrite <- cprod_mul. apply cprod_ext. intros u _. unfold plus. destruct (Nat.eqb_spec u v) as [->|].
    - rewrite Ex. cbn. rewrite andb_false_r, andb_true_r. unfold inner. rewrite L. cbn. destruct (isBoundary d v); cbn; ring.
    - rewrite orb_false_r. ring. }
  assert (P2 : dprod (d_size d) (fun i j => if (i =? v) || (j =? v) then C1 else eg ex d x i j) = dprod (d_size d) (eg (plus ex v) d x)).
  { apply dprod_ext. intros i j _ _ _. unfold eg, plus. destruct (live d i), (live d j), (ex i), (ex j), (i =? v), (j =? v); cbn; auto. }
  assert (P3 : cprod (seq 0 (d_size d)) (fun u => if u =? v then C1 else eg ex d x v u) =
               cprod (d_edges d v) (fun e => if ex (fst e) then C1 else wgt (eh d v (fst e) (snd e)) (x v) (x (fst e)))).
  { rewrite (row_prod (d_size d) (d_edges d v) (fun u h => if ex u then C1 else wgt (eh d v u h) (x v) (x u)) (z_nodup d Z v L)).
    - apply cprod_ext. intros u _. change (option_map snd (find (fun e : nat * bool => fst e =? u) (d_edges d v))) with (hv d v u).
      unfold eg, ew. rewrite L, Ex. cbn. destruct (hv d v u) as [h|] eqn:E.
      + destruct (hv_live d v u h Z L E) as [Lu Nu]. rewrite Lu. destruct (Nat.eqb_spec u v); [congruence|]. cbn. now destruct (ex u).
      + destruct (u =? v), (live d u), (ex u); auto.
    - intros [u h] I. destruct (z_sym d Z v u h L I) as (Lu & _). cbn. now apply live_lt. }
  rewrite P1, P2, P3. ring.
Qed.

(* ---- sums over vertex bits ---------------------------------------------------------------------------------------- *)
Lemma vsum_ext vs f g b : (forall x, f x = g x) -> vsum vs f b = vsum vs g b.
Proof. intros H. replace g with f; auto. apply functional_extensionality; auto. Qed.
Lemma vsum_scale vs c f b : vsum vs (fun x => (c * f x)%C) b = (c * vsum vs f b)%C.
Proof. revert b. induction vs; cbn; intros b; auto. rewrite !IHvs. ring. Qed.
Lemma vsum_add vs f g b : vsum vs (fun x => (f x + g x)%C) b = (vsum vs f b + vsum vs g b)%C.
Proof. revert b. induction vs; cbn; intros b; auto. rewrite !IHvs. ring. Qed.
Lemma vsum_out vs v f b : ~ In v vs -> vsum (v :: vs) f b = vsum vs (fun x => (f (setb x v false) + f (setb x v true))%C) b.
Proof.
  cbn. revert b. induction vs as [|w vs IH]; cbn; intros b N; auto.
  rewrite !(setb_comm b v w) by (intros ->; apply N; auto). rewrite <- !IH by auto. ring.
Qed.
Lemma vsum_perm vs ws f b : Permutation vs ws -> NoDup vs -> vsum vs f b = vsum ws f b.
Proof.
  intros P. revert b. induction P; intros b N; auto.
  - cbn. inversion N; subst. now rewrite !IHP.
  - cbn. inversion N as [|? ? N1 N2]; subst. rewrite !(setb_comm b x y) by (intros ->; apply N1; cbn; auto). ring.
  - rewrite IHP1, IHP2; auto. eapply Permutation_NoDup; eauto.
Qed.
Lemma filter_all {A} (p : A -> bool) l : (forall a, In a l -> p a = true) -> filter p l = l.
Proof. induction l; cbn; intros H; auto. rewrite H by auto. f_equal. auto. Qed.
Lemma vsum_extract vs v f b : NoDup vs -> In v vs ->
  vsum vs f b = vsum (filter (fun u => negb (u =? v)) vs) (fun x => (f (setb x v false) + f (setb x v true))%C) b.
Proof.
  intros N I. rewrite <- vsum_out.
  - apply vsum_perm; auto. clear f b. induction vs as [|a vs IH]; [destruct I|]. inversion N; subst. cbn. destruct (Nat.eqb_spec a v) as [->|E]; cbn.
    + replace (filter (fun u => negb (u =? v)) vs) with vs; auto. symmetry. apply filter_all. intros u U.
      destruct (Nat.eqb_spec u v); subst; auto.
    + destruct I as [->|I]; [congruence|]. rewrite perm_swap. constructor. auto.
  - intros H. apply filter_In in H as [_ H]. rewrite Nat.eqb_refl in H. discriminate.
Qed.
Lemma interior_nodup d : NoDup (interior d).
Proof. apply NoDup_filter, seq_NoDup. Qed.
Lemma interior_In d v : zwf d -> In v (interior d) <-> inner d v = true.
Proof.
  intros Z. unfold interior. rewrite filter_In, in_seq. split; [tauto|]. intros H. split; auto. unfold inner in H. apply andb_true_iff in H as [L _].
  pose proof (live_lt d v Z L). lia.
Qed.
(* two duplicate-free lists with the same elements give the same sum *)
Lemma vsum_same vs ws f b : NoDup vs -> NoDup ws -> (forall v, In v vs <-> In v ws) -> vsum vs f b = vsum ws f b.
Proof. intros N M H. apply vsum_perm; auto. now apply NoDup_Permutation. Qed.
End Weights.
