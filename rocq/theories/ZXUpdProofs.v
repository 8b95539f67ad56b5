(* The elementary updates of a diagram: well-formedness, bookkeeping and effect on the weight. *)
From Coq Require Import Reals QArith Qreals ZArith Bool List Arith Lia Lra Permutation FunctionalExtensionality.
From Verif Require Import Cplx Qsem PiModel PiProps ZXModel ZXSpec ZXPhaseProofs ZXSemProofs.
Import ListNotations.
Local Close Scope Q_scope.
Local Open Scope nat_scope.

Lemma zupd_eq {A} (f : nat -> A) k a : zupd f k a k = a.
Proof. unfold zupd. now rewrite Nat.eqb_refl. Qed.
Lemma zupd_neq {A} (f : nat -> A) k a u : u <> k -> zupd f k a u = f u.
Proof. intros H. unfold zupd. apply Nat.eqb_neq in H. now rewrite H. Qed.

(* ---- counting -------------------------------------------------------------------------------------------------- *)
Definition zsum (l : list nat) (f : nat -> Z) : Z := fold_right (fun v acc => (f v + acc)%Z) 0%Z l.
Lemma zsum_ext l f g : (forall v, In v l -> f v = g v) -> zsum l f = zsum l g.
Proof. unfold zsum. induction l; cbn; intros H; auto. rewrite H by auto. f_equal. auto. Qed.
Lemma zsum_add l f g : zsum l (fun v => (f v + g v)%Z) = (zsum l f + zsum l g)%Z.
Proof. unfold zsum. induction l; cbn; auto. lia. Qed.
Lemma zsum_zero l f : (forall v, In v l -> f v = 0%Z) -> zsum l f = 0%Z.
Proof. unfold zsum. induction l; cbn; intros H; auto. rewrite H, IHl; auto. Qed.
Lemma zsum_app l m f : zsum (l ++ m) f = (zsum l f + zsum m f)%Z.
Proof. unfold zsum. induction l; cbn; auto. lia. Qed.
Lemma zsum_at n a w : a < n -> zsum (seq 0 n) (fun v => if v =? a then w else 0%Z) = w.
Proof.
  intros H. assert (G : forall l, NoDup l -> In a l -> zsum l (fun v => if v =? a then w else 0%Z) = w).
  { clear. unfold zsum. induction l as [|c l IH]; cbn; [tauto|]. intros N I. inversion N; subst. destruct (Nat.eqb_spec c a) as [->|].
    - change ((w + zsum l (fun v => if (v =? a)%nat then w else 0))%Z = w). rewrite zsum_zero; [lia|]. intros v V. destruct (Nat.eqb_spec v a); subst; tauto.
    - destruct I as [->|I]; [congruence|]. now rewrite IH. }
  apply G; [apply seq_NoDup|apply in_seq; lia].
Qed.
Lemma zsum_filter l p f : zsum (filter p l) f = zsum l (fun v => if p v then f v else 0%Z).
Proof. unfold zsum. induction l; cbn; auto. destruct (p a); cbn; lia. Qed.
Lemma zsum_len l : Z.of_nat (length l) = zsum l (fun _ => 1%Z).
Proof. unfold zsum. induction l; cbn [length fold_right]; auto. lia. Qed.
Definition dsum (d : diag) : Z := zsum (seq 0 (d_size d)) (fun v => if live d v then Z.of_nat (degree d v) else 0%Z).
Definition vcount (d : diag) : Z := zsum (seq 0 (d_size d)) (fun v => if live d v then 1%Z else 0%Z).
Lemma book_intro d : NoDup (d_deleted d) -> (forall v, In v (d_deleted d) <-> v < d_size d /\ d_verts d v = None) ->
  d_nv d = vcount d -> (2 * d_ne d)%Z = dsum d -> book d.
Proof.
  intros A B D E. constructor; auto.
  - rewrite D. unfold vcount, getVertices. now rewrite zsum_len, zsum_filter.
  - rewrite E. unfold dsum, getVertices. symmetry. apply zsum_filter.
Qed.
Lemma book_nv d : book d -> d_nv d = vcount d.
Proof. intros B. rewrite (b_nv d B). unfold vcount, getVertices. now rewrite zsum_len, zsum_filter. Qed.
Lemma book_ne d : book d -> (2 * d_ne d)%Z = dsum d.
Proof. intros B. rewrite (b_ne d B). apply zsum_filter. Qed.

(* ---- well-formedness through adjacency ------------------------------------------------------------------------------ *)
Lemma zwf_intro d : (forall v, d_size d <= v -> d_verts d v = None) -> (forall v, live d v = true -> NoDup (map fst (d_edges d v))) ->
  (forall u v h, live d u = true -> hv d u v = Some h -> live d v = true /\ u <> v /\ hv d v u = Some h) -> zwf d.
Proof.
  intros A B D. constructor; auto. intros u v h L I. apply hv_In in I; auto. destruct (D u v h L I) as (L' & N & E). split; [|split]; auto.
  apply hv_In in E; auto.
Qed.
Lemma zwf_hv d u v h : zwf d -> live d u = true -> hv d u v = Some h -> live d v = true /\ u <> v /\ hv d v u = Some h.
Proof. intros Z L E. destruct (hv_live d u v h Z L E) as [L' N]. split; [|split]; auto. rewrite <- hv_sym; auto. Qed.
Lemma hv_edges d d' u v : d_edges d' u = d_edges d u -> hv d' u v = hv d u v.
Proof. unfold hv, getEdge. now intros ->. Qed.
Lemma hv_self d u : zwf d -> live d u = true -> hv d u u = None.
Proof. intros Z L. destruct (hv d u u) eqn:E; auto. destruct (zwf_hv d u u b Z L E) as (_ & N & _). congruence. Qed.

(* what the updates that neither add nor remove vertices leave alone *)
Record frame (d d' : diag) : Prop := {
  f_size : d_size d' = d_size d;
  f_live : forall u, live d' u = live d u;
  f_vty : forall u, vty d' u = vty d u;
  f_in : d_in d' = d_in d; f_out : d_out d' = d_out d;
  f_gp : d_gphase d' = d_gphase d; f_del : d_deleted d' = d_deleted d; f_nv : d_nv d' = d_nv d
}.
Lemma frame_refl d : frame d d. Proof. constructor; auto. Qed.
Lemma frame_trans d1 d2 d3 : frame d1 d2 -> frame d2 d3 -> frame d1 d3.
Proof. intros [] []. constructor; try congruence; intros; now rewrite ?f_live1, ?f_vty1. Qed.
Lemma f_bnd d d' u : frame d d' -> isBoundary d' u = isBoundary d u.
Proof. intros F. unfold isBoundary. now rewrite (f_vty _ _ F). Qed.
Lemma f_inner d d' u : frame d d' -> inner d' u = inner d u.
Proof. intros F. unfold inner. now rewrite (f_live _ _ F), (f_bnd _ _ _ F). Qed.
Lemma f_isX d d' u : frame d d' -> isX d' u = isX d u.
Proof. intros F. unfold isX. now rewrite (f_vty _ _ F). Qed.
Lemma f_eh d d' u v h : frame d d' -> eh d' u v h = eh d u v h.
Proof. intros F. unfold eh. now rewrite !(f_isX _ _ _ F). Qed.
Lemma frame_zout d d' : frame d d' -> zwf d -> forall v, d_size d' <= v -> d_verts d' v = None.
Proof.
  intros F Z v V. rewrite (f_size _ _ F) in V. pose proof (z_out d Z v V) as N. pose proof (f_live _ _ F v) as L. unfold live in L. rewrite N in L.
  destruct (d_verts d' v); congruence.
Qed.
Lemma frame_book d d' : frame d d' -> book d -> (2 * d_ne d' - dsum d' = 2 * d_ne d - dsum d)%Z -> book d'.
Proof.
  intros F B E. pose proof (book_ne d B). apply book_intro.
  - rewrite (f_del _ _ F). apply B.
  - intros v. rewrite (f_del _ _ F), (f_size _ _ F), (b_del d B). pose proof (f_live _ _ F v) as L. unfold live in L.
    destruct (d_verts d v), (d_verts d' v); intuition congruence.
  - rewrite (f_nv _ _ F), (book_nv d B). unfold vcount. rewrite (f_size _ _ F). apply zsum_ext. intros v _. now rewrite (f_live _ _ F).
  - lia.
Qed.

Lemma filter_none (l : list edge) b : ~ In b (map fst l) -> filter (fun e => negb (fst e =? b)) l = l.
Proof.
  induction l as [|[w k] l IH]; cbn; intros H; auto. destruct (Nat.eqb_spec w b); [subst; tauto|]. cbn. f_equal. apply IH. tauto.
Qed.
Lemma erase_filter (l : list edge) b : NoDup (map fst l) -> erase_first b l = filter (fun e => negb (fst e =? b)) l.
Proof.
  induction l as [|[w k] l IH]; cbn; intros N; auto. inversion N; subst. destruct (Nat.eqb_spec w b) as [->|]; cbn.
  - symmetry. now apply filter_none.
  - f_equal. auto.
Qed.
Lemma NoDup_map_filter (l : list edge) p : NoDup (map fst l) -> NoDup (map fst (filter p l)).
Proof.
  induction l as [|e l IH]; cbn; intros N; auto. inversion N; subst. destruct (p e); cbn; auto. constructor; auto. intros I. apply H1.
  apply in_map_iff in I as (e' & <- & I). apply filter_In in I as [I _]. now apply in_map.
Qed.
Lemma find_filter (l : list edge) b v : find (fun e => fst e =? v) (filter (fun e => negb (fst e =? b)) l) = if v =? b then None else find (fun e => fst e =? v) l.
Proof.
  induction l as [|[w k] l IH]; cbn. - now destruct (v =? b). - destruct (Nat.eqb_spec w b) as [->|]; cbn.
  + rewrite IH. rewrite (Nat.eqb_sym b v). destruct (v =? b); auto.
  + destruct (Nat.eqb_spec w v) as [->|]; auto. apply Nat.eqb_neq in n. now rewrite n.
Qed.
Lemma length_filter_one (l : list edge) b h : NoDup (map fst l) -> In (b, h) l -> length l = S (length (filter (fun e => negb (fst e =? b)) l)).
Proof.
  induction l as [|[w k] l IH]; cbn; [tauto|]. intros N I. inversion N; subst. destruct (Nat.eqb_spec w b) as [->|]; cbn.
  - f_equal. rewrite filter_none; auto.
  - f_equal. apply IH; auto. destruct I as [[= ? ?]|]; [congruence|auto].
Qed.
Lemma find_toggle (l : list edge) b v : find (fun e => fst e =? v) (toggle_first b l) =
  if v =? b then option_map (fun e => (fst e, negb (snd e))) (find (fun e => fst e =? v) l) else find (fun e => fst e =? v) l.
Proof.
  induction l as [|[w k] l IH]; cbn. - now destruct (v =? b). - destruct (Nat.eqb_spec w b) as [->|]; cbn.
  + rewrite (Nat.eqb_sym b v). destruct (Nat.eqb_spec v b); auto.
  + destruct (Nat.eqb_spec w v) as [->|]; auto. apply Nat.eqb_neq in n. now rewrite n.
Qed.
Lemma map_toggle (l : list edge) b : map fst (toggle_first b l) = map fst l.
Proof. induction l as [|[w k] l IH]; cbn; auto. destruct (w =? b); cbn; congruence. Qed.
Lemma find_app {A} (p : A -> bool) l m : find p (l ++ m) = match find p l with Some a => Some a | None => find p m end.
Proof. induction l; cbn; auto. destruct (p a); auto. Qed.
Lemma NoDup_snoc {A} (l : list A) a : NoDup l -> ~ In a l -> NoDup (l ++ [a]).
Proof. intros N I. eapply Permutation_NoDup; [apply Permutation_cons_append|]. now constructor. Qed.
Section Upd.
Variable rho : nat -> R.
Notation wx := (wx rho).
Notation phw := (phw rho).

(* ---- phases ---------------------------------------------------------------------------------------------------- *)
Lemma frame_addPhase d v p : frame d (addPhase d v p).
Proof.
  unfold addPhase, mod_vertex. constructor; auto; intros u; unfold live, vty; cbn; unfold zupd; destruct (Nat.eqb_spec u v) as [->|]; auto; now destruct (d_verts d v).
Qed.
Lemma addPhase_edges d v p u : d_edges (addPhase d v p) u = d_edges d u.
Proof. reflexivity. Qed.
Lemma addPhase_hv d v p u w : hv (addPhase d v p) u w = hv d u w.
Proof. reflexivity. Qed.
Lemma addPhase_ne d v p : d_ne (addPhase d v p) = d_ne d.
Proof. reflexivity. Qed.
Lemma addPhase_vphase d v p u : live d v = true -> vphase (addPhase d v p) u = if u =? v then p_add (vphase d v) p else vphase d u.
Proof. intros L. unfold live in L. unfold vphase, addPhase, mod_vertex, zupd. cbn. unfold zupd. destruct (Nat.eqb_spec u v) as [->|]; auto. destruct (d_verts d v); cbn; congruence. Qed.
Lemma addPhase_other d v p u : u <> v -> d_verts (addPhase d v p) u = d_verts d u.
Proof. intros H. unfold addPhase, mod_vertex. cbn. now apply zupd_neq. Qed.
Lemma zwf_rows d d' : frame d d' -> (forall u, d_edges d' u = d_edges d u) -> zwf d -> zwf d'.
Proof.
  intros F E Z. constructor.
  - now apply (frame_zout d).
  - intros v. rewrite (f_live _ _ F), E. apply Z.
  - intros u v h. rewrite !(f_live _ _ F), !E. apply Z.
Qed.
Lemma addPhase_zwf d v p : zwf d -> zwf (addPhase d v p).
Proof. apply zwf_rows; auto using frame_addPhase. Qed.
Lemma dsum_rows d d' : frame d d' -> (forall u, d_edges d' u = d_edges d u) -> dsum d' = dsum d.
Proof. intros F E. unfold dsum. rewrite (f_size _ _ F). apply zsum_ext. intros v _. unfold degree. now rewrite E, (f_live _ _ F). Qed.
Lemma addPhase_book d v p : book d -> book (addPhase d v p).
Proof. intros B. apply (frame_book d); auto using frame_addPhase. rewrite (dsum_rows d); auto using frame_addPhase. Qed.
Lemma addPhase_wx ex d v p x : zwf d -> live d v = true -> ex v = false -> isBoundary d v = false ->
  wx ex (addPhase d v p) x = (wx ex d x * (if x v then pexp rho p else C1))%C.
Proof.
  intros Z L Ex B. pose proof (frame_addPhase d v p) as F. unfold ZXSemProofs.wx.
  assert (E : pe ex (addPhase d v p) x = pe ex d x).
  { unfold pe. rewrite (f_size _ _ F). apply dprod_ext. intros i j _ _ _. unfold eg, ew. rewrite !(f_live _ _ F), addPhase_hv. destruct (hv d i j); auto. now rewrite (f_eh _ _ _ _ _ F). }
  rewrite E. assert (P : pv rho ex (addPhase d v p) x = (pv rho ex d x * (if x v then pexp rho p else C1))%C).
  { unfold pv. rewrite (f_size _ _ F). rewrite <- (cprod_at (seq 0 (d_size d)) v (fun _ => if x v then pexp rho p else C1)) by (auto using seq_NoDup; apply in_seq; pose proof (live_lt d v Z L); lia).
    rewrite <- cprod_mul. apply cprod_ext. intros u _. rewrite (f_inner _ _ _ F). unfold ZXSemProofs.phw. rewrite addPhase_vphase by auto.
    destruct (Nat.eqb_spec u v) as [->|].
    - unfold inner. rewrite L, B, Ex. cbn. destruct (x v); [apply pexp_add|ring].
    - destruct (inner d u && negb (ex u)); ring. }
  rewrite P. ring.
Qed.

(* ---- edges ----------------------------------------------------------------------------------------------------- *)
Lemma frame_addEdge d a b h : frame d (addEdge d a b h).
Proof. constructor; auto. Qed.
Lemma addEdge_edges d a b h u : a <> b ->
  d_edges (addEdge d a b h) u = if u =? a then d_edges d a ++ [(b, h)] else if u =? b then d_edges d b ++ [(a, h)] else d_edges d u.
Proof.
  intros N. unfold addEdge, pushHalf. cbn. unfold zupd. destruct (Nat.eqb_spec u b) as [->|]; auto.
  - destruct (Nat.eqb_spec b a) as [->|]; [congruence|]. auto.
Qed.
Lemma on_pair_sym a b i j : on_pair a b i j = on_pair a b j i.
Proof. unfold on_pair. destruct (i =? a), (j =? b), (i =? b), (j =? a); auto. Qed.
Lemma addEdge_hv d a b h u v : a <> b -> hv d a b = None -> hv d b a = None ->
  hv (addEdge d a b h) u v = if on_pair a b u v then Some h else hv d u v.
Proof.
  intros N Eab Eba. unfold on_pair. unfold hv, getEdge in *. rewrite addEdge_edges by auto.
  destruct (Nat.eqb_spec u a) as [->|Na].
  - rewrite (proj2 (Nat.eqb_neq a b) N). cbn [orb andb]. rewrite orb_false_r. rewrite find_app. cbn [find fst]. rewrite (Nat.eqb_sym b v). destruct (Nat.eqb_spec v b) as [->|].
    + destruct (find _ _); [discriminate|]. auto.
    + now destruct (find (fun e : nat * bool => fst e =? v) (d_edges d a)).
  - cbn [orb andb]. destruct (Nat.eqb_spec u b) as [->|]; cbn [orb andb]; auto. rewrite find_app. cbn [find fst]. rewrite (Nat.eqb_sym a v). destruct (Nat.eqb_spec v a) as [->|].
    + destruct (find (fun e : nat * bool => fst e =? a) (d_edges d b)); [discriminate|]. auto.
    + now destruct (find (fun e : nat * bool => fst e =? v) (d_edges d b)).
Qed.
Lemma addEdge_zwf d a b h : zwf d -> a <> b -> live d a = true -> live d b = true -> hv d a b = None -> zwf (addEdge d a b h).
Proof.
  intros Z N La Lb E. assert (E' : hv d b a = None) by (rewrite <- hv_sym; auto). pose proof (frame_addEdge d a b h) as F. apply zwf_intro.
  - now apply (frame_zout d).
  - intros v. rewrite (f_live _ _ F), addEdge_edges by auto. intros L. destruct (Nat.eqb_spec v a) as [->|]; [|destruct (Nat.eqb_spec v b) as [->|]; [|now apply Z]];
      rewrite map_app; apply NoDup_snoc; try (now apply Z); now apply hv_none.
  - intros u v k. rewrite !(f_live _ _ F), !addEdge_hv by auto. intros L. rewrite (on_pair_sym a b v u). destruct (on_pair a b u v) eqn:P.
    + unfold on_pair in P. apply orb_true_iff in P as [P|P]; apply andb_true_iff in P as [P1 P2]; apply Nat.eqb_eq in P1, P2; subst; auto.
    + apply zwf_hv; auto.
Qed.
Lemma dsum_two d d' a b (ka kb : Z) : d_size d' = d_size d -> a <> b -> a < d_size d -> b < d_size d ->
  (forall u, (if live d' u then Z.of_nat (degree d' u) else 0) =
             (if live d u then Z.of_nat (degree d u) else 0) + ((if (u =? a)%nat then ka else 0) + (if (u =? b)%nat then kb else 0)))%Z ->
  dsum d' = (dsum d + (ka + kb))%Z.
Proof.
  intros S N A B H. unfold dsum. rewrite S. erewrite zsum_ext by (intros v _; apply H). now rewrite !zsum_add, !zsum_at.
Qed.
Lemma addEdge_book d a b h : zwf d -> book d -> a <> b -> live d a = true -> live d b = true -> book (addEdge d a b h).
Proof.
  intros Z B N La Lb. apply (frame_book d); auto using frame_addEdge. rewrite (dsum_two d (addEdge d a b h) a b 1 1); auto using live_lt.
  - change (d_ne (addEdge d a b h)) with (d_ne d + 1)%Z. lia.
  - intros u. rewrite (f_live _ _ (frame_addEdge d a b h)). unfold degree. rewrite addEdge_edges by auto.
    destruct (Nat.eqb_spec u a) as [->|]; [|destruct (Nat.eqb_spec u b) as [->|]].
    + rewrite La, app_length, (proj2 (Nat.eqb_neq a b) N). cbn [length]. lia.
    + rewrite Lb, app_length. cbn [length]. lia.
    + lia.
Qed.
(* a general update of the adjacency of one pair, with unchanged vertices *)
Lemma pair_wx d d' a b ex x w : frame d d' -> zwf d -> a <> b -> live d a = true -> live d b = true -> ex a = false -> ex b = false ->
  (forall u v, on_pair a b u v = false -> hv d' u v = hv d u v) -> ew d' x a b = (ew d x a b * w)%C -> ew d' x b a = (ew d x b a * w)%C ->
  pe ex d' x = (pe ex d x * w)%C.
Proof.
  intros F Z N La Lb Ea Eb H W1 W2. unfold pe. rewrite (f_size _ _ F). apply (dprod_update (d_size d) _ _ a b); auto using live_lt.
  intros i j _ _ _. unfold eg. rewrite !(f_live _ _ F). destruct (on_pair a b i j) eqn:P.
  - unfold on_pair in P. apply orb_true_iff in P as [P|P]; apply andb_true_iff in P as [P1 P2]; apply Nat.eqb_eq in P1, P2; subst i j; rewrite La, Lb, Ea, Eb; cbn; auto.
  - unfold ew. rewrite H by auto. destruct (hv d i j); auto. now rewrite (f_eh _ _ _ _ _ F).
Qed.
Lemma pv_frame d d' ex x : frame d d' -> (forall u, vphase d' u = vphase d u) -> pv rho ex d' x = pv rho ex d x.
Proof.
  intros F P. unfold pv. rewrite (f_size _ _ F). apply cprod_ext. intros u _. rewrite (f_inner _ _ _ F). unfold ZXSemProofs.phw. now rewrite P.
Qed.
Lemma addEdge_wx ex d a b h x : zwf d -> a <> b -> live d a = true -> live d b = true -> hv d a b = None -> ex a = false -> ex b = false ->
  wx ex (addEdge d a b h) x = (wx ex d x * wgt (eh d a b h) (x a) (x b))%C.
Proof.
  intros Z N La Lb E Ea Eb. assert (E' : hv d b a = None) by (rewrite <- hv_sym; auto). pose proof (frame_addEdge d a b h) as F. unfold ZXSemProofs.wx.
  rewrite (pv_frame d) by auto. rewrite (pair_wx d _ a b ex x (wgt (eh d a b h) (x a) (x b))); auto; [ring| | |].
  - intros u v P. rewrite addEdge_hv by auto. now rewrite P.
  - unfold ew. rewrite addEdge_hv, E by auto. unfold on_pair. rewrite !Nat.eqb_refl. cbn [andb orb]. rewrite (f_eh _ _ _ _ _ F). ring.
  - unfold ew. rewrite addEdge_hv, E' by auto. unfold on_pair. rewrite !Nat.eqb_refl. cbn [andb]. rewrite orb_true_r. rewrite (f_eh _ _ _ _ _ F), eh_sym, wgt_sym. ring.
Qed.

(* removing the edge between two vertices; the three ways of the code agree on well-formed diagrams *)
Definition cutEdge (d : diag) (a b : nat) : diag :=
  set_ne (set_edges d (fun u => if u =? a then filter (fun e => negb (fst e =? b)) (d_edges d a)
                                else if u =? b then filter (fun e => negb (fst e =? a)) (d_edges d b) else d_edges d u)) (d_ne d - 1).
Lemma removeEdge_cut d a b : a <> b -> removeEdge d a b = cutEdge d a b.
Proof.
  intros N. unfold removeEdge, cutEdge, removeHalfEdge, set_ne, set_edges. cbn. f_equal. apply functional_extensionality. intros u. unfold zupd.
  destruct (Nat.eqb_spec u b) as [->|]; auto. destruct (Nat.eqb_spec b a) as [->|]; [congruence|auto].
Qed.
Lemma eraseEdge_cut d a b : a <> b -> NoDup (map fst (d_edges d a)) ->
  (let d1 := removeHalfEdge (eraseEdgePtr d a b) b a in set_ne d1 (d_ne d1 - 1)) = cutEdge d a b.
Proof.
  intros N D. unfold eraseEdgePtr, cutEdge, removeHalfEdge, set_ne, set_edges. cbn. f_equal. apply functional_extensionality. intros u. unfold zupd.
  rewrite erase_filter by auto. destruct (Nat.eqb_spec u b) as [->|]; auto. destruct (Nat.eqb_spec b a) as [->|]; [congruence|auto].
Qed.
Lemma frame_cut d a b : frame d (cutEdge d a b).
Proof. constructor; auto. Qed.
Lemma cut_hv d a b u v : a <> b -> hv (cutEdge d a b) u v = if on_pair a b u v then None else hv d u v.
Proof.
  intros N. unfold hv, getEdge, cutEdge, on_pair. cbn [d_edges set_ne set_edges]. destruct (Nat.eqb_spec u a) as [->|].
  - rewrite (proj2 (Nat.eqb_neq a b) N). cbn [andb]. rewrite orb_false_r, find_filter. now destruct (v =? b).
  - cbn [andb orb]. destruct (Nat.eqb_spec u b) as [->|]; cbn [andb orb]; auto. rewrite find_filter. now destruct (v =? a).
Qed.
Lemma cut_zwf d a b : zwf d -> a <> b -> zwf (cutEdge d a b).
Proof.
  intros Z N. pose proof (frame_cut d a b) as F. apply zwf_intro.
  - now apply (frame_zout d).
  - intros v. rewrite (f_live _ _ F). intros L. pose proof (z_nodup d Z v L). cbn. destruct (Nat.eqb_spec v a) as [->|]; [|destruct (Nat.eqb_spec v b) as [->|]]; auto using NoDup_map_filter.
  - intros u v k. rewrite !(f_live _ _ F), !cut_hv by auto. intros L. rewrite (on_pair_sym a b v u). destruct (on_pair a b u v); [discriminate|]. apply zwf_hv; auto.
Qed.
Lemma cut_book d a b h : zwf d -> book d -> live d a = true -> hv d a b = Some h -> book (cutEdge d a b).
Proof.
  intros Z B La E. destruct (zwf_hv d a b h Z La E) as (Lb & N & E'). pose proof (frame_cut d a b) as F. apply (frame_book d); auto.
  rewrite (dsum_two d (cutEdge d a b) a b (-1) (-1)); auto using live_lt.
  - change (d_ne (cutEdge d a b)) with (d_ne d - 1)%Z. lia.
  - intros u. rewrite (f_live _ _ F). unfold degree. cbn. apply hv_In' in E, E'. destruct (Nat.eqb_spec u a) as [->|]; [|destruct (Nat.eqb_spec u b) as [->|]].
    + rewrite La, (proj2 (Nat.eqb_neq a b) N). rewrite (length_filter_one _ _ _ (z_nodup d Z a La) E). lia.
    + rewrite Lb. rewrite (length_filter_one _ _ _ (z_nodup d Z b Lb) E'). lia.
    + lia.
Qed.
Lemma cut_pe ex d a b h x : zwf d -> live d a = true -> hv d a b = Some h -> ex a = false -> ex b = false ->
  pe ex d x = (pe ex (cutEdge d a b) x * wgt (eh d a b h) (x a) (x b))%C.
Proof.
  intros Z La E Ea Eb. destruct (zwf_hv d a b h Z La E) as (Lb & N & E'). pose proof (frame_cut d a b) as F.
  assert (F' : frame (cutEdge d a b) d) by (constructor; auto).
  apply (pair_wx (cutEdge d a b) d a b); auto using cut_zwf.
  - intros u v P. rewrite cut_hv by auto. now rewrite P.
  - unfold ew. rewrite cut_hv, E by auto. unfold on_pair. rewrite !Nat.eqb_refl. cbn [andb orb]. ring.
  - unfold ew. rewrite cut_hv, E' by auto. unfold on_pair. rewrite !Nat.eqb_refl. cbn [andb]. rewrite orb_true_r. rewrite eh_sym, wgt_sym. ring.
Qed.
Lemma cut_wx ex d a b h x : zwf d -> live d a = true -> hv d a b = Some h -> ex a = false -> ex b = false ->
  wx ex d x = (wx ex (cutEdge d a b) x * wgt (eh d a b h) (x a) (x b))%C.
Proof.
  intros Z La E Ea Eb. unfold ZXSemProofs.wx. rewrite (pv_frame d (cutEdge d a b)) by (auto using frame_cut). rewrite (cut_pe ex d a b h) by auto. ring.
Qed.
(* toggling the edge between two vertices *)
Definition flipEdge (d : diag) (a b : nat) : diag := toggleEdgePtr (toggleEdgePtr d a b) b a.
Lemma frame_flip d a b : frame d (flipEdge d a b).
Proof. constructor; auto. Qed.
Lemma flip_edges d a b u : a <> b -> d_edges (flipEdge d a b) u = if u =? a then toggle_first b (d_edges d a) else if u =? b then toggle_first a (d_edges d b) else d_edges d u.
Proof.
  intros N. unfold flipEdge, toggleEdgePtr. cbn. unfold zupd. destruct (Nat.eqb_spec u b) as [->|]; auto. destruct (Nat.eqb_spec b a) as [->|]; [congruence|auto].
Qed.
Lemma flip_hv d a b u v : a <> b -> hv (flipEdge d a b) u v = if on_pair a b u v then option_map negb (hv d u v) else hv d u v.
Proof.
  intros N. unfold hv, getEdge. rewrite flip_edges by auto. unfold on_pair. destruct (Nat.eqb_spec u a) as [->|].
  - rewrite (proj2 (Nat.eqb_neq a b) N). cbn [andb]. rewrite orb_false_r, find_toggle. destruct (v =? b); auto. now destruct (find _ _).
  - cbn [andb orb]. destruct (Nat.eqb_spec u b) as [->|]; cbn [andb orb]; auto. rewrite find_toggle. destruct (v =? a); auto. now destruct (find _ _).
Qed.
Lemma flip_zwf d a b : zwf d -> a <> b -> zwf (flipEdge d a b).
Proof.
  intros Z N. pose proof (frame_flip d a b) as F. apply zwf_intro.
  - now apply (frame_zout d).
  - intros v. rewrite (f_live _ _ F). intros L. pose proof (z_nodup d Z v L). rewrite flip_edges by auto. destruct (Nat.eqb_spec v a) as [->|]; [|destruct (Nat.eqb_spec v b) as [->|]]; rewrite ?map_toggle; auto.
  - intros u v k. rewrite !(f_live _ _ F), !flip_hv by auto. intros L. rewrite (on_pair_sym a b v u). destruct (on_pair a b u v); [|apply zwf_hv; auto].
    destruct (hv d u v) eqn:E; [|discriminate]. destruct (zwf_hv d u v _ Z L E) as (? & ? & E'). rewrite E'. cbn. auto.
Qed.
Lemma flip_book d a b : a <> b -> book d -> book (flipEdge d a b).
Proof.
  intros N B. pose proof (frame_flip d a b) as F. apply (frame_book d); auto. assert (E : dsum (flipEdge d a b) = dsum d); [|rewrite E; reflexivity].
  unfold dsum. rewrite (f_size _ _ F). apply zsum_ext. intros v _. rewrite (f_live _ _ F). unfold degree. rewrite flip_edges by auto.
  rewrite <- !(map_length fst). destruct (Nat.eqb_spec v a) as [->|]; [|destruct (Nat.eqb_spec v b) as [->|]]; rewrite ?map_toggle; auto.
Qed.
(* the weight of the rest, and the toggled edge *)
Lemma flip_wx ex d a b h x : zwf d -> live d a = true -> hv d a b = Some h -> ex a = false -> ex b = false ->
  wx ex (flipEdge d a b) x = (wx ex (cutEdge d a b) x * wgt (eh d a b (negb h)) (x a) (x b))%C.
Proof.
  intros Z La E Ea Eb. destruct (zwf_hv d a b h Z La E) as (Lb & N & E').
  assert (H1 : hv (flipEdge d a b) a b = Some (negb h)). { rewrite flip_hv by auto. unfold on_pair. rewrite !Nat.eqb_refl. cbn [andb orb]. now rewrite E. }
  assert (H2 : cutEdge (flipEdge d a b) a b = cutEdge d a b).
  {
    assert (T : forall l c, filter (fun e : edge => negb (fst e =? c)) (toggle_first c l) = filter (fun e => negb (fst e =? c)) l).
    { clear. induction l as [|[w k] l IH]; intros c; cbn; auto. destruct (Nat.eqb_spec w c) as [->|]; cbn.
      - now rewrite Nat.eqb_refl. - destruct (Nat.eqb_spec w c); [congruence|]. cbn. now rewrite IH. }
    unfold cutEdge at 1. match goal with |- set_ne (set_edges _ ?f) _ = _ => assert (FE : f = fun u => if u =? a then filter (fun e => negb (fst e =? b)) (d_edges d a)
      else if u =? b then filter (fun e => negb (fst e =? a)) (d_edges d b) else d_edges d u) end.
    - apply functional_extensionality. intros u. rewrite !flip_edges by auto. rewrite !Nat.eqb_refl. rewrite (proj2 (Nat.eqb_neq b a)) by auto.
      destruct (u =? a); [apply T|]. destruct (u =? b); [apply T|reflexivity].
    - rewrite FE. reflexivity. }
  rewrite (cut_wx ex (flipEdge d a b) a b (negb h)); auto using flip_zwf. rewrite H2. now rewrite (f_eh _ _ _ _ _ (frame_flip d a b)).
Qed.
End Upd.
