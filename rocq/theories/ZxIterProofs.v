From Coq Require Import List Bool Arith Lia Sorted.
From Verif Require Import ZxIterModel.
Import ListNotations.

(** ** Vertices *)
Fixpoint vlist (v : nat) (rest : list bool) : list nat :=
  match rest with [] => [] | b :: r => if b then v :: vlist (S v) r else vlist (S v) r end.
Lemma nextValid_list : forall rest v, let i := nextValidVertex v rest in
  vlist v rest = vlist (vv i) (vrest i) /\ length (vrest i) <= length rest /\ (vrest i = [] \/ exists r, vrest i = true :: r).
Proof.
  induction rest as [|[] rest IH]; intros v; simpl; [auto| |].
  - split; [reflexivity|]. split; [lia|]. right. eauto.
  - destruct (IH (S v)) as (A & B & C). split; [exact A|]. split; [lia | exact C].
Qed.
Lemma vcollect_list : forall fuel i last, length (vrest i) < fuel -> vrest last = [] -> (vrest i = [] \/ exists r, vrest i = true :: r) ->
  vcollect fuel i last = Some (vlist (vv i) (vrest i)).
Proof.
  induction fuel as [|f IH]; intros [v rest] last L E H; [lia|]. cbn [vrest vv] in *. simpl. unfold vit_eqb. rewrite E. simpl vrest.
  destruct H as [->|[r ->]]; [reflexivity|]. cbn [length Nat.eqb]. unfold vderef, vprefix, vincr. cbn [vrest vv].
  destruct (nextValid_list r (S v)) as (A & B & C). simpl in L. rewrite IH; [rewrite <- A; reflexivity | lia | exact E | exact C].
Qed.
Lemma vend_rest : forall verts, vrest (vend verts) = [].
Proof. intros. unfold vend, vfrom. rewrite Nat.leb_refl. reflexivity. Qed.
Lemma listVertices_list : forall verts fuel, length verts < fuel -> listVertices verts fuel = Some (vlist 0 verts).
Proof.
  intros verts fuel L. unfold listVertices, vbegin. destruct (nextValid_list verts 0) as (A & B & C).
  rewrite vcollect_list; [rewrite <- A; reflexivity | lia | apply vend_rest | exact C].
Qed.
Lemma vlist_filter : forall rest v, vlist v rest = filter (fun u => nth (u - v) rest false) (seq v (length rest)).
Proof.
  induction rest as [|b rest IH]; intros v; [reflexivity|]. simpl. rewrite Nat.sub_diag. rewrite IH.
  assert (E : filter (fun u => nth (u - S v) rest false) (seq (S v) (length rest))
            = filter (fun u => match u - v with 0 => b | S m => nth m rest false end) (seq (S v) (length rest))).
  { apply filter_ext_in. intros u I. apply in_seq in I. replace (u - v) with (S (u - S v)) by lia. reflexivity. }
  rewrite E. destruct b; reflexivity.
Qed.
Lemma vlist_valid : forall verts, vlist 0 verts = filter (fun u => nth u verts false) (seq 0 (length verts)).
Proof. intros. rewrite vlist_filter. apply filter_ext. intros u. rewrite Nat.sub_0_r. reflexivity. Qed.
Lemma sorted_filter : forall f m v, StronglySorted lt (filter f (seq v m)).
Proof.
  intros f. induction m as [|m IH]; intros v; simpl; [constructor|]. destruct (f v); [|apply IH].
  constructor; [apply IH|]. apply Forall_forall. intros x I. apply filter_In in I. destruct I as [I _]. apply in_seq in I. lia.
Qed.

(** ** Edges *)
Lemma match_cons : forall (A : Type) (l : list bool) (x y : A), l <> [] -> match l with [] => x | _ => y end = y.
Proof. intros A [|] x y H; [contradiction | reflexivity]. Qed.
Section E.
  Variables (edges : list (list nat)) (verts : list bool).
  Let n := length edges.
  Notation row := (row edges).
  Notation valid := (valid verts).
  Definition out (v : nat) (rest : list nat) : list (nat * nat) := map (fun t => (v, t)) (filter (fun t => v <=? t) rest).
  Definition rows (v : nat) : list (nat * nat) := flat_map (fun u => if valid u then out u (row u) else []) (seq v (n - v)).
  Lemma rows_step : forall v, v < n -> rows v = (if valid v then out v (row v) else []) ++ rows (S v).
  Proof. intros v H. unfold rows. replace (n - v) with (S (n - S v)) by lia. reflexivity. Qed.
  Lemma rows_end : forall v, n <= v -> rows v = [].
  Proof. intros v H. unfold rows. replace (n - v) with 0 by lia. reflexivity. Qed.
  Lemma firstValid_spec : forall fuel v, v <= n -> n <= v + fuel -> let u := firstValid edges verts fuel v in
    v <= u <= n /\ rows v = rows u /\ (u < n -> valid u = true).
  Proof.
    induction fuel as [|f IH]; intros v H1 H2; simpl.
    - split; [lia|]. split; [reflexivity|]. lia.
    - fold n. destruct (Nat.ltb_spec v n) as [L|G]; simpl.
      + destruct (valid v) eqn:E; simpl.
        * split; [lia|]. split; [reflexivity|]. intros _. exact E.
        * destruct (IH (S v) ltac:(lia) ltac:(lia)) as (A & B & C). split; [lia|]. split; [|exact C].
          rewrite rows_step, E by exact L. exact B.
      + split; [lia|]. split; [reflexivity|]. lia.
  Qed.
  Lemma skipSmall_out : forall v rest, out v (skipSmall v rest) = out v rest /\ length (skipSmall v rest) <= length rest
    /\ (skipSmall v rest = [] \/ exists t r, skipSmall v rest = t :: r /\ v <= t).
  Proof.
    intros v. induction rest as [|t r IH]; simpl; [auto|]. destruct IH as (A & B & C).
    destruct (Nat.ltb_spec t v) as [L|G].
    - split; [|split; [lia | exact C]]. unfold out. simpl. destruct (Nat.leb_spec v t); [lia | exact A].
    - split; [reflexivity|]. split; [simpl; lia|]. right. eauto.
  Qed.
  (** what is still to come, and the shape of iterators between the steps *)
  Definition good (i : eit) : Prop :=
    (epos i = n /\ erest i = []) \/ (ev i < n /\ epos i = ev i /\ exists t r, erest i = t :: r /\ ev i <= t).
  Definition coming (i : eit) : list (nat * nat) := if epos i =? n then [] else out (ev i) (erest i) ++ rows (S (ev i)).
  Lemma nextRow_spec : forall fuel v rest, v < n -> n - v < fuel -> (rest = [] \/ exists t r, rest = t :: r /\ v <= t) ->
    exists i, nextRow edges verts fuel v rest = Some i /\ good i /\ coming i = out v rest ++ rows (S v).
  Proof.
    induction fuel as [|f IH]; intros v rest H1 H2 H3; [lia|]. destruct H3 as [->|(t & r & -> & Ht)]; cbn [nextRow].
    - fold n. destruct (Nat.ltb_spec v n) as [_|]; [|lia].
      destruct (firstValid_spec n (S v) ltac:(lia) ltac:(lia)) as (A & B & C). set (u := firstValid edges verts n (S v)) in *.
      destruct (Nat.eqb_spec u n) as [E|N].
      + eexists. split; [reflexivity|]. split; [left; split; reflexivity|]. unfold coming, atEnd. cbn [epos]. fold n. rewrite Nat.eqb_refl.
        simpl. rewrite B, E. symmetry. apply rows_end. lia.
      + destruct (skipSmall_out u (row u)) as (S1 & _ & S3).
        destruct (IH u (skipSmall u (row u)) ltac:(lia) ltac:(lia) S3) as (i & I1 & I2 & I3).
        exists i. split; [exact I1|]. split; [exact I2|]. rewrite I3, S1, B. rewrite (rows_step u) by lia. rewrite C by lia. reflexivity.
    - eexists. split; [reflexivity|]. split; [right; split; [exact H1 | split; [reflexivity | simpl; eauto]]|].
      unfold coming. cbn [epos ev erest]. destruct (Nat.eqb_spec v n); [lia | reflexivity].
  Qed.
  Lemma check_spec : forall v rest, v < n -> exists i, checkNextVertex edges verts v rest = Some i /\ good i /\ coming i = out v rest ++ rows (S v).
  Proof.
    intros v rest H. unfold checkNextVertex. destruct (skipSmall_out v rest) as (A & _ & C).
    destruct (nextRow_spec (S (length edges)) v (skipSmall v rest) H ltac:(fold n; lia) C) as (i & I1 & I2 & I3).
    exists i. rewrite I3, A. auto.
  Qed.
  Lemma ecollect_spec : forall fuel i last, epos last = n -> erest last = [] -> good i -> length (coming i) < fuel ->
    ecollect edges verts fuel i last = Some (coming i).
  Proof.
    induction fuel as [|f IH]; intros i last E1 E2 G L; [lia|]. cbn [ecollect]. unfold eit_eqb. rewrite E1, E2.
    destruct G as [[P R]|(V & P & t & r & R & T)].
    - unfold coming. rewrite P, R, Nat.eqb_refl. reflexivity.
    - assert (CI : coming i = out (ev i) (erest i) ++ rows (S (ev i))) by (unfold coming; destruct (Nat.eqb_spec (epos i) n); [lia | reflexivity]).
      rewrite CI in *. clear CI. destruct (Nat.eqb_spec (epos i) n) as [X|X]; [lia|]. simpl andb. cbn iota.
      unfold ederef, eprefix, eincr. rewrite R in *. destruct (check_spec (ev i) r V) as (j & J1 & J2 & J3). rewrite J1.
      assert (O : out (ev i) (t :: r) = (ev i, t) :: out (ev i) r).
      { unfold out. simpl. destruct (Nat.leb_spec (ev i) t); [reflexivity | lia]. }
      rewrite O in *. simpl in L. rewrite IH; [rewrite J3; reflexivity | exact E1 | exact E2 | exact J2 |].
      rewrite J3. lia.
  Qed.
  Lemma listEdges_rows : length verts = length edges -> edges <> [] -> forall fuel, length (rows 0) < fuel -> listEdges edges verts fuel = Some (rows 0).
  Proof.
    intros Hl N fuel L. unfold listEdges, eend, efrom. rewrite Nat.leb_refl.
    assert (0 < n) by (unfold n; apply Nat.neq_0_lt_0; intros E; apply length_zero_iff_nil in E; contradiction).
    assert (B : exists i, ebegin edges verts = Some i /\ good i /\ coming i = rows 0).
    { unfold ebegin. destruct (Nat.eqb_spec (length edges) 0) as [Z|_]; [unfold n in *; lia|].
      rewrite match_cons by (intros E; rewrite E in Hl; unfold n in *; simpl in Hl; lia).
      destruct (firstValid_spec n 0 ltac:(lia) ltac:(lia)) as (A & B & C). fold n. cbv zeta. set (u := firstValid edges verts n 0) in *.
      destruct (Nat.ltb_spec u n) as [U|U].
      - destruct (check_spec u (row u) U) as (i & I1 & I2 & I3). exists i. split; [exact I1|]. split; [exact I2|].
        rewrite I3, B, (rows_step u U), (C U). reflexivity.
      - eexists. split; [reflexivity|]. split; [left; split; reflexivity|]. unfold coming, atEnd. cbn [epos]. fold n. rewrite Nat.eqb_refl.
        rewrite B. symmetry. apply rows_end. lia. }
    destruct B as (i & -> & G & C). destruct (Nat.eqb_spec (length edges) 0) as [Z|_]; [unfold n in *; lia|]. rewrite <- C in *. apply ecollect_spec; [reflexivity | reflexivity | exact G | exact L].
  Qed.

  Definition pair_dec : forall a b : nat * nat, {a = b} + {a <> b}.
  Proof. decide equality; apply Nat.eq_dec. Qed.
  Lemma count_out : forall u rest a b, count_occ pair_dec (out u rest) (a, b) = if (u =? a) && (a <=? b) then count_occ Nat.eq_dec rest b else 0.
  Proof.
    intros u rest a b. unfold out. induction rest as [|t r IH]; simpl; [destruct ((u =? a) && (a <=? b)); reflexivity|].
    destruct (Nat.leb_spec u t) as [L|G]; simpl.
    - destruct (pair_dec (u, t) (a, b)) as [E|E].
      + injection E as -> ->. rewrite IH, Nat.eqb_refl. destruct (Nat.leb_spec a b); [|lia]. simpl. destruct (Nat.eq_dec b b); [reflexivity | contradiction].
      + rewrite IH. destruct (Nat.eqb_spec u a) as [->|]; simpl; [|reflexivity]. destruct (a <=? b); [|reflexivity].
        destruct (Nat.eq_dec t b) as [->|]; [exfalso; apply E; reflexivity | reflexivity].
    - rewrite IH. destruct (Nat.eqb_spec u a) as [->|]; simpl; [|reflexivity]. destruct (Nat.leb_spec a b); [|reflexivity].
      destruct (Nat.eq_dec t b); [lia | reflexivity].
  Qed.
  Lemma count_rows : forall m v, n - v = m -> forall a b,
    count_occ pair_dec (rows v) (a, b) = if (v <=? a) && (a <? n) && valid a && (a <=? b) then count_occ Nat.eq_dec (row a) b else 0.
  Proof.
    induction m as [|m IH]; intros v E a b.
    - rewrite rows_end by lia. simpl. destruct (Nat.leb_spec v a), (Nat.ltb_spec a n); simpl; try reflexivity. lia.
    - rewrite rows_step by lia. rewrite count_occ_app, (IH (S v)) by lia.
      assert (O : count_occ pair_dec (if valid v then out v (row v) else []) (a, b) = if (v =? a) && valid v && (a <=? b) then count_occ Nat.eq_dec (row v) b else 0).
      { destruct (valid v); [rewrite count_out, andb_true_r; reflexivity | rewrite andb_false_r; reflexivity]. }
      rewrite O. destruct (Nat.eqb_spec v a) as [->|N].
      + destruct (Nat.leb_spec (S a) a); [lia|]. rewrite Nat.leb_refl. destruct (Nat.ltb_spec a n); [|lia]. simpl. apply Nat.add_0_r.
      + cbn [andb]. rewrite Nat.add_0_l. replace (S v <=? a) with (v <=? a); [reflexivity|].
        destruct (Nat.leb_spec (S v) a), (Nat.leb_spec v a); (lia || reflexivity).
  Qed.
  Lemma rows_ge : forall v p, In p (rows v) -> v <= fst p.
  Proof.
    intros v p I. unfold rows in I. apply in_flat_map in I. destruct I as (u & I1 & I2). apply in_seq in I1.
    destruct (valid u); [|contradiction]. unfold out in I2. apply in_map_iff in I2. destruct I2 as (t & <- & _). simpl. lia.
  Qed.
  Lemma sorted_out : forall v rest (l : list (nat * nat)), StronglySorted le (map fst l) -> (forall p, In p l -> v <= fst p) -> StronglySorted le (map fst (out v rest ++ l)).
  Proof.
    intros v rest l H1 H2. unfold out. induction (filter (fun t => v <=? t) rest) as [|t r IH]; simpl; [exact H1|].
    constructor; [exact IH|]. apply Forall_forall. intros x I. apply in_map_iff in I. destruct I as (p & <- & I). apply in_app_or in I.
    destruct I as [I|I]; [apply in_map_iff in I; destruct I as (y & <- & _); simpl; lia | apply H2, I].
  Qed.
  Lemma sorted_rows : forall m v, n - v = m -> StronglySorted le (map fst (rows v)).
  Proof.
    induction m as [|m IH]; intros v E; [rewrite rows_end by lia; constructor|]. rewrite rows_step by lia.
    destruct (valid v); [|apply (IH (S v)); lia]. apply sorted_out; [apply (IH (S v)); lia|]. intros p I. apply rows_ge in I. lia.
  Qed.
End E.
