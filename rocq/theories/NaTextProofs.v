From Coq Require Import ZArith QArith Qabs Qround List Bool String Arith Lia Lqa Permutation Sorted.
From Verif Require Import AodModel AodProofs NaTextModel NaTextSpec.
Import ListNotations.

(** ** Numbers *)
Lemma near_fixed : forall unit q, (0 < unit)%Q -> near unit (fixed unit q) q.
Proof.
  intros u q P. assert (NZ : ~ (u == 0)%Q) by (intros E; rewrite E in P; discriminate). split.
  - unfold fixed. pose proof (round_near (q * u)) as R. set (z := inject_Z (roundEven (q * u))) in *.
    assert (E : (z / u - q == (z - q * u) * / u)%Q) by (field; exact NZ).
    rewrite E, Qabs_Qmult. assert (I : (0 < / u)%Q) by (apply Qinv_lt_0_compat; exact P).
    rewrite (Qabs_pos (/ u)) by lra. assert (E2 : (1 / (2 * u) == (1 # 2) * / u)%Q) by (field; exact NZ). rewrite E2.
    apply Qmult_le_compat_r; lra.
  - intros k E. unfold fixed. apply round_int. rewrite E. field. exact NZ.
Qed.

(** ** Items *)
Definition wLoc (l : location) : Z * Z := (fixed 1000 (lx l), fixed 1000 (ly l)).
Definition wItem (e : exact) : item := (option_map wLoc (fst (fst e)), map (fixed 100000) (snd (fst e)), snd e).
Definition printItem (e : exact) : list ntok :=
  match fst (fst e) with Some l => [printLocation l] | None => [] end ++ printParams (snd (fst e)) ++ [NName (snd e)].
Definition printItems (w : string) (es : list exact) : list ntok :=
  match es with
  | [e] => [NAt; NWord w] ++ printItem e
  | _ => [NAt; NWord w; NOpen; NNl] ++ flat_map (fun e => printItem e ++ [NNl]) es ++ [NClose]
  end.
Lemma near_item : forall e, nearItem (wItem e) e.
Proof.
  intros [[l ps] s]. unfold nearItem, wItem; cbn [fst snd]. split; [|split; [|reflexivity]].
  - destruct l as [l|]; simpl; [split; apply near_fixed; reflexivity | exact I].
  - induction ps; constructor; [apply near_fixed; reflexivity | assumption].
Qed.
Lemma readItem_nums : forall ps loc nums s r, readItem (printParams ps ++ NName s :: r) loc nums = Some ((loc, nums ++ map (fixed 100000) ps, s), r).
Proof. induction ps as [|p ps IH]; intros; simpl; [rewrite app_nil_r; reflexivity|]. fold (printParams ps). rewrite IH, <- app_assoc. reflexivity. Qed.
Lemma readItems_nums : forall ps loc nums s r, readItems (printParams ps ++ NName s :: NNl :: r) loc nums
  = match readItems r None [] with Some (is, r') => Some ((loc, nums ++ map (fixed 100000) ps, s) :: is, r') | None => None end.
Proof. induction ps as [|p ps IH]; intros; simpl; [rewrite app_nil_r; reflexivity|]. fold (printParams ps). rewrite IH, <- app_assoc. reflexivity. Qed.
Lemma readItem_print : forall e r, readItem (printItem e ++ r) None [] = Some (wItem e, r).
Proof.
  intros [[[l|] ps] s] r; unfold printItem, wItem; cbn [fst snd option_map]; rewrite <- !app_assoc; cbn [app]; [|apply readItem_nums].
  cbn [readItem printLocation]. apply readItem_nums.
Qed.
Lemma readItems_print : forall es r, readItems (flat_map (fun e => printItem e ++ [NNl]) es ++ NClose :: r) None [] = Some (map wItem es, r).
Proof.
  induction es as [|e es IH]; intros r; [reflexivity|]. cbn [flat_map map]. rewrite <- !app_assoc. cbn [app].
  destruct e as [[[l|] ps] s]; unfold printItem, wItem at 1; cbn [fst snd option_map]; rewrite <- !app_assoc; cbn [app].
  - cbn [readItems printLocation]. rewrite readItems_nums, IH. reflexivity.
  - rewrite readItems_nums, IH. reflexivity.
Qed.
Lemma readInstr_one : forall w l i r, (forall l', l <> NOpen :: l') -> readItem l None [] = Some (i, NNl :: r) -> readInstr (NAt :: NWord w :: l) = Some ((w, [i]), r).
Proof. intros w l i r H E. destruct l as [|t l]; [discriminate E|]. destruct t; try (exfalso; eapply H; reflexivity); cbn [readInstr]; rewrite E; reflexivity. Qed.
Lemma printItem_head : forall e r l', printItem e ++ r <> NOpen :: l'.
Proof. intros [[[l|] [|p ps]] s] r l'; discriminate. Qed.
Lemma readInstr_print : forall w es r, readInstr (printItems w es ++ NNl :: r) = Some ((w, map wItem es), r).
Proof.
  intros w es r. destruct es as [|e [|e' es]].
  - reflexivity.
  - cbn [printItems app map]. apply readInstr_one; [intros l'; apply printItem_head | apply readItem_print].
  - unfold printItems. rewrite <- !app_assoc. cbn [app readInstr]. rewrite readItems_print. reflexivity.
Qed.

(** ** Operations *)
Lemma flat_seq : forall (A : Type) (f : nat -> list A) m k, flat_map f (seq (S k) m) = flat_map (fun i => f (S i)) (seq k m).
Proof. intros A f. induction m as [|m IH]; intros k; simpl; [reflexivity|]. rewrite IH. reflexivity. Qed.
Definition lineAt (locs : option (list location)) (atoms : list string) (i : nat) : list ntok :=
  match locs with Some ls => [printLocation (nth i ls nowhere)] | None => [] end ++ [NName (nth i atoms EmptyString); NNl].
Lemma lines_none : forall atoms, flat_map (lineAt None atoms) (seq 0 (List.length atoms)) = flat_map (fun e => printItem e ++ [NNl]) (placed None atoms).
Proof. induction atoms as [|a atoms IH]; [reflexivity|]. cbn [List.length seq flat_map]. rewrite flat_seq. cbn [placed map flat_map] in *. rewrite <- IH. reflexivity. Qed.
Lemma lines_some : forall atoms ls, List.length ls = List.length atoms ->
  flat_map (lineAt (Some ls) atoms) (seq 0 (List.length atoms)) = flat_map (fun e => printItem e ++ [NNl]) (placed (Some ls) atoms).
Proof.
  induction atoms as [|a atoms IH]; intros [|l ls] E; try discriminate; [reflexivity|]. injection E as E.
  cbn [List.length seq flat_map]. rewrite flat_seq. cbn [placed combine map flat_map fst snd] in *. rewrite <- (IH ls E). reflexivity.
Qed.
Lemma shuttle_print : forall w ls atoms, (forall l, ls = Some l -> List.length l = List.length atoms) -> printShuttle w ls atoms = printItems w (placed ls atoms).
Proof.
  intros w [ls|] atoms H.
  - specialize (H ls eq_refl). destruct atoms as [|a [|b atoms]]; destruct ls as [|l [|l' ls]]; try discriminate H; try reflexivity.
    unfold printShuttle. change (flat_map _ (seq 0 _)) with (flat_map (lineAt (Some (l :: l' :: ls)) (a :: b :: atoms)) (seq 0 (List.length (a :: b :: atoms)))).
    rewrite lines_some by exact H. reflexivity.
  - destruct atoms as [|a [|b atoms]]; try reflexivity.
    unfold printShuttle. change (flat_map _ (seq 0 _)) with (flat_map (lineAt None (a :: b :: atoms)) (seq 0 (List.length (a :: b :: atoms)))).
    rewrite lines_none. reflexivity.
Qed.
Lemma gate_print : forall w ps on, printGate w ps on = printItems w (map (fun a => (None, ps, a)) on).
Proof.
  intros w ps on.
  assert (F : flat_map (fun a => printParams ps ++ [NName a; NNl]) on = flat_map (fun e => printItem e ++ [NNl]) (map (fun a => (None, ps, a)) on)).
  { induction on as [|a on IH]; [reflexivity|]. cbn [flat_map map]. rewrite IH. unfold printItem at 2. cbn [fst snd app]. rewrite <- !app_assoc. reflexivity. }
  destruct on as [|a [|b on]]; [reflexivity | reflexivity |]. unfold printGate. rewrite F. reflexivity.
Qed.
Lemma toString_print : forall o, constructed o -> toString o = printItems (fst (means o)) (snd (means o)).
Proof.
  intros [ls atoms|ls atoms|ls atoms|n ps on|n ps on] C; cbn [toString means fst snd]; try apply gate_print; apply shuttle_print; intros l E.
  - subst ls. exact C.
  - subst ls. exact C.
  - injection E as <-. exact C.
Qed.
Definition wInstr (e : string * list exact) : string * list item := (fst e, map wItem (snd e)).
Lemma near_instr : forall e, nearInstr (wInstr e) e.
Proof. intros [w es]. split; [reflexivity|]. cbn [wInstr fst snd]. induction es; constructor; [apply near_item | assumption]. Qed.
Lemma readInstrs_print : forall ops fuel, Forall constructed ops -> (List.length ops <= fuel)%nat ->
  readInstrs fuel (flat_map (fun o => toString o ++ [NNl]) ops) = Some (map (fun o => wInstr (means o)) ops).
Proof.
  induction ops as [|o ops IH]; intros fuel C L; [destruct fuel; reflexivity|]. inversion C; subst. destruct fuel as [|f]; [simpl in L; lia|].
  cbn [flat_map map]. rewrite toString_print by assumption. rewrite <- app_assoc. cbn [app].
  assert (R := readInstr_print (fst (means o)) (snd (means o)) (flat_map (fun o => toString o ++ [NNl]) ops)).
  destruct (printItems (fst (means o)) (snd (means o)) ++ NNl :: flat_map (fun o => toString o ++ [NNl]) ops) as [|t l] eqn:E; [discriminate R|].
  cbn [readInstrs]. rewrite R, IH; [reflexivity | assumption | simpl in L; lia].
Qed.
Lemma ops_length : forall ops, (List.length ops <= List.length (flat_map (fun o => toString o ++ [NNl]) ops))%nat.
Proof. induction ops; simpl; [lia|]. rewrite !app_length. simpl. lia. Qed.
Lemma readAtoms_print : forall m ops, Forall constructed ops ->
  readAtoms (flat_map (fun p => [NAtom; printLocation (fst p); NName (snd p); NNl]) m ++ flat_map (fun o => toString o ++ [NNl]) ops)
  = (map (fun p => (wLoc (fst p), snd p)) m, flat_map (fun o => toString o ++ [NNl]) ops).
Proof.
  intros m ops C. induction m as [|[l a] m IH].
  - cbn [flat_map app map]. destruct ops as [|o ops]; [reflexivity|]. inversion C; subst. cbn [flat_map]. rewrite toString_print by assumption.
    destruct (snd (means o)) as [|e [|e' es]]; reflexivity.
  - cbn [flat_map map fst snd app]. unfold printLocation at 1. cbn [readAtoms]. rewrite IH. reflexivity.
Qed.
Lemma readComputation_print : forall initial ops, Forall constructed ops ->
  readComputation (printComputation initial ops) = Some (map (fun p => (wLoc (fst p), snd p)) (ascending initial), map (fun o => wInstr (means o)) ops).
Proof.
  intros initial ops C. unfold readComputation, printComputation. rewrite readAtoms_print by exact C.
  rewrite readInstrs_print; [reflexivity | exact C | apply ops_length].
Qed.

(** ** Initial locations *)
Lemma ltb_before : forall a b, loc_ltb a b = true <-> before a b.
Proof.
  intros a b. unfold loc_ltb, before. rewrite orb_true_iff, andb_true_iff, !negb_true_iff, Qeq_bool_iff.
  assert (N : forall x y, Qle_bool x y = false <-> (y < x)%Q).
  { intros x y. split; intros H; [apply Qnot_le_lt; intros L; apply Qle_bool_iff in L; congruence|].
    destruct (Qle_bool x y) eqn:E; [|reflexivity]. apply Qle_bool_iff in E. lra. }
  rewrite !N. reflexivity.
Qed.
Lemma before_trans : forall a b c, before a b -> before b c -> before a c.
Proof. unfold before. intros a b c [H|[H1 H2]] [G|[G1 G2]]; try (left; lra); right; split; lra. Qed.
Definition beforeP (p q : location * string) : Prop := before (fst p) (fst q).
Lemma emplace_in : forall l a m p, In p (emplace l a m) -> p = (l, a) \/ In p m.
Proof.
  intros l a. induction m as [|[k b] m IH]; intros p H; simpl in H; [destruct H as [<-|[]]; auto|].
  destruct (loc_ltb l k); [destruct H as [<-|H]; auto|]. destruct (loc_ltb k l); [|right; exact H].
  destruct H as [<-|H]; [right; left; reflexivity|]. destruct (IH p H); [left | right; right]; assumption.
Qed.
Lemma emplace_sorted : forall l a m, StronglySorted beforeP m -> StronglySorted beforeP (emplace l a m).
Proof.
  intros l a. induction m as [|[k b] m IH]; intros H; simpl; [repeat constructor|]. inversion H as [|x y H1 H2]; subst.
  destruct (loc_ltb l k) eqn:E1; [|destruct (loc_ltb k l) eqn:E2; [|exact H]].
  - apply ltb_before in E1. constructor; [exact H|]. constructor; [exact E1|]. eapply Forall_impl; [|exact H2]. intros q Q. eapply before_trans; [exact E1 | exact Q].
  - apply ltb_before in E2. constructor; [apply IH, H1|]. apply Forall_forall. intros q I. apply emplace_in in I. destruct I as [->|I]; [exact E2|].
    rewrite Forall_forall in H2. apply H2, I.
Qed.
Lemma emplace_perm : forall l a m, (forall p, In p m -> ~ sameLoc l (fst p)) -> Permutation (emplace l a m) ((l, a) :: m).
Proof.
  intros l a. induction m as [|[k b] m IH]; intros D; simpl; [reflexivity|].
  destruct (loc_ltb l k) eqn:E1; [reflexivity|]. destruct (loc_ltb k l) eqn:E2.
  - rewrite IH by (intros p I; apply D; right; exact I). apply perm_swap.
  - exfalso. apply (D (k, b)); [left; reflexivity|]. unfold sameLoc. cbn [fst].
    assert (A : ~ before l k) by (rewrite <- ltb_before; congruence). assert (B : ~ before k l) by (rewrite <- ltb_before; congruence).
    unfold before in A, B. destruct (Q_dec (lx l) (lx k)) as [[X|X]|X]; [exfalso; auto | exfalso; auto |].
    split; [exact X|]. destruct (Q_dec (ly l) (ly k)) as [[Y|Y]|Y]; [exfalso; apply A; auto | exfalso; apply B; right; split; [symmetry; exact X | exact Y] | exact Y].
Qed.
Definition swap (p : string * location) : location * string := (snd p, fst p).
Definition differ (p q : string * location) : Prop := ~ sameLoc (snd p) (snd q).
Lemma ascending_gen : forall initial m, StronglySorted beforeP m ->
  let r := fold_left (fun m p => emplace (snd p) (fst p) m) initial m in
  StronglySorted beforeP r /\ (ForallOrdPairs differ initial -> (forall p q, In p m -> In q initial -> ~ sameLoc (fst p) (snd q)) -> Permutation r (m ++ map swap initial)).
Proof.
  induction initial as [|[a l] initial IH]; intros m H; simpl; [rewrite app_nil_r; auto|].
  destruct (IH (emplace l a m) (emplace_sorted l a m H)) as [A B]. split; [exact A|]. intros D M. inversion D as [|x y D1 D2]; subst.
  assert (P : Permutation (emplace l a m) ((l, a) :: m)).
  { apply emplace_perm. intros p I E. apply (M p (a, l) I (or_introl eq_refl)). destruct E as [E1 E2]. split; symmetry; assumption. }
  rewrite B; [|exact D2|].
  - rewrite P. change (swap (a, l)) with (l, a). apply Permutation_middle.
  - intros p q I1 I2. apply emplace_in in I1. destruct I1 as [->|I1]; [|apply M; [exact I1 | right; exact I2]].
    rewrite Forall_forall in D1. apply (D1 q I2).
Qed.
