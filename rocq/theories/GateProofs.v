(** Proofs about gate matrices: unitarity, inverses, textbook identities. *)
From Coq Require Import Reals Lra List Arith Bool Lia Nsatz.
From Verif Require Import Cplx Qsem GateModel.
Import ListNotations.
Local Open Scope R_scope.
Local Open Scope list_scope.

Lemma sq2_sq : sq2 * sq2 = 1 / 2.
Proof.
  unfold sq2. rewrite <- Rinv_mult.
  rewrite sqrt_sqrt by lra. lra.
Qed.

Lemma sq2_sq' : 2 * sq2 * sq2 = 1.
Proof. pose proof sq2_sq. lra. Qed.

Lemma sc2 x : cos x * cos x + sin x * sin x = 1.
Proof. pose proof (sin2_cos2 x) as H. unfold Rsqr in H. lra. Qed.

(** ** Entry-wise reasoning *)
Ltac split1 r H :=
  destruct r as [|? [|? ?]]; try discriminate H.
Ltac split2 r H :=
  destruct r as [|? [|? [|? ?]]]; try discriminate H.
Ltac allbools := repeat match goal with b : bool |- _ => destruct b end.

Ltac entry :=
  cbv [List.rev mmul madj mid m2 mat_of allb map app csum fold_right bidx fold_left List.nth
       Nat.mul Nat.add leqb list_eq_dec list_rec list_rect Bool.bool_dec bool_rec bool_rect
       sumbool_rec sumbool_rect
       uMat u2Mat pMat rxMat ryMat rzMat rxxMat ryyMat rzzMat rzxMat xxMinusYYMat xxPlusYYMat];
  apply Ceq; cbv [Cmul Cadd Csub Copp Cconj RtoC C0 C1 Ci Cexp fst snd].

Ltac angles :=
  repeat match goal with
  | |- context [cos (- ?x / 2)] => replace (- x / 2) with (- (x / 2)) by lra
  | |- context [sin (- ?x / 2)] => replace (- x / 2) with (- (x / 2)) by lra
  | |- context [cos (?x + ?y)] => rewrite (cos_plus x y)
  | |- context [sin (?x + ?y)] => rewrite (sin_plus x y)
  | |- context [cos (?x - ?y)] => rewrite (cos_minus x y)
  | |- context [sin (?x - ?y)] => rewrite (sin_minus x y)
  | |- context [cos (- ?x)] => rewrite (cos_neg x)
  | |- context [sin (- ?x)] => rewrite (sin_neg x)
  | |- context [cos PI] => rewrite cos_PI
  | |- context [sin PI] => rewrite sin_PI
  end.

Ltac gen_trig :=
  repeat match goal with
  | |- context [cos ?x] =>
      let H := fresh "T" in pose proof (sc2 x) as H;
      let c := fresh "c" in let s := fresh "s" in
      set (c := cos x) in *; set (s := sin x) in *; clearbody c s
  | |- context [sin ?x] =>
      let H := fresh "T" in pose proof (sc2 x) as H;
      let c := fresh "c" in let s := fresh "s" in
      set (c := cos x) in *; set (s := sin x) in *; clearbody c s
  end.

Ltac gen_sq2 :=
  try (pose proof sq2_sq'; set (q := sq2) in *; clearbody q).

Ltac fin := first [ring | lra | solve [nsatz]].
Ltac entries1 :=
  let r := fresh in let c := fresh in let Hr := fresh in let Hc := fresh in
  intros r c Hr Hc; split1 r Hr; split1 c Hc; allbools; entry; angles; gen_trig; gen_sq2; fin.
Ltac entries2 :=
  let r := fresh in let c := fresh in let Hr := fresh in let Hc := fresh in
  intros r c Hr Hc; split2 r Hr; split2 c Hc; allbools; entry; angles; gen_trig; gen_sq2; fin.

Lemma single_unitary t ps M : single_matrix t ps = Some M -> unitary 1 M.
Proof.
  destruct t; simpl; try discriminate;
    try (destruct ps as [|p0 ps]; [discriminate|]);
    try (destruct ps as [|p1 ps]; [discriminate|]);
    try (destruct ps as [|p2 ps]; [discriminate|]);
    intros E; inversion E; subst; clear E; split; entries1.
Qed.

Lemma two_unitary t ps M : two_matrix t ps = Some M -> unitary 2 M.
Proof.
  destruct t; simpl; try discriminate;
    try (destruct ps as [|p0 ps]; [discriminate|]);
    try (destruct ps as [|p1 ps]; [discriminate|]);
    intros E; inversion E; subst; clear E; split; entries2.
Qed.

(** ** Inverses *)
From Verif Require Import GateSpec.

Lemma single_none_two t ps M : single_matrix t ps = Some M -> is_single t = true.
Proof. destruct t; simpl; try discriminate; auto. Qed.
Lemma two_is t ps M : two_matrix t ps = Some M -> is_two t = true.
Proof. destruct t; simpl; try discriminate; auto. Qed.

Lemma apply_swap_targets M t0 t1 psi : t0 <> t1 ->
  apply M [t1; t0] psi = apply (fun r c => M (rev r) (rev c)) [t0; t1] psi.
Proof.
  intros N. apply FunctionalExtensionality.functional_extensionality. intros b.
  unfold apply. cbn [length allb map app csum fold_right setl rev].
  rewrite !(setb_comm b t0 t1) by auto. cbv [csum fold_right]. ring.
Qed.

Lemma capply_swap_targets cs M t0 t1 psi : t0 <> t1 ->
  capply cs M [t1; t0] psi = capply cs (fun r c => M (rev r) (rev c)) [t0; t1] psi.
Proof. intros N. unfold capply. now rewrite apply_swap_targets. Qed.

Definition mat_inv (k : nat) (M N : mat) : Prop :=
  meq k (mmul k N M) mid /\ meq k (mmul k M N) mid.

Lemma mat_inv_maps k cs M N ts : length ts = k -> NoDup ts -> apart cs ts -> mat_inv k M N ->
  inverse_maps (capply cs M ts) (capply cs N ts).
Proof. intros <- ND A [H1 H2]. split; intros psi; apply capply_inverse; auto. Qed.

Ltac dpars ps :=
  try (destruct ps as [|?p ps]; [discriminate|]);
  try (destruct ps as [|?p ps]; [discriminate|]);
  try (destruct ps as [|?p ps]; [discriminate|]).

Ltac inv_simple :=
  match goal with
  | |- exists o', Some ?x = Some o' /\ _ => exists x
  end; split; [reflexivity|];
  match goal with
  | |- exists M', single_matrix ?t ?p = Some M' /\ _ =>
      let m := eval cbv [single_matrix] in (single_matrix t p) in
      match m with Some ?x => exists x end
  | |- exists M', two_matrix ?t ?p = Some M' /\ _ =>
      let m := eval cbv [two_matrix] in (two_matrix t p) in
      match m with Some ?x => exists x end
  end; split; [reflexivity|split; [|split]].

(** The gate whose matrix inverts the given one. *)
Definition inv_gate (t : optype) (ps : list R) : option (optype * list R) :=
  match invert_std {| o_type := t; o_par := ps; o_ctl := []; o_tgt := [0; 1]%nat |} with
  | Some o => Some (o_type o, o_par o)
  | None => None
  end.

Lemma inv_single t ps M : single_matrix t ps = Some M ->
  exists t' ps' N, inv_gate t ps = Some (t', ps') /\ single_matrix t' ps' = Some N /\ mat_inv 1 M N.
Proof.
  destruct t; intros E; try discriminate E; cbn [single_matrix] in E; dpars ps;
    inversion E; subst; clear E; cbn [inv_gate invert_std o_type o_par o_ctl o_tgt neg0 flip_inv];
    (eexists; eexists; eexists; split; [reflexivity|split; [reflexivity|]]);
    split; entries1.
Qed.

Lemma inv_two t ps M : two_matrix t ps = Some M -> t <> gDCX ->
  exists t' ps' N, inv_gate t ps = Some (t', ps') /\ two_matrix t' ps' = Some N /\ mat_inv 2 M N.
Proof.
  destruct t; intros E ND; try discriminate E; try congruence; cbn [two_matrix] in E; dpars ps;
    inversion E; subst; clear E; cbn [inv_gate invert_std o_type o_par o_ctl o_tgt neg0 flip_inv];
    (eexists; eexists; eexists; split; [reflexivity|split; [reflexivity|]]);
    split; entries2.
Qed.

Lemma inv_gphase p : mat_inv 0 (fun _ _ => Cexp p) (fun _ _ => Cexp (- p)).
Proof.
  split; intros r c Hr Hc; destruct r, c; try discriminate; unfold mmul, mid; simpl;
    [rewrite Cexp_opp | replace p with (- - p) at 1 by ring; rewrite Cexp_opp]; apply Ceq; simpl; ring.
Qed.

Lemma inv_dcx M : two_matrix gDCX [] = Some M -> mat_inv 2 M (fun r c => M (rev r) (rev c)).
Proof.
  intros E. inversion E; subst; clear E.
  split; intros r c Hr Hc; split2 r Hr; split2 c Hc; allbools; entry; ring.
Qed.

Lemma inv_gate_std o t' ps' : inv_gate (o_type o) (o_par o) = Some (t', ps') -> o_type o <> gDCX ->
  invert_std o = Some {| o_type := t'; o_par := ps'; o_ctl := o_ctl o; o_tgt := o_tgt o |}.
Proof.
  destruct o as [t ps cs ts]. unfold inv_gate, invert_std. cbn [o_type o_par o_ctl o_tgt].
  intros E N. destruct t; try discriminate; try congruence;
    try (inversion E; subst; reflexivity).
  all: destruct ps as [|? [|? [|? ?]]]; try discriminate; inversion E; subst; reflexivity.
Qed.

Lemma single_gate_matrix t ps M : single_matrix t ps = Some M -> gate_matrix t ps = Some (1%nat, M).
Proof. intros E. unfold gate_matrix. destruct t; try discriminate; now rewrite E. Qed.
Lemma two_gate_matrix t ps M : two_matrix t ps = Some M -> gate_matrix t ps = Some (2%nat, M).
Proof.
  intros E. unfold gate_matrix. destruct t; try discriminate; rewrite E; reflexivity.
Qed.

Lemma sem_gate o k M : o_type o <> gBarrier -> gate_matrix (o_type o) (o_par o) = Some (k, M) ->
  length (o_tgt o) = k -> sem o = Some (capply (o_ctl o) M (o_tgt o)).
Proof.
  intros N G L. subst k. unfold sem. destruct (o_type o); try congruence; rewrite G, Nat.eqb_refl; reflexivity.
Qed.

(** Case analysis of a meaningful operation. *)
Lemma sem_cases o f : sem o = Some f ->
  (o_type o = gBarrier /\ f = (fun psi => psi)) \/
  (exists p ps, o_type o = gGPhase /\ o_par o = p :: ps /\ o_tgt o = [] /\
     f = capply (o_ctl o) (fun _ _ => Cexp p) []) \/
  (exists M t0, single_matrix (o_type o) (o_par o) = Some M /\ o_tgt o = [t0] /\ f = capply (o_ctl o) M [t0]) \/
  (exists M t0 t1, two_matrix (o_type o) (o_par o) = Some M /\ o_tgt o = [t0; t1] /\ f = capply (o_ctl o) M [t0; t1]).
Proof.
  intros H. unfold sem in H. destruct (optype_eq_dec (o_type o) gBarrier) as [B|B].
  { left. rewrite B in H. inversion H. auto. }
  right. assert (H' : match gate_matrix (o_type o) (o_par o) with
      | Some (k, M) => if Nat.eqb (length (o_tgt o)) k then Some (capply (o_ctl o) M (o_tgt o)) else None
      | None => None end = Some f).
  { destruct (o_type o); try congruence; exact H. }
  clear H. unfold gate_matrix in H'.
  destruct (optype_eq_dec (o_type o) gGPhase) as [G|G].
  - rewrite G in H'. destruct (o_par o) as [|p ps] eqn:EP; [discriminate|].
    destruct (o_tgt o) as [|? ?]; [|discriminate]. inversion H'. left. exists p, ps. auto.
  - assert (H'' : match (match single_matrix (o_type o) (o_par o) with
      | Some M => Some (1%nat, M)
      | None => match two_matrix (o_type o) (o_par o) with Some M => Some (2%nat, M) | None => None end end)
      with | Some (k, M) => if Nat.eqb (length (o_tgt o)) k then Some (capply (o_ctl o) M (o_tgt o)) else None
      | None => None end = Some f).
    { destruct (o_type o); try congruence; exact H'. }
    clear H'. right. destruct (single_matrix (o_type o) (o_par o)) as [M|] eqn:E1.
    + left. destruct (o_tgt o) as [|t0 [|? ?]]; try discriminate. inversion H''. exists M, t0. auto.
    + right. destruct (two_matrix (o_type o) (o_par o)) as [M|] eqn:E2; [|discriminate].
      destruct (o_tgt o) as [|t0 [|t1 [|? ?]]]; try discriminate. inversion H''. exists M, t0, t1. auto.
Qed.

Lemma invert_correct o f : wf_op o -> sem o = Some f ->
  exists o' g, invert_std o = Some o' /\ wf_op o' /\ sem o' = Some g /\ inverse_maps f g.
Proof.
  intros [ND AP] H. destruct (sem_cases o f H) as [[B ->]|[(p & ps & G & EP & ET & ->)|[(M & t0 & EM & ET & ->)|(M & t0 & t1 & EM & ET & ->)]]].
  - exists o, (fun psi => psi). split; [unfold invert_std; now rewrite B|].
    split; [split; auto|]. split; [unfold sem; now rewrite B|]. split; auto.
  - eexists. exists (capply (o_ctl o) (fun _ _ => Cexp (- p)) []).
    split; [unfold invert_std; rewrite G, EP; reflexivity|]. rewrite ET in *.
    split; [split; auto|]. split; [reflexivity|].
    apply (mat_inv_maps 0); auto. apply inv_gphase.
  - destruct (inv_single _ _ _ EM) as (t' & ps' & N & E1 & E2 & E3).
    exists {| o_type := t'; o_par := ps'; o_ctl := o_ctl o; o_tgt := o_tgt o |}, (capply (o_ctl o) N [t0]).
    split; [apply inv_gate_std; auto; intros D; rewrite D in EM; discriminate|].
    split; [split; auto|]. split.
    + rewrite <- ET. apply (sem_gate {| o_type := t'; o_par := ps'; o_ctl := o_ctl o; o_tgt := o_tgt o |} 1).
      * simpl. intros ->. discriminate.
      * now apply single_gate_matrix.
      * simpl. now rewrite ET.
    + rewrite ET in *. apply (mat_inv_maps 1); auto.
  - destruct (optype_eq_dec (o_type o) gDCX) as [D|D].
    + rewrite ET in *. inversion ND; subst.
      assert (N01 : t0 <> t1) by (intros ->; apply H2; left; auto).
      exists {| o_type := gDCX; o_par := o_par o; o_ctl := o_ctl o; o_tgt := [t1; t0] |}, (capply (o_ctl o) M [t1; t0]).
      split; [unfold invert_std; rewrite D, ET; reflexivity|]. split.
      { split; cbn [o_tgt o_ctl].
        - constructor; [|constructor; auto; constructor]. intros [->|[]]. congruence.
        - intros c Hc K. apply (AP c Hc). simpl in *. tauto. }
      assert (EM' : two_matrix gDCX [] = Some M) by (rewrite D in EM; exact EM).
      split; [unfold sem; cbn [o_type o_par o_ctl o_tgt]; rewrite (two_gate_matrix gDCX (o_par o) M) by (rewrite <- D; auto); reflexivity|].
      assert (I := mat_inv_maps 2 (o_ctl o) M _ [t0; t1] eq_refl ND AP (inv_dcx M EM')).
      destruct I as [I1 I2]. split; intros psi.
      * rewrite capply_swap_targets by auto. apply I1.
      * rewrite (capply_swap_targets _ _ t0 t1) by auto. apply I2.
    + destruct (inv_two _ _ _ EM D) as (t' & ps' & N & E1 & E2 & E3).
      exists {| o_type := t'; o_par := ps'; o_ctl := o_ctl o; o_tgt := o_tgt o |}, (capply (o_ctl o) N [t0; t1]).
      split; [apply inv_gate_std; auto|].
      split; [split; auto|]. split.
      * rewrite <- ET. apply (sem_gate {| o_type := t'; o_par := ps'; o_ctl := o_ctl o; o_tgt := o_tgt o |} 2).
        -- simpl. intros ->. discriminate.
        -- now apply two_gate_matrix.
        -- simpl. now rewrite ET.
      * rewrite ET in *. apply (mat_inv_maps 2); auto.
Qed.

Lemma invert_rejects o : unitary_type (o_type o) = false -> invert_std o = None.
Proof. unfold invert_std. destruct (o_type o); simpl; intros; try discriminate; auto. Qed.

(** ** getDD *)
Lemma dd_action_sem o f : sem o = Some f -> (o_type o = gGPhase -> o_ctl o = []) ->
  dd_action false o = Some f.
Proof.
  intros H G0. destruct (sem_cases o f H) as [[B ->]|[(p & ps & G & EP & ET & ->)|[(M & t0 & EM & ET & ->)|(M & t0 & t1 & EM & ET & ->)]]].
  - unfold dd_action. now rewrite B.
  - unfold dd_action. rewrite G, EP, (G0 G). f_equal.
    apply FunctionalExtensionality.functional_extensionality. intros psi.
    apply FunctionalExtensionality.functional_extensionality. intros b.
    unfold sscal, capply, apply. simpl. ring.
  - unfold dd_action, std_matrix. rewrite ET. pose proof (single_none_two _ _ _ EM) as I1.
    assert (o_type o <> gBarrier /\ o_type o <> gGPhase) as [B G] by (destruct (o_type o); split; try congruence; discriminate).
    destruct (o_type o); try congruence; cbn [length Nat.eqb]; rewrite I1, EM; reflexivity.
  - unfold dd_action, std_matrix. rewrite ET. pose proof (two_is _ _ _ EM) as I1.
    assert (o_type o <> gBarrier /\ o_type o <> gGPhase /\ is_single (o_type o) = false) as (B & G & S)
      by (destruct (o_type o); repeat split; try congruence; discriminate).
    destruct (o_type o); try congruence; cbn [length Nat.eqb]; rewrite S, I1, EM; reflexivity.
Qed.

Lemma dd_inverse_single t ps ts M : single_matrix t ps = Some M ->
  exists t' ps' N, dd_inverse t ps ts = Some (t', ps', ts) /\ single_matrix t' ps' = Some N /\ mat_inv 1 M N.
Proof.
  destruct t; intros E; try discriminate E; cbn [single_matrix] in E; dpars ps;
    inversion E; subst; clear E; cbn [dd_inverse map neg0 flip_inv];
    (eexists; eexists; eexists; split; [reflexivity|split; [reflexivity|]]);
    split; entries1.
Qed.

Lemma dd_inverse_two t ps ts M : two_matrix t ps = Some M -> t <> gDCX ->
  exists t' ps' N, dd_inverse t ps ts = Some (t', ps', ts) /\ two_matrix t' ps' = Some N /\ mat_inv 2 M N.
Proof.
  destruct t; intros E D; try discriminate E; try congruence; cbn [two_matrix] in E; dpars ps;
    inversion E; subst; clear E; cbn [dd_inverse map neg0 flip_inv];
    (eexists; eexists; eexists; split; [reflexivity|split; [reflexivity|]]);
    split; entries2.
Qed.

(** Inverses are unique. *)
Lemma inverse_maps_unique f g h : inverse_maps f g -> inverse_maps f h -> g = h.
Proof.
  intros [A B] [A' B']. apply FunctionalExtensionality.functional_extensionality. intros psi.
  rewrite <- (B' psi) at 1. now rewrite A.
Qed.

Lemma dd_inverse_action o f : wf_op o -> sem o = Some f -> (o_type o = gGPhase -> o_ctl o = []) ->
  exists g, dd_action true o = Some g /\ inverse_maps f g.
Proof.
  intros [ND AP] H G0. destruct (sem_cases o f H) as [[B ->]|[(p & ps & G & EP & ET & ->)|[(M & t0 & EM & ET & ->)|(M & t0 & t1 & EM & ET & ->)]]].
  - exists (fun psi => psi). split; [unfold dd_action; now rewrite B|]. split; auto.
  - exists (sscal (Cexp (- p))). split; [unfold dd_action; rewrite G, EP; reflexivity|].
    rewrite (G0 G), ET in *. destruct (mat_inv_maps 0 [] _ _ [] eq_refl ltac:(constructor) AP (inv_gphase p)) as [I1 I2].
    assert (E : forall q, capply [] (fun _ _ => Cexp q) [] = sscal (Cexp q)).
    { intros q. apply FunctionalExtensionality.functional_extensionality. intros psi.
      apply FunctionalExtensionality.functional_extensionality. intros b.
      unfold sscal, capply, apply. simpl. ring. }
    rewrite !E in *. split; auto.
  - destruct (dd_inverse_single _ _ (o_tgt o) _ EM) as (t' & ps' & N & E1 & E2 & E3).
    exists (capply (o_ctl o) N (o_tgt o)). split.
    + unfold dd_action, std_matrix.
      assert (o_type o <> gBarrier /\ o_type o <> gGPhase) as [B G] by (destruct (o_type o); split; try congruence; discriminate).
      destruct (o_type o); try congruence; rewrite E1, (single_none_two _ _ _ E2), E2, ET; reflexivity.
    + rewrite ET in *. apply (mat_inv_maps 1); auto.
  - assert (o_type o <> gBarrier /\ o_type o <> gGPhase) as [B G] by (destruct (o_type o); split; try congruence; discriminate).
    destruct (optype_eq_dec (o_type o) gDCX) as [D|D].
    + destruct (invert_correct o _ (conj ND AP) H) as (o' & g & E1 & W & E2 & E3).
      exists g. split; [|exact E3]. unfold invert_std in E1. rewrite D, ET in E1. inversion E1; subst o'.
      unfold dd_action, dd_inverse. rewrite D, ET. unfold sem in E2. cbn [o_type o_par o_ctl o_tgt] in E2. exact E2.
    + destruct (dd_inverse_two _ _ (o_tgt o) _ EM D) as (t' & ps' & N & E1 & E2 & E3).
      exists (capply (o_ctl o) N (o_tgt o)). split.
      * unfold dd_action, std_matrix.
        assert (S' : is_single t' = false) by (destruct t'; try discriminate; reflexivity).
        destruct (o_type o); try congruence; rewrite E1, S', (two_is _ _ _ E2), E2, ET; reflexivity.
      * rewrite ET in *. apply (mat_inv_maps 2); auto.
Qed.
