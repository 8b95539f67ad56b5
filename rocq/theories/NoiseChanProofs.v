(* Channels on density operators: linearity, trace, the textbook channels. *)
From Coq Require Import Reals Lra List Bool Arith Lia FunctionalExtensionality.
From Verif Require Import Cplx Qsem GateModel OutcomeSpec DDModel DDSpec DDProofs DDOpsProofs OptResetProofs SimMeasProofs NoiseSpec.
Import ListNotations.
Local Open Scope R_scope.

(* K on qubit q *)
Definition app1 (K : mat2) (q : nat) (psi : state) : state := fun b => sum2 (fun i => (K (b q) i * psi (setb b q i))%C).
Lemma app1_capply (K : mat2) q psi : app1 K q psi = capply [] (fun r c => match r, c with [i], [j] => K i j | _, _ => C0 end) [q] psi.
Proof. apply functional_extensionality. intros b. unfold app1, sum2, capply, sat, apply, csum. cbn. ring. Qed.
Lemma dext (rho sigma : density) : (forall b c, rho b c = sigma b c) -> rho = sigma.
Proof. intros H. apply functional_extensionality. intros b. apply functional_extensionality. auto. Qed.

Lemma kact_proj K q psi : kact K q (proj psi) = proj (app1 K q psi).
Proof. apply dext. intros b c. unfold kact, proj, app1, sum2. rewrite Cconj_add, !Cconj_mul. ring. Qed.
Lemma app1_mI q psi : app1 mI q psi = psi.
Proof.
  apply functional_extensionality. intros b. unfold app1, sum2, mI, diag2.
  assert (E : psi b = psi (setb b q (b q))). { f_equal. apply functional_extensionality. intros x. unfold setb. destruct (Nat.eqb_spec x q); subst; auto. }
  rewrite E. destruct (b q); cbn [eqb]; ring.
Qed.

(* sums over a pair of assignments *)
Lemma bsum_pair n f g q : (q < n)%nat -> (forall b, (f (setb b q false) + f (setb b q true) = g (setb b q false) + g (setb b q true))%C) ->
  forall b, bsum n f b = bsum n g b.
Proof.
  intros Q H. induction n as [|n IH]; [lia|]. intros b. cbn [bsum]. destruct (Nat.eq_dec q n) as [->|N].
  - rewrite !bsum_setb, <- !bsum_add by auto. apply bsum_ext. intros c. apply H.
  - rewrite !IH by lia. auto.
Qed.
Lemma setb_eq b q v : setb b q v q = v.
Proof. unfold setb. now rewrite Nat.eqb_refl. Qed.
Lemma setb_setb b q v w : setb (setb b q v) q w = setb b q w.
Proof. apply functional_extensionality. intros x. unfold setb. destruct (Nat.eqb x q); auto. Qed.

Lemma channel_cons w K ks q rho b c : channel ((w, K) :: ks) q rho b c = (RtoC w * kact K q rho b c + channel ks q rho b c)%C.
Proof. reflexivity. Qed.
Lemma trace_channel n ks q rho : complete ks -> (q < n)%nat -> trace n (channel ks q rho) = trace n rho.
Proof.
  intros Co Q. unfold trace. apply (bsum_pair n _ _ q Q). intros b.
  assert (E : forall ks, (channel ks q rho (setb b q false) (setb b q false) + channel ks q rho (setb b q true) (setb b q true)
    = sum2 (fun i => sum2 (fun j => fold_right (fun wk acc => (RtoC (fst wk) * sum2 (fun k => (Cconj (snd wk k j) * snd wk k i)%C) + acc)%C) C0 ks
         * rho (setb b q i) (setb b q j))))%C).
  { clear. induction ks as [|[w K] ks IH]; [unfold channel, sum2; cbn [fold_right]; ring|].
    rewrite !channel_cons. cbn [fold_right fst snd].
    transitivity (RtoC w * (kact K q rho (setb b q false) (setb b q false) + kact K q rho (setb b q true) (setb b q true))
      + (channel ks q rho (setb b q false) (setb b q false) + channel ks q rho (setb b q true) (setb b q true)))%C; [ring|].
    rewrite IH. clear IH. unfold kact, sum2. rewrite !setb_eq, !setb_setb. ring. }
  rewrite E. clear E.
  transitivity (sum2 (fun i => sum2 (fun j => ((if eqb j i then C1 else C0) * rho (setb b q i) (setb b q j))%C))); [|unfold sum2; cbn [eqb]; ring].
  f_equal. apply functional_extensionality. intros i. f_equal. apply functional_extensionality. intros j. rewrite <- Co. reflexivity.
Qed.
Lemma weight_trace n psi : RtoC (weight n psi) = trace n (proj psi).
Proof.
  unfold weight, trace. generalize (fun _ : nat => false). induction n as [|n IH]; intros b; cbn [weight_from bsum].
  - unfold proj. destruct (psi b) as [x y]. unfold Cnorm2, RtoC, Cmul, Cconj. cbn. apply Ceq; cbn; ring.
  - rewrite RtoC_add, !IH. auto.
Qed.

(* linearity *)
Section L.
Variable L : density -> R.
Hypothesis HL : linear L.
Lemma lin_add rho sigma : L (fun b c => (rho b c + sigma b c)%C) = L rho + L sigma.
Proof.
  rewrite <- (Rmult_1_l (L rho)), <- (Rmult_1_l (L sigma)), <- HL. f_equal. apply dext. intros b c. rewrite RtoC_1. ring.
Qed.
Lemma lin_scal x rho : L (fun b c => (RtoC x * rho b c)%C) = x * L rho.
Proof.
  pose proof (HL x 0 rho rho) as H. rewrite Rmult_0_l, Rplus_0_r in H. rewrite <- H. f_equal. apply dext. intros b c. rewrite RtoC_0. ring.
Qed.
Lemma lin_zero : L (fun _ _ => C0) = 0.
Proof. pose proof (lin_scal 0 (fun _ _ => C0)) as H. rewrite Rmult_0_l in H. rewrite <- H. f_equal. apply dext. intros. ring. Qed.
Lemma lin_channel ks q rho : L (channel ks q rho) = rsum ks (fun wk => fst wk * L (kact (snd wk) q rho)).
Proof.
  induction ks as [|[w K] ks IH]; [exact lin_zero|]. cbn [rsum fold_right fst snd].
  transitivity (L (fun b c => ((fun b c => (RtoC w * kact K q rho b c)%C) b c + channel ks q rho b c)%C)); [reflexivity|].
  rewrite lin_add, lin_scal. rewrite IH. reflexivity.
Qed.
End L.
Lemma kact_lin K q x y rho sigma b c : kact K q (fun b c => (RtoC x * rho b c + RtoC y * sigma b c)%C) b c
  = (RtoC x * kact K q rho b c + RtoC y * kact K q sigma b c)%C.
Proof. unfold kact, sum2. ring. Qed.
Lemma channel_lin ks q x y rho sigma : channel ks q (fun b c => (RtoC x * rho b c + RtoC y * sigma b c)%C)
  = fun b c => (RtoC x * channel ks q rho b c + RtoC y * channel ks q sigma b c)%C.
Proof.
  apply dext. intros b c. induction ks as [|[w K] ks IH]; [unfold channel; cbn [fold_right]; ring|].
  rewrite !channel_cons, kact_lin, IH. ring.
Qed.
(* one channel after the other, all on qubit q *)
Definition chain (kss : list kraus) (q : nat) (rho : density) : density := fold_left (fun r ks => channel ks q r) kss rho.
Lemma chain_lin kss q x y : forall rho sigma, chain kss q (fun b c => (RtoC x * rho b c + RtoC y * sigma b c)%C)
  = fun b c => (RtoC x * chain kss q rho b c + RtoC y * chain kss q sigma b c)%C.
Proof.
  induction kss as [|ks kss IH]; intros rho sigma; [reflexivity|]. unfold chain in *. cbn [fold_left]. rewrite channel_lin. apply IH.
Qed.
Lemma linear_chain L kss q : linear L -> linear (fun rho => L (chain kss q rho)).
Proof. intros H x y rho sigma. rewrite chain_lin. apply H. Qed.
Definition chains (kss : list kraus) (qs : list nat) (rho : density) : density := fold_left (fun r q => chain kss q r) qs rho.
Lemma linear_chains kss qs L : linear L -> linear (fun rho => L (chains kss qs rho)).
Proof.
  intros H. assert (E : forall x y rho sigma, chains kss qs (fun b c => (RtoC x * rho b c + RtoC y * sigma b c)%C)
    = fun b c => (RtoC x * chains kss qs rho b c + RtoC y * chains kss qs sigma b c)%C).
  { induction qs as [|q qs IH]; intros x y rho sigma; [reflexivity|]. unfold chains in *. cbn [fold_left]. rewrite chain_lin. apply IH. }
  intros x y rho sigma. cbv beta. rewrite (E x y). apply H.
Qed.
Lemma trace_chain n kss q : Forall complete kss -> (q < n)%nat -> forall rho, trace n (chain kss q rho) = trace n rho.
Proof.
  intros F Q. induction F as [|ks kss C F IH]; intros rho; [reflexivity|]. unfold chain in *. cbn [fold_left]. rewrite IH. apply trace_channel; auto.
Qed.
Lemma trace_chains n kss qs : Forall complete kss -> (forall q, In q qs -> (q < n)%nat) -> forall rho, trace n (chains kss qs rho) = trace n rho.
Proof.
  intros F. induction qs as [|q qs IH]; intros Q rho; [reflexivity|]. unfold chains in *. cbn [fold_left].
  rewrite IH by (intros; apply Q; cbn; auto). apply trace_chain; auto. apply Q. cbn. auto.
Qed.

(* the textbook channels are complete *)
Lemma phase_flip_complete p : complete (phase_flip p).
Proof. intros [] []; unfold phase_flip, mI, mZ, diag2, sum2; cbn; apply Ceq; cbn; ring. Qed.
Lemma depolarising_complete p : complete (depolarising p).
Proof. intros [] []; unfold depolarising, mI, mX, mY, mZ, diag2, anti2, sum2; cbn; apply Ceq; cbn; field. Qed.
Lemma amplitude_damping_complete a : 0 <= a <= 1 -> complete (amplitude_damping a).
Proof.
  intros H. pose proof (sqrt_sqrt a ltac:(lra)) as S1. pose proof (sqrt_sqrt (1 - a) ltac:(lra)) as S2.
  intros [] []; unfold amplitude_damping, diag2, anti2, sum2; cbn; apply Ceq; cbn; lra.
Qed.
