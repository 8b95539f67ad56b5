(* Nested scopes. *)
From Coq Require Import Bool List String Arith Lia.
From Verif Require Import QasmEnvModel.
Import ListNotations.

Section Env.
Variable T : Type.
Inductive hop := HPush | HPop | HDef (k : string) (v : T).
Definition hstep (o : hop) (e : env T) : option (env T) := match o with HPush => Some (env_push e) | HPop => env_pop e | HDef k v => env_emplace k v e end.
Fixpoint hrun (h : list hop) (e : env T) : option (env T) := match h with [] => Some e | o :: h' => match hstep o e with Some e' => hrun h' e' | None => None end end.
(* The binding of k visible after a history, found by reading it backwards: scopes that have been closed are skipped,
   and of the scopes still open the innermost one with a binding counts, in it the first binding. *)
Fixpoint visible (k : string) (rh : list hop) (closed : nat) (cand : option T) : option T :=
  match rh with
  | [] => cand
  | HPop :: h => visible k h (S closed) cand
  | HPush :: h => match closed with S n => visible k h n cand | O => match cand with Some c => Some c | None => visible k h 0 None end end
  | HDef k' v :: h => match closed with O => if String.eqb k' k then visible k h 0 (Some v) else visible k h 0 cand | S _ => visible k h closed cand end
  end.
(* complete blocks *)
Inductive balanced : list hop -> Prop :=
| bal_nil : balanced []
| bal_def k v h : balanced h -> balanced (HDef k v :: h)
| bal_block b h : balanced b -> balanced h -> balanced (HPush :: b ++ HPop :: h).

Definition F (k : string) (e : env T) (cand : option T) : option T :=
  match e with m :: r => match map_find k m with Some w => Some w | None => match cand with Some c => Some c | None => env_find k r end end | [] => cand end.
Lemma hrun_snoc h o e : hrun (h ++ [o]) e = match hrun h e with Some e' => hstep o e' | None => None end.
Proof. revert e. induction h as [|p h IH]; intros e; cbn; [now destruct (hstep o e)|]. destruct (hstep p e); auto. Qed.
Lemma map_find_app k (m : scope T) k' v : map_find k (m ++ [(k', v)]) = match map_find k m with Some w => Some w | None => if String.eqb k' k then Some v else None end.
Proof. induction m as [|[a w] m IH]; cbn; auto. destruct (String.eqb a k); auto. Qed.
Lemma visible_ok k h : forall e, hrun h env_new = Some e -> forall n cand, visible k (rev h) n cand = F k (skipn n e) cand.
Proof.
  induction h as [|o h IH] using rev_ind; intros e; [|rewrite hrun_snoc, rev_app_distr; cbn [rev app]].
  - cbn. intros E. injection E as <-. intros [|n] cand; cbn; [now destruct cand|]. now destruct n.
  - destruct (hrun h env_new) as [e0|] eqn:E0; [|discriminate]. specialize (IH e0 eq_refl). destruct o as [| |k' v]; cbn [hstep visible].
    + intros E. injection E as <-. intros [|n] cand; cbn [skipn env_push].
      * destruct cand; [reflexivity|]. rewrite IH. cbn. destruct e0 as [|m r]; cbn; auto.
      * apply IH.
    + destruct e0 as [|m r]; [discriminate|]. intros E. injection E as <-. intros n cand. rewrite IH. reflexivity.
    + destruct e0 as [|m r]; [discriminate|]. intros E. injection E as <-. intros [|n] cand; cbn [skipn]; [|rewrite IH; reflexivity].
      cbn [F]. destruct (String.eqb_spec k' k) as [->|N].
      * rewrite IH. cbn. destruct (map_find k m) eqn:M; [now rewrite M|]. rewrite map_find_app, M. now rewrite String.eqb_refl.
      * rewrite IH. cbn. destruct (map_find k' m); auto. rewrite map_find_app. apply String.eqb_neq in N. rewrite N. now destruct (map_find k m).
Qed.
Lemma find_visible k h e : hrun h env_new = Some e -> env_find k e = visible k (rev h) 0 None.
Proof. intros E. rewrite (visible_ok k h e E). cbn. destruct e as [|m r]; cbn; auto. Qed.
Lemma hrun_app h1 h2 e : hrun (h1 ++ h2) e = match hrun h1 e with Some e' => hrun h2 e' | None => None end.
Proof. revert e. induction h1 as [|o h1 IH]; intros e; cbn; auto. destruct (hstep o e); auto. Qed.
Lemma balanced_run h : balanced h -> forall m (r : env T), exists m', hrun h (m :: r) = Some (m' :: r).
Proof.
  induction 1 as [|k v h B IH|b h Bb IHb Bh IHh]; intros m r; cbn [hrun hstep env_emplace env_push]; eauto.
  destruct (IHb [] (m :: r)) as (m1 & E1). rewrite hrun_app. unfold scope, env, env_push in *. rewrite E1. cbn. apply IHh.
Qed.
Lemma scope_restores b e : balanced b -> hrun (HPush :: b ++ [HPop]) e = Some e.
Proof. intros B. cbn. rewrite hrun_app. destruct (balanced_run b B [] e) as (m & E). unfold scope, env, env_push in *. rewrite E. reflexivity. Qed.
End Env.
Arguments HPush {T}. Arguments HPop {T}. Arguments HDef {T}. Arguments hrun {T}. Arguments visible {T}. Arguments balanced {T}.
