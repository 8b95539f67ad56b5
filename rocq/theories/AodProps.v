(** C114: operations of acousto-optic deflectors. *)
From Coq Require Import ZArith QArith Qabs List Bool String Arith Lia.
From Verif Require Import GateModel OpNameModel AodModel AodSpec AodProofs.
Import ListNotations.
Open Scope Q_scope.

(** Inverting undoes the operation: types are exchanged, moves go back, nothing else changes, and doing it twice changes nothing *)
Theorem C114_invert : forall t qubits ops, let a := makeAod t qubits ops in
  atype (invert a) = undone t /\ targets (invert a) = qubits
  /\ (t = gAodMove -> Forall2 reversed ops (operations (invert a)))
  /\ (t <> gAodMove -> operations (invert a) = ops)
  /\ invert (invert a) = a.
Proof.
  intros t qubits ops a. split; [destruct t; reflexivity|]. split; [destruct t; reflexivity|].
  split; [|split; [destruct t; intros; try reflexivity; congruence | apply invert_involutive]].
  intros ->. simpl. clear a. induction ops as [|o ops IH]; constructor; [repeat split | exact IH].
Qed.
Print Assumptions C114_invert.

(** The starting points, end points and distances of one direction, in order; inverting a move exchanges the first two and keeps the third *)
Theorem C114_coordinates : forall t qubits ops d, let a := makeAod t qubits ops in
  let mine := filter (fun o => match dir o, d with X, X | Y, Y => true | _, _ => false end) ops in
  getStarts a d = map from mine /\ getEnds a d = map to mine
  /\ Forall2 (fun x o => 0 <= x /\ (x == to o - from o \/ x == from o - to o)) (getDistances a d) mine
  /\ Forall2 Qeq (getDistances (invert a) d) (getDistances a d)
  /\ (t = gAodMove -> getStarts (invert a) d = getEnds a d /\ getEnds (invert a) d = getStarts a d).
Proof.
  intros t qubits ops d a mine.
  split; [reflexivity|]. split; [reflexivity|]. split; [|split; [apply distances_invert | intros E; apply starts_invert; exact E]].
  change (getDistances a d) with (map (fun op => Qabs (to op - from op)) mine). induction mine as [|o l IH]; constructor; [|exact IH].
  split; [apply Qabs_nonneg|]. apply Qabs_case; intros _; [left; reflexivity | right; ring].
Qed.
Print Assumptions C114_coordinates.

Theorem C114_max : forall a d, largest (getMaxDistance a d) (getDistances a d).
Proof. exact max_largest. Qed.
Print Assumptions C114_max.

(** The text of an operation, inverted any number of times in the case of a move and an even number of times otherwise, reads back as
    the same operation if there are targets and single operations and the coordinates have at most six significant digits *)
Theorem C114_text_partial : forall t qubits ops n f spaces, let a := inverts n (makeAod t qubits ops) in
  keyword t <> None -> t = gAodMove \/ Nat.even n = true ->
  qubits <> [] -> ops <> [] -> Forall (fun o => short (from o) /\ short (to o)) (operations a) ->
  exists w written, readText (dumpOpenQASM a f spaces) = Some (w, written, map f qubits)
    /\ keyword (atype a) = Some w /\ Forall2 denotes written (operations a).
Proof.
  intros t qubits ops n f spaces a K T Nq No Sh.
  destruct (inverts_kept n (makeAod t qubits ops)) as (A & B & C). fold a in A, B, C. simpl in A, B, C.
  exists (name a), (map shown (operations a)). split; [rewrite readText_dump, B; [reflexivity | | rewrite B; exact Nq]|].
  - intros E. rewrite E in C. destruct ops; [contradiction | discriminate C].
  - split.
    + assert (E : atype a = t).
      { destruct T as [->|T]; [apply inverts_move; reflexivity | unfold a; rewrite inverts_even by exact T; reflexivity]. }
      rewrite E, A. destruct t; try reflexivity; exfalso; apply K; reflexivity.
    + clear C. induction Sh as [|o l [S1 S2] _ IH]; constructor; [|exact IH].
      split; [reflexivity|]. split; apply sig6_exact; assumption.
Qed.
Print Assumptions C114_text_partial.

(** Any coordinates are printed with at most six digits and to within half a unit of the sixth *)
Theorem C114_precision : forall a f spaces, operations a <> [] -> targets a <> [] ->
  exists w written regs, readText (dumpOpenQASM a f spaces) = Some (w, written, regs)
    /\ Forall2 (fun v o => fst (fst v) = dir o
                 /\ Qabs (snd (fst v) - from o) <= Qabs (from o) * (1 # 200000) /\ Qabs (snd v - to o) <= Qabs (to o) * (1 # 200000)
                 /\ short (snd (fst v)) /\ short (snd v))
         written (operations a).
Proof.
  intros a f spaces H1 H2. exists (name a), (map shown (operations a)), (map f (targets a)). split; [apply readText_dump; assumption|].
  clear H1. induction (operations a) as [|o l IH]; constructor; [|exact IH]. split; [reflexivity|]. split; [apply sig6_close|]. split; [apply sig6_close|]. split; apply sig6_short.
Qed.
Print Assumptions C114_precision.

Definition reg (q : nat) : string := match q with O => "q[0]"%string | _ => "q[1]"%string end.
Definition ex (t : optype) : aod := makeAod t [0; 1]%nat [Single X 0 (5 # 2); Single Y 3 1; Single X 7 3].

(** An inverted activation is a deactivation that is still written as an activation *)
Theorem C114_name_refuted : exists a, atype (invert a) = gAodDeactivate
  /\ dumpOpenQASM (invert a) reg 0 = dumpOpenQASM a reg 0
  /\ exists l r, readText (dumpOpenQASM (invert a) reg 0) = Some ("aod_activate"%string, l, r).
Proof. exists (ex gAodActivate). split; [reflexivity|]. split; [reflexivity|]. do 2 eexists. reflexivity. Qed.
Print Assumptions C114_name_refuted.

(** Different coordinates give the same text: 1234567 and 1234570 *)
Theorem C114_digits_refuted : exists a b, atype a = gAodMove /\ atype b = gAodMove
  /\ ~ Forall2 Qeq (getEnds a X) (getEnds b X) /\ dumpOpenQASM a reg 0 = dumpOpenQASM b reg 0.
Proof.
  exists (makeAod gAodMove [0%nat] [Single X 0 1234567]), (makeAod gAodMove [0%nat] [Single X 0 1234570]).
  split; [reflexivity|]. split; [reflexivity|]. split; [intros H; inversion H; discriminate | vm_compute; reflexivity].
Qed.
Print Assumptions C114_digits_refuted.

(** Without single operations the opening parenthesis is overwritten, without targets the closing one *)
Theorem C114_empty_refuted :
  dumpOpenQASM (makeAod gAodMove [0%nat] []) reg 0 = [TName "aod_move"; TSp; TClose; TSp; TReg "q[0]"; TSemi; TNl]
  /\ exists pre, dumpOpenQASM (makeAod gAodMove [] [Single X 0 1]) reg 0 = pre ++ [TSemi; TSemi; TNl]
  /\ ~ In TClose pre.
Proof.
  split; [reflexivity|]. exists (removelast (removelast (removelast (dumpOpenQASM (makeAod gAodMove [] [Single X 0 1]) reg 0)))).
  split; [vm_compute; reflexivity|]. vm_compute. intuition discriminate.
Qed.
Print Assumptions C114_empty_refuted.

(** Comparison looks exactly at the type and the targets, also for inverses *)
Theorem C114_equal_partial : forall a b,
  (equals a b = true <-> atype a = atype b /\ targets a = targets b)
  /\ (isInverseOf a b = true <-> atype a = undone (atype b) /\ targets a = targets b).
Proof.
  intros a b. split; [apply equals_iff|]. unfold isInverseOf. rewrite equals_iff.
  destruct (type_invert b) as [-> ->]. reflexivity.
Qed.
Print Assumptions C114_equal_partial.

(** Two moves to different places compare equal, and a move counts as the inverse of itself *)
Theorem C114_equal_refuted : exists a b, equals a b = true /\ getEnds a X <> getEnds b X /\ isInverseOf a a = true /\ operations (invert a) <> operations a.
Proof.
  exists (ex gAodMove), (makeAod gAodMove [0; 1]%nat [Single X 0 1]).
  split; [reflexivity|]. split; [discriminate|]. split; [reflexivity | discriminate].
Qed.
Print Assumptions C114_equal_refuted.

(** Tests *)
Example C114_ex_max : getMaxDistance (ex gAodMove) X == 4 /\ getMaxDistance (ex gAodMove) Y == 2 /\ getStarts (invert (ex gAodMove)) X = [5 # 2; 3].
Proof. repeat split; vm_compute; reflexivity. Qed.
Example C114_ex_text : exists l, readText (dumpOpenQASM (invert (ex gAodMove)) reg 2) = Some ("aod_move"%string, l, ["q[0]"; "q[1]"]%string)
  /\ Forall2 denotes l [Single X (5 # 2) 0; Single Y 1 3; Single X 3 7].
Proof. eexists. split; [vm_compute; reflexivity|]. repeat constructor. Qed.
Example C114_ex_short : short (5 # 2) /\ short 1234560.
Proof. split; [exists 25%Z, (-1)%Z | exists 123456%Z, 1%Z]; split; (lia || reflexivity). Qed.
Example C114_ex_sig6 : sig6 (1 # 3) == 333333 # 1000000 /\ sig6 (2 # 3) == 666667 # 1000000 /\ sig6 (-1234565) == -1234560 /\ sig6 (1 # 1024) == 9765620 # 10000000000.
Proof. repeat split; vm_compute; reflexivity. Qed.
