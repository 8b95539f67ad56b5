(** C55: layers. *)
From Coq Require Import List Arith ZArith Bool.
From Verif Require Import GraphModel LayerModel LayerSpec LayerProofs LayerDagProofs.
Import ListNotations.

(** In every history of [create], [addEnabledSuccessor], [addDisabledSuccessor]
    and [execute] calls the executable set holds exactly the vertices that may
    be executed, and [execute] succeeds for exactly those. *)
Theorem C55_executable_set_exact :
  forall ops, well_named 0 ops ->
  exists l s, layer_run ops layer_empty = Some l /\ lsteps lspec_empty ops s
    /\ NoDup (exset l)
    /\ (forall v, In v (exset l) <-> isExecutable l v = true)
    /\ (forall v, In v (exset l) <-> may_execute s v)
    /\ (forall v, v < size s ->
          (may_execute s v -> exists l', layer_execute l v = Ret l')
          /\ (~ may_execute s v -> layer_execute l v = Exn l)).
Proof. exact c55_exact. Qed.
Print Assumptions C55_executable_set_exact.

(** Circuits in which no two neighbouring operations on a qubit are inverse to
    each other: every schedule the layer accepts keeps the order of dependent
    operations, and no schedule gets stuck. *)
Theorem C55_order_partial :
  forall (Op : Type) used isInverseOf commutesAtQubit opeq commutable (ops : list Op) nq,
  (forall o, In o ops -> NoDup (used o)) ->
  (forall o q, In o ops -> In q (used o) -> q < nq) ->
  (forall a b c q, commutesAtQubit a b q = true -> commutesAtQubit a c q = true ->
     commutesAtQubit b c q = true) ->
  no_inverse_neighbours used isInverseOf ops ->
  exists l, constructDAG used isInverseOf commutesAtQubit opeq commutable ops nq = Some l /\
  forall vs l', execute_all vs l = Some l' ->
    NoDup vs /\ (forall v, In v vs -> v < length ops)
    /\ (forall i j, i < j -> dependent used commutesAtQubit commutable ops i j ->
          In j vs -> before vs i j)
    /\ ((exists v, v < length ops /\ ~ In v vs) -> exists v l'', ~ In v vs /\ v < length ops
          /\ In v (exset l') /\ layer_execute l' v = Ret l'').
Proof. intros Op. exact c55_order. Qed.
Print Assumptions C55_order_partial.

(** Under the same condition every complete schedule has the meaning of the
    circuit, in any monoid in which operations that commute at all their common
    qubits commute. *)
Theorem C55_meaning_partial :
  forall (Op : Type) used isInverseOf commutesAtQubit opeq commutable (ops : list Op) nq,
  (forall o, In o ops -> NoDup (used o)) ->
  (forall o q, In o ops -> In q (used o) -> q < nq) ->
  (forall a b c q, commutesAtQubit a b q = true -> commutesAtQubit a c q = true ->
     commutesAtQubit b c q = true) ->
  no_inverse_neighbours used isInverseOf ops ->
  forall (M : Type) (one : M) (mul : M -> M -> M),
  (forall a b c, mul a (mul b c) = mul (mul a b) c) ->
  forall sem : Op -> M,
  (forall a b,
     (forall q, In q (used a) -> In q (used b) ->
        commutable = true /\ commutesAtQubit a b q = true) ->
     mul (sem a) (sem b) = mul (sem b) (sem a)) ->
  exists l, constructDAG used isInverseOf commutesAtQubit opeq commutable ops nq = Some l /\
  forall vs l', execute_all vs l = Some l' -> (forall v, v < length ops -> In v vs) ->
    meaning ops one mul sem vs = meaning ops one mul sem (seq 0 (length ops)).
Proof. intros Op. exact c55_meaning. Qed.
Print Assumptions C55_meaning_partial.

(** ** The condition is needed *)

(** CX and Z gates with the behaviour of [StandardOperation]:
    StandardOperation.cpp:497-556 [commutesAtQubit], Operation.cpp:194-196
    [isInverseOf] (both gates are self-inverse). *)
Inductive lgate := GCX (c t : nat) | GZ (q : nat).
Definition lg_used (g : lgate) : list nat :=
  match g with GCX c t => if Nat.leb c t then [c; t] else [t; c] | GZ q => [q] end.
Definition lg_eq (a b : lgate) : bool :=
  match a, b with
  | GCX c t, GCX c' t' => Nat.eqb c c' && Nat.eqb t t'
  | GZ q, GZ q' => Nat.eqb q q'
  | _, _ => false
  end.
Definition lg_commutes (a b : lgate) (q : nat) : bool :=
  if existsb (Nat.eqb q) (lg_used a) && existsb (Nat.eqb q) (lg_used b) then
    match a, b with
    | GZ _, GZ _ => true
    | GZ _, GCX c _ => Nat.eqb q c
    | GCX c _, GZ _ => Nat.eqb q c
    | GCX c t, GCX c' t' =>
        if Nat.eqb q c then Nat.eqb q c'
        else if Nat.eqb q c' then false else Nat.eqb t t'
    end
  else true.

(** Signed basis states: the meaning of CX and Z. *)
Definition lg_apply (s : bool * (nat -> bool)) (g : lgate) : bool * (nat -> bool) :=
  let '(sign, b) := s in
  match g with
  | GCX c t => (sign, fun q => if Nat.eqb q t then xorb (b t) (b c) else b q)
  | GZ q => (xorb sign (b q), b)
  end.

Definition lg_circuit : list lgate := [GCX 2 0; GCX 0 1; GZ 1; GCX 0 1].

(** The layer accepts a schedule that is a permutation of the circuit but maps
    |100> to +|101> instead of -|101> while |000> is mapped to +|000> by both:
    the relative phase is wrong. *)
Theorem C55_inverse_pairs_refuted :
  exists l l' vs,
    constructDAG lg_used lg_eq lg_commutes lg_eq true lg_circuit 3 = Some l
    /\ execute_all vs l = Some l' /\ vs = [1; 2; 3; 0]
    /\ (let run s := fold_left lg_apply s in
        let sched := map (fun i => nth i lg_circuit (GZ 0)) vs in
        let in1 := (false, fun q => Nat.eqb q 2) in
        let in0 := (false, fun _ : nat => false) in
        fst (run lg_circuit in1) = true /\ fst (run sched in1) = false
        /\ fst (run lg_circuit in0) = false /\ fst (run sched in0) = false
        /\ forall q, snd (run lg_circuit in1) q = snd (run sched in1) q).
Proof.
  eexists. eexists. exists [1; 2; 3; 0].
  split; [vm_compute; reflexivity|]. split; [vm_compute; reflexivity|]. split; [reflexivity|].
  cbv zeta. repeat split; try (vm_compute; reflexivity).
  intros q. destruct q as [|[|[|q]]]; vm_compute; reflexivity.
Qed.
Print Assumptions C55_inverse_pairs_refuted.

(** A circuit covered by the order theorem, with a reordering it permits. *)
Example C55_example :
  (exists l l', constructDAG lg_used lg_eq lg_commutes lg_eq true
                  [GCX 0 1; GCX 0 2; GZ 2; GZ 0] 3 = Some l
     /\ exset l = [3; 1; 0]
     /\ execute_all [3; 1; 2; 0] l = Some l' /\ exset l' = []
     /\ layer_execute l 2 = Exn l).
Proof. eexists. eexists. repeat split; vm_compute; reflexivity. Qed.

Example C55_example_inverse_free :
  no_inverse_neighbours lg_used lg_eq [GCX 0 1; GCX 0 2; GZ 2; GZ 0].
Proof.
  intros i j q a b H A B _ _ _.
  destruct i as [|[|[|[|i]]]], j as [|[|[|[|j]]]]; simpl in A, B; try (exfalso; Lia.lia);
    inversion A; inversion B; subst; try reflexivity;
    try (destruct i; discriminate); try (destruct j; discriminate).
Qed.
