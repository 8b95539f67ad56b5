(** Optimisation passes that deal with measurements and resets:
    src/circuit_optimizer/CircuitOptimizer.cpp:282-585, 654-942. *)
From Coq Require Import Reals List Arith Bool NArith.
From Verif Require Import Cplx Qsem GateModel IRModel GraphModel OptModel.
Import ListNotations.
Local Open Scope list_scope.

(** Result of a function that may dereference an end iterator ([Bad]), throw, or
    run on beyond the given fuel. *)
Inductive res (A : Type) := Done (a : A) | Bad | Throws | Fuel.
Arguments Done {A}. Arguments Bad {A}. Arguments Throws {A}. Arguments Fuel {A}.
Definition bind {A B} (x : res A) (f : A -> res B) : res B :=
  match x with Done a => f a | Bad => Bad | Throws => Throws | Fuel => Fuel end.
Notation "'do' x <- a ; b" := (bind a (fun x => b)) (at level 200, x pattern, a at level 100, b at level 200).

(** Positions of the operations on qubit [q], last one first: the reversed view
    of dag.at(q) (CircuitOptimizer.cpp:25-45, constructDAG). *)
Fixpoint positions (q i : nat) (l : list cop) : list nat :=
  match l with
  | [] => []
  | o :: r => positions q (S i) r ++ (if memn q (used o) then [i] else [])
  end.

(** The reverse iterator of every qubit, as the part of the list in front of it;
    [[]] is rend(). *)
Definition iters := nat -> list nat.
Definition iset (it : iters) (q : nat) (l : list nat) : iters := fun x => if Nat.eqb x q then l else it x.
Definition dstate := (list cop * iters)%type.
Definition sit (s : dstate) (q : nat) : list nat := snd s q.
Definition send (s : dstate) (q : nat) : dstate := (fst s, iset (snd s) q []).
(** ++iterator *)
Definition advance (q : nat) (s : dstate) : res dstate :=
  match snd s q with [] => Bad | _ :: r => Done (fst s, iset (snd s) q r) end.
Fixpoint advance_all (qs : list nat) (s : dstate) : res dstate :=
  match qs with [] => Done s | q :: r => do s' <- advance q s; advance_all r s' end.

(** The operation a pass looks at: the one at position [p] itself, the [k]-th one
    of a compound operation, or the one under classical control. *)
Inductive sel := Whole | Part (k : nat) | Under.
Definition pick_op (o : cop) (k : sel) : option cop :=
  match k, o with
  | Whole, _ => Some o
  | Part i, OComp _ l => nth_error l i
  | Under, OClass _ o' => Some o'
  | _, _ => None
  end.
(** setGate(I), Operation.hpp:122-125, on any operation: the type changes,
    targets and controls stay. A non-unitary operation of type I is represented
    as a standard one; only its type and qubits matter from then on. *)
Definition kill (o : cop) : cop :=
  match o with
  | OStd _ => set_gate_I o
  | OMeas qs _ | OReset qs => OStd {| o_type := gI; o_par := []; o_ctl := []; o_tgt := qs |}
  | _ => o
  end.
Definition kill_at (o : cop) (k : sel) : cop :=
  match k, o with
  | Whole, _ => kill o
  | Part i, OComp cu l => match nth_error l i with Some x => OComp cu (upd l i (kill x)) | None => o end
  | Under, OClass c o' => OClass c (kill o')
  | _, _ => o
  end.
Definition kill_pos (s : dstate) (p : nat) (k : sel) : dstate :=
  match nth_error (fst s) p with Some o => (upd (fst s) p (kill_at o k), snd s) | None => s end.

(** isDiagonalGate: flag of the type *)
Definition cdiag (o : cop) : bool := match o with OStd s => is_diag (o_type s) | _ => false end.

Section Diag.
Variable nq : nat.

(** ** removeDiagonalGatesBeforeMeasure: 270-462 *)
Section Step.
(** the recursive call *)
Variable rec : nat -> option nat -> dstate -> res dstate.

(** 378-401, 403-419: one control or target; the result tells whether to go on. *)
Definition check_one (idx q : nat) (neg : bool) (s : dstate) : res (dstate * bool) :=
  if Nat.eqb q idx then Done (s, true)
  else if neg then Done (send s q, false)
  else
    match sit s q with
    | [] => Done (s, false)
    | _ =>
        match sit s idx with
        | [] => Bad
        | p :: _ =>
            do s' <- rec q (Some p) s;
            match sit s' q, sit s' idx with
            | a :: _, b :: _ => Done (s', Nat.eqb a b)
            | _, _ => Bad
            end
        end
    end.
Fixpoint check_list (idx : nat) (l : list (nat * bool)) (s : dstate) : res (dstate * bool) :=
  match l with
  | [] => Done (s, true)
  | (q, neg) :: r =>
      do (s', ok) <- check_one idx q neg s;
      if ok then check_list idx r s' else Done (s', false)
  end.

(** 365-434 (removeDiagonalGate) on the operation [op] at position [p], [k]. *)
Definition remove_diagonal (idx p : nat) (k : sel) (op : cop) (s : dstate) : res (dstate * bool) :=
  if negb (cdiag op) then Done (send s idx, false)
  else
    match ccontrols op with
    | [] => Done (kill_pos s p k, true)
    | _ =>
        do (s1, ok1) <- check_list idx (map (fun c => (fst c, negb (snd c))) (ccontrols op)) s;
        do (s2, ok2) <- check_list idx (map (fun t => (t, false)) (ctargets op)) s1;
        if ok1 && ok2 then Done (kill_pos s2 p k, true) else Done (send s2 idx, false)
    end.
(** 325-336: the parts of a compound operation, last one first *)
Fixpoint remove_parts (idx p : nat) (l : list cop) (s : dstate) : res (dstate * bool) :=
  match l with
  | [] => Done (s, true)
  | op :: r =>
      do (s', ok) <- remove_diagonal idx p (Part (length r)) op s;
      if ok then remove_parts idx p r s' else Done (s', false)
  end.

(** 304-356: the body of the loop *)
Definition diag_body (idx p : nat) (s : dstate) : res dstate :=
  match nth_error (fst s) p with
  | None => Bad
  | Some op =>
      match op with
      | OStd so =>
          do (s', ok) <- remove_diagonal idx p Whole op s;
          if ok then advance_all (map fst (o_ctl so) ++ o_tgt so) s' else Done s'
      | OComp _ l =>
          do (s', ok) <- remove_parts idx p (rev l) s;
          if ok then advance_all (filter (cacts op) (seq 0 nq)) s' else Done s'
      | OClass _ o' =>
          do (s', ok) <- remove_diagonal idx p Under o' s;
          if ok then advance_all (map fst (ccontrols o') ++ ctargets o') s' else Done s'
      | OMeas _ _ | OReset _ => Done (send s idx)
      end
  end.
End Step.

Fixpoint diag_rec (fuel idx : nat) (until : option nat) (s : dstate) : res dstate :=
  match fuel with
  | 0 => Fuel
  | S fuel =>
      match sit s idx with
      | [] => if S idx <? nq then diag_rec fuel (S idx) None s else Done s
      | _ =>
          do s' <- diag_loop fuel idx until s;
          match sit s' idx with
          | [] => if S idx <? nq then diag_rec fuel (S idx) None s' else Done s'
          | _ => Done s'
          end
      end
  end
with diag_loop (fuel idx : nat) (until : option nat) (s : dstate) : res dstate :=
  match fuel with
  | 0 => Fuel
  | S fuel =>
      match sit s idx with
      | [] => Done s
      | p :: _ =>
          if match until with Some u => Nat.eqb p u | None => false end then Done s
          else do s' <- diag_body (diag_rec fuel) idx p s; diag_loop fuel idx until s'
      end
  end.

(** 443-452: a qubit whose last operation is not of type Measure is finished. *)
Definition start_iter (l : list cop) (q : nat) : list nat :=
  match positions q 0 l with
  | [] => []
  | p :: r => match nth_error l p with Some (OMeas _ _) => r | _ => [] end
  end.
Definition remove_diagonal_gates (fuel : nat) (l : list cop) : res (list cop) :=
  if Nat.eqb nq 0 then Throws else
  do s <- diag_rec fuel 0 None (l, fun q => if q <? nq then start_iter l q else []);
  Done (remove_identities (fst s)).

(** ** removeFinalMeasurements: 464-585 *)
Section FStep.
Variable rec : nat -> option nat -> dstate -> res dstate.

(** 541-573 (removeFinalMeasurement) *)
Fixpoint fcheck (idx : nat) (l : list nat) (s : dstate) : res (dstate * bool) :=
  match l with
  | [] => Done (s, true)
  | q :: r =>
      if Nat.eqb q idx then fcheck idx r s
      else
        match sit s q with
        | [] => Done (s, false)
        | _ =>
            match sit s idx with
            | [] => Bad
            | p :: _ =>
                do s' <- rec q (Some p) s;
                match sit s' q, sit s' idx with
                | [], _ => Done (s', false)
                | _, [] => Bad
                | a :: _, b :: _ => if Nat.eqb a b then fcheck idx r s' else Done (s', false)
                end
            end
        end
  end.
Definition remove_final (idx p : nat) (k : sel) (op : cop) (s : dstate) : res (dstate * bool) :=
  match ctargets op with
  | [] => Done (s, false)
  | ts =>
      do (s', ok) <- fcheck idx ts s;
      if ok then Done (kill_pos s' p k, true) else Done (send s' idx, false)
  end.
(** 498-520 *)
Fixpoint final_parts (idx p : nat) (l : list cop) (s : dstate) : res (dstate * bool) :=
  match l with
  | [] => Done (s, true)
  | op :: r =>
      match ctargets op with
      | t :: _ => if negb (Nat.eqb t idx) then final_parts idx p r s
                  else do (s', ok) <- remove_final idx p (Part (length r)) op s;
                       if ok then final_parts idx p r s' else Done (s', false)
      | [] => do (s', ok) <- remove_final idx p (Part (length r)) op s;
              if ok then final_parts idx p r s' else Done (s', false)
      end
  end.
(** 491-496: advance up to the first finished qubit *)
Fixpoint advance_upto (qs : list nat) (s : dstate) : dstate :=
  match qs with
  | [] => s
  | q :: r => match snd s q with [] => s | _ :: l => advance_upto r (fst s, iset (snd s) q l) end
  end.
(** isNonUnitaryOperation of a compound operation, CompoundOperation.cpp:69-73.
    Killed measurements inside compound operations count as unitary here, in the
    code they are still non-unitary operations. *)
Fixpoint non_unitary (o : cop) : bool :=
  match o with
  | OMeas _ _ | OReset _ => true
  | OComp _ l => existsb non_unitary l
  | OStd _ | OClass _ _ => false
  end.
Definition final_body (idx p : nat) (s : dstate) : res dstate :=
  match nth_error (fst s) p with
  | None => Bad
  | Some op =>
      if optype_eqb (ctype op) gMeasure || optype_eqb (ctype op) gBarrier then
        do (s', ok) <- remove_final idx p Whole op s;
        Done (if ok then advance_upto (ctargets op) s' else s')
      else
        match op with
        | OComp _ l =>
            if non_unitary op then
              do (s', ok) <- final_parts idx p (rev l) s;
              if ok then advance idx s' else Done s'
            else Done (send s idx)
        | _ => Done (send s idx)
        end
  end.
End FStep.

Fixpoint final_rec (fuel idx : nat) (until : option nat) (s : dstate) : res dstate :=
  match fuel with
  | 0 => Fuel
  | S fuel =>
      match sit s idx with
      | [] => if S idx <? nq then final_rec fuel (S idx) None s else Done s
      | _ =>
          do s' <- final_loop fuel idx until s;
          match sit s' idx with
          | [] => if S idx <? nq then final_rec fuel (S idx) None s' else Done s'
          | _ => Done s'
          end
      end
  end
with final_loop (fuel idx : nat) (until : option nat) (s : dstate) : res dstate :=
  match fuel with
  | 0 => Fuel
  | S fuel =>
      match sit s idx with
      | [] => Done s
      | p :: _ =>
          if match until with Some u => Nat.eqb p u | None => false end then Done s
          else do s' <- final_body (final_rec fuel) idx p s; final_loop fuel idx until s'
      end
  end.
Definition remove_final_measurements (fuel : nat) (l : list cop) : res (list cop) :=
  if Nat.eqb nq 0 then Throws else
  do s <- final_rec fuel 0 None (l, fun q => if q <? nq then positions q 0 l else []);
  Done (remove_identities (fst s)).
End Diag.

(** ** eliminateResets: 654-760 *)
(** std::map<Qubit, Qubit>: sorted by key *)
Fixpoint mset (m : perm) (q r : nat) : perm :=
  match m with
  | [] => [(q, r)]
  | (a, b) :: m' =>
      if Nat.eqb q a then (a, r) :: m' else if Nat.ltb q a then (q, r) :: m else (a, b) :: mset m' q r
  end.
(** 656-664 (changeTargets) *)
Definition change_target (m : perm) (q : nat) : nat := match plookup m q with Some r => r | None => q end.
(** 666-682 (changeControls); find() looks at the qubit only *)
Definition change_control (cs : list ctl) (from to : nat) : list ctl :=
  match find (fun c => Nat.eqb (fst c) from) cs with
  | Some c => ins_ctl (to, snd c) (filter (fun d => ctl_ltb c d || ctl_ltb d c) cs)
  | None => cs
  end.
Definition change_controls (m : perm) (cs : list ctl) : list ctl :=
  fold_left (fun cs x => change_control cs (fst x) (snd x)) m cs.
(** getTargets and getControls of the operation are rewritten; those of a
    compound operation are its own, not those of its parts. *)
Fixpoint change_op (m : perm) (o : cop) : cop :=
  match o with
  | OStd s => OStd {| o_type := o_type s; o_par := o_par s; o_ctl := change_controls m (o_ctl s); o_tgt := map (change_target m) (o_tgt s) |}
  | OMeas qs cs => OMeas (map (change_target m) qs) cs
  | OReset qs => OReset (map (change_target m) qs)
  | OClass c o' => OClass c (change_op m o')
  | OComp _ _ => o
  end.
(** 695-705: one new qubit per target. The new index is the number of qubits
    including ancillaries, addQubit (QuantumComputation.cpp:508-512) throws if
    there are any. *)
Fixpoint fresh_all (nanc : nat) (ts : list nat) (st : nat * perm) : res (nat * perm) :=
  match ts with
  | [] => Done st
  | t :: r => if Nat.ltb 0 nanc then Throws else fresh_all nanc r (S (fst st), mset (snd st) t (fst st))
  end.
(** 708-737: the parts of a compound operation *)
Fixpoint elim_parts (nanc : nat) (st : nat * perm) (l : list cop) : res (nat * perm * list cop) :=
  match l with
  | [] => Done (st, [])
  | OReset ts :: r => do st' <- fresh_all nanc ts st; elim_parts nanc st' r
  | o :: r => do (st', r') <- elim_parts nanc st r; Done (st', change_op (snd st) o :: r')
  end.
Fixpoint elim_resets (nanc : nat) (st : nat * perm) (l : list cop) : res (nat * perm * list cop) :=
  match l with
  | [] => Done (st, [])
  | o :: r =>
      match o with
      | OReset ts => do st' <- fresh_all nanc ts st; elim_resets nanc st' r
      | OComp cu ps =>
          match snd st with
          | [] => do (st', r') <- elim_resets nanc st r; Done (st', o :: r')
          | _ => do (st1, ps') <- elim_parts nanc st ps;
                 do (st2, r') <- elim_resets nanc st1 r; Done (st2, OComp cu ps' :: r')
          end
      | _ => do (st', r') <- elim_resets nanc st r; Done (st', change_op (snd st) o :: r')
      end
  end.
(** Number of qubits and operations afterwards. *)
Definition eliminate_resets (nq nanc : nat) (l : list cop) : res (nat * list cop) :=
  do (st, l') <- elim_resets nanc (nq, []) l; Done (fst st, l').

(** ** deferMeasurements: 756-944 *)
(** The classical bit an operation is conditioned on, and the expected value;
    [None]: a register with more than one bit, std::runtime_error (838-848). *)
Definition cond_bit (k : cond) : option (nat * N) :=
  match k with
  | CReg s n v _ => if Nat.eqb n 1 then Some (s, v) else None
  | CBit b v _ => Some (b, v)
  end.
Definition remove_at {A} (i : nat) (l : list A) : list A := firstn i l ++ skipn (S i) l.
Definition insert_at {A} (i : nat) (x : A) (l : list A) : list A := firstn i l ++ x :: skipn i l.
(** 889-898. The comparison kind plays no role. The constructor of
    StandardOperation would canonicalise the type once more (GateModel.parse_u3
    etc.), which was done when the operation was created. *)
Definition add_ctl (q : nat) (v : N) (s : stdop) : stdop :=
  {| o_type := o_type s; o_par := o_par s; o_ctl := ins_ctl (q, N.eqb v 1) (o_ctl s); o_tgt := o_tgt s |}.
(** 799-931: the inner loop. [cip] is currentInsertionPoint and [op] is opIt,
    as positions. Compound operations count as unitary: CompoundOperation does
    not override isUnitary. Insertion never lies behind opIt, so that the
    iterator adjustments of 904-928 amount to positions staying the same. *)
Fixpoint defer_inner (fuel q c cip op : nat) (l : list cop) : res (list cop) :=
  match fuel with
  | 0 => Fuel
  | S fuel =>
      match nth_error l op with
      | None => Done l
      | Some o =>
          let skip := defer_inner fuel q c (if cacts o q then cip else S cip) (S op) l in
          match o with
          | OStd _ | OComp _ _ => skip
          | OReset _ => Throws
          | OMeas qs cs =>
              if list_eq_dec Nat.eq_dec qs [q] then if list_eq_dec Nat.eq_dec cs [c] then Done l
              else defer_inner fuel q c (S cip) (S op) l else defer_inner fuel q c (S cip) (S op) l
          | OClass k o' =>
              match cond_bit k with
              | None => Throws
              | Some (b, v) =>
                  if negb (Nat.eqb b c) then skip
                  else
                    match o' with
                    | OStd s =>
                        if memn q (o_tgt s) then Throws
                        else defer_inner fuel q c (S cip) (S cip) (insert_at cip (OStd (add_ctl q v s)) (remove_at op l))
                    | _ => Throws
                    end
              end
          end
      end
  end.
(** 766-935: the outer loop; the map qubitsToAddMeasurements is the last
    argument. [it] keeps its position and is then incremented. *)
Fixpoint defer_loop (inner fuel it : nat) (l : list cop) (ms : perm) : res (list cop * perm) :=
  match fuel with
  | 0 => Fuel
  | S fuel =>
      match nth_error l it with
      | None => Done (l, ms)
      | Some (OMeas qs cs) =>
          if negb (Nat.eqb (length qs) 1) && negb (Nat.eqb (length cs) 1) then Throws
          else if Nat.eqb (S it) (length l) then Done (l, ms)
          else
            match qs, cs with
            | q :: _, c :: _ =>
                do l' <- defer_inner inner q c it it (remove_at it l);
                defer_loop inner fuel (S it) l' (mset ms q c)
            | _, _ => Bad
            end
      | Some _ => defer_loop inner fuel (S it) l ms
      end
  end.
(** The remembered measurements are appended in the iteration order of an
    std::unordered_map, here some reordering [order] (936-943). *)
Definition defer_measurements (order : perm -> perm) (fuel : nat) (l : list cop) : res (list cop) :=
  do (l', ms) <- defer_loop fuel fuel 0 l [];
  Done (l' ++ map (fun x => OMeas [fst x] [snd x]) (order ms)).
