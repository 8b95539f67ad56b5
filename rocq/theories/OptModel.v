(** Circuit optimisation passes: src/circuit_optimizer/CircuitOptimizer.cpp.
    Circuits are lists of operations ([cop]); the tracked controls of a
    compound operation, names and symbolic operations are not modelled. *)
From Coq Require Import Reals List Arith Bool NArith.
From Verif Require Import Cplx Qsem GateModel IRModel GraphModel.
Import ListNotations.
Local Open Scope list_scope.

(** Operation.cpp:198-212 (getUsedQubits) and CompoundOperation.cpp:191-198.
    ClassicControlledOperation inherits Operation's version, which asks for the
    targets and controls of the inner operation; a compound operation has none
    of its own. The result is a set there, here possibly with repetitions. *)
Fixpoint used (o : cop) : list nat :=
  match o with
  | OStd s => o_tgt s ++ map fst (o_ctl s)
  | OMeas qs _ => qs
  | OReset qs => qs
  | OClass _ o' => match o' with OComp _ _ => [] | _ => used o' end
  | OComp _ l => flat_map used l
  end.

(** ** removeOperation, removeIdentities: 48-87 *)
Definition is_I (o : cop) : bool := match o with OStd s => optype_eqb (o_type s) gI | _ => false end.

Section Remove.
Variable gone : cop -> bool.
Fixpoint remove_ops (l : list cop) : list cop :=
  match l with
  | [] => []
  | o :: r =>
      if gone o then remove_ops r
      else
        match o with
        | OComp cu l' =>
            match filter (fun x => negb (gone x)) l' with
            | [] => remove_ops r
            | [x] => x :: remove_ops r
            | l'' => OComp cu l'' :: remove_ops r
            end
        | _ => o :: remove_ops r
        end
  end.
End Remove.
Definition remove_identities : list cop -> list cop := remove_ops is_I.

(** ** The "DAG": for each qubit the stack of positions of the operations on it,
    last one first. Its vector has one entry per physical qubit, and .at() would
    throw on operations on other qubits; here it is total. *)
Definition dag := nat -> list nat.
Definition dpush (d : dag) (q p : nat) : dag := fun x => if Nat.eqb x q then p :: d x else d x.
Definition dpop (d : dag) (q : nat) : dag := fun x => if Nat.eqb x q then tl (d x) else d x.
(** 40-45 (addToDag) *)
Definition dadd (d : dag) (o : cop) (p : nat) : dag := fold_left (fun d q => dpush d q p) (set_of (used o)) d.

(** Operations so far (some of them rewritten) and the DAG. *)
Definition pstate := (list cop * dag)%type.
Definition keep (s : pstate) (o : cop) : pstate := (fst s ++ [o], dadd (snd s) o (length (fst s))).

(** The test "type is X, one control, which is positive": control and target. *)
Definition is_cnot (o : cop) : option (nat * nat) :=
  match o with
  | OStd {| o_type := gX; o_ctl := [(c, true)]; o_tgt := t :: _ |} => Some (c, t)
  | _ => None
  end.
Definition is_swap (o : cop) : option (nat * nat) :=
  match o with
  | OStd {| o_type := gSWAP; o_ctl := []; o_tgt := a :: b :: _ |} => Some (a, b)
  | _ => None
  end.

Definition mk_cx (c t : nat) : cop := OStd {| o_type := gX; o_par := []; o_ctl := [(c, true)]; o_tgt := [t] |}.
Definition mk_swap (a b : nat) : cop := OStd {| o_type := gSWAP; o_par := []; o_ctl := []; o_tgt := [a; b] |}.
Definition mk_h (t : nat) : cop := OStd {| o_type := gH; o_par := []; o_ctl := []; o_tgt := [t] |}.

(** Operation.hpp:122-125 (setGate) with further updates; parameters stay. *)
Definition set_I (o : cop) : cop :=
  match o with OStd s => OStd {| o_type := gI; o_par := o_par s; o_ctl := []; o_tgt := o_tgt s |} | _ => o end.
Definition set_gate (o : cop) (t : optype) (cs : list ctl) (ts : list nat) : cop :=
  match o with OStd s => OStd {| o_type := t; o_par := o_par s; o_ctl := cs; o_tgt := ts |} | _ => o end.
Definition sorted2 (a b : nat) : list nat := if Nat.ltb b a then [b; a] else [a; b].

(** ** swapReconstruction: 89-168 *)
Definition swap_step (s : pstate) (o : cop) : pstate :=
  let '(done, d) := s in
  match is_cnot o with
  | None => keep s o
  | Some (control, target) =>
      match d control, d target with
      | pC :: _, pT :: _ =>
          match nth_error done pC, nth_error done pT with
          | Some oC, Some oT =>
              match is_cnot oC, is_cnot oT with
              | Some (cC, tC), Some (cT, tT) =>
                  if negb (Nat.eqb cC cT) || negb (Nat.eqb tC tT) then keep s o
                  else if Nat.eqb control cC && Nat.eqb target tC then
                    (upd done pC (set_I oC) ++ [set_I o], dpop (dpop d control) target)
                  else if Nat.eqb control tC && Nat.eqb target cC then
                    let oC' := set_gate oC gSWAP [] (sorted2 control target) in
                    let o' := set_gate o gX [(target, true)] [control] in
                    let d' := dadd (dpop (dpop d control) target) oC' pC in
                    (upd done pC oC' ++ [o'], dadd d' o' (length done))
                  else keep s o
              | _, _ => keep s o
              end
          | _, _ => keep s o
          end
      | _, _ => keep s o
      end
  end.
Definition swap_reconstruction (l : list cop) : list cop :=
  remove_identities (fst (fold_left swap_step l ([], fun _ => []))).

(** ** cancelCNOTs: 967-1130 *)
Definition cancel_step (s : pstate) (o : cop) : pstate :=
  let '(done, d) := s in
  match (match is_cnot o with
         | Some (c, t) => Some (true, t, c)
         | None => match is_swap o with Some (a, b) => Some (false, a, b) | None => None end
         end) with
  | None => keep s o
  | Some (isC, q0, q1) =>
      match d q0, d q1 with
      | p0 :: r0, p1 :: r1 =>
          if negb (Nat.eqb p0 p1) then keep s o
          else
            match nth_error done p0 with
            | None => keep s o
            | Some op0 =>
                match is_cnot op0, is_swap op0 with
                | Some (c, t), _ =>
                    (* prevQ0 = t, prevQ1 = c *)
                    if isC then
                      if Nat.eqb q0 t && Nat.eqb q1 c then
                        (upd done p0 (set_I op0) ++ [set_I o], dpop (dpop d q0) q1)
                      else
                        match r0, r1 with
                        | pp0 :: _, pp1 :: _ =>
                            if negb (Nat.eqb pp0 pp1) then keep s o
                            else
                              match nth_error done pp0 with
                              | None => keep s o
                              | Some pop =>
                                  match is_cnot pop with
                                  | None => keep s o
                                  | Some (pc, pt) =>
                                      if Nat.eqb q0 pt && Nat.eqb q1 pc then
                                        (upd (upd done pp0 (set_gate pop gSWAP [] (sorted2 t c))) p0 (set_I op0) ++ [set_I o],
                                         dpop (dpop d q0) q1)
                                      else keep s o
                                  end
                              end
                        | _, _ => keep s o
                        end
                    else
                      (* CNOT followed by SWAP *)
                      let op0' := set_gate op0 gX [(t, true)] [c] in
                      let o' := set_gate o gX [(c, true)] [t] in
                      (upd done p0 op0' ++ [o'], dadd d o' (length done))
                | None, Some (a, b) =>
                    if isC then
                      let op0' := set_gate op0 gX [(q1, true)] [q0] in
                      let o' := set_gate o gX [(q0, true)] [q1] in
                      (upd done p0 op0' ++ [o'], dadd d o' (length done))
                    else if (Nat.eqb q0 a && Nat.eqb q1 b) || (Nat.eqb q0 b && Nat.eqb q1 a) then
                      (upd done p0 (set_I op0) ++ [set_I o], dpop (dpop d q0) q1)
                    else keep s o
                | None, None => keep s o
                end
            end
      | _, _ => keep s o
      end
  end.
Definition cancel_cnots (l : list cop) : list cop :=
  remove_identities (fst (fold_left cancel_step l ([], fun _ => []))).

(** ** singleQubitGateFusion: 180-280. The new operations inside compound
    operations are built with the fields shown; the constructor's
    canonicalisation (C25), already applied when the original operation was
    built, is not repeated. [None]: exception. *)
Definition inverse_type (t : optype) : option optype :=
  match t with
  | gI => Some gI | gX => Some gX | gY => Some gY | gZ => Some gZ | gH => Some gH
  | gS => Some gSdg | gSdg => Some gS | gT => Some gTdg | gTdg => Some gT
  | gSX => Some gSXdg | gSXdg => Some gSX | gBarrier => Some gBarrier
  | _ => None
  end.
(** getType *)
Definition ctype (o : cop) : optype :=
  match o with
  | OStd s => o_type s | OMeas _ _ => gMeasure | OReset _ => gReset
  | OClass _ _ => gClassicControlled | OComp _ _ => gCompound
  end.
(** getTargets, getControls, getParameter *)
Fixpoint ctargets (o : cop) : list nat :=
  match o with
  | OStd s => o_tgt s | OMeas qs _ => qs | OReset qs => qs | OClass _ o' => ctargets o' | OComp _ _ => []
  end.
Fixpoint ccontrols (o : cop) : list ctl :=
  match o with OStd s => o_ctl s | OClass _ o' => ccontrols o' | _ => [] end.
Definition cparams (o : cop) : list R := match o with OStd s => o_par s | _ => [] end.
(** Operation.hpp:163-172 and overrides (actsOn) *)
Fixpoint cacts (o : cop) (q : nat) : bool :=
  match o with
  | OStd s => acts_on s q
  | OMeas qs _ | OReset qs => memn q qs
  | OClass _ o' => cacts o' q
  | OComp _ l => existsb (fun x => cacts x q) l
  end.

Definition same_inverse (last o : cop) : bool :=
  match inverse_type (ctype last) with Some t => optype_eqb (ctype o) t | None => false end.
Definition as_single (o : cop) (t : nat) : cop :=
  OStd {| o_type := ctype o; o_par := cparams o; o_ctl := []; o_tgt := [t] |}.
Definition set_gate_I (o : cop) : cop :=
  match o with OStd s => OStd {| o_type := gI; o_par := o_par s; o_ctl := o_ctl s; o_tgt := o_tgt s |} | _ => o end.

Definition fuse_step (nq : nat) (s : pstate) (o : cop) : option pstate :=
  let '(done, d) := s in
  match o with
  | OStd so =>
      if negb (match o_ctl so with [] => true | _ => false end) || Nat.ltb 1 (length (o_tgt so)) then Some (keep s o)
      else
        match o_tgt so with
        | [] => None
        | target :: _ =>
            match d target with
            | [] => Some (keep s o)
            | p :: _ =>
                match nth_error done p with
                | None => None
                | Some (OComp cu l) =>
                    if Nat.ltb 1 (length (filter (cacts (OComp cu l)) (seq 0 nq))) then Some (keep s o)
                    else
                      match rev l with
                      | [] => Some (upd done p (OComp cu [o]) ++ [set_gate_I o], d)
                      | last :: before =>
                          if same_inverse last o then
                            Some (upd done p (OComp cu (rev before)) ++ [set_gate_I o], d)
                          else Some (upd done p (OComp cu (l ++ [as_single o target])) ++ [set_gate_I o], d)
                      end
                | Some op =>
                    if negb (match ccontrols op with [] => true | _ => false end) || Nat.ltb 1 (length (ctargets op)) then Some (keep s o)
                    else if same_inverse op o then Some (upd done p (set_gate_I op) ++ [set_gate_I o], d)
                    else
                      match ctargets op with
                      | [] => None
                      | t0 :: _ =>
                          Some (upd done p (OComp false [as_single op t0; as_single o target]) ++ [set_gate_I o], dpush d target p)
                      end
                end
            end
        end
  | _ => Some (keep s o)
  end.
Fixpoint fuse_loop (nq : nat) (l : list cop) (s : pstate) : option pstate :=
  match l with
  | [] => Some s
  | o :: r => match fuse_step nq s o with Some s' => fuse_loop nq r s' | None => None end
  end.
Definition single_qubit_fusion (nq : nat) (l : list cop) : option (list cop) :=
  match fuse_loop nq l ([], fun _ => []) with Some s => Some (remove_identities (fst s)) | None => None end.

(** ** decomposeSWAP: 589-652. The replacement has no further SWAPs, so going
    on behind it instead of through it makes no difference. [None]: targets[1]
    out of range. *)
Definition swap_parts (directed : bool) (a b : nat) : list cop :=
  if directed then [mk_cx a b; mk_h b; mk_h a; mk_cx a b; mk_h b; mk_h a; mk_cx a b]
  else [mk_cx a b; mk_cx b a; mk_cx a b].
Definition decompose_std (directed : bool) (o : cop) : option (list cop) :=
  match o with
  | OStd s =>
      if optype_eqb (o_type s) gSWAP then
        match o_tgt s with a :: b :: _ => Some (swap_parts directed a b) | _ => None end
      else Some [o]
  | _ => Some [o]
  end.
Fixpoint concat_opt {A} (l : list (option (list A))) : option (list A) :=
  match l with
  | [] => Some []
  | x :: r => match x, concat_opt r with Some a, Some b => Some (a ++ b) | _, _ => None end
  end.
Definition decompose_swap (directed : bool) (l : list cop) : option (list cop) :=
  concat_opt (map (fun o =>
    match o with
    | OComp cu l' =>
        match concat_opt (map (decompose_std directed) l') with Some r => Some [OComp cu r] | None => None end
    | _ => decompose_std directed o
    end) l).

(** ** flattenOperations: 944-982; the loop over the iterator [it], the part
    behind it being [todo]. [None]: out of fuel. *)
Fixpoint flatten_loop (fuel : nat) (custom_only : bool) (done todo : list cop) : option (list cop) :=
  match fuel with
  | 0 => None
  | S fuel =>
      match todo with
      | [] => Some done
      | OComp cu l :: r =>
          if negb custom_only || cu then flatten_loop fuel custom_only done (l ++ r)
          else flatten_loop fuel custom_only (done ++ [OComp cu l]) r
      | o :: r => flatten_loop fuel custom_only (done ++ [o]) r
      end
  end.

(** ** replaceMCXWithMCZ: 1132-1186; the assertion is "one target". *)
Fixpoint mcx_to_mcz (o : cop) : list cop :=
  match o with
  | OStd s =>
      match o_type s, o_ctl s, o_tgt s with
      | gX, _ :: _, t :: _ =>
          [mk_h t; OStd {| o_type := gZ; o_par := []; o_ctl := o_ctl s; o_tgt := [t] |}; mk_h t]
      | _, _, _ => [o]
      end
  | OComp cu l => [OComp cu (flat_map mcx_to_mcz l)]
  | _ => [o]
  end.
Definition replace_mcx (l : list cop) : list cop := flat_map mcx_to_mcz l.

(** ** elidePermutations: 1575-1643. [None]: exception or failed assertion. *)
Fixpoint pset (p : perm) (q r : nat) : perm :=
  match p with
  | [] => [(q, r)]
  | (a, b) :: p' => if Nat.eqb q a then (a, r) :: p' else (a, b) :: pset p' q r
  end.

(** CompoundOperation.cpp:267-286 *)
Fixpoint collapse (o : cop) : cop :=
  match o with
  | OComp cu [x] =>
      match x with
      | OComp _ _ => match collapse x with OComp _ _ => o | y => y end
      | _ => x
      end
  | _ => o
  end.

Fixpoint elide_op (p : perm) (o : cop) : option (list cop * perm) :=
  match o with
  | OComp cu l =>
      match
        (fix go p l :=
           match l with
           | [] => Some ([], p)
           | o :: l' =>
               match elide_op p o with
               | Some (a, p1) => match go p1 l' with Some (b, p2) => Some (a ++ b, p2) | None => None end
               | None => None
               end
           end) p l
      with
      | Some ([], p') => Some ([], p')
      | Some (l', p') => Some ([collapse (OComp cu l')], p')
      | None => None
      end
  | _ =>
      if optype_eqb (ctype o) gSWAP && match ccontrols o with [] => true | _ => false end then
        match ctargets o with
        | [a; b] =>
            match plookup p a, plookup p b with
            | Some x, Some y => Some ([], pset (pset p a y) b x)
            | _, _ => None
            end
        | _ => None
        end
      else match apply_perm p o with Some o' => Some ([o'], p) | None => None end
  end.
Fixpoint elide_ops (p : perm) (l : list cop) : option (list cop * perm) :=
  match l with
  | [] => Some ([], p)
  | o :: l' =>
      match elide_op p o with
      | Some (a, p1) => match elide_ops p1 l' with Some (b, p2) => Some (a ++ b, p2) | None => None end
      | None => None
      end
  end.
Definition elide_permutations (c : qcirc) : option qcirc :=
  match qc_ops c with
  | [] => Some c
  | _ =>
      match elide_ops (qc_init c) (qc_ops c) with
      | None => None
      | Some (l, p) =>
          match map_opt (fun x => match plookup p (fst x) with Some r => Some (r, snd x) | None => None end) (qc_out c) with
          | None => None
          | Some out =>
              Some {| qc_n := qc_n c; qc_ops := l;
                      qc_init := fold_left (fun m x => pset m (snd x) (snd x)) (qc_init c) [];
                      qc_out := fold_left (fun m x => pset m (fst x) (snd x)) out [];
                      qc_phase := qc_phase c |}
          end
      end
  end.

(** ** backpropagateOutputPermutation: 1198-1311. [missing] is the unordered set
    of missing logical qubits; [pick] is what *begin() yields on it (any
    element). [None]: begin() of an empty set is dereferenced. *)
Section Back.
Variable pick : list nat -> nat.
Definition remove_nat (x : nat) (l : list nat) : list nat := filter (fun y => negb (Nat.eqb x y)) l.

Definition choose (q : nat) (missing : list nat) : option (nat * list nat) :=
  if memn q missing then Some (q, remove_nat q missing)
  else match missing with
       | [] => None
       | _ => Some (pick missing, remove_nat (pick missing) missing)
       end.

Definition back_swap (a b : nat) (s : perm * list nat) : option (perm * list nat) :=
  let '(p, m) := s in
  match plookup p a, plookup p b with
  | Some x, Some y => Some (pset (pset p a y) b x, m)
  | Some x, None =>
      match choose a m with Some (z, m') => Some (pset (pset p b x) a z, m') | None => None end
  | None, Some y =>
      match choose b m with Some (z, m') => Some (pset (pset p a y) b z, m') | None => None end
  | None, None => Some s
  end.

Definition is_plain_swap (o : cop) : option (nat * nat) :=
  match o with
  | OStd {| o_type := gSWAP; o_ctl := []; o_tgt := [a; b] |} => Some (a, b)
  | _ => None
  end.

(** One operation; a compound one from its last to its first operation. *)
Fixpoint back_op (o : cop) (s : perm * list nat) : option (perm * list nat) :=
  match o with
  | OComp _ l =>
      (fix go l s :=
         match l with
         | [] => Some s
         | o :: l' => match go l' s with Some s' => back_op o s' | None => None end
         end) l s
  | _ => match is_plain_swap o with Some (a, b) => back_swap a b s | None => Some s end
  end.
Fixpoint back_ops (l : list cop) (s : perm * list nat) : option (perm * list nat) :=
  match l with
  | [] => Some s
  | o :: l' => match back_ops l' s with Some s' => back_op o s' | None => None end
  end.

(** 1292-1309: fill up. *)
Fixpoint fill (qs : list nat) (s : perm * list nat) : option (perm * list nat) :=
  match qs with
  | [] => Some s
  | q :: qs' =>
      let '(p, m) := s in
      match plookup p q with
      | Some _ => fill qs' s
      | None => match choose q m with Some (z, m') => fill qs' (p ++ [(q, z)], m') | None => None end
      end
  end.

Definition backpropagate (c : qcirc) : option qcirc :=
  let out := qc_out c in
  let missing := filter (fun i => negb (memn i (map snd out))) (seq 0 (qc_n c)) in
  match back_ops (qc_ops c) (out, missing) with
  | None => None
  | Some (p, m) =>
      let res :=
        if Nat.eqb (length p) (qc_n c) then Some p
        else match fill (seq 0 (qc_n c)) (p, m) with Some (p', _) => Some p' | None => None end in
      match res with
      | None => None
      | Some p' => Some {| qc_n := qc_n c; qc_ops := qc_ops c; qc_init := p'; qc_out := qc_out c; qc_phase := qc_phase c |}
      end
  end.
End Back.
