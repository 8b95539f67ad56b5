(** collectBlocks: src/circuit_optimizer/CircuitOptimizer.cpp:1313-1576.
    The calls of reorderOperations and deferMeasurements at its start are not
    included: [collect_blocks] is the part from 1430 on. *)
From Coq Require Import Reals List Arith Bool NArith.
From Verif Require Import Cplx Qsem GateModel GraphModel IRModel OptModel.
Import ListNotations.

(** ** The disjoint-set structure: 1320-1417
    The four maps are modelled as a list of blocks; a qubit in none of them
    forms an empty block of its own (findBlock creates it, 1343-1348). Roots and
    path compression are invisible. [b_pos] is currentBlockInCircuit, a pointer
    to the element of the vector of operations, here a position. *)
Record blk := { b_bits : list nat; b_pos : option nat; b_ops : list cop }.
Definition empty_blk (q : nat) : blk := {| b_bits := [q]; b_pos := None; b_ops := [] |}.
Definition find_blk (d : list blk) (q : nat) : blk :=
  match find (fun b => memn q (b_bits b)) d with Some b => b | None => empty_blk q end.
Definition drop_blk (d : list blk) (q : nat) : list blk := filter (fun b => negb (memn q (b_bits b))) d.

(** The operations already passed, and the blocks. An operation that has been
    moved into a block leaves a null pointer, here an identity gate. *)
Definition cstate := (list cop * list blk)%type.
Definition blank_op : cop := OStd {| o_type := gI; o_par := []; o_ctl := []; o_tgt := [0] |}.

(** 1362-1387 (unionBlock) *)
Definition merge_blk (b1 b2 : blk) : blk :=
  {| b_bits := b_bits b1 ++ b_bits b2; b_pos := b_pos b1; b_ops := b_ops b1 ++ b_ops b2 |}.
Definition union_blk (q1 q2 : nat) (s : cstate) : cstate :=
  let (ops, d) := s in
  let b1 := find_blk d q1 in
  let b2 := find_blk d q2 in
  if memn q2 (b_bits b1) then s
  else
    let (b1, b2) := if Nat.ltb (length (b_ops b1)) (length (b_ops b2)) then (b2, b1) else (b1, b2) in
    (match b_pos b2 with Some p => upd ops p blank_op | None => ops end,
     merge_blk b1 b2 :: drop_blk (drop_blk d q1) q2).
(** 1397-1417 (finalizeBlock) *)
Definition finalize_blk (q : nat) (s : cstate) : cstate :=
  let (ops, d) := s in
  let b := find_blk d q in
  match b_pos b with
  | Some p => (upd ops p (collapse (OComp false (b_ops b))), drop_blk d q)
  | None => s
  end.

(** ** The loop: 1432-1564 *)
(** One qubit for each block met. *)
Fixpoint reps (d : list blk) (us : list nat) : list nat :=
  match us with
  | [] => []
  | q :: us' => q :: filter (fun r => negb (memn r (b_bits (find_blk d q)))) (reps d us')
  end.
Definition blk_size (d : list blk) (q : nat) : nat := length (b_bits (find_blk d q)).
(** std::sort in descending order. The order of equal elements depends on the
    iteration order of an unordered_map; here they keep their order. *)
Fixpoint ins_desc (x : nat * nat) (l : list (nat * nat)) : list (nat * nat) :=
  match l with
  | [] => [x]
  | y :: l' => if Nat.ltb (snd y) (snd x) then x :: l else y :: ins_desc x l'
  end.
Definition sort_desc (l : list (nat * nat)) : list (nat * nat) := fold_right ins_desc [] l.
(** 1494-1505 *)
Fixpoint absorb (max q size : nat) (rest : list (nat * nat)) (s : cstate) : cstate * list (nat * nat) :=
  match rest with
  | [] => (s, [])
  | (q2, s2) :: r =>
      if negb (Nat.ltb size max) then (s, rest)
      else if Nat.leb (size + s2) max then absorb max q (size + s2) r (union_blk q q2 s)
      else let (s', r') := absorb max q size r s in (s', (q2, s2) :: r')
  end.
(** 1486-1507 *)
Fixpoint fill (fuel max : nat) (l : list (nat * nat)) (s : cstate) : cstate :=
  match fuel, l with
  | S fuel, (q, size) :: r =>
      if Nat.eqb size max then fill fuel max r (finalize_blk q s)
      else let (s', r') := absorb max q size r s in fill fuel max r' (finalize_blk q s')
  | _, _ => s
  end.
(** 1464-1507: the operation is wider than a block *)
Definition make_room_all (max : nat) (us : list nat) (s : cstate) : cstate :=
  let d := snd s in
  let bs := filter (fun q => match b_pos (find_blk d q) with Some _ => true | None => false end) (reps d us) in
  let l := sort_desc (map (fun q => (q, blk_size d q)) bs) in
  fill (length l) max l s.
(** 1508-1535 *)
Fixpoint free_up (need : nat) (l : list (nat * nat)) (s : cstate) : cstate :=
  match l with
  | [] => s
  | (q, saving) :: l' => if Nat.ltb 0 need then free_up (need - saving) l' (finalize_blk q s) else s
  end.
Definition make_room (max : nat) (us : list nat) (s : cstate) : cstate :=
  let d := snd s in
  let saving q := blk_size d q - length (filter (fun r => memn r (b_bits (find_blk d q))) us) in
  let rs := reps d us in
  free_up (list_sum (map (blk_size d) rs) - max) (sort_desc (map (fun q => (q, saving q)) rs)) s.
(** 1542-1548 *)
Fixpoint union_all (prev : nat) (us : list nat) (s : cstate) : cstate :=
  match us with
  | [] => s
  | q :: us' => union_all q us' (union_blk prev q s)
  end.
(** 1549-1563. For an operation without qubits [prev] is -1, cast to Qubit. *)
Definition place (q : nat) (o : cop) (s : cstate) : cstate :=
  let (ops, d) := s in
  let b := find_blk d q in
  match b_pos b with
  | Some p => (ops, {| b_bits := b_bits b; b_pos := Some p; b_ops := b_ops b ++ [o] |} :: drop_blk d q)
  | None => (ops ++ [blank_op], {| b_bits := b_bits b; b_pos := Some (length ops); b_ops := b_ops b ++ [o] |} :: drop_blk d q)
  end.
Definition no_qubit : nat := N.to_nat 4294967295.
(** isUnitary; CompoundOperation does not override it. *)
Definition is_unitary (o : cop) : bool := match o with OStd _ | OComp _ _ => true | _ => false end.
Definition collect_step (max : nat) (s : cstate) (o : cop) : cstate :=
  let us := set_of (used o) in
  if is_unitary o then
    let d := snd s in
    let s1 :=
      if Nat.ltb max (list_sum (map (blk_size d) (reps d us)))
      then (if Nat.ltb max (length us) then make_room_all max us s else make_room max us s)
      else s in
    if Nat.ltb max (length us) then (fst s1 ++ [o], snd s1)
    else
      match us with
      | [] => place no_qubit o s1
      | q :: us' => place (last us q) o (union_all q us' s1)
      end
  else
    let s1 := fold_left (fun s q => finalize_blk q s) us s in
    (fst s1 ++ [o], snd s1).
(** 1566-1572 *)
Definition finish (s : cstate) : cstate :=
  fold_left (fun s b => match b_bits b with q :: _ => finalize_blk q s | [] => s end) (snd s) s.
Definition collect_blocks (max : nat) (l : list cop) : list cop :=
  if Nat.leb (length l) 1 then l
  else remove_identities (fst (finish (fold_left (collect_step max) l ([], [])))).
