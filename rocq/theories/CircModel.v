(** The bookkeeping of QuantumComputation: registers, layouts, ancillary and
    garbage qubits. src/ir/QuantumComputation.cpp:75-194, 251-539, 720-938.

    Simplifications: std::map is a list ordered by its keys, std::unordered_map a
    list of registers (the code depends on its order only where registers
    overlap). Sizes do not exceed their types; a counter that would wrap around
    below zero is [RUndef], as is an access of a std::vector<bool> out of range.
    Registers in the wrong map (a qubit in registers of both kinds) are left out
    ([RUndef]). The random generator, names of circuits and the global phase play
    no role. *)
From Coq Require Import List Arith Bool String Ascii.
From Verif Require Import GateModel IRModel OptModel QasmIfModel.
Import ListNotations.
Local Open Scope list_scope.

Definition bindr {A B} (r : res A) (f : A -> res B) : res B :=
  match r with ROk a => f a | RError => RError | RUndef => RUndef end.
(** std::map: emplace, erase, find and operator[]= *)
Fixpoint memplace (k v : nat) (m : perm) : perm :=
  match m with
  | [] => [(k, v)]
  | (a, b) :: r => if Nat.ltb k a then (k, v) :: m else if Nat.eqb k a then m else (a, b) :: memplace k v r
  end.
Definition merase (k : nat) (m : perm) : perm := filter (fun p => negb (Nat.eqb (fst p) k)) m.
Definition mset (k v : nat) (m : perm) : perm := memplace k v (merase k m).
Definition mhas (k : nat) (m : perm) : bool := existsb (fun p => Nat.eqb (fst p) k) m.
(** std::vector<bool> *)
Definition resize (n : nat) (l : list bool) : list bool := firstn n l ++ repeat false (n - List.length l).
Fixpoint set_at (i : nat) (v : bool) (l : list bool) : list bool :=
  match l, i with [], _ => [] | _ :: r, O => v :: r | x :: r, S i' => x :: set_at i' v r end.
Definition vset (i : nat) (v : bool) (l : list bool) : res (list bool) :=
  if Nat.ltb i (List.length l) then ROk (set_at i v l) else RUndef.
Definition vget (i : nat) (l : list bool) : res bool := match nth_error l i with Some v => ROk v | None => RUndef end.

Record circ := {
  c_nq : nat; c_na : nat; c_nc : nat;
  c_qregs : cregs; c_aregs : cregs; c_bregs : cregs;
  c_lay : perm; c_out : perm;
  c_anc : list bool; c_gar : list bool;
  c_ops : list cop }.
Definition total (s : circ) : nat := c_nq s + c_na s.
Definition empty_circ : circ :=
  {| c_nq := 0; c_na := 0; c_nc := 0; c_qregs := []; c_aregs := []; c_bregs := []; c_lay := []; c_out := []; c_anc := []; c_gar := []; c_ops := [] |}.
Definition reg_has (name : string) (l : cregs) : bool := existsb (fun r => String.eqb (fst r) name) l.
(** try_emplace *)
Definition reg_emplace (name : string) (start size : nat) (l : cregs) : cregs :=
  if reg_has name l then l else l ++ [(name, (start, size))].
Definition reg_erase (name : string) (l : cregs) : cregs := filter (fun r => negb (String.eqb (fst r) name)) l.
(** 358-362, 400-405: new qubits are mapped to themselves *)
Definition identity_on (from n : nat) (m : perm) : perm := fold_left (fun m j => memplace j j m) (seq from n) m.

(** 334-364 *)
Definition addQubitRegister (nr : nat) (name : string) (s : circ) : res circ :=
  if reg_has name (c_qregs s) then RError
  else if Nat.eqb nr 0 then RError
  else if negb (Nat.eqb (c_na s) 0) then RError
  else
    let n := c_nq s + nr in
    ROk {| c_nq := n; c_na := c_na s; c_nc := c_nc s;
           c_qregs := reg_emplace name (c_nq s) nr (c_qregs s); c_aregs := c_aregs s; c_bregs := c_bregs s;
           c_lay := identity_on (c_nq s) nr (c_lay s); c_out := identity_on (c_nq s) nr (c_out s);
           c_anc := resize (n + c_na s) (c_anc s); c_gar := resize (n + c_na s) (c_gar s); c_ops := c_ops s |}.
(** 366-383 *)
Definition addClassicalRegister (nr : nat) (name : string) (s : circ) : res circ :=
  if reg_has name (c_bregs s) then RError
  else if Nat.eqb nr 0 then RError
  else ROk {| c_nq := c_nq s; c_na := c_na s; c_nc := c_nc s + nr;
              c_qregs := c_qregs s; c_aregs := c_aregs s; c_bregs := reg_emplace name (c_nc s) nr (c_bregs s);
              c_lay := c_lay s; c_out := c_out s; c_anc := c_anc s; c_gar := c_gar s; c_ops := c_ops s |}.
(** 385-411 *)
Definition addAncillaryRegister (nr : nat) (name : string) (s : circ) : res circ :=
  if reg_has name (c_aregs s) then RError
  else if Nat.eqb nr 0 then RError
  else
    let t := total s in
    ROk {| c_nq := c_nq s; c_na := c_na s + nr; c_nc := c_nc s;
           c_qregs := c_qregs s; c_aregs := reg_emplace name t nr (c_aregs s); c_bregs := c_bregs s;
           c_lay := identity_on t nr (c_lay s); c_out := identity_on t nr (c_out s);
           c_anc := fold_left (fun l j => set_at j true l) (seq t nr) (resize (t + nr) (c_anc s));
           c_gar := resize (t + nr) (c_gar s); c_ops := c_ops s |}.

(** 847-857; nqubits of a circuit without qubits would wrap around *)
Definition setLogicalQubitAncillary (l : nat) (s : circ) : res circ :=
  bindr (vget l (c_anc s)) (fun a =>
    if a then ROk s
    else match c_nq s with
         | O => RUndef
         | S n => ROk {| c_nq := n; c_na := S (c_na s); c_nc := c_nc s; c_qregs := c_qregs s; c_aregs := c_aregs s; c_bregs := c_bregs s;
                         c_lay := c_lay s; c_out := c_out s; c_anc := set_at l true (c_anc s); c_gar := c_gar s; c_ops := c_ops s |}
         end).
(** 869-880: the first entry with this value *)
Fixpoint erase_value (l : nat) (m : perm) : perm :=
  match m with [] => [] | (a, b) :: r => if Nat.eqb b l then r else (a, b) :: erase_value l r end.
Definition setLogicalQubitGarbage (l : nat) (s : circ) : res circ :=
  bindr (vset l true (c_gar s)) (fun g =>
    ROk {| c_nq := c_nq s; c_na := c_na s; c_nc := c_nc s; c_qregs := c_qregs s; c_aregs := c_aregs s; c_bregs := c_bregs s;
           c_lay := c_lay s; c_out := erase_value l (c_out s); c_anc := c_anc s; c_gar := g; c_ops := c_ops s |}).

(** ** Removing qubits *)
Definition rcontains (p : nat) (r : string * (nat * nat)) : bool := Nat.leb (fst (snd r)) p && Nat.ltb p (fst (snd r) + snd (snd r)).
(** 818-826 *)
Fixpoint getPhysicalQubitIndex (l : nat) (m : perm) : res nat :=
  match m with [] => RError | (p, b) :: r => if Nat.eqb b l then ROk p else getPhysicalQubitIndex l r end.
(** 118-150 (removeQubitfromQubitRegister); the register is modified in place *)
Fixpoint reg_replace (name : string) (start size : nat) (l : cregs) : cregs :=
  match l with [] => [] | r :: l' => if String.eqb (fst r) name then (name, (start, size)) :: l' else r :: reg_replace name start size l' end.
Local Open Scope string_scope.
Definition removeQubitfromQubitRegister (regs : cregs) (r : string * (nat * nat)) (idx : nat) : cregs :=
  let '(name, (start, size)) := r in
  if Nat.eqb idx 0 then
    if Nat.eqb size 1 then reg_erase name regs else reg_replace name (S start) (size - 1) regs
  else if Nat.eqb idx (size - 1) then reg_replace name start (size - 1) regs
  else reg_emplace (name ++ "_h") (start + idx + 1) (size - idx - 1)
         (reg_emplace (name ++ "_l") start idx (reg_erase name regs)).
(** 452-460: the flags behind [l] move down by one; [t] is the new number of qubits *)
Definition shift_down (l t : nat) (v : list bool) : res (list bool) :=
  if Nat.ltb t (List.length v) then
    ROk (map (fun i => if Nat.ltb i l then nth i v false else if Nat.ltb i t then nth (S i) v false else if Nat.eqb i t then false else nth i v false) (seq 0 (List.length v)))
  else RUndef.
(** 413-463: the state and the output index *)
Definition removeQubit (l : nat) (s : circ) : res circ :=
  bindr (getPhysicalQubitIndex l (c_lay s)) (fun p =>
    let finish (qr ar : cregs) (n a : nat) :=
      bindr (shift_down l (n + a) (c_anc s)) (fun anc => bindr (shift_down l (n + a) (c_gar s)) (fun gar =>
        ROk {| c_nq := n; c_na := a; c_nc := c_nc s; c_qregs := qr; c_aregs := ar; c_bregs := c_bregs s;
               c_lay := merase p (c_lay s); c_out := merase p (c_out s); c_anc := anc; c_gar := gar; c_ops := c_ops s |})) in
    match find (rcontains p) (c_qregs s), find (rcontains p) (c_aregs s) with
    | None, None => RError
    | Some _, Some _ => RUndef
    | None, Some r =>
        match c_na s with
        | O => RUndef
        | S a => finish (c_qregs s) (removeQubitfromQubitRegister (c_aregs s) r (p - fst (snd r))) (c_nq s) a
        end
    | Some r, None =>
        let qr := removeQubitfromQubitRegister (c_qregs s) r (p - fst (snd r)) in
        match nth_error (c_anc s) l with
        | None => RError
        | Some true => match c_na s with O => RUndef | S a => finish qr (c_aregs s) (c_nq s) a end
        | Some false => match c_nq s with O => RUndef | S n => finish qr (c_aregs s) n (c_na s) end
        end
    end).
(** 745-749 *)
Definition isIdleQubit (p : nat) (s : circ) : bool := negb (existsb (fun o => cacts o p) (c_ops s)).
(** 751-786: one qubit of the copied layout *)
Definition lower (l : nat) (m : perm) : perm := map (fun p => (fst p, if Nat.ltb l (snd p) then snd p - 1 else snd p)) m.
Definition strip_one (force : bool) (p : nat) (s : circ) : res circ :=
  if negb (isIdleQubit p s) then ROk s
  else if mhas p (c_out s) && negb force then ROk s
  else
    match plookup (c_lay s) p with
    | None => RError
    | Some l =>
        if existsb (fun x => Nat.eqb (snd x) l) (c_out s) && negb force then ROk s
        else
          bindr (removeQubit l s) (fun s' =>
            ROk (if Nat.ltb l (total s') then
                   {| c_nq := c_nq s'; c_na := c_na s'; c_nc := c_nc s'; c_qregs := c_qregs s'; c_aregs := c_aregs s'; c_bregs := c_bregs s';
                      c_lay := lower l (c_lay s'); c_out := lower l (c_out s'); c_anc := c_anc s'; c_gar := c_gar s'; c_ops := c_ops s' |}
                 else s'))
    end.
Fixpoint strip_all (force : bool) (ps : list nat) (s : circ) : res circ :=
  match ps with [] => ROk s | p :: r => bindr (strip_one force p s) (strip_all force r) end.
Definition stripIdleQubits (force : bool) (s : circ) : res circ := strip_all force (rev (map fst (c_lay s))) s.

(** ** 162-192: adding a qubit to the registers *)
Fixpoint ends_with_l (n : string) : bool :=
  match n with
  | String a (String b EmptyString) => Ascii.eqb a "_" && Ascii.eqb b "l"
  | String _ r => ends_with_l r
  | EmptyString => false
  end.
Definition low_part (n : string) : bool := Nat.ltb 2 (String.length n) && ends_with_l n.
Definition stem (n : string) : string := substring 0 (String.length n - 2) n.
(** 75-103 (consolidateRegister): only the first lower part is considered *)
Fixpoint consolidate (fuel : nat) (regs : cregs) : cregs :=
  match fuel with
  | O => regs
  | S f =>
      match find (fun r => low_part (fst r)) regs with
      | None => regs
      | Some (name, (start, size)) =>
          let high := stem name ++ "_h" in
          match find (fun r => String.eqb (fst r) high) regs with
          | Some (_, (hs, hn)) =>
              if Nat.eqb (start + size) hs then consolidate f (reg_emplace (stem name) start (size + hn) (reg_erase high (reg_erase name regs)))
              else regs
          | None => regs
          end
      end
  end.
Fixpoint fuse (p : nat) (regs : cregs) : option cregs :=
  match regs with
  | [] => None
  | (name, (start, size)) :: r =>
      if Nat.eqb start (S p) then Some ((name, (p, S size)) :: r)
      else if Nat.eqb (start + size) p then Some ((name, (start, S size)) :: r)
      else option_map (cons (name, (start, size))) (fuse p r)
  end.
Fixpoint digits (fuel n : nat) : string :=
  match fuel with
  | O => ""
  | S f => (if Nat.ltb n 10 then "" else digits f (n / 10)) ++ String (ascii_of_nat (48 + n mod 10)) ""
  end.
Definition number (n : nat) : string := digits (S n) n.
Definition addQubitToQubitRegister (regs : cregs) (p : nat) (default : string) : cregs :=
  let regs' := match fuse p regs with Some r => r | None => regs end in
  let regs'' := consolidate (List.length regs') regs' in
  match regs'', fuse p regs with
  | [], _ => reg_emplace default p 1 []
  | _, None => reg_emplace (default ++ "_" ++ number p) p 1 regs''
  | _, Some _ => regs''
  end.
(** 467-501 *)
Definition addAncillaryQubit (p : nat) (o : option nat) (s : circ) : res circ :=
  if mhas p (c_lay s) || mhas p (c_out s) then RError
  else
    let l := total s in
    ROk {| c_nq := c_nq s; c_na := S (c_na s); c_nc := c_nc s; c_qregs := c_qregs s; c_aregs := addQubitToQubitRegister (c_aregs s) p "anc"; c_bregs := c_bregs s;
           c_lay := memplace p l (c_lay s); c_out := match o with Some x => memplace p x (c_out s) | None => c_out s end;
           c_anc := set_at l true (resize (l + 1) (c_anc s));
           c_gar := match o with Some _ => resize (l + 1) (c_gar s) | None => set_at l true (resize (l + 1) (c_gar s)) end; c_ops := c_ops s |}.
(** 528-537: the flags from [l] on move up by one *)
Definition shift_up (l t : nat) (v : list bool) : list bool :=
  map (fun i => if Nat.ltb i l then nth i v false else if Nat.eqb i l then false else nth (i - 1) v false) (seq 0 t).
(** 503-539 *)
Definition addQubit (l p : nat) (o : option nat) (s : circ) : res circ :=
  if mhas p (c_lay s) || mhas p (c_out s) then RError
  else if Nat.ltb (c_nq s) l then RError
  else
    let n := S (c_nq s) in
    ROk {| c_nq := n; c_na := c_na s; c_nc := c_nc s; c_qregs := addQubitToQubitRegister (c_qregs s) p "q"; c_aregs := c_aregs s; c_bregs := c_bregs s;
           c_lay := memplace p l (c_lay s); c_out := match o with Some x => memplace p x (c_out s) | None => c_out s end;
           c_anc := shift_up l (n + c_na s) (resize (n + c_na s) (c_anc s)); c_gar := shift_up l (n + c_na s) (resize (n + c_na s) (c_gar s)); c_ops := c_ops s |}.
(** 720-730: the flags are kept *)
Definition reset (s : circ) : circ :=
  {| c_nq := 0; c_na := 0; c_nc := 0; c_qregs := []; c_aregs := []; c_bregs := []; c_lay := []; c_out := []; c_anc := c_anc s; c_gar := c_gar s; c_ops := [] |}.
(** 930-938 *)
Definition unifyQuantumRegisters (name : string) (s : circ) : circ :=
  {| c_nq := total s; c_na := 0; c_nc := c_nc s; c_qregs := [(name, (0, total s))]; c_aregs := []; c_bregs := c_bregs s;
     c_lay := c_lay s; c_out := c_out s; c_anc := c_anc s; c_gar := c_gar s; c_ops := c_ops s |}.

(** ** 251-332 (initializeIOMapping) *)
(** 285-290: the first entry with the value [bit] takes over [cur] *)
Fixpoint pass_on (bit cur : nat) (m : perm) : perm :=
  match m with [] => [] | (a, b) :: r => if Nat.eqb b bit then (a, cur) :: r else (a, b) :: pass_on bit cur r end.
(** 271-299: one measurement; a qubit measured before is skipped, the bit is not *)
Fixpoint io_measure (found : bool) (qs cs : list nat) (out : perm) (seen : list nat) : res (perm * list nat) :=
  match qs with
  | [] => ROk (out, seen)
  | q :: qs' =>
      if memn q seen then io_measure found qs' cs out seen
      else
        match cs with
        | [] => RUndef
        | bit :: cs' =>
            if found then
              match plookup out q with
              | None => RError
              | Some cur => io_measure found qs' cs' (if Nat.eqb cur bit then out else mset q bit (pass_on bit cur out)) (q :: seen)
              end
            else io_measure found qs' cs' (mset q bit out) (q :: seen)
        end
  end.
Fixpoint io_measures (found : bool) (ops : list cop) (out : perm) (seen : list nat) : res (perm * list nat) :=
  match ops with
  | [] => ROk (out, seen)
  | OMeas qs cs :: r =>
      if Nat.eqb (List.length qs) (List.length cs) then bindr (io_measure found qs cs out seen) (fun x => io_measures found r (fst x) (snd x))
      else RUndef                                                              (* assertion *)
  | _ :: r => io_measures found r out seen
  end.
Definition is_meas (o : cop) : bool := match o with OMeas _ _ => true | _ => false end.
(** 317-331 *)
Fixpoint io_garbage (l : perm) (s : circ) : res circ :=
  match l with
  | [] => ROk s
  | (p, lg) :: r =>
      bindr (if existsb (fun x => Nat.eqb (snd x) lg) (c_out s) then ROk s else setLogicalQubitGarbage lg s) (fun s1 =>
      bindr (vget lg (c_anc s1)) (fun a =>
      bindr (if a && isIdleQubit p s1 then setLogicalQubitGarbage lg s1 else ROk s1) (io_garbage r)))
  end.
Definition initializeIOMapping (s : circ) : res circ :=
  let found := match c_out s with [] => false | _ => true end in
  bindr (io_measures found (c_ops s) (c_out s) []) (fun x =>
    let out := if existsb is_meas (c_ops s) then filter (fun p => memn (fst p) (snd x)) (fst x) else fst x in
    io_garbage (c_lay s)
      {| c_nq := c_nq s; c_na := c_na s; c_nc := c_nc s; c_qregs := c_qregs s; c_aregs := c_aregs s; c_bregs := c_bregs s;
         c_lay := c_lay s; c_out := out; c_anc := c_anc s; c_gar := repeat false (total s); c_ops := c_ops s |}).
