(* Gate declarations and gate calls: src/qasm3/Importer.cpp:100-152, 418-835, 951-966, Gate.hpp and StdGates.hpp. Left out:
   hardware qubits, the names mcx, mcphase, ... (getMcGateDefinition), and the canonicalisation of U gates by the
   constructor of StandardOperation (treated with the gates). Parameters are real numbers; the operations of parameter
   expressions are arbitrary functions. Exceptions: RError; unlimited recursion: RUndef. *)
From Coq Require Import Reals Bool List String Ascii Arith.
From Verif Require Import Cplx Qsem GateModel IRModel QasmEnvModel QasmIfModel.
Import ListNotations.
Local Open Scope nat_scope.
Local Open Scope string_scope.

Inductive pexpr := PNum (x : R) | PName (s : string) | PAp1 (f : R -> R) (a : pexpr) | PAp2 (f : R -> R -> R) (a b : pexpr).
(* an operand: a register or one of its elements, the index already a constant *)
Record operand := { op_name : string; op_index : option nat }.
Inductive modifier := MCtrl (positive : bool) (count : option nat) | MInv | MPow.
Record call := { c_gate : string; c_mods : list modifier; c_args : list pexpr; c_ops : list operand }.
Inductive stmt := SCall (c : call) | SBarrier (l : list operand) | SReset (o : operand).
(* Gate.hpp *)
Inductive gate := GStd (t : optype) (nControls nTargets nParameters : nat) | GComp (params targets : list string) (body : list stmt).
Definition nControls (g : gate) : nat := match g with GStd _ n _ _ => n | GComp _ _ _ => 0 end.
Definition nTargets (g : gate) : nat := match g with GStd _ _ n _ => n | GComp _ ts _ => List.length ts end.
Definition nParameters (g : gate) : nat := match g with GStd _ _ _ n => n | GComp ps _ _ => List.length ps end.
Definition gates := list (string * gate).
(* StdGates.hpp:51-143 *)
Definition standard_gates : gates := [
  ("gphase", GStd gGPhase 0 0 1); ("U", GStd gU 0 1 3); ("p", GStd gP 0 1 1); ("u1", GStd gP 0 1 1); ("phase", GStd gP 0 1 1);
  ("cphase", GStd gP 1 1 1); ("cp", GStd gP 1 1 1); ("id", GStd gI 0 1 0); ("u2", GStd gU2 0 1 2); ("u3", GStd gU 0 1 3); ("u", GStd gU 0 1 3);
  ("x", GStd gX 0 1 0); ("cx", GStd gX 1 1 0); ("CX", GStd gX 1 1 0); ("ccx", GStd gX 2 1 0); ("c3x", GStd gX 3 1 0); ("c4x", GStd gX 4 1 0);
  ("rx", GStd gRX 0 1 1); ("crx", GStd gRX 1 1 1); ("y", GStd gY 0 1 0); ("cy", GStd gY 1 1 0); ("ry", GStd gRY 0 1 1); ("cry", GStd gRY 1 1 1);
  ("z", GStd gZ 0 1 0); ("cz", GStd gZ 1 1 0); ("rz", GStd gRZ 0 1 1); ("crz", GStd gRZ 1 1 1); ("h", GStd gH 0 1 0); ("ch", GStd gH 1 1 0);
  ("s", GStd gS 0 1 0); ("sdg", GStd gSdg 0 1 0); ("t", GStd gT 0 1 0); ("tdg", GStd gTdg 0 1 0); ("sx", GStd gSX 0 1 0); ("sxdg", GStd gSXdg 0 1 0);
  ("c3sqrtx", GStd gSXdg 3 1 0); ("swap", GStd gSWAP 0 2 0); ("cswap", GStd gSWAP 1 2 0); ("iswap", GStd giSWAP 0 2 0); ("iswapdg", GStd giSWAPdg 0 2 0);
  ("rxx", GStd gRXX 0 2 1); ("ryy", GStd gRYY 0 2 1); ("rzz", GStd gRZZ 0 2 1); ("rzx", GStd gRZX 0 2 1); ("dcx", GStd gDCX 0 2 0); ("ecr", GStd gECR 0 2 0);
  ("xx_minus_yy", GStd gXXminusYY 0 2 2); ("xx_plus_yy", GStd gXXplusYY 0 2 2)].

(* 951-966 *)
Fixpoint strip_c (s : string) : string * nat :=
  match s with String "c" s' => let '(r, n) := strip_c s' in (r, S n) | _ => (s, 0) end.
Definition parseGateIdentifierCompatMode (G : gates) (id : string) : string * nat :=
  let '(r, n) := strip_c id in match map_find r G with Some _ => (r, n) | None => (id, 0) end.
(* 418-472; a redeclaration of a standard gate is ignored *)
Fixpoint nodup_names (l : list string) : bool := match l with [] => true | x :: l' => negb (existsb (String.eqb x) l') && nodup_names l' end.
Definition visitGateStatement (compat : bool) (G : gates) (id : string) (params targets : list string) (body : list stmt) : res gates :=
  let id := if compat then fst (parseGateIdentifierCompatMode G id) else id in
  match map_find id G with
  | Some (GStd _ _ _ _) => ROk G
  | Some (GComp _ _ _) => RError
  | None => if nodup_names params && nodup_names targets then ROk (G ++ [(id, GComp params targets body)])%list else RError
  end.

(* a parameter is evaluated in the current scopes *)
Fixpoint peval (E : env R) (e : pexpr) : option R :=
  match e with
  | PNum x => Some x
  | PName s => env_find s E
  | PAp1 f a => match peval E a with Some x => Some (f x) | None => None end
  | PAp2 f a b => match peval E a, peval E b with Some x, Some y => Some (f x y) | _, _ => None end
  end.
Fixpoint pevals (E : env R) (l : list pexpr) : option (list R) :=
  match l with [] => Some [] | e :: l' => match peval E e, pevals E l' with Some x, Some r => Some (x :: r) | _, _ => None end end.

(* 100-152: first qubit and width *)
Definition translateGateOperand (regs : cregs) (o : operand) : res (nat * nat) :=
  match reg_find (op_name o) regs with
  | None => RError
  | Some (s, n) => match op_index o with None => ROk (s, n) | Some i => if Nat.ltb i n then ROk (s + i, 1) else RError end
  end.
(* 546-579: the controls taken by the modifiers, and whether to invert *)
Fixpoint modifiers (mods : list modifier) (ops : list operand) (nC : nat) (inv : bool) : option (list (operand * bool) * nat * bool) :=
  match mods with
  | [] => Some ([], nC, inv)
  | MCtrl pos cnt :: m =>
      let n := match cnt with Some n => n | None => 1 end in
      if Nat.ltb (List.length ops) (n + nC) then None
      else match modifiers m ops (nC + n) inv with
           | Some (cs, k, i) => Some (map (fun o => (o, pos)) (firstn n (skipn nC ops)) ++ cs, k, i)%list
           | None => None end
  | MInv :: m => modifiers m ops nC (negb inv)
  | MPow :: _ => None
  end.
(* 602-648: the operands with their widths; the common width *)
Fixpoint operands (regs : cregs) (l : list operand) (width : nat) : res (list (nat * nat) * nat) :=
  match l with
  | [] => ROk ([], width)
  | o :: l' =>
      match translateGateOperand regs o with
      | ROk (s, n) =>
          if Nat.eqb n 0 then RUndef
          else if Nat.ltb 1 n && negb (Nat.eqb width 1) && negb (Nat.eqb n width) then RError
          else match operands regs l' (if Nat.ltb 1 n then n else width) with ROk (r, w) => ROk ((s, n) :: r, w) | RError => RError | RUndef => RUndef end
      | RError => RError | RUndef => RUndef
      end
  end.
(* 650-693: the qubit of an operand in round j *)
Definition bit_at (j : nat) (p : nat * nat) : nat := if Nat.ltb 1 (snd p) then fst p + j else fst p.
Fixpoint distinct (l : list nat) : bool := match l with [] => true | x :: l' => negb (existsb (Nat.eqb x) l') && distinct l' end.

(* StandardOperation.hpp:85-93, NonUnitaryOperation.hpp:54-56, ClassicControlledOperation.hpp:108, CompoundOperation.cpp:95-102;
   the set of controls as a list *)
Fixpoint addControl (c : ctl) (o : cop) : option cop :=
  match o with
  | OStd s => if acts_on s (fst c) then None else Some (OStd {| o_type := o_type s; o_par := o_par s; o_ctl := o_ctl s ++ [c]; o_tgt := o_tgt s |}%list)
  | OMeas _ _ | OReset _ => None
  | OClass k o' => match addControl c o' with Some r => Some (OClass k r) | None => None end
  | OComp cu l =>
      match (fix go l := match l with [] => Some [] | o :: l' => match addControl c o, go l' with Some r, Some rs => Some (r :: rs) | _, _ => None end end) l with
      | Some r => Some (OComp cu r) | None => None end
  end.
(* Operation.hpp:97-108 for an operation without controls of its own *)
Fixpoint setControls (cs : list ctl) (o : cop) : option cop :=
  match cs with [] => Some o | c :: cs' => match addControl c o with Some o' => setControls cs' o' | None => None end end.

Definition invert_if (inv : bool) (o : cop) : res cop := if inv then match invert_op o with Some o' => ROk o' | None => RError end else ROk o.
(* 820-826 *)
Definition unwrap (o : cop) : cop := match o with OComp _ [x] => x | _ => o end.
Fixpoint define (names : list string) (vals : list R) (E : env R) : env R :=
  match names, vals with
  | s :: names', v :: vals' => define names' vals' (match env_emplace s v E with Some E' => E' | None => E end)
  | _, _ => E
  end.
Section Apply.
Variable rec : env R -> cregs -> call -> res cop.
(* 767-813 *)
Fixpoint translateBody (E : env R) (regs : cregs) (targets : list string) (body : list stmt) : res (list cop) :=
  match body with
  | [] => ROk []
  | s :: body' =>
      let r :=
        match s with
        | SBarrier l => match operands regs l 1 with ROk (ps, _) => ROk (OStd {| o_type := gBarrier; o_par := []; o_ctl := []; o_tgt := map fst ps |}) | RError => RError | RUndef => RUndef end
        | SReset o => match translateGateOperand regs o with ROk (q, _) => ROk (OReset [q]) | RError => RError | RUndef => RUndef end
        | SCall c =>
            if existsb (fun o => match op_index o with Some _ => existsb (String.eqb (op_name o)) targets | None => false end) (c_ops c) then RError
            else rec E regs c
        end in
      match r with
      | ROk o => match translateBody E regs targets body' with ROk l => ROk (o :: l) | RError => RError | RUndef => RUndef end
      | RError => RError | RUndef => RUndef
      end
  end.
(* 740-835 *)
Definition applyQuantumOperation (E : env R) (g : gate) (tb : list nat) (cb : list ctl) (ps : list R) (inv : bool) : res cop :=
  match g with
  | GStd t _ _ _ => invert_if inv (OStd {| o_type := t; o_par := ps; o_ctl := cb; o_tgt := tb |})
  | GComp params targets body =>
      match translateBody (define params ps (env_push E)) (combine targets (map (fun q => (q, 1)) tb)) targets body with
      | ROk l =>
          match setControls cb (OComp true l) with
          | Some o => match invert_if inv o with ROk o' => ROk (unwrap o') | RError => RError | RUndef => RUndef end
          | None => RError
          end
      | RError => RError | RUndef => RUndef
      end
  end.
(* 650-694 *)
Fixpoint rounds (E : env R) (g : gate) (ts : list (nat * nat)) (cs : list ((nat * nat) * bool)) (ps : list R) (inv : bool) (j n : nat) : res (list cop) :=
  match n with
  | O => ROk []
  | S n' =>
      let tb := map (bit_at j) ts in let cb := map (fun c => (bit_at j (fst c), snd c)) cs in
      if distinct (map fst cb ++ tb) then
        match applyQuantumOperation E g tb cb ps inv with
        | ROk o => match rounds E g ts cs ps inv (S j) n' with ROk l => ROk (o :: l) | RError => RError | RUndef => RUndef end
        | RError => RError | RUndef => RUndef
        end
      else RError
  end.
End Apply.
(* 488-696 *)
Fixpoint evaluateGateCall (fuel : nat) (compat : bool) (G : gates) (E : env R) (regs : cregs) (c : call) : res cop :=
  match fuel with
  | O => RUndef
  | S n =>
      let found :=
        match map_find (c_gate c) G with
        | Some g => Some (g, 0)
        | None => if compat then let '(id, k) := parseGateIdentifierCompatMode G (c_gate c) in match map_find id G with Some g => Some (g, k) | None => None end else None
        end in
      match found with
      | None => RError
      | Some (g, implicit) =>
          if negb (Nat.eqb (nParameters g) (List.length (c_args c))) then RError
          else
            let n0 := nControls g + implicit in
            if Nat.ltb (List.length (c_ops c)) n0 then RError
            else match modifiers (c_mods c) (c_ops c) n0 false with
            | None => RError
            | Some (cs, k, inv) =>
                let controls := (map (fun o => (o, true)) (firstn n0 (c_ops c)) ++ cs)%list in
                let targets := skipn k (c_ops c) in
                if negb (Nat.eqb (nTargets g) (List.length targets)) then RError
                else match pevals E (c_args c) with
                | None => RError
                | Some ps =>
                    match operands regs targets 1 with
                    | ROk (ts, w) =>
                        match operands regs (map fst controls) w with
                        | ROk (cqs, w) =>
                            match rounds (evaluateGateCall n compat G) E g ts (combine cqs (map snd controls)) ps inv 0 w with
                            | ROk [o] => if Nat.eqb w 1 then ROk o else ROk (OComp false [o])
                            | ROk l => ROk (OComp false l)
                            | RError => RError | RUndef => RUndef
                            end
                        | RError => RError | RUndef => RUndef
                        end
                    | RError => RError | RUndef => RUndef
                    end
                end
            end
      end
  end.
