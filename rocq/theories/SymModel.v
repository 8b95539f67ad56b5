(** Symbolic operations: include/mqt-core/ir/operations/SymbolicOperation.hpp,
    src/ir/operations/SymbolicOperation.cpp, and the instantiation of circuits,
    src/ir/QuantumComputation.cpp:541-545 and 1081-1115. Numbers are exact
    reals; expressions are those of ExprModel. The printed name is left out,
    and so is the state an operation is left in when an exception is thrown
    half-way. Assertions are taken to be compiled out (NDEBUG). *)
From Coq Require Import Reals List Arith Bool.
From Verif Require Import Qsem GateModel ExprModel.
Import ListNotations.
Local Open Scope R_scope.

(** SymbolOrNumber (Expression.hpp:28 onwards) *)
Inductive sparam := SNum (x : R) | SSym (e : expr).

(** SymbolicOperation.hpp:32-92: the fields of StandardOperation and
    symbolicParameter. *)
Record symop := { s_type : optype; s_par : list R; s_sym : list (option expr);
                  s_ctl : list ctl; s_tgt : list nat }.

(** The StandardOperation an operation derives from. *)
Definition std_of (s : symop) : stdop :=
  {| o_type := s_type s; o_par := s_par s; o_ctl := s_ctl s; o_tgt := s_tgt s |}.
(** A StandardOperation, seen as an operation without symbolic parameters. *)
Definition of_std (o : stdop) : symop :=
  {| s_type := o_type o; s_par := o_par o; s_sym := []; s_ctl := o_ctl o; s_tgt := o_tgt o |}.

Section Tol.
(** PARAMETER_TOLERANCE (StandardOperation.hpp:32) and sym::TOLERANCE
    (Expression.hpp:32) *)
Variable tol : R.
Variable etol : R.

(** SymbolicOperation.cpp:62-94: theta symbolic; the new phi and lambda. *)
Definition sym_u3_theta (phi lambda : R) : option (R * R) :=
  let phi := if close tol lambda 0 && close tol phi 0 then 0 else phi in
  let lambda := if close tol lambda 0 then 0 else lambda in
  let phi := if close tol lambda (PI / 2) && close tol phi (PI / 2) then PI / 2 else phi in
  let lambda := if close tol lambda (PI / 2) then PI / 2 else lambda in
  let phi := if close tol lambda PI && close tol phi 0 then 0 else phi in
  let lambda := if close tol lambda PI then PI else lambda in
  match check_par tol phi, check_par tol lambda with
  | Some p, Some l => Some (p, l)
  | _, _ => None
  end.

(** 95-119: phi symbolic; the new type, theta and lambda. Line 98 goes on
    with parseU2 of 174-180. *)
Definition sym_u3_phi (theta lambda : R) : option (optype * R * R) :=
  if close tol theta (PI / 2) then
    match check_par tol lambda with Some l => Some (gU2, PI / 2, l) | None => None end
  else
    let lambda := if close tol lambda 0 then 0 else lambda in
    let lambda := if close tol lambda (PI / 2) then PI / 2 else lambda in
    let lambda := if close tol lambda PI then PI else lambda in
    match check_par tol theta, check_par tol lambda with
    | Some t, Some l => Some (gU, t, l)
    | _, _ => None
    end.

(** 120-140: lambda symbolic; the new type, theta and phi. *)
Definition sym_u3_lambda (theta phi : R) : option (optype * R * R) :=
  if close tol theta 0 && close tol phi 0 then Some (gP, 0, 0)
  else if close tol theta (PI / 2) then
    match check_par tol phi with Some p => Some (gU2, PI / 2, p) | None => None end
  else match check_par tol theta, check_par tol phi with
       | Some t, Some p => Some (gU, t, p)
       | _, _ => None
       end.

(** 158-171: phi and lambda symbolic. *)
Definition sym_u3_phi_lambda (theta : R) : option (optype * R) :=
  if close tol theta (PI / 2) then Some (gU2, PI / 2)
  else match check_par tol theta with Some t => Some (gU, t) | None => None end.

(** 194-234 (checkSymbolicUgate): the new type and numeric parameters.
    [None]: a parameter becomes infinite, or the number of parameters does not
    fit the type. If both parameters of U2 are symbolic, line 204 treats the
    unused number of the second one as if it were a parameter. *)
Definition check_sym (t : optype) (par : list R) (sym : list (option expr)) : option (optype * list R) :=
  match t with
  | gP =>
      match par, sym with
      | [l], [s0] => match s0 with None => parse_u1 tol l | Some _ => Some (gP, par) end
      | _, _ => None
      end
  | gU2 =>
      match par, sym with
      | [p; l], [s0; s1] =>
          match s0, s1 with
          | None, None => parse_u2 tol p l
          | Some _, _ => match check_par tol l with Some l' => Some (gU2, [p; l']) | None => None end
          | None, Some _ => match check_par tol p with Some p' => Some (gU2, [p'; l]) | None => None end
          end
      | _, _ => None
      end
  | gU =>
      match par, sym with
      | [t; p; l], [s0; s1; s2] =>
          match s0, s1, s2 with
          | None, None, None => parse_u3 tol t p l
          | None, None, Some _ =>
              match sym_u3_lambda t p with Some (ty, t', p') => Some (ty, [t'; p'; l]) | None => None end
          | None, Some _, None =>
              match sym_u3_phi t l with Some (ty, t', l') => Some (ty, [t'; p; l']) | None => None end
          | Some _, None, None =>
              match sym_u3_theta p l with Some (p', l') => Some (gU, [t; p'; l']) | None => None end
          | None, Some _, Some _ =>
              match sym_u3_phi_lambda t with Some (ty, t') => Some (ty, [t'; p; l]) | None => None end
          | Some _, None, Some _ =>
              match check_par tol p with Some p' => Some (gU, [t; p'; l]) | None => None end
          | Some _, Some _, None =>
              match check_par tol l with Some l' => Some (gU, [t; p; l']) | None => None end
          | Some _, Some _, Some _ => Some (gU, par)
          end
      | _, _ => None
      end
  | _ => Some (t, par)
  end.

(** 42-49 (storeSymbolOrNumber), 236-246 (setup), 270-317 (constructors). A
    symbolic parameter leaves the resized numeric one at zero. *)
Definition store_num (x : sparam) : R := match x with SNum v => v | SSym _ => 0 end.
Definition store_sym (x : sparam) : option expr := match x with SNum _ => None | SSym e => Some e end.
Definition make_sym (t : optype) (ps : list sparam) (cs : list ctl) (ts : list nat) : option symop :=
  match check_sym t (map store_num ps) (map store_sym ps) with
  | Some (t', par) => Some {| s_type := t'; s_par := par; s_sym := map store_sym ps; s_ctl := cs; s_tgt := ts |}
  | None => None
  end.

(** StandardOperation.cpp:172-186 (checkUgate) with assertions compiled out:
    parameters beyond those a gate has are ignored, and are kept where the
    parse functions write through their references. [None]: a missing
    parameter or one that becomes infinite. *)
Definition keep_rest (t : optype) (rest : list R) (r : option (optype * list R)) : option (optype * list R) :=
  match r with
  | Some (t', ps') => if optype_eqb t' t then Some (t', ps' ++ rest) else Some (t', ps')
  | None => None
  end.
Definition check_ugate_nd (t : optype) (ps : list R) : option (optype * list R) :=
  match t, ps with
  | _, [] => Some (t, ps)
  | gP, l :: r => keep_rest gP r (parse_u1 tol l)
  | gU2, p :: l :: r => keep_rest gU2 r (parse_u2 tol p l)
  | gU, th :: p :: l :: r => keep_rest gU r (parse_u3 tol th p l)
  | gU2, _ | gU, _ => None
  | _, _ => Some (t, ps)
  end.
(** The conditions asserted there. *)
Definition ugate_assert (t : optype) (ps : list R) : bool :=
  match t, ps with
  | _, [] => true
  | gP, _ => Nat.eqb (length ps) 1
  | gU2, _ => Nat.eqb (length ps) 2
  | gU, _ => Nat.eqb (length ps) 3
  | _, _ => true
  end.

(** 248-261 (getInstantiation, getParameter), the parameters read one after
    the other. [None]: SymbolicException or std::out_of_range. *)
Fixpoint inst_params (a : nat -> option R) (par : list R) (sym : list (option expr)) {struct sym} : option (list R) :=
  match sym, par with
  | [], _ => Some []
  | s :: sym', x :: par' =>
      match match s with Some e => evaluate a e | None => Some x end, inst_params a par' sym' with
      | Some v, Some r => Some (v :: r)
      | _, _ => None
      end
  | _ :: _, [] => None
  end.

(** 376-385 (getInstantiatedOperation) *)
Definition get_instantiated (a : nat -> option R) (s : symop) : option stdop :=
  match inst_params a (s_par s) (s_sym s) with
  | Some vs =>
      match check_ugate_nd (s_type s) vs with
      | Some (t, ps) => Some {| o_type := t; o_par := ps; o_ctl := s_ctl s; o_tgt := s_tgt s |}
      | None => None
      end
  | None => None
  end.

(** 389-395 (instantiate) *)
Definition instantiate (a : nat -> option R) (s : symop) : option symop :=
  match inst_params a (s_par s) (s_sym s) with
  | Some vs =>
      match check_ugate_nd (s_type s) (vs ++ skipn (length vs) (s_par s)) with
      | Some (t, ps) => Some {| s_type := t; s_par := ps; s_sym := map (fun _ => None) (s_sym s);
                                s_ctl := s_ctl s; s_tgt := s_tgt s |}
      | None => None
      end
  | None => None
  end.

(** 323-330 *)
Definition has_sym (s : symop) : bool := existsb (fun o => match o with Some _ => true | None => false end) (s_sym s).

(** 397-417 (negateSymbolicParameter, addToSymbolicParameter): parameter [i] is
    changed in one of the two vectors. [None]: std::out_of_range. *)
Fixpoint change_at (f : R -> R) (g : expr -> expr) (i : nat) (par : list R) (sym : list (option expr)) :
    option (list R * list (option expr)) :=
  match i, par, sym with
  | O, x :: par', Some e :: sym' => Some (par, Some (g e) :: sym')
  | O, x :: par', None :: sym' => Some (f x :: par', sym)
  | S i, x :: par', s :: sym' =>
      match change_at f g i par' sym' with
      | Some (p, q) => Some (x :: p, s :: q)
      | None => None
      end
  | _, _, _ => None
  end.
Definition negate_at := change_at Ropp neg_expr.
Definition add_at (i : nat) (v : R) := change_at (fun x => x + v) (fun e => add_const e v) i.

Definition swap01 {A} (l : list A) : list A := match l with a :: b :: r => b :: a :: r | _ => l end.
Definition swap12 {A} (l : list A) : list A := match l with a :: b :: c :: r => a :: c :: b :: r | _ => l end.

Definition with_pars (s : symop) (r : option (list R * list (option expr))) : option symop :=
  match r with
  | Some (p, q) => Some {| s_type := s_type s; s_par := p; s_sym := q; s_ctl := s_ctl s; s_tgt := s_tgt s |}
  | None => None
  end.
Definition bind_pars (r : option (list R * list (option expr)))
    (f : list R -> list (option expr) -> option (list R * list (option expr))) :=
  match r with Some (p, q) => f p q | None => None end.

(** 419-456 (invert) *)
Definition invert_sym (s : symop) : option symop :=
  match s_type s with
  | gGPhase | gP | gRX | gRY | gRZ | gRXX | gRYY | gRZZ | gRZX | gXXminusYY | gXXplusYY =>
      with_pars s (negate_at 0 (s_par s) (s_sym s))
  | gU2 =>
      with_pars s
        (bind_pars (negate_at 0 (s_par s) (s_sym s)) (fun p q =>
         bind_pars (negate_at 1 p q) (fun p q =>
         bind_pars (add_at 0 (- PI) p q) (fun p q =>
         bind_pars (add_at 1 PI p q) (fun p q => Some (swap01 p, swap01 q))))))
  | gU =>
      with_pars s
        (bind_pars (negate_at 0 (s_par s) (s_sym s)) (fun p q =>
         bind_pars (negate_at 1 p q) (fun p q =>
         bind_pars (negate_at 2 p q) (fun p q => Some (swap12 p, swap12 q)))))
  | _ =>
      match invert_std (std_of s) with
      | Some o => Some {| s_type := o_type o; s_par := o_par o; s_sym := s_sym s; s_ctl := o_ctl o; s_tgt := o_tgt o |}
      | None => None
      end
  end.

(** 345-363: the loop of equals; [None]: std::out_of_range. *)
Fixpoint equal_syms (l m : list (option expr)) : option bool :=
  match l, m with
  | [], _ => Some true
  | _ :: _, [] => None
  | Some e :: _, Some f :: _ => Some (expr_eqb etol e f)
  | None :: l', None :: m' => equal_syms l' m'
  | _, _ => Some false
  end.
(** 332-363 (equals) *)
Definition equals_sym (p1 p2 : nat -> nat) (s o : symop) : option bool :=
  if negb (has_sym o) && has_sym s then Some false
  else if negb (has_sym s) && equals_std p1 p2 (std_of s) (std_of o) then Some true
  else if negb (has_sym o) then Some false
  else equal_syms (s_sym s) (s_sym o).

(** ** Circuits *)
Inductive qop :=
| QStd (o : stdop)
| QSym (s : symop)
| QComp (l : list qop)                 (* CompoundOperation *)
| QIf (o : qop)                        (* ClassicControlledOperation *)
| QOther.                              (* measurements and resets *)

(** Operation.hpp:145, CompoundOperation.cpp:90-93, SymbolicOperation.cpp:323-326;
    ClassicControlledOperation does not override it. *)
Fixpoint is_symbolic (o : qop) : bool :=
  match o with
  | QSym s => has_sym s
  | QComp l => existsb is_symbolic l
  | _ => false
  end.

(** QuantumComputation.cpp:1090-1093 *)
Definition is_variable_free (ops : list qop) : bool := forallb (fun o => negb (is_symbolic o)) ops.

(** 1081-1088 (addVariable), over the parameters of one operation *)
Definition add_variables (ps : list sparam) (vars : list nat) : list nat :=
  fold_left (fun vs p => match p with SSym e => fold_left (fun vs t => fst t :: vs) (e_terms e) vs | SNum _ => vs end) ps vars.

(** 1098-1109: one round of the loop *)
Definition instantiate_op (a : nat -> option R) (o : qop) : option qop :=
  match o with
  | QSym s =>
      match instantiate a s with
      | Some s' => if negb (has_sym s') then Some (QStd (std_of s')) else Some (QSym s')
      | None => None
      end
  | _ => Some o
  end.
Fixpoint instantiate_ops (a : nat -> option R) (ops : list qop) : option (list qop) :=
  match ops with
  | [] => Some []
  | o :: r =>
      match instantiate_op a o, instantiate_ops a r with
      | Some o', Some r' => Some (o' :: r')
      | _, _ => None
      end
  end.
(** 1095-1115 (instantiateInplace); [dom] lists the variables of the assignment. *)
Definition instantiate_circuit (a : nat -> option R) (dom : list nat) (ops : list qop) (vars : list nat) :
    option (list qop * list nat) :=
  match instantiate_ops a ops with
  | Some ops' => Some (ops', filter (fun v => negb (existsb (Nat.eqb v) dom)) vars)
  | None => None
  end.

(** 1343-1362, 1372-1396, 1402-1432, 1468-1523: the gate methods. A standard
    operation is appended if all parameters are numbers. [None]: an infinite
    parameter. *)
Definition all_numbers (ps : list sparam) : bool := forallb (fun p => match p with SNum _ => true | SSym _ => false end) ps.
Definition emit (t : optype) (ps : list sparam) (cs : list ctl) (ts : list nat) (c : list qop * list nat) :
    option (list qop * list nat) :=
  let (ops, vars) := c in
  if all_numbers ps then
    match check_ugate tol t (map store_num ps) with
    | Some (t', par) => Some (ops ++ [QStd {| o_type := t'; o_par := par; o_ctl := cs; o_tgt := ts |}], vars)
    | None => None
    end
  else
    match make_sym t ps cs ts with
    | Some s => Some (ops ++ [QSym s], add_variables ps vars)
    | None => None
    end.
End Tol.
