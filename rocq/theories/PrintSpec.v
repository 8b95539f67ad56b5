(** Reading a printed number: sums of products, where a slash divides by the one factor behind it and factors beside each
    other are multiplied. A letter right behind a divisor is rejected, as one could take it to be part of the divisor. *)
From Coq Require Import ZArith QArith Qabs List Bool.
From Verif Require Import PrintModel.
Import ListNotations.
Local Open Scope Q_scope.

(** Complex numbers with rational parts *)
Definition K := (Q * Q)%type.
Definition kadd (u v : K) : K := (fst u + fst v, snd u + snd v).
Definition kneg (u : K) : K := (- fst u, - snd u).
Definition kmul (u v : K) : K := (fst u * fst v - snd u * snd v, fst u * snd v + snd u * fst v).
Definition kdiv (u v : K) : K :=
  let n := fst v * fst v + snd v * snd v in
  ((fst u * fst v + snd u * snd v) / n, (snd u * fst v - fst u * snd v) / n).

(** The sum so far, whether nothing was read, the sign and the product that is being read, a slash, and whether the last
    factor was a divisor *)
Record state := St { sum : K; fresh : bool; neg : bool; prod : option K; slash : bool; divided : bool }.
Definition start : state := St (0, 0) true false None false false.
(** The sum with the product included *)
Definition total (s : state) : option K :=
  match prod s with
  | Some v => if slash s then None else Some (kadd (sum s) (if neg s then kneg v else v))
  | None => None
  end.
Definition factor (s : state) (f : K) : option state :=
  match prod s, slash s with
  | None, false => Some (St (sum s) false (neg s) (Some f) false false)
  | Some v, false => Some (St (sum s) false (neg s) (Some (kmul v f)) false false)
  | Some v, true => Some (St (sum s) false (neg s) (Some (kdiv v f)) false true)
  | None, true => None
  end.
(** i, pi and the root *)
Definition letter (s : state) (f : K) : option state := if divided s then None else factor s f.
(** Two numbers beside each other would be read as one *)
Definition number (s : state) (q : Q) : option state :=
  match prod s, slash s with Some _, false => None | _, _ => factor s (q, 0) end.
Definition sign (s : state) (n : bool) : option state :=
  match prod s with
  | Some _ => match total s with Some t => Some (St t false n None false false) | None => None end
  | None => if fresh s then Some (St (sum s) false n None false false) else None
  end.

Section Read.
(** What the root of two and pi stand for *)
Variables (root pi : Q).
Definition lift (stk : list state) (s : option state) : option (state * list state) :=
  match s with Some s' => Some (s', stk) | None => None end.
Definition feed (c : state * list state) (t : piece) : option (state * list state) :=
  let (s, stk) := c in
  match t with
  | TNum n => lift stk (number s (inject_Z n))
  | TDec q => lift stk (number s q)
  | TI => lift stk (letter s (0, 1))
  | TPi => lift stk (letter s (pi, 0))
  | TSqrt2 => lift stk (letter s (root, 0))
  | TPlus => lift stk (sign s false)
  | TMinus => lift stk (sign s true)
  | TSlash => match prod s, slash s with Some _, false => Some (St (sum s) false (neg s) (prod s) true false, stk) | _, _ => None end
  | TOpen => Some (start, s :: stk)
  | TClose => match total s, stk with Some v, o :: stk' => lift stk' (factor o v) | _, _ => None end
  end.
Fixpoint feeds (c : state * list state) (l : list piece) : option (state * list state) :=
  match l with [] => Some c | t :: r => match feed c t with Some c' => feeds c' r | None => None end end.
(** The number that a text stands for *)
Definition reads (l : list piece) : option K :=
  match feeds (start, []) l with Some (s, []) => total s | _ => None end.
End Read.

(** Both parts differ by at most delta *)
Definition kclose (delta : Q) (u v : K) : Prop := Qabs (fst u - fst v) <= delta /\ Qabs (snd u - snd v) <= delta.
