(* Scanning of number literals: src/qasm3/Scanner.cpp. The scanner reads one character ahead: the state is the rest of
   the input, whose first character is the member ch. At the end of the input ch is 0; peek() then returns 0 or -1,
   neither of which is compared to successfully. Characters are 8 bits wide, as in readUtf8Codepoint (30-34). Line and
   column numbers are not modelled, nor are the values of floating-point and timing literals (std::stod): their tokens
   carry the characters. *)
From Coq Require Import ZArith NArith Bool Ascii String List.
Import ListNotations.
Local Open Scope Z_scope.
Notation chars := (list ascii).
Definition code (c : ascii) : Z := Z.of_N (N_of_ascii c).
Definition is_c (x c : ascii) : bool := Ascii.eqb c x.
(* ch and peek *)
Definition ch (s : chars) : ascii := match s with c :: _ => c | [] => zero end.
Definition peek (s : chars) : ascii := ch (tl s).
(* 36-47 *)
Definition nextCh (s : chars) : chars := tl s.

(* 656-664 *)
Definition isNum (c : ascii) : bool := (code "0" <=? code c) && (code c <=? code "9").
Definition isHex (c : ascii) : bool :=
  isNum c || ((code "a" <=? code c) && (code c <=? code "f")) || ((code "A" <=? code c) && (code c <=? code "F")).
(* 666-678 *)
Definition hasTimingSuffix (a b : ascii) : bool :=
  if is_c "s" a then true
  else existsb (fun p => is_c (fst p) a && is_c (snd p) b) [("m", "s"); ("u", "s"); ("n", "s"); ("p", "s"); ("d", "t")]%char.
(* 140-154 *)
Definition isValidDigit (base : Z) (c : ascii) : bool :=
  if base =? 2 then is_c "0" c || is_c "1" c
  else if base =? 8 then (code "0" <=? code c) && (code c <=? code "7")
  else if base =? 10 then isNum c
  else if base =? 16 then isHex c
  else false.
(* 156-166: the digits without the separators, and the rest *)
Fixpoint consumeDigits (base : Z) (s : chars) : chars * chars :=
  match s with
  | [] => ([], [])
  | c :: s' =>
      if isValidDigit base c || is_c "_" c then
        let '(ds, r) := consumeDigits base s' in ((if is_c "_" c then ds else c :: ds), r)
      else ([], s)
  end.
(* uint64_t and int64_t *)
Definition u64 (z : Z) : Z := z mod 2 ^ 64.
Definition s64 (z : Z) : Z := (z + 2 ^ 63) mod 2 ^ 64 - 2 ^ 63.
(* 168-181; the characters are of type char, their values below 128 *)
Definition parseIntegerLiteral (str : chars) (base : Z) : Z :=
  fold_left (fun val c => if isNum c then u64 (u64 (val * base) + u64 (code c - code "0")) else u64 (u64 (val * base) + u64 (code c - code "a" + 10))) str 0.

Inductive token :=
| TInt (val : Z) (sgn : bool)                    (* IntegerLiteral: val, isSigned *)
| TFloat (negative : bool) (str : chars)         (* FloatLiteral *)
| TTiming
| TUndef.                                        (* overflow of a signed multiplication *)

(* 183-294 *)
Definition consumeNumberLiteral (s : chars) : token * chars :=
  let p := peek s in
  let '(base, s) :=
    if is_c "0" (ch s) then
      if is_c "b" p || is_c "B" p then (2, nextCh (nextCh s))
      else if is_c "o" p then (8, nextCh (nextCh s))
      else if is_c "x" p || is_c "X" p then (16, nextCh (nextCh s))
      else (10, s)
    else (10, s) in
  let '(negative, s) := if is_c "-" (ch s) then (true, nextCh s) else (false, s) in
  let '(before, s) := consumeDigits base s in
  let '(t, s) :=
    if is_c "." (ch s) || is_c "e" (ch s) || is_c "E" (ch s) then
      let '(fr, s) := if is_c "." (ch s) then let '(ds, r) := consumeDigits base (nextCh s) in ("."%char :: ds, r) else ([], s) in
      let '(ex, s) :=
        if is_c "e" (ch s) || is_c "E" (ch s) then
          let e := ch s in
          let s := nextCh s in
          let '(sg, s) := if is_c "+" (ch s) || is_c "-" (ch s) then ([ch s], nextCh s) else ([], s) in
          let '(ds, r) := consumeDigits base s in (e :: sg ++ ds, r)
        else ([], s) in
      (TFloat negative (before ++ fr ++ ex), s)
    else
      let v := s64 (parseIntegerLiteral before base) in
      if negative then (if v =? - 2 ^ 63 then TUndef else TInt (- v) true, s) else (TInt v false, s) in
  let a := ch s in let b := peek s in
  if hasTimingSuffix a b then
    (match t with TUndef => TUndef | _ => TTiming end,
     if negb (is_c "s" a) && (negb (is_c "d" a) || negb (is_c "t" b)) then nextCh (nextCh s) else nextCh s)
  else (t, s).
