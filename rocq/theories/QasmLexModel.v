(** The scanner: src/qasm3/Scanner.cpp.

    The rest of the input stands for the state, as in QasmScanModel; the loop over
    an unterminated string, which never ends, is [None]. isalpha is that of the C
    locale. Not modelled: positions, the values of floating-point and timing
    literals, messages. *)
From Coq Require Import ZArith NArith Bool Ascii String List.
From Verif Require Import LayoutModel QasmScanModel.
Import ListNotations.
Local Open Scope list_scope.

(** Token.hpp:21-164, without the kinds that carry a value *)
Inductive kind :=
  | KNone | KOpenQasm | KInclude | KDefCalGrammar | KDef | KCal | KDefCal | KGate | KOpaque | KExtern | KBox
  | KLet | KBreak | KContinue | KIf | KElse | KEnd | KReturn | KFor | KWhile | KIn | KPragma | KInput
  | KOutput | KConst | KReadOnly | KMutable | KQreg | KQubit | KCReg | KBool | KBit | KInt | KUint | KFloat
  | KAngle | KComplex | KArray | KVoid | KDuration | KStretch | KGphase | KInv | KPow | KCtrl | KNegCtrl
  | KDim | KDurationOf | KDelay | KReset | KMeasure | KBarrier | KTrue | KFalse | KLBracket | KRBracket
  | KLBrace | KRBrace | KLParen | KRParen | KColon | KSemicolon | KEof | KDot | KComma | KEquals | KArrow
  | KPlus | KDoublePlus | KMinus | KAsterisk | KDoubleAsterisk | KSlash | KPercent | KPipe | KDoublePipe
  | KAmpersand | KDoubleAmpersand | KCaret | KAt | KTilde | KExclamationPoint | KDoubleEquals | KNotEquals
  | KPlusEquals | KMinusEquals | KAsteriskEquals | KSlashEquals | KAmpersandEquals | KPipeEquals
  | KTildeEquals | KCaretEquals | KLeftShitEquals | KRightShiftEquals | KPercentEquals
  | KDoubleAsteriskEquals | KLessThan | KLessThanEquals | KGreaterThan | KGreaterThanEquals | KLeftShift
  | KRightShift | KImag | KUnderscore | KDoubleQuote | KSingleQuote | KBackSlash | KSin | KCos | KTan | KExp
  | KLn | KSqrt.
(** Token.hpp:166-173: what the parser reads of a token *)
Inductive ltok :=
| LKind (k : kind)
| LIdent (w : chars)                  (* Identifier: str *)
| LNum (t : token)                    (* IntegerLiteral, FloatLiteral, TimingLiteral *)
| LHard (v : Z)                       (* HardwareQubit: val *)
| LString (w : chars)                 (* StringLiteral: str *)
| LLayout (w : chars) | LOutput (w : chars)  (* InitialLayout, OutputPermutation: str *)
| LUndef.                             (* signed overflow *)

(** 645-655 *)
Definition isSpace (c : ascii) : bool := is_c " " c || is_c "009" c || is_c "013" c || is_c "010" c.
Definition isalpha (c : ascii) : bool :=
  ((code "a" <=? code c) && (code c <=? code "z") || (code "A" <=? code c) && (code c <=? code "Z"))%Z.
Definition isFirstIdChar (c : ascii) : bool := isalpha c || is_c "_" c.

(** 131-138; the message is left out *)
Definition expect (x : ascii) (s : chars) : chars := if is_c x (ch s) then nextCh s else s.

(** 57-59 *)
Fixpoint skip_space (s : chars) : chars := match s with c :: r => if isSpace c then skip_space r else s | [] => [] end.
(** 64-67 *)
Fixpoint line_of (s : chars) : chars * chars :=
  match s with
  | [] => ([], [])
  | c :: r => if is_c "010" c || is_c zero c then ([], s) else let '(w, t) := line_of r in (c :: w, t)
  end.
(** 91-93 *)
Fixpoint to_end (s : chars) : chars :=
  match s with
  | [] => []
  | c :: r => if is_c zero c || (is_c "*" c && is_c "/" (ch r)) then s else to_end r
  end.
(** 56-103; a token, or the input behind the comments. The recursion is bounded by
    the first argument. *)
Inductive skipped := SToken (t : ltok) (s : chars) | SRest (s : chars) | SMore.
Fixpoint skip (fuel : nat) (s : chars) : skipped :=
  match fuel with
  | O => SMore
  | S f =>
      let s := skip_space s in
      if is_c "/" (ch s) && is_c "/" (peek s) then
        let '(w, r) := line_of s in
        let r := if is_c "010" (ch r) then nextCh r else r in
        if marked "i" w then SToken (LLayout w) r
        else if marked "o" w then SToken (LOutput w) r
        else skip f r
      else if is_c "/" (ch s) && is_c "*" (peek s) then
        skip f (expect "/" (expect "*" (to_end (nextCh (nextCh s)))))
      else SRest s
  end.

(** 333-394 *)
Definition keywords : list (string * kind) :=
 [("OPENQASM", KOpenQasm); ("include", KInclude); ("defcalgrammar", KDefCalGrammar); ("def", KDef);
  ("cal", KCal); ("defcal", KDefCal); ("gate", KGate); ("opaque", KOpaque); ("extern", KExtern);
  ("box", KBox); ("let", KLet); ("break", KBreak); ("continue", KContinue); ("if", KIf); ("else", KElse);
  ("end", KEnd); ("return", KReturn); ("for", KFor); ("while", KWhile); ("in", KIn); ("pragma", KPragma);
  ("input", KInput); ("output", KOutput); ("const", KConst); ("readonly", KReadOnly); ("mutable", KMutable);
  ("qreg", KQreg); ("qubit", KQubit); ("creg", KCReg); ("bool", KBool); ("bit", KBit); ("int", KInt);
  ("uint", KUint); ("float", KFloat); ("angle", KAngle); ("complex", KComplex); ("array", KArray);
  ("void", KVoid); ("duration", KDuration); ("stretch", KStretch); ("gphase", KGphase); ("inv", KInv);
  ("pow", KPow); ("ctrl", KCtrl); ("negctrl", KNegCtrl); ("#dim", KDim); ("durationof", KDurationOf);
  ("delay", KDelay); ("reset", KReset); ("measure", KMeasure); ("barrier", KBarrier); ("true", KTrue);
  ("false", KFalse); ("im", KImag); ("sin", KSin); ("cos", KCos); ("tan", KTan); ("exp", KExp); ("ln", KLn);
  ("sqrt", KSqrt)]%string.
Definition same_text (w : chars) (s : string) : bool := String.eqb (string_of_list_ascii w) s.
Definition keyword (w : chars) : option kind :=
  match find (fun p => same_text w (fst p)) keywords with Some p => Some (snd p) | None => None end.
(** 106-111 *)
Fixpoint name_of (s : chars) : chars * chars :=
  match s with
  | [] => ([], [])
  | c :: r => if isFirstIdChar c || isNum c then let '(w, t) := name_of r in (c :: w, t) else ([], s)
  end.
(** 105-124 *)
Definition consumeName (s : chars) : ltok * chars :=
  let '(w, r) := name_of s in (match keyword w with Some k => LKind k | None => LIdent w end, r).
(** 303-307; [None]: overflow *)
Fixpoint hardware (s : chars) (v : Z) : option Z * chars :=
  match s with
  | [] => (Some v, [])
  | c :: r =>
      if isNum c then
        let v' := (v * 10 + (code c - code "0"))%Z in
        if (v' <=? 2 ^ 63 - 1)%Z then hardware r v' else (None, r)
      else (Some v, s)
  end.
(** 296-313 *)
Definition consumeHardwareQubit (s : chars) : ltok * chars :=
  let '(v, r) := hardware (expect "$" s) 0 in (match v with Some v => LHard v | None => LUndef end, r).
(** 326-334 *)
Fixpoint until (d : ascii) (s : chars) : option (chars * chars) :=
  match s with
  | [] => None
  | c :: r => if is_c d c then Some ([], s) else match until d r with Some (w, t) => Some (c :: w, t) | None => None end
  end.
(** 315-344, with a quotation mark in front *)
Definition consumeString (s : chars) : option (ltok * chars) :=
  let d := ch s in
  match until d (nextCh s) with Some (w, r) => Some (LString w, expect d r) | None => None end.

(** 418-637: the kind and how many characters are left behind *)
Definition symbol (c p q : ascii) : kind * nat :=
  if is_c "[" c then (KLBracket, 1)
  else if is_c "]" c then (KRBracket, 1)
  else if is_c "{" c then (KLBrace, 1)
  else if is_c "}" c then (KRBrace, 1)
  else if is_c "(" c then (KLParen, 1)
  else if is_c ")" c then (KRParen, 1)
  else if is_c ":" c then (KColon, 1)
  else if is_c ";" c then (KSemicolon, 1)
  else if is_c "." c then (KDot, 1)
  else if is_c "," c then (KComma, 1)
  else if is_c "-" c then if is_c ">" p then (KArrow, 2) else if is_c "=" p then (KMinusEquals, 2) else (KMinus, 1)
  else if is_c "+" c then if is_c "=" p then (KPlusEquals, 2) else if is_c "+" p then (KDoublePlus, 2) else (KPlus, 1)
  else if is_c "*" c then if is_c "=" p then (KAsteriskEquals, 2) else if is_c "*" p then (if is_c "=" q then (KDoubleAsteriskEquals, 3) else (KDoubleAsterisk, 2)) else (KAsterisk, 1)
  else if is_c "/" c then if is_c "=" p then (KSlashEquals, 2) else (KSlash, 1)
  else if is_c "%" c then if is_c "=" p then (KPercentEquals, 2) else (KPercent, 1)
  else if is_c "|" c then if is_c "=" p then (KPipeEquals, 2) else if is_c "|" p then (KDoublePipe, 2) else (KPipe, 1)
  else if is_c "&" c then if is_c "=" p then (KAmpersandEquals, 2) else if is_c "&" p then (KDoubleAmpersand, 2) else (KAmpersand, 1)
  else if is_c "^" c then if is_c "=" p then (KCaretEquals, 2) else (KCaret, 1)
  else if is_c "~" c then if is_c "=" p then (KTildeEquals, 2) else (KTilde, 1)
  else if is_c "!" c then if is_c "=" p then (KNotEquals, 2) else (KExclamationPoint, 1)
  else if is_c "<" c then if is_c "=" p then (KLessThanEquals, 2) else if is_c "<" p then (if is_c "=" q then (KLeftShitEquals, 3) else (KLeftShift, 2)) else (KLessThan, 1)
  else if is_c ">" c then if is_c "=" p then (KGreaterThanEquals, 2) else if is_c ">" p then (if is_c "=" q then (KRightShiftEquals, 3) else (KRightShift, 2)) else (KGreaterThan, 1)
  else if is_c "=" c then if is_c "=" p then (KDoubleEquals, 2) else (KEquals, 1)
  else if is_c "@" c then (KAt, 1)
  else (KNone, 2).
Definition drop (n : nat) (s : chars) : chars := Nat.iter n nextCh s.
(** 399-643 *)
Definition next (s0 : chars) : option (ltok * chars) :=
  match skip (S (List.length s0)) s0 with
  | SMore => None
  | SToken t r => Some (t, r)
  | SRest s =>
      let c := ch s in
      if isFirstIdChar c then Some (consumeName s)
      else if isNum c || (is_c "." c && isNum (peek s)) || (is_c "-" c && isNum (peek s)) then
        let '(t, r) := consumeNumberLiteral s in Some (LNum t, r)
      else if is_c "$" c then Some (consumeHardwareQubit s)
      else if is_c """" c || is_c "'" c then consumeString s
      else if is_c zero c then Some (LKind KEof, s)
      else let '(k, n) := symbol c (peek s) (peek (nextCh s)) in Some (LKind k, drop n s)
  end.
(** the calls of next() up to the end of the input *)
Fixpoint scan (fuel : nat) (s : chars) : option (list ltok) :=
  match fuel with
  | O => None
  | S f =>
      match next s with
      | None => None
      | Some (LKind KEof, _) => Some [LKind KEof]
      | Some (t, r) => match scan f r with Some l => Some (t :: l) | None => None end
      end
  end.
Definition scanAll (s : chars) : option (list ltok) := scan (S (List.length s)) s.
