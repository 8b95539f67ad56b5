(** How tokens are written, without reference to the scanner. *)
From Coq Require Import ZArith NArith Bool Ascii String List.
From Verif Require Import LayoutSpec QasmScanSpec QasmScanModel QasmLexModel.
Import ListNotations.
Local Open Scope list_scope.

Notation str := list_ascii_of_string.
(** The keywords of the language, without #dim, in alphabetical order. *)
Definition words : list (string * kind) :=
 [("OPENQASM", KOpenQasm); ("angle", KAngle); ("array", KArray); ("barrier", KBarrier); ("bit", KBit);
  ("bool", KBool); ("box", KBox); ("break", KBreak); ("cal", KCal); ("complex", KComplex); ("const", KConst);
  ("continue", KContinue); ("cos", KCos); ("creg", KCReg); ("ctrl", KCtrl); ("def", KDef);
  ("defcal", KDefCal); ("defcalgrammar", KDefCalGrammar); ("delay", KDelay); ("duration", KDuration);
  ("durationof", KDurationOf); ("else", KElse); ("end", KEnd); ("exp", KExp); ("extern", KExtern);
  ("false", KFalse); ("float", KFloat); ("for", KFor); ("gate", KGate); ("gphase", KGphase); ("if", KIf);
  ("im", KImag); ("in", KIn); ("include", KInclude); ("input", KInput); ("int", KInt); ("inv", KInv);
  ("let", KLet); ("ln", KLn); ("measure", KMeasure); ("mutable", KMutable); ("negctrl", KNegCtrl);
  ("opaque", KOpaque); ("output", KOutput); ("pow", KPow); ("pragma", KPragma); ("qreg", KQreg);
  ("qubit", KQubit); ("readonly", KReadOnly); ("reset", KReset); ("return", KReturn); ("sin", KSin);
  ("sqrt", KSqrt); ("stretch", KStretch); ("tan", KTan); ("true", KTrue); ("uint", KUint); ("void", KVoid);
  ("while", KWhile)]%string.
(** Punctuation and operators. *)
Definition symbols : list (string * kind) :=
 [("[", KLBracket); ("]", KRBracket); ("{", KLBrace); ("}", KRBrace); ("(", KLParen); (")", KRParen);
  (":", KColon); (";", KSemicolon); (".", KDot); (",", KComma); ("=", KEquals); ("->", KArrow); ("+", KPlus);
  ("++", KDoublePlus); ("-", KMinus); ("*", KAsterisk); ("**", KDoubleAsterisk); ("/", KSlash);
  ("%", KPercent); ("|", KPipe); ("||", KDoublePipe); ("&", KAmpersand); ("&&", KDoubleAmpersand);
  ("^", KCaret); ("@", KAt); ("~", KTilde); ("!", KExclamationPoint); ("==", KDoubleEquals);
  ("!=", KNotEquals); ("+=", KPlusEquals); ("-=", KMinusEquals); ("*=", KAsteriskEquals);
  ("/=", KSlashEquals); ("&=", KAmpersandEquals); ("|=", KPipeEquals); ("~=", KTildeEquals);
  ("^=", KCaretEquals); ("<<=", KLeftShitEquals); (">>=", KRightShiftEquals); ("%=", KPercentEquals);
  ("**=", KDoubleAsteriskEquals); ("<", KLessThan); ("<=", KLessThanEquals); (">", KGreaterThan);
  (">=", KGreaterThanEquals); ("<<", KLeftShift); (">>", KRightShift)]%string.

(** ** Between tokens: white space and comments *)
Definition newline : ascii := "010".
Definition white (c : ascii) : Prop := In c [" "; "009"; "013"; "010"]%char.
(** A comment that carries a layout. *)
Definition mark (w : list ascii) : Prop := contains "i" w \/ contains "o" w.
Inductive blank : list ascii -> Prop :=
| b_nil : blank []
| b_white c b : white c -> blank b -> blank (c :: b)
| b_line w b : ~ In newline w -> ~ In zero w -> ~ mark w -> blank b -> blank (str "//" ++ w ++ newline :: b)
| b_block w b : ~ In zero w -> (forall x y, w ++ str "*/" = x ++ str "*/" ++ y -> y = []) -> blank b ->
    blank (str "/*" ++ w ++ str "*/" ++ b).

(** ** Tokens *)
Definition between (a c b : ascii) : Prop := (N_of_ascii a <= N_of_ascii c <= N_of_ascii b)%N.
Definition letter (c : ascii) : Prop := between "a" c "z" \/ between "A" c "Z" \/ c = "_"%char.
Definition decimal_digit (c : ascii) : Prop := between "0" c "9".
(** The rest does not begin with such a character. *)
Definition not_first (P : ascii -> Prop) (rest : list ascii) : Prop := match rest with c :: _ => ~ P c | [] => True end.
Definition begins (w rest : list ascii) : Prop := exists y, rest = w ++ y.
(** Digits with separators, perhaps none. *)
Definition digits (s : list ascii) : Prop := forall c, In c s -> is_digit 10 c = true \/ c = "_"%char.
(** e or E, perhaps a sign, digits *)
Inductive exponent : list ascii -> Prop :=
| e_none : exponent []
| e_some e sg s : In e ["e"; "E"]%char -> In sg [[]; ["+"]; ["-"]]%char -> body 10 s -> exponent (e :: sg ++ s).
Definition unit_of (u : list ascii) : Prop := In u [str "s"; str "ms"; str "us"; str "ns"; str "ps"].

(** [lexeme w t ok]: the characters [w] are the token [t] if the rest satisfies [ok]. *)
Inductive lexeme : list ascii -> ltok -> (list ascii -> Prop) -> Prop :=
| l_word s k : In (s, k) words -> lexeme (str s) (LKind k) (not_first (fun c => letter c \/ decimal_digit c))
| l_name c w : letter c -> (forall x, In x w -> letter x \/ decimal_digit x) -> (forall s k, In (s, k) words -> c :: w <> str s) ->
    lexeme (c :: w) (LIdent (c :: w)) (not_first (fun c => letter c \/ decimal_digit c))
| l_int p b s : prefix p b -> p <> str "0O" -> body b s -> (forall c, In c s -> ~ between "A" c "F") -> (value b (strip s) < 2 ^ 63)%Z ->
    lexeme (p ++ s) (LNum (TInt (value b (strip s)) false)) ends
| l_negative s : body 10 s -> (value 10 (strip s) < 2 ^ 63)%Z -> lexeme ("-"%char :: s) (LNum (TInt (- value 10 (strip s)) true)) ends
| l_float sg a f e : In sg [[]; ["-"]]%char -> body 10 a -> digits f -> exponent e ->
    lexeme (sg ++ a ++ "."%char :: f ++ e) (LNum (TFloat (match sg with [] => false | _ => true end) (strip (a ++ "."%char :: f ++ e)))) ends
| l_fraction f e : body 10 f -> exponent e -> lexeme ("."%char :: f ++ e) (LNum (TFloat false (strip ("."%char :: f ++ e)))) ends
| l_scientific sg a e : In sg [[]; ["-"]]%char -> body 10 a -> exponent e -> e <> [] ->
    lexeme (sg ++ a ++ e) (LNum (TFloat (match sg with [] => false | _ => true end) (strip (a ++ e)))) ends
| l_timing a u : body 10 a -> unit_of u -> lexeme (a ++ u) (LNum TTiming) (fun _ => True)
| l_hardware s : s <> [] -> (forall c, In c s -> decimal_digit c) -> (value 10 s < 2 ^ 63)%Z ->
    lexeme ("$"%char :: s) (LHard (value 10 s)) (not_first decimal_digit)
| l_string d w : In d [""""; "'"]%char -> ~ In d w -> lexeme (d :: w ++ [d]) (LString w) (fun _ => True)
| l_symbol s k : In (s, k) symbols ->
    lexeme (str s) (LKind k) (fun rest =>
      (* no longer symbol, comment or number begins here *)
      (forall t k', In (t, k') symbols -> begins (str t) (str s ++ rest) -> String.length t <= String.length s) /\
      ~ begins (str "//") (str s ++ rest) /\ ~ begins (str "/*") (str s ++ rest) /\
      (s = "-"%string \/ s = "."%string -> not_first decimal_digit rest))
| l_initial w : ~ In newline w -> ~ In zero w -> contains "i" w -> lexeme (str "//" ++ w ++ [newline]) (LLayout (str "//" ++ w)) (fun _ => True)
| l_output w : ~ In newline w -> ~ In zero w -> contains "o" w -> ~ contains "i" w -> lexeme (str "//" ++ w ++ [newline]) (LOutput (str "//" ++ w)) (fun _ => True).

(** A text and its tokens. It may end in a comment. *)
Inductive written : list ascii -> list ltok -> Prop :=
| w_end b : blank b -> written b []
| w_comment b w : blank b -> ~ In newline w -> ~ In zero w -> ~ mark w -> written (b ++ str "//" ++ w) []
| w_token b w t ok rest ts : blank b -> lexeme w t ok -> ok rest -> written rest ts -> written (b ++ w ++ rest) (t :: ts).

(** A string that is not closed. *)
Definition unclosed (s : list ascii) : Prop := exists d w, In d [""""; "'"]%char /\ s = d :: w /\ ~ In d w.
