(* Expression parsing: src/qasm3/Parser.cpp:654-817 on the list of tokens. Outcome None: the parser reports an error
   (or the fuel does not suffice). An index operator holds exactly one expression here (519-530 also accepts none and
   several: None in the model). *)
From Coq Require Import ZArith QArith Bool List String.
From Verif Require Import QasmConstModel.
Import ListNotations.
Local Close Scope Q_scope.

(* Token.hpp: the kinds read by the functions below; the kinds of the comparisons and functions are named by the
   operator they are translated to *)
Inductive token := KInt (sgn : bool) (z : Z) | KFloat (q : Q) | KId (s : string) | KTrue | KFalse | KLParen | KRParen | KLBracket | KRBracket
  | KFun (op : uop) | KCmp (op : bop) | KPlus | KMinus | KAsterisk | KSlash | KCaret | KBang | KTilde | KOther.
(* the parsing functions; MxxxL x is the loop of xxx with the accumulated expression x *)
Inductive mode := MExp | MId (id : string) (idx : list expr) | MFactor | MFactorL (x : expr) | MTerm | MTermL (x : expr) | MComparison | MComparisonL (x : expr) | MExpr | MExprL (x : expr).
Definition expect_rparen (r : option (expr * list token)) : option (expr * list token) :=
  match r with Some (x, KRParen :: ts) => Some (x, ts) | _ => None end.

Fixpoint parse (fuel : nat) (m : mode) (ts : list token) : option (expr * list token) :=
  match fuel with
  | O => None
  | S n =>
    let bind r k := match r with Some (x, ts') => parse n (k x) ts' | None => None end in
    match m with
    (* 654-728 *)
    | MExp =>
      match ts with
      | KMinus :: ts' => match parse n MExp ts' with Some (x, r) => Some (EUn Negate x, r) | None => None end
      | KFloat q :: ts' => Some (EFloat q, ts')
      | KInt s z :: ts' => Some (EInt s z, ts')
      | KId s :: ts' => parse n (MId s []) ts'
      | KFalse :: ts' => Some (EBool false, ts')
      | KTrue :: ts' => Some (EBool true, ts')
      | KLParen :: ts' => expect_rparen (parse n MExpr ts')
      | KFun f :: KLParen :: ts' => match expect_rparen (parse n MExpr ts') with Some (x, r) => Some (EUn f x, r) | None => None end
      | _ => None
      end
    (* 519-539 *)
    | MId id idx =>
      match ts with
      | KLBracket :: ts' => match parse n MExpr ts' with Some (x, KRBracket :: r) => parse n (MId id (idx ++ [x])) r | _ => None end
      | _ => Some (EId id idx, ts)
      end
    (* 730-738 *)
    | MFactor => bind (parse n MExp ts) MFactorL
    | MFactorL x => match ts with KCaret :: ts' => bind (parse n MExp ts') (fun y => MFactorL (EBin Power x y)) | _ => Some (x, ts) end
    (* 740-752 *)
    | MTerm => bind (parse n MFactor ts) MTermL
    | MTermL x =>
      match ts with
      | KAsterisk :: ts' => bind (parse n MFactor ts') (fun y => MTermL (EBin Multiply x y))
      | KSlash :: ts' => bind (parse n MFactor ts') (fun y => MTermL (EBin Divide x y))
      | _ => Some (x, ts)
      end
    (* 754-790 *)
    | MComparison => bind (parse n MTerm ts) MComparisonL
    | MComparisonL x => match ts with KCmp op :: ts' => bind (parse n MTerm ts') (fun y => MComparisonL (EBin op x y)) | _ => Some (x, ts) end
    (* 792-821 *)
    | MExpr =>
      match ts with
      | KMinus :: ts' => bind (parse n MTerm ts') (fun x => MExprL (EUn Negate x))
      | KBang :: ts' => bind (parse n MTerm ts') (fun x => MExprL (EUn LogicalNot x))
      | KTilde :: ts' => bind (parse n MTerm ts') (fun x => MExprL (EUn BitwiseNot x))
      | _ => bind (parse n MComparison ts) MExprL
      end
    | MExprL x =>
      match ts with
      | KPlus :: ts' => bind (parse n MComparison ts') (fun y => MExprL (EBin Add x y))
      | KMinus :: ts' => bind (parse n MComparison ts') (fun y => MExprL (EBin Subtract x y))
      | _ => Some (x, ts)
      end
    end
  end.
Definition parseExpression (fuel : nat) (ts : list token) : option (expr * list token) := parse fuel MExpr ts.

(* Scanner.cpp:414-659, for the characters of integer arithmetic (digits, blanks, + - * / ^ and parentheses); None: any
   other character or a combined operator. *)
From Verif Require QasmScanModel.
From Coq Require Import Ascii.
Definition next (s : list ascii) : option (token * list ascii) :=
  let c := QasmScanModel.ch s in let p := QasmScanModel.peek s in
  if QasmScanModel.isNum c || (Ascii.eqb c "-" && QasmScanModel.isNum p) then
    match QasmScanModel.consumeNumberLiteral s with (QasmScanModel.TInt v sg, r) => Some (KInt sg v, r) | _ => None end
  else if Ascii.eqb c "-" then if Ascii.eqb p ">" || Ascii.eqb p "=" then None else Some (KMinus, tl s)
  else if Ascii.eqb c "+" then if Ascii.eqb p "+" || Ascii.eqb p "=" then None else Some (KPlus, tl s)
  else if Ascii.eqb c "*" then if Ascii.eqb p "*" || Ascii.eqb p "=" then None else Some (KAsterisk, tl s)
  else if Ascii.eqb c "/" then if Ascii.eqb p "/" || Ascii.eqb p "*" || Ascii.eqb p "=" then None else Some (KSlash, tl s)
  else if Ascii.eqb c "^" then if Ascii.eqb p "=" then None else Some (KCaret, tl s)
  else if Ascii.eqb c "(" then Some (KLParen, tl s)
  else if Ascii.eqb c ")" then Some (KRParen, tl s)
  else None.
(* all tokens; blanks are skipped before each one (416-418) *)
Fixpoint tokens (fuel : nat) (s : list ascii) : option (list token) :=
  match fuel, s with
  | _, [] => Some []
  | O, _ => None
  | S n, c :: s' =>
      if Ascii.eqb c " " then tokens n s'
      else match next s with Some (t, r) => match tokens n r with Some l => Some (t :: l) | None => None end | None => None end
  end.
