(** Model of the parser of function test files: the grammar of
    /repo/testcases/parser/baseparser/functestcase_parser.go (the rules of its serialized automaton, lines
    99-437, decoded) and its use in /repo/testcases/parser/parse.go 31-70.  Definitions only; theorems are in
    TestParseProps.v.

    The parser is modelled as a function from tokens to the parse tree of TestCaseModel.v: one function per
    rule of the grammar, or per few rules.  The ANTLR runtime reports a syntax error if the tokens have no
    parse tree, which is an error of the whole file (parse.go 45-47, 57-60); that is [None] here.  Where
    tokens can be grouped in two ways (test cases after test cases), it prefers to go on with the current
    group.  Simplification: how the runtime looks ahead is left out; the tree it builds is the only one the
    grammar has for these tokens, given that preference (proved in TestParseProps.v).
    Recursive functions carry fuel, which exceeds the number of tokens. *)

From Coq Require Import ZArith String Ascii Bool List.
From Verif Require Import Base TypesModel SigModel TestCaseModel TestLexModel.
From Verif Require FloatModel.
Import ListNotations.
Local Open Scope string_scope.

Definition parser (A : Type) : Type := list token -> option (A * list token).

(** one or more, separated by commas *)
Fixpoint more {A} (p : parser A) (n : nat) (ts : list token) : option (list A * list token) :=
  match n with
  | O => None
  | S n' =>
      match ts with
      | (KComma, _) :: r =>
          match p r with
          | Some (a, r') => match more p n' r' with Some (l, r'') => Some (a :: l, r'') | None => None end
          | None => None
          end
      | _ => Some ([], ts)
      end
  end.
Definition list1 {A} (p : parser A) (n : nat) : parser (list A) := fun ts =>
  match p ts with
  | Some (a, r) => match more p n r with Some (l, r') => Some (a :: l, r') | None => None end
  | None => None
  end.

(** ** types: rules dataType, scalarType, parameterizedType and the rules of the types *)

Definition quest (ts : list token) : bool * list token :=
  match ts with (KQMark, _) :: r => (true, r) | _ => (false, ts) end.
Definition one_param : parser string := fun ts =>
  match ts with (KOAngle, _) :: (KIntLit, n) :: (KCAngle, _) :: r => Some (n, r) | _ => None end.
Definition opt_param : parser (option string) := fun ts =>
  match ts with
  | (KOAngle, _) :: _ => match one_param ts with Some (n, r) => Some (Some n, r) | None => None end
  | _ => Some (None, ts)
  end.
Definition opt_params : parser (option (string * string)) := fun ts =>
  match ts with
  | (KOAngle, _) :: (KIntLit, a) :: (KComma, _) :: (KIntLit, b) :: (KCAngle, _) :: r => Some (Some (a, b), r)
  | (KOAngle, _) :: _ => None
  | _ => Some (None, ts)
  end.
Fixpoint p_type (n : nat) (ts : list token) : option (dtype * list token) :=
  match n with
  | O => None
  | S n' =>
      match ts with
      | (KType p, _) :: r => let (q, r) := quest r in Some (DPrim p q, r)
      | (KUser, _) :: (KIdent, _) :: r => let (_, r) := quest r in Some (DUser, r)
      | (KFixed k, _) :: r =>
          let (q, r) := quest r in
          match one_param r with Some (len, r) => Some (DFixed k len q, r) | None => None end
      | (KDecimal, _) :: r =>
          let (q, r) := quest r in
          match opt_params r with Some (ps, r) => Some (DDecimal ps q, r) | None => None end
      | (KPrecTime, _) :: r =>
          let (q, r) := quest r in
          match one_param r with Some (p, r) => Some (DPrecTime p q, r) | None => None end
      | (KPrecTs, _) :: r =>
          let (q, r) := quest r in
          match one_param r with Some (p, r) => Some (DPrecTs p q, r) | None => None end
      | (KPrecTsTz, _) :: r =>
          let (q, r) := quest r in
          match one_param r with Some (p, r) => Some (DPrecTsTz p q, r) | None => None end
      | (KDayType, _) :: r =>
          let (q, r) := quest r in
          match opt_param r with Some (p, r) => Some (DIntervalDay p q, r) | None => None end
      | (KCompoundType, _) :: r =>
          let (q, r) := quest r in
          match opt_param r with Some (_, r) => Some (DIntervalCompound, r) | None => None end
      | (KList, _) :: r =>
          let (q, r) := quest r in
          match r with
          | (KOAngle, _) :: r =>
              match p_type n' r with
              | Some (e, (KCAngle, _) :: r) => Some (DList e q, r)
              | _ => None
              end
          | _ => None
          end
      | (KFunc, _) :: r =>
          let (_, r) := quest r in
          match r with
          | (KOAngle, _) :: r =>
              match
                match r with
                | (KOParen, _) :: r =>
                    match list1 (p_type n') n' r with
                    | Some (_, (KCParen, _) :: r) => Some r
                    | _ => None
                    end
                | _ => match p_type n' r with Some (_, r) => Some r | None => None end
                end
              with
              | Some ((KArrow, _) :: r) =>
                  match p_type n' r with
                  | Some (_, (KCAngle, _) :: r) => Some (DFunc, r)
                  | _ => None
                  end
              | _ => None
              end
          | _ => None
          end
      | _ => None
      end
  end.

(** ** values *)

(** rules literal, numericLiteral and floatLiteral *)
Definition kind_of_literal (k : tk) : option kind :=
  match k with
  | KNullLit => Some KNull
  | KIntLit | KDecLit | KFloatLit | KNaN => Some KNum
  | KBoolLit => Some KBool
  | KStrLit => Some KStr
  | KDateLit => Some KDate
  | KTimeLit => Some KTime
  | KTsLit => Some KTs
  | KTsTzLit => Some KTsTz
  | KYearLit => Some KIntervalYear
  | KDayLit => Some KIntervalDay
  | KCompoundLit => Some KOther
  | _ => None
  end.
Definition p_literal : parser tlit := fun ts =>
  match ts with
  | (k, t) :: r => match kind_of_literal k with Some kd => Some (Tlit kd t, r) | None => None end
  | [] => None
  end.

(** rules listElement and literalList *)
Fixpoint p_elem (n : nat) (ts : list token) : option (element * list token) :=
  match n with
  | O => None
  | S n' =>
      match ts with
      | (KOBracket, _) :: (KCBracket, _) :: r => Some (EList [], r)
      | (KOBracket, _) :: r =>
          match list1 (p_elem n') n' r with
          | Some (es, (KCBracket, _) :: r) => Some (EList es, r)
          | _ => None
          end
      | _ => match p_literal ts with Some (l, r) => Some (ELit l, r) | None => None end
      end
  end.

(** The rules nullArg, intArg, … intervalCompoundArg, fixedCharArg, … precisionTimestampTZArg: which kind
    of literal goes with which type. *)
Definition typed (k : tk) (t : string) (d : dtype) : option targ :=
  match k, d with
  | KNullLit, _ => Some (GNull t d)
  | KIntLit, DPrim PrimI8 q => Some (GInt t PrimI8 q)
  | KIntLit, DPrim PrimI16 q => Some (GInt t PrimI16 q)
  | KIntLit, DPrim PrimI32 q => Some (GInt t PrimI32 q)
  | KIntLit, DPrim PrimI64 q => Some (GInt t PrimI64 q)
  | (KIntLit | KDecLit | KFloatLit | KNaN), DPrim PrimFp32 q => Some (GFloat t PrimFp32 q)
  | (KIntLit | KDecLit | KFloatLit | KNaN), DPrim PrimFp64 q => Some (GFloat t PrimFp64 q)
  | (KIntLit | KDecLit | KFloatLit | KNaN), DDecimal ps q => Some (GDecimal t ps q)
  | KBoolLit, DPrim PrimBool q => Some (GBool t q)
  | KStrLit, DPrim PrimString q => Some (GString t q)
  | KStrLit, DFixed kd len q => Some (GFixed kd t len q)
  | KDateLit, DPrim PrimDate q => Some (GDate t q)
  | KTimeLit, DPrim PrimTime q => Some (GTime t q)
  | KTimeLit, DPrecTime p q => Some (GPrecTime t p q)
  | KTsLit, DPrim PrimTimestamp q => Some (GTs t q)
  | KTsLit, DPrecTs p q => Some (GPrecTs t p q)
  | KTsTzLit, DPrim PrimTimestampTz q => Some (GTsTz t q)
  | KTsTzLit, DPrecTsTz p q => Some (GPrecTsTz t p q)
  | KYearLit, DPrim PrimIntervalYear q => Some (GIntervalYear t q)
  | KDayLit, DIntervalDay p q => Some (GIntervalDay t p q)
  | KCompoundLit, DIntervalCompound => Some GOther
  | _, _ => None
  end.

Definition is_name (k : tk) : bool := match k with KIdent | KTruncate | KNonReserved => true | _ => false end.
(** rule identifier *)
Definition p_name : parser string := fun ts =>
  match ts with (k, t) :: r => if is_name k then Some (t, r) else None | [] => None end.
Definition p_ident : parser string := fun ts =>
  match ts with (KIdent, t) :: r => Some (t, r) | _ => None end.

(** rules lambdaParameters and the arrow: a name, or two or more in parentheses *)
Definition p_lambda_head (n : nat) (ts : list token) : option (list token) :=
  match ts with
  | (KIdent, _) :: (KArrow, _) :: r => Some r
  | (KOParen, _) :: r =>
      match list1 p_ident n r with
      | Some (_ :: _ :: _, (KCParen, _) :: (KArrow, _) :: r) => Some r
      | _ => None
      end
  | _ => None
  end.

(** rules argument, listArg, lambdaArg, literalLambda, lambdaBody, enumArg *)
Fixpoint p_arg (n : nat) (ts : list token) : option (targ * list token) :=
  match n with
  | O => None
  | S n' =>
      match ts with
      | (KIdent, name) :: (KDoubleColon, _) :: r =>
          match r with (KEnum, _) :: r => Some (GEnum name, r) | _ => None end
      | (KIdent, _) :: r => Some (GOther, r)
      | (KOBracket, _) :: _ =>
          match p_elem n ts with
          | Some (EList es, (KDoubleColon, _) :: r) =>
              match p_type n' r with
              | Some (DList e q, r) => Some (GList es e q, r)
              | _ => None
              end
          | _ => None
          end
      | (KOParen, _) :: r =>
          match p_lambda_head n' r with
          | Some r =>
              match p_name r with
              | Some (_, (KOParen, _) :: r) =>
                  match list1 (p_arg n') n' r with
                  | Some (_, (KCParen, _) :: (KCParen, _) :: (KDoubleColon, _) :: r) =>
                      match p_type n' r with Some (DFunc, r) => Some (GOther, r) | _ => None end
                  | _ => None
                  end
              | _ => None
              end
          | None => None
          end
      | (k, t) :: (KDoubleColon, _) :: r =>
          match p_type n' r with
          | Some (d, r) => match typed k t d with Some a => Some (a, r) | None => None end
          | None => None
          end
      | _ => None
      end
  end.

(** rules result and substraitError *)
Definition p_result (n : nat) (ts : list token) : option (tresult * list token) :=
  match ts with
  | (KErrorResult, _) :: r => Some (RError, r)
  | (KUndefinedResult, _) :: r => Some (RUndefined, r)
  | _ => match p_arg n ts with Some (a, r) => Some (RArg a, r) | None => None end
  end.

(** rules funcOption, optionName, optionValue *)
Definition option_name (k : tk) : bool := match k with KOptName | KIdent => true | _ => false end.
Definition option_value (k : tk) : bool :=
  match k with KOptValue | KNaN | KTruncate | KBoolLit | KNullLit | KIdent => true | _ => false end.
Definition p_option : parser (string * string) := fun ts =>
  match ts with
  | (k, a) :: (KColon, _) :: (k', b) :: r =>
      if option_name k && option_value k' then Some ((a, b), r) else None
  | _ => None
  end.
(** the end of a test case: [('[' funcOptions ']')? '=' result] *)
Definition p_tail (n : nat) (ts : list token) : option (toptions * tresult * list token) :=
  match
    match ts with
    | (KOBracket, _) :: r =>
        match list1 p_option n r with
        | Some (os, (KCBracket, _) :: r) => Some (Some os, r)
        | _ => None
        end
    | _ => Some (None, ts)
    end
  with
  | Some (os, (KEq, _) :: r) =>
      match p_result n r with Some (res, r) => Some (os, res, r) | None => None end
  | _ => None
  end.

(** ** test cases *)

(** rule testCase *)
Definition p_scalar (n : nat) (ts : list token) : option ((string * list targ * toptions * tresult) * list token) :=
  match p_name ts with
  | Some (name, (KOParen, _) :: r) =>
      match list1 (p_arg n) n r with
      | Some (args, (KCParen, _) :: r) =>
          match p_tail n r with Some (os, res, r) => Some ((name, args, os, res), r) | None => None end
      | _ => None
      end
  | _ => None
  end.

(** a list in parentheses that may be empty: rules columnValues and tableRows *)
Definition in_parens {A} (p : parser A) (n : nat) : parser (list A) := fun ts =>
  match ts with
  | (KOParen, _) :: (KCParen, _) :: r => Some ([], r)
  | (KOParen, _) :: r =>
      match list1 p n r with Some (l, (KCParen, _) :: r) => Some (l, r) | _ => None end
  | _ => None
  end.
Definition p_row (n : nat) : parser (list tlit) := in_parens p_literal n.
Definition p_rows (n : nat) : parser (list (list tlit)) := in_parens (p_row n) n.

(** rules aggregateFuncArg and qualifiedAggregateFuncArg *)
Definition p_aarg (n : nat) (ts : list token) : option (aarg * list token) :=
  match ts with
  | (KColumn, c) :: (KDoubleColon, _) :: r =>
      match p_type n r with Some (d, r) => Some (AAColumn c d, r) | None => None end
  | _ => match p_arg n ts with Some (a, r) => Some (AAScalar a, r) | None => None end
  end.
Definition p_qarg (n : nat) (ts : list token) : option (qarg * list token) :=
  match ts with
  | (KIdent, t) :: (KDot, _) :: r => match r with (KColumn, c) :: r => Some (QColumn t c, r) | _ => None end
  | _ => match p_arg n ts with Some (a, r) => Some (QScalar a, r) | None => None end
  end.
(** a name and arguments, or none *)
Definition p_call {A} (p : parser A) (n : nat) (ts : list token) : option (string * option (list A) * list token) :=
  match p_name ts with
  | Some (name, (KOParen, _) :: (KCParen, _) :: r) => Some (name, None, r)
  | Some (name, (KOParen, _) :: r) =>
      match list1 p n r with
      | Some (l, (KCParen, _) :: r) => Some (name, Some l, r)
      | _ => None
      end
  | _ => None
  end.

(** rules aggFuncCall, tableData, dataColumn *)
Definition p_aggcall (n : nat) (ts : list token) : option (aggcall * list token) :=
  match ts with
  | (KDefine, _) :: (KIdent, table) :: (KOParen, _) :: r =>
      match list1 (p_type n) n r with
      | Some (types, (KCParen, _) :: (KEq, _) :: r) =>
          match p_rows n r with
          | Some (rows, r) =>
              match p_call (p_qarg n) n r with
              | Some (name, args, r) => Some (CMulti table types rows name args, r)
              | None => None
              end
          | None => None
          end
      | _ => None
      end
  | (KOParen, _) :: _ =>
      match p_rows n ts with
      | Some (rows, r) =>
          match p_call (p_aarg n) n r with
          | Some (name, args, r) => Some (CCompact rows name args, r)
          | None => None
          end
      | None => None
      end
  | _ =>
      match p_name ts with
      | Some (name, (KOParen, _) :: r) =>
          match p_row n r with
          | Some (vs, (KDoubleColon, _) :: r) =>
              match p_type n r with
              | Some (d, (KCParen, _) :: r) => Some (CSingle name vs d, r)
              | _ => None
              end
          | _ => None
          end
      | _ => None
      end
  end.
(** rule aggFuncTestCase *)
Definition p_agg (n : nat) (ts : list token) : option ((aggcall * toptions * tresult) * list token) :=
  match p_aggcall n ts with
  | Some (c, r) => match p_tail n r with Some (os, res, r) => Some ((c, os, res), r) | None => None end
  | None => None
  end.

(** as many as there are *)
Fixpoint many {A} (p : parser A) (n : nat) (ts : list token) : list A * list token :=
  match n with
  | O => ([], ts)
  | S n' => match p ts with Some (a, r) => let (l, r') := many p n' r in (a :: l, r') | None => ([], ts) end
  end.

(** rules testGroup and testGroupDescription *)
Definition p_group (n : nat) (ts : list token) : option (tgroup * list token) :=
  let (desc, r) := match ts with (KDescription, d) :: r => (Some d, r) | _ => (None, ts) end in
  match many (p_scalar n) n r with
  | (c :: cs, r) => Some (GroupScalar desc (c :: cs), r)
  | ([], _) =>
      match many (p_agg n) n r with
      | (c :: cs, r) => Some (GroupAgg desc (c :: cs), r)
      | ([], _) => None
      end
  end.

(** ** files *)

(** rules header, version, include, dependency *)
Definition p_string : parser string := fun ts =>
  match ts with (KStrLit, t) :: r => Some (t, r) | _ => None end.
Definition p_dependency : parser string := fun ts =>
  match ts with
  | (KTriple, _) :: (KDependency, _) :: (KColon, _) :: (KStrLit, t) :: r => Some (t, r)
  | _ => None
  end.
Definition p_header (n : nat) (ts : list token) : option ((bool * string * list string) * list token) :=
  match
    match ts with
    | (KTriple, _) :: (KScalarTest, _) :: (KColon, _) :: (KVersion, v) :: r => Some (false, v, r)
    | (KTriple, _) :: (KAggregateTest, _) :: (KColon, _) :: (KVersion, v) :: r => Some (true, v, r)
    | _ => None
    end
  with
  | Some (a, v, (KTriple, _) :: (KInclude, _) :: (KColon, _) :: r) =>
      match list1 p_string n r with
      | Some (l, r) => Some ((a, v, l), snd (many p_dependency n r))
      | None => None
      end
  | _ => None
  end.

(** rule doc *)
Definition p_doc (ts : list token) : option tdoc :=
  let n := S (length ts) in
  match p_header n ts with
  | Some ((a, v, l), r) =>
      match many (p_group n) n r with
      | (g :: gs, []) => Some (Tdoc a v l (g :: gs))
      | _ => None
      end
  | None => None
  end.

(** parse.go 39-50: the parse tree of a text *)
Definition parse_text (s : string) : option tdoc := p_doc (tokens s).

Section Hex.
(** the floats of hexadecimal texts, which have no part in FloatModel.v *)
Variable parse_hex : string -> res Z.

(** ParseTestCasesFromString (parse.go 31-49, 51-70): a syntax error is an error, and so is an error or a
    panic of the visitor.  ParseTestCasesFromFile (22-29) does the same with the content of a file. *)
Definition parse_string (s : string) : res tfile :=
  match parse_text s with
  | Some d => parse_doc (FloatModel.parse_float parse_hex) FloatModel.to_float32 d
  | None => Err
  end.
End Hex.
