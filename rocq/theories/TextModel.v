(** Model of how types are written as text: the [String] methods of function-
    definition types (/repo/types/parameterized_*.go, any_type.go,
    type_derivation.go, types.go) and the type parser (/repo/types/parser/parse.go,
    visitor.go and the generated lexer and parser in types/parser/baseparser).
    The generated lexer is modelled as the longest-match function it implements;
    of the generated parser only its grammar is modelled (see [gram]).
    Definitions only; theorems are in TextProps.v. *)

From Coq Require Import ZArith String Ascii Bool List.
From Verif Require Import Base TypesModel TimeModel SigModel.
Import ListNotations.
Local Open Scope string_scope.

(** * Printing *)

(** types.go 985-991 and the [BaseString] methods: types.go 1045,
    precison_timestamp_types.go 142, 217, 299, interval_day_type.go 62. *)
Definition single_name (k : singlek) : string :=
  match k with
  | SFixed fk => fixed_name fk
  | SPrecTime => "precision_time"
  | SPrecTs => "precision_timestamp"
  | SPrecTsTz => "precision_timestamp_tz"
  | SIntervalDay => "interval_day"
  end.

(** type_derivation.go 45-74 [BinaryOp.String].  It panics for [Unknown], but it
    is only called by fmt.Sprintf, which prints the panic instead. *)
Definition binop_string (op : binop) : string :=
  match op with
  | OpPlus => "+" | OpMinus => "-" | OpMultiply => "*" | OpDivide => "/"
  | OpLT => "<" | OpLTE => "<=" | OpGT => ">" | OpGTE => ">="
  | OpEQ => "=" | OpNEQ => "!=" | OpAnd => "and" | OpOr => "or"
  | OpUnknown => "%!s(PANIC=String method: Invalid binary operator)"
  end.

(** type_derivation.go 23, 153, 164, 186, 203 and types.go 1559 [String]. *)
Fixpoint dexpr_string (d : dexpr) : string :=
  match d with
  | DNum z => string_of_Z z
  | DName s => s
  | DBin op l r => "(" ++ dexpr_string l ++ " " ++ binop_string op ++ " " ++ dexpr_string r ++ ")"
  | DIf true c t e => dexpr_string c ++ " ? " ++ dexpr_string t ++ " : " ++ dexpr_string e
  | DIf false c t e => "if " ++ dexpr_string c ++ " then " ++ dexpr_string t ++ " else " ++ dexpr_string e
  | DNot e => "!" ++ dexpr_string e
  | DCall name args => name ++ "(" ++ join ", " (map dexpr_string args) ++ ")"
  end.

Definition newline : string := String (ascii_of_nat 10) "".

(** type_derivation.go 255 [Assignment.String]. *)
Definition assignment_string (a : string * dexpr) : string :=
  fst a ++ " = " ++ dexpr_string (snd a) ++ newline.

(** [String]: types.go 915 and 597; parameterized_single_integer_param_type.go 30;
    parameterized_decimal_type.go 25; any_type.go 23; parameterized_list_type.go 24;
    _map_ 23; _struct_ 23; _func_ 25; _user_defined_ 120 with 24, 62, 87;
    type_derivation.go 269.  [TypeExpression.MarshalYAML] (parser/parse.go 17)
    returns this text. *)
Fixpoint fdt_string (f : fdt) : string :=
  match f with
  | FPrim p n _ => prim_name p ++ str_nullable n
  | FEnum _ _ _ name _ => name
  | FSingle k n _ i => single_name k ++ str_nullable n ++ "<" ++ iparam_string i ++ ">"
  | FDecimal n _ p s => "decimal" ++ str_nullable n ++ "<" ++ iparam_string p ++ "," ++ iparam_string s ++ ">"
  | FAny name _ n => name ++ str_nullable n
  | FList n _ e => "list" ++ str_nullable n ++ "<" ++ fdt_string e ++ ">"
  | FMap n _ k x => "map" ++ str_nullable n ++ "<" ++ fdt_string k ++ ", " ++ fdt_string x ++ ">"
  | FStruct n _ fs => "struct" ++ str_nullable n ++ "<" ++ join ", " (map fdt_string fs) ++ ">"
  | FFunc n ps r =>
      "func" ++ str_nullable n ++ "<" ++ join ", " (map fdt_string ps) ++ " -> " ++ fdt_string r ++ ">"
  | FUser n _ ps name =>
      "u!" ++ name ++ str_nullable n ++
      match ps with
      | [] => ""
      | _ => "<" ++ join ", " (map udtp_string ps) ++ ">"
      end
  | FDeriv l f => String.concat "" (map assignment_string l) ++ fdt_string f
  end
with udtp_string (p : udtp) : string :=
  match p with
  | UData f => fdt_string f
  | UInt z => string_of_Z z
  | UStr s => s
  end.

(** * Tokens *)

(** The tokens on the default channel (substraittype_lexer.go 419-505): keywords,
    by their lower-case spelling; any1 … any9 and any0; numbers; identifiers;
    symbols; line ends.  Only [TAnyVar], [TNum] and [TId] keep the text they were
    written with, the other texts are never looked at. *)
Inductive tok :=
| TKw (k : string)
| TAnyVar (text : string)
| TNum (text : string)
| TId (text : string)
| TSym (s : string)
| TNl.

(** substraittype_lexer.go 45-57, lexer rules 4-52, 78, 79. *)
Definition keywords : list string :=
  ["if"; "then"; "else"; "func"; "boolean"; "i8"; "i16"; "i32"; "i64"; "fp32"; "fp64";
   "string"; "binary"; "timestamp"; "timestamp_tz"; "date"; "time"; "interval_year";
   "interval_day"; "interval_compound"; "uuid"; "decimal"; "precision_time";
   "precision_timestamp"; "precision_timestamp_tz"; "fixedchar"; "varchar";
   "fixedbinary"; "struct"; "nstruct"; "list"; "map"; "bool"; "str"; "vbin"; "ts";
   "tstz"; "iyear"; "iday"; "icompound"; "dec"; "pt"; "pts"; "ptstz"; "fchar";
   "vchar"; "fbin"; "any"; "and"; "or"].

Definition in_range (lo hi : nat) (c : ascii) : bool :=
  Nat.leb lo (nat_of_ascii c) && Nat.leb (nat_of_ascii c) hi.

Definition is_digit (c : ascii) : bool := in_range 48 57 c.

(** lexer rule Identifier: [$], [_] and letters; digits after the first. *)
Definition is_letter (c : ascii) : bool :=
  in_range 65 90 c || in_range 97 122 c || Ascii.eqb c "_" || Ascii.eqb c "$".
Definition is_word_char (c : ascii) : bool := is_letter c || is_digit c.

(** A letter without its case: the keyword rules accept both. *)
Definition lower_char (c : ascii) : ascii :=
  if in_range 65 90 c then ascii_of_nat (nat_of_ascii c + 32) else c.
Fixpoint lower (s : string) : string :=
  match s with
  | EmptyString => ""
  | String c s' => String (lower_char c) (lower s')
  end.

(** The longest prefix of characters satisfying [p], and the rest. *)
Fixpoint span (p : ascii -> bool) (s : string) : string * string :=
  match s with
  | EmptyString => ("", "")
  | String c s' =>
      if p c then let (a, b) := span p s' in (String c a, b) else ("", s)
  end.

(** lexer rule AnyVar: ANY followed by one digit. *)
Definition is_any_var (w : string) : bool :=
  match lower w with
  | String "a" (String "n" (String "y" (String d EmptyString))) => is_digit d
  | _ => false
  end.

(** A word is a keyword, an any variable or an identifier: the three rules match
    the same text and the first one wins. *)
Definition word (w : string) : tok :=
  if existsb (String.eqb (lower w)) keywords then TKw (lower w)
  else if is_any_var w then TAnyVar w
  else TId w.

(** lexer rule Number after the sign: [0] or digits that do not start with 0. *)
Definition number (c : ascii) (s : string) : string * string :=
  if Ascii.eqb c "0" then ("0", s)
  else let (a, b) := span is_digit s in (String c a, b).

(** lexer rule BlockComment after its first two characters.  Between the opening
    and the closing stars there is exactly one character, or stars and one
    character that is not a slash. *)
Definition drop_stars (s : string) : string := snd (span (Ascii.eqb "*") s).
Definition closing (s : string) : option string :=
  match s with
  | String c _ =>
      if Ascii.eqb c "*" then
        match drop_stars s with
        | String d r => if Ascii.eqb d "/" then Some r else None
        | EmptyString => None
        end
      else None
  | EmptyString => None
  end.
Definition block_comment (s : string) : option string :=
  match s with
  | String c r =>
      if Ascii.eqb c "*" then
        match drop_stars s with
        | String d r' => if Ascii.eqb d "/" then None else closing r'
        | EmptyString => None
        end
      else closing r
  | EmptyString => None
  end.

(** lexer rules 54-77, 80, 81. *)
Definition symbols1 : list ascii :=
  ["+"; "-"; "*"; "/"; "%"; "="; ">"; "<"; "!"; "("; ")"; "["; "]"; ","; ":"; "?"; "#"; "."]%char.
Definition symbols2 : list string := ["::"; "!="; ">="; "<="; ":="; "->"].

Definition first_is (p : ascii -> bool) (s : string) : bool :=
  match s with String c _ => p c | EmptyString => false end.
Definition first_char (s : string) : string :=
  match s with String c _ => String c "" | EmptyString => "" end.
Definition str_tail (s : string) : string :=
  match s with String _ s' => s' | EmptyString => "" end.

(** The next token of a non-empty input, [None] when it is not passed on to the
    parser, and the remaining input.  A character at which no token starts is
    reported to the lexer's own listeners only (parse.go 42-46 attaches its
    listener to the parser) and skipped.  Simplification: texts are ASCII, so a
    character is a byte. *)
Definition next (c : ascii) (s : string) : option tok * string :=
  if is_letter c then
    let (w, r) := span is_word_char s in
    if String.eqb (lower (String c w)) "u" && first_is (Ascii.eqb "!") r
    then (Some (TKw "u!"), str_tail r)
    else (Some (word (String c w)), r)
  else if is_digit c then
    let (n, r) := number c s in (Some (TNum n), r)
  else if Ascii.eqb c "010" then (Some TNl, s)
  else if Ascii.eqb c "-" && first_is is_digit s then
    match s with
    | String d s' => let (n, r) := number d s' in (Some (TNum (String "-" n)), r)
    | EmptyString => (None, s)
    end
  else if Ascii.eqb c "/" && first_is (Ascii.eqb "/") s then
    (None, snd (span (fun d => negb (Ascii.eqb d "010" || Ascii.eqb d "013")) s))
  else
    match (if Ascii.eqb c "/" && first_is (Ascii.eqb "*") s then block_comment (str_tail s) else None) with
    | Some r => (None, r)
    | None =>
        if existsb (String.eqb (String c (first_char s))) symbols2
        then (Some (TSym (String c (first_char s))), str_tail s)
        else if existsb (Ascii.eqb c) symbols1 then (Some (TSym (String c "")), s)
        else (None, s)
    end.

(** The tokens of a text; the fuel is its length, every step consumes a character. *)
Fixpoint lex_fuel (n : nat) (s : string) : list tok :=
  match n, s with
  | S n', String c s' =>
      let (t, r) := next c s' in
      match t with
      | Some t => t :: lex_fuel n' r
      | None => lex_fuel n' r
      end
  | _, _ => []
  end.
Definition lex (s : string) : list tok := lex_fuel (String.length s) s.

(** * Parse trees *)

(** The contexts built by the generated parser (substraittype_parser.go), one
    constructor per labelled alternative; [q] says whether the question mark is
    there.  [PUser _ _ []] has no angle brackets. *)
Inductive tree :=
(* typeDef with scalarType, parameterizedType and anyType *)
| PScalar (kw : string) (q : bool)
| PSingle (kw : string) (q : bool) (p : tree)
| PDecimal (q : bool) (p s : tree)
| PStruct (q : bool) (fs : list tree)
| PNStruct (q : bool) (fs : list (string * tree))
| PList (q : bool) (e : tree)
| PMap (q : bool) (k v : tree)
| PFunc (q : bool) (params ret : tree)
| PUser (name : string) (q : bool) (ps : list tree)
| PAny (q : bool)
| PAnyVar (text : string) (q : bool)
(* numericParameter *)
| PNumLit (text : string)
| PNumName (text : string)
| PNumExpr (e : tree)
(* funcParams *)
| PParam (e : tree)
| PParams (es : list tree)
(* expr *)
| PParen (e : tree)
| PMulti (defs : list (string * tree * nat)) (final : tree) (newlines : nat)
| PType (t : tree)
| PLit (text : string)
| PName (text : string) (q : bool)
| PCall (name : string) (args : list tree)
| PIf (c t e : tree)
| PNot (e : tree)
| PBin (op : tok) (l r : tree)
| PTern (c t e : tree).

(** The tokens a tree covers, in order. *)
Definition qmark (q : bool) : list tok := if q then [TSym "?"] else [].

Definition sepby {A} (f : A -> list tok) : list A -> list tok :=
  fix go (l : list A) : list tok :=
    match l with
    | [] => []
    | x :: l' => f x ++ match l' with [] => [] | _ => TSym "," :: go l' end
    end%list.

Definition concat_map {A} (f : A -> list tok) : list A -> list tok :=
  fix go (l : list A) : list tok :=
    match l with [] => [] | x :: l' => f x ++ go l' end%list.

Local Open Scope list_scope.

Fixpoint yield (t : tree) : list tok :=
  match t with
  | PScalar kw q => TKw kw :: qmark q
  | PSingle kw q p => TKw kw :: qmark q ++ TSym "<" :: yield p ++ [TSym ">"]
  | PDecimal q p s =>
      TKw "decimal" :: qmark q ++ TSym "<" :: yield p ++ TSym "," :: yield s ++ [TSym ">"]
  | PStruct q fs => TKw "struct" :: qmark q ++ TSym "<" :: sepby yield fs ++ [TSym ">"]
  | PNStruct q fs =>
      TKw "nstruct" :: qmark q ++ TSym "<" ::
        sepby (fun f => let (n, e) := f : string * tree in TId n :: yield e) fs ++ [TSym ">"]
  | PList q e => TKw "list" :: qmark q ++ TSym "<" :: yield e ++ [TSym ">"]
  | PMap q k v =>
      TKw "map" :: qmark q ++ TSym "<" :: yield k ++ TSym "," :: yield v ++ [TSym ">"]
  | PFunc q ps r =>
      TKw "func" :: qmark q ++ TSym "<" :: yield ps ++ TSym "->" :: yield r ++ [TSym ">"]
  | PUser name q ps =>
      TKw "u!" :: TId name :: qmark q ++
        match ps with [] => [] | _ => TSym "<" :: sepby yield ps ++ [TSym ">"] end
  | PAny q => TKw "any" :: qmark q
  | PAnyVar w q => TAnyVar w :: qmark q
  | PNumLit w | PLit w => [TNum w]
  | PNumName w => [TId w]
  | PNumExpr e | PParam e => yield e
  | PParams es => TSym "(" :: sepby yield es ++ [TSym ")"]
  | PParen e => TSym "(" :: yield e ++ [TSym ")"]
  | PMulti defs f n =>
      concat_map (fun d => match d : string * tree * nat with
                           | (x, e, m) => TId x :: TSym "=" :: yield e ++ repeat TNl m
                           end) defs ++ yield f ++ repeat TNl n
  | PType t => yield t
  | PName w q => TId w :: qmark q
  | PCall name args => TId name :: TSym "(" :: sepby yield args ++ [TSym ")"]
  | PIf c t e => TKw "if" :: yield c ++ TKw "then" :: yield t ++ TKw "else" :: yield e
  | PNot e => TSym "!" :: yield e
  | PBin op l r => yield l ++ op :: yield r
  | PTern c t e => yield c ++ TSym "?" :: yield t ++ TSym ":" :: yield e
  end.

(** The grammar (substraittype_parser.go 96-… [serializedATN], rules startRule,
    typeDef, scalarType, parameterizedType, numericParameter, funcParams, anyType
    and expr), read off the serialized automaton.  An expression is parsed at a
    precedence level: an infix operator may only be used where the level allows
    it.  Two texts are covered by two alternatives, and there the generated parser
    takes the first: a number or a bare name as numeric parameter is not a
    numericExpression, and a single parenthesised parameter is an expression. *)
Inductive gsort := GType | GNumeric | GParams | GExpr (level : nat).

Definition scalar_kws : list string :=
  ["boolean"; "i8"; "i16"; "i32"; "i64"; "fp32"; "fp64"; "string"; "binary"; "timestamp";
   "timestamp_tz"; "date"; "time"; "interval_year"; "uuid"].
Definition single_kws : list string :=
  ["fixedchar"; "varchar"; "fixedbinary"; "interval_day"; "interval_compound";
   "precision_time"; "precision_timestamp"; "precision_timestamp_tz"].
Definition infix_ops : list tok :=
  [TSym "+"; TSym "-"; TSym "*"; TSym "/"; TSym "="; TSym "!="; TSym ">="; TSym "<=";
   TSym ">"; TSym "<"; TKw "and"; TKw "or"].

Fixpoint gram (s : gsort) (t : tree) : Prop :=
  match t with
  | PScalar kw _ => s = GType /\ In kw scalar_kws
  | PSingle kw _ p => s = GType /\ In kw single_kws /\ gram GNumeric p
  | PDecimal _ p c => s = GType /\ gram GNumeric p /\ gram GNumeric c
  | PStruct _ fs => s = GType /\ fs <> [] /\ All (gram (GExpr 0)) fs
  | PNStruct _ fs =>
      s = GType /\ fs <> [] /\ All (fun f => let (_, e) := f : string * tree in gram (GExpr 0) e) fs
  | PList _ e => s = GType /\ gram (GExpr 0) e
  | PMap _ k v => s = GType /\ gram (GExpr 0) k /\ gram (GExpr 0) v
  | PFunc _ ps r => s = GType /\ gram GParams ps /\ gram (GExpr 0) r
  | PUser _ _ ps => s = GType /\ All (gram (GExpr 0)) ps
  | PAny _ | PAnyVar _ _ => s = GType
  | PNumLit _ | PNumName _ => s = GNumeric
  | PNumExpr e =>
      s = GNumeric /\ gram (GExpr 0) e /\
      match e with PLit _ | PName _ false => False | _ => True end
  | PParam e => s = GParams /\ gram (GExpr 0) e
  | PParams es => s = GParams /\ (2 <= length es)%nat /\ All (gram (GExpr 0)) es
  | PParen e => (exists l, s = GExpr l) /\ gram (GExpr 0) e
  | PMulti defs f _ =>
      (exists l, s = GExpr l) /\ defs <> [] /\
      All (fun d => match d : string * tree * nat with
                    | (_, e, m) => gram (GExpr 0) e /\ (1 <= m)%nat
                    end) defs /\
      gram GType f
  | PType t => (exists l, s = GExpr l) /\ gram GType t
  | PLit _ | PName _ _ => exists l, s = GExpr l
  | PCall _ args => (exists l, s = GExpr l) /\ All (gram (GExpr 0)) args
  | PIf c t e =>
      (exists l, s = GExpr l) /\ gram (GExpr 0) c /\ gram (GExpr 0) t /\ gram (GExpr 3) e
  | PNot e => (exists l, s = GExpr l) /\ gram (GExpr 2) e
  | PBin op l r =>
      (exists n, s = GExpr n /\ (n <= 4)%nat) /\ In op infix_ops /\ gram s l /\ gram (GExpr 5) r
  | PTern c t e =>
      (exists n, s = GExpr n /\ (n <= 1)%nat) /\ gram s c /\ gram (GExpr 0) t /\ gram (GExpr 2) e
  end.

(** startRule: an expression and the end of the input.  The generated parser is
    trusted to answer such a tree if there is one and to report an error
    otherwise (parse.go 74-78). *)
Definition tree_of (text : string) (t : tree) : Prop :=
  gram (GExpr 0) t /\ yield t = lex text.

(** * The visitor *)

(** What a visit returns: a [FuncDefArgType], an [Expr] ([DNum] is a
    [*LiteralNumber], [DName] a [StringParameter]), an [IntegerParameter] or a
    [[]FuncDefArgType]. *)
Inductive visited :=
| XType (f : fdt)
| XExpr (d : dexpr)
| XInt (i : iparam)
| XTypes (l : list fdt).

(** A type assertion [.(types.FuncDefArgType)], [.(types.Expr)] or
    [.(integer_parameters.IntegerParameter)]: panics for another value. *)
Definition as_type (x : visited) : res fdt := match x with XType f => Ok f | _ => Panic end.
Definition as_expr (x : visited) : res dexpr := match x with XExpr d => Ok d | _ => Panic end.
Definition as_int (x : visited) : res iparam := match x with XInt i => Ok i | _ => Panic end.

Definition null_of (q : bool) : nullability := if q then NullNullable else NullRequired.

(** visitor.go 126-183 *)
Definition scalar_prim (kw : string) : option prim :=
  find (fun p => String.eqb (prim_name p) kw)
    [PrimBool; PrimI8; PrimI16; PrimI32; PrimI64; PrimFp32; PrimFp64; PrimString; PrimBinary;
     PrimTimestamp; PrimTimestampTz; PrimDate; PrimTime; PrimIntervalYear; PrimUUID].

(** visitor.go 214-299; there is no VisitIntervalCompound, so visiting that
    context calls a method of the nil embedded interface. *)
Definition single_kind (kw : string) : option singlek :=
  find (fun k => String.eqb (single_name k) kw)
    [SFixed FxChar; SFixed FxVarChar; SFixed FxBinary; SPrecTime; SPrecTs; SPrecTsTz; SIntervalDay].

(** [strconv.ParseInt(text, 10, 0)]; on an error the visitor calls a method of its
    nil [ErrorListener] (parse.go 50, visitor.go 48-51, 388-391). *)
Definition parse_number (text : string) : res Z :=
  match atoi text with Ok z => Ok z | _ => Panic end.

(** type_derivation.go 76-108 [GetBinaryOpType]. *)
Definition binop_of (op : tok) : res binop :=
  match op with
  | TSym "+" => Ok OpPlus | TSym "-" => Ok OpMinus | TSym "*" => Ok OpMultiply
  | TSym "/" => Ok OpDivide | TSym "<" => Ok OpLT | TSym "<=" => Ok OpLTE
  | TSym ">" => Ok OpGT | TSym ">=" => Ok OpGTE | TSym "=" => Ok OpEQ
  | TSym "!=" => Ok OpNEQ | TKw "and" => Ok OpAnd | TKw "or" => Ok OpOr
  | _ => Panic
  end.

(** visitor.go 192-206: a parameter of a user-defined type. *)
Definition user_param (x : visited) : res udtp :=
  match x with
  | XType f => Ok (UData f)
  | XExpr (DNum z) => Ok (UInt (wrap 32 z))
  | XExpr (DName s) => Ok (UStr s)
  | _ => Panic
  end.

(** visitor.go 28-423. *)
Fixpoint visit (t : tree) : res visited :=
  match t with
  | PScalar kw q =>
      match scalar_prim kw with
      | Some p => Ok (XType (FPrim p (null_of q) 0))
      | None => Panic
      end
  | PSingle kw q p =>
      match single_kind kw with
      | Some k => let! x := visit p in let! i := as_int x in Ok (XType (FSingle k (null_of q) 0 i))
      | None => Panic
      end
  | PDecimal q p s =>
      let! x := visit p in let! i := as_int x in
      let! y := visit s in let! j := as_int y in
      Ok (XType (FDecimal (null_of q) 0 i j))
  | PStruct q fs =>
      let! l := mapM (fun e => let! x := visit e in as_type x) fs in
      Ok (XType (FStruct (null_of q) 0 l))
  | PNStruct _ _ => Panic
  | PList q e => let! x := visit e in let! f := as_type x in Ok (XType (FList (null_of q) 0 f))
  | PMap q k v =>
      let! x := visit k in let! y := visit v in
      let! f := as_type x in let! g := as_type y in
      Ok (XType (FMap (null_of q) 0 f g))
  | PFunc q ps r =>
      let! x := visit ps in
      let! y := visit r in let! g := as_type y in
      Ok (XType (FFunc (null_of q)
        match x with XTypes l => l | XType f => [f] | _ => [] end g))
  | PUser name q ps =>
      let! l := mapM (fun e => let! x := visit e in user_param x) ps in
      Ok (XType (FUser (null_of q) 0 l name))
  | PAny q => Ok (XType (FAny "any" 0 (null_of q)))
  | PAnyVar w q => Ok (XType (FAny w 0 (null_of q)))
  | PNumLit w => let! z := parse_number w in Ok (XInt (IConc (wrap 32 z)))
  | PNumName w => Ok (XInt (IVar w))
  | PNumExpr e | PParam e => visit e
  | PParams es =>
      let! l := mapM (fun e => let! x := visit e in as_type x) es in Ok (XTypes l)
  | PParen e => visit e
  | PMulti defs f _ =>
      let! l := mapM (fun d => match d : string * tree * nat with
                               | (x, e, _) => let! v := visit e in let! d := as_expr v in Ok (x, d)
                               end) defs in
      let! x := visit f in let! g := as_type x in
      Ok (XType (FDeriv l g))
  | PType t => visit t
  | PLit w => let! z := parse_number w in Ok (XExpr (DNum z))
  | PName w _ => Ok (XExpr (DName w))
  | PCall name args =>
      let! l := mapM (fun e => let! x := visit e in as_expr x) args in
      Ok (XExpr (DCall (lower name) l))
  | PIf c t e =>
      let! x := visit c in let! dc := as_expr x in
      let! y := visit t in let! dt := as_expr y in
      let! z := visit e in let! de := as_expr z in
      Ok (XExpr (DIf false dc dt de))
  | PNot e => let! x := visit e in let! d := as_expr x in Ok (XExpr (DNot d))
  | PBin op l r =>
      let! o := binop_of op in
      let! x := visit l in let! dl := as_expr x in
      let! y := visit r in let! dr := as_expr y in
      Ok (XExpr (DBin o dl dr))
  | PTern c t e =>
      let! x := visit c in let! dc := as_expr x in
      let! y := visit t in let! dt := as_expr y in
      let! z := visit e in let! de := as_expr z in
      Ok (XExpr (DIf true dc dt de))
  end.

(** parse.go 40-66 [ParseType] and 68-82, util/error_listener.go 62-77, once the
    parser has built the tree: a panic of the visitor is recovered and reported,
    and so is a result that is not a type.  [TypeExpression.UnmarshalYAML]
    (21-38) answers the same for a string. *)
Definition parse_tree (t : tree) : res fdt :=
  match visit t with
  | Ok (XType f) => Ok f
  | _ => Err
  end.
