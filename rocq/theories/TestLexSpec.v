(** Specification vocabulary for the tokens of function test files (C77), written without the model's
    rules and without its lexer: what each kind of token looks like, and which token comes next. *)

From Coq Require Import String Ascii Bool List Arith.
From Verif Require Import TypesModel TextSpec TestLexModel.
Import ListNotations.
Local Open Scope string_scope.

(** ** what tokens look like *)

Definition looks := string -> Prop.
Definition exactly (w : string) : looks := fun t => t = w.
(** a word, in letters of either case *)
Definition keyword (w : string) : looks := fun t => same_letters t w.
Definition followed (A B : looks) : looks := fun t => exists a b, t = a ++ b /\ A a /\ B b.
Definition maybe (A : looks) : looks := fun t => t = "" \/ A t.
Definition either (A B : looks) : looks := fun t => A t \/ B t.
(** nothing but such characters *)
Definition only (P : ascii -> Prop) : looks := fun t => Forall P (chars t).
Definition some (P : ascii -> Prop) : looks := fun t => t <> "" /\ Forall P (chars t).
Definition single (P : ascii -> Prop) : looks := fun t => exists c, t = String c "" /\ P c.
Infix "^^" := followed (at level 61, right associativity).

Definition a_digit (c : ascii) : Prop := In c digit_chars.
Definition number : looks := some a_digit.
Definition n_digits (n : nat) : looks := fun t => String.length t = n /\ Forall a_digit (chars t).
Definition plus_or_minus : looks := fun t => t = "+" \/ t = "-".
(** without leading zeros *)
Definition natural : looks := fun t => t = "0" \/ (number t /\ forall r, t <> "0" ++ r).
Definition integer : looks := maybe plus_or_minus ^^ natural.
Definition after_point : looks := exactly "." ^^ number.
Definition decimal : looks := maybe plus_or_minus ^^ number ^^ maybe after_point.
Definition exponent : looks := keyword "e" ^^ maybe plus_or_minus ^^ number.
Definition float : looks := fun t =>
  (maybe plus_or_minus ^^ number ^^ maybe (exactly "." ^^ only a_digit) ^^ maybe exponent) t \/
  (maybe plus_or_minus ^^ keyword "inf") t \/ keyword "snan" t.
Definition in_quotes (A : looks) : looks := exactly "'" ^^ A ^^ exactly "'".
Definition a_date : looks := n_digits 4 ^^ exactly "-" ^^ n_digits 2 ^^ exactly "-" ^^ n_digits 2.
Definition a_time : looks :=
  n_digits 2 ^^ exactly ":" ^^ n_digits 2 ^^ exactly ":" ^^ n_digits 2 ^^ maybe after_point.
Definition a_zone : looks := plus_or_minus ^^ n_digits 2 ^^ exactly ":" ^^ n_digits 2.
Definition a_count (unit : string) : looks := integer ^^ keyword unit.
Definition some_seconds : looks := decimal ^^ keyword "s".
Definition day_time : looks := fun t =>
  (a_count "h" ^^ maybe (a_count "m") ^^ maybe some_seconds) t \/
  (a_count "m" ^^ maybe some_seconds) t \/ some_seconds t.
Definition years : looks := fun t =>
  in_quotes (keyword "p" ^^ a_count "y" ^^ maybe (a_count "m")) t \/
  in_quotes (keyword "p" ^^ a_count "m") t.
Definition days : looks := fun t =>
  in_quotes (keyword "p" ^^ a_count "d" ^^ maybe (keyword "t" ^^ day_time)) t \/
  in_quotes (keyword "p" ^^ keyword "t" ^^ day_time) t.
Definition compound : looks :=
  in_quotes (keyword "p" ^^ maybe (a_count "y") ^^ maybe (a_count "m") ^^ maybe (a_count "d") ^^
             maybe (keyword "t" ^^ day_time)).
(** between the quotes: a quote is doubled or follows a backslash, and a backslash takes the next character *)
Inductive string_body : string -> Prop :=
| SBEnd : string_body ""
| SBEscape : forall c s, string_body s -> string_body ("\" ++ String c s)
| SBQuote : forall s, string_body s -> string_body ("''" ++ s)
| SBChar : forall c s, c <> "'"%char -> c <> "\"%char -> string_body s -> string_body (String c s).
Definition in_line (c : ascii) : Prop := c <> "010"%char /\ c <> "013"%char.
Definition description_line : looks :=
  exactly "# " ^^ only in_line ^^ maybe (exactly (String "013" "")) ^^ exactly (String "010" "").
Definition blank (c : ascii) : Prop := In c ["009"; "010"; "013"; " "]%char.
Definition star (c : ascii) : Prop := c = "*"%char.
(** one character, or stars and one character, between the opening and the closing stars *)
Definition block_comment : looks :=
  exactly "/*" ^^
  either (single (fun c => c <> "*"%char)) (some star ^^ single (fun c => c <> "*"%char /\ c <> "/"%char)) ^^
  some star ^^ exactly "/".
Definition an_identifier : looks := fun t => wordlike t.

(** Words with a meaning, and what they mean. *)
Definition words_of (k : tk) (l : list string) : list (tk * looks) := map (fun w => (k, keyword w)) l.

(** The kinds of tokens in order of precedence. *)
Definition token_kinds : list (tk * looks) :=
  [ (KSkip, some blank); (KTriple, exactly "###"); (KScalarTest, keyword "substrait_scalar_test");
    (KAggregateTest, keyword "substrait_aggregate_test"); (KInclude, keyword "substrait_include");
    (KDependency, keyword "substrait_dependency"); (KVersion, keyword "v" ^^ number ^^ maybe after_point);
    (KDescription, description_line); (KDefine, keyword "define"); (KErrorResult, keyword "<!error>");
    (KUndefinedResult, keyword "<!undefined>") ] ++
  words_of KOptName ["overflow"; "rounding"] ++
  words_of KOptValue ["error"; "saturate"; "silent"; "tie_to_even"] ++
  words_of KNaN ["nan"] ++
  words_of KOptValue ["accept_nulls"; "ignore_nulls"] ++
  words_of KOptName ["null_handling"; "spaces_only"] ++
  words_of KTruncate ["truncate"] ++
  [ (KIntLit, integer); (KDecLit, decimal); (KFloatLit, float);
    (KBoolLit, either (keyword "true") (keyword "false"));
    (KTsTzLit, in_quotes (a_date ^^ keyword "t" ^^ a_time ^^ a_zone));
    (KTsLit, in_quotes (a_date ^^ keyword "t" ^^ a_time));
    (KTimeLit, in_quotes a_time); (KDateLit, in_quotes a_date) ] ++
  words_of KUnused ["p"; "t"; "y"; "m"; "d"; "h"; "s"; "f"] ++
  [ (KOAngle, exactly "<"); (KCAngle, exactly ">");
    (KYearLit, years); (KDayLit, days); (KCompoundLit, compound);
    (KNullLit, keyword "null"); (KStrLit, in_quotes string_body);
    (KEnum, keyword "enum"); (KColumn, keyword "col" ^^ natural);
    (KSkip, exactly "//" ^^ only in_line); (KSkip, block_comment) ] ++
  words_of KUnused ["if"; "then"; "else"] ++
  words_of KFunc ["func"] ++
  words_of (KType PrimBool) ["boolean"] ++
  words_of (KType PrimI8) ["i8"] ++ words_of (KType PrimI16) ["i16"] ++
  words_of (KType PrimI32) ["i32"] ++ words_of (KType PrimI64) ["i64"] ++
  words_of (KType PrimFp32) ["fp32"] ++ words_of (KType PrimFp64) ["fp64"] ++
  words_of (KType PrimString) ["string"] ++
  words_of (KType PrimBinary) ["binary"] ++
  words_of (KType PrimTimestamp) ["timestamp"] ++
  words_of (KType PrimTimestampTz) ["timestamp_tz"] ++
  words_of (KType PrimDate) ["date"] ++
  words_of (KType PrimTime) ["time"] ++
  words_of (KType PrimIntervalYear) ["interval_year"] ++
  words_of KDayType ["interval_day"] ++
  words_of KCompoundType ["interval_compound"] ++
  words_of (KType PrimUUID) ["uuid"] ++
  words_of KDecimal ["decimal"] ++
  words_of KPrecTime ["precision_time"] ++
  words_of KPrecTs ["precision_timestamp"] ++
  words_of KPrecTsTz ["precision_timestamp_tz"] ++
  words_of (KFixed FxChar) ["fixedchar"] ++
  words_of (KFixed FxVarChar) ["varchar"] ++
  words_of (KFixed FxBinary) ["fixedbinary"] ++
  words_of KUnused ["struct"; "nstruct"] ++
  words_of KList ["list"] ++
  words_of KUnused ["map"] ++
  words_of KUser ["u!"] ++
  words_of (KType PrimBool) ["bool"] ++
  words_of (KType PrimString) ["str"] ++
  words_of (KType PrimBinary) ["vbin"] ++
  words_of (KType PrimTimestamp) ["ts"] ++
  words_of (KType PrimTimestampTz) ["tstz"] ++
  words_of (KType PrimIntervalYear) ["iyear"] ++
  words_of KDayType ["iday"] ++
  words_of KCompoundType ["icompound"] ++
  words_of KDecimal ["dec"] ++
  words_of KPrecTime ["pt"] ++
  words_of KPrecTs ["pts"] ++
  words_of KPrecTsTz ["ptstz"] ++
  words_of (KFixed FxChar) ["fchar"] ++
  words_of (KFixed FxVarChar) ["vchar"] ++
  words_of (KFixed FxBinary) ["fbin"] ++
  [ (KUnused, keyword "any"); (KUnused, keyword "any" ^^ n_digits 1);
    (KDoubleColon, exactly "::"); (KUnused, exactly "+"); (KUnused, exactly "-"); (KUnused, exactly "*");
    (KUnused, exactly "/"); (KUnused, exactly "%"); (KEq, exactly "="); (KUnused, exactly "!=");
    (KUnused, exactly ">="); (KUnused, exactly "<="); (KUnused, exactly ">"); (KUnused, exactly "<");
    (KUnused, exactly "!"); (KOParen, exactly "("); (KCParen, exactly ")"); (KOBracket, exactly "[");
    (KCBracket, exactly "]"); (KComma, exactly ","); (KColon, exactly ":"); (KQMark, exactly "?");
    (KUnused, exactly "#"); (KDot, exactly "."); (KNonReserved, keyword "and"); (KNonReserved, keyword "or");
    (KUnused, exactly ":="); (KArrow, exactly "->"); (KUnused, maybe (exactly "-") ^^ natural);
    (KIdent, an_identifier);
    (KUnused, fun t => t = String "013" (String "010" "") \/ t = String "013" "" \/ t = String "010" "") ].

(** ** which token comes next *)

(** [t], not empty, has the look of the [i]th kind of token. *)
Definition token_at (i : nat) (k : tk) (t : string) : Prop :=
  t <> "" /\ exists L, nth_error token_kinds i = Some (k, L) /\ L t.
(** The text [t ++ rest] starts with the token [t] of kind [k]: no token at the start of the text is longer,
    and of the kinds [t] could be, [k] comes first. *)
Definition next_token (k : tk) (t rest : string) : Prop :=
  exists i, token_at i k t /\
    (forall j k' t' rest', t' ++ rest' = t ++ rest -> token_at j k' t' ->
       String.length t' < String.length t \/ (t' = t /\ i <= j)).
Definition no_token (s : string) : Prop :=
  forall j k t rest, s = t ++ rest -> ~ token_at j k t.

(** Some token begins with [p]. *)
Definition begins (p : string) : Prop := exists j k rest, token_at j k (p ++ rest).

(** What a text consists of: tokens; white space and comments; and, where no token starts, what could have
    become a token together with the character that ends this hope, which are ignored. *)
Inductive consists : string -> list token -> Prop :=
| ConsistsNothing : consists "" []
| ConsistsToken : forall k t rest l, next_token k t rest -> k <> KSkip -> consists rest l ->
    consists (t ++ rest) ((k, t) :: l)
| ConsistsSkip : forall t rest l, next_token KSkip t rest -> consists rest l -> consists (t ++ rest) l
| ConsistsStray : forall p c rest l, no_token (p ++ String c rest) -> begins p -> ~ begins (p ++ String c "") ->
    consists rest l -> consists (p ++ String c rest) l
| ConsistsHope : forall s, s <> "" -> no_token s -> begins s -> consists s [].

(** ** names *)

(** The words that mean something else than a name, in letters of either case. *)
Definition taken_words : list string :=
  ["substrait_scalar_test"; "substrait_aggregate_test"; "substrait_include"; "substrait_dependency"; "define";
   "overflow"; "rounding"; "error"; "saturate"; "silent"; "tie_to_even"; "nan"; "accept_nulls"; "ignore_nulls";
   "null_handling"; "spaces_only"; "true"; "false"; "inf"; "snan"; "p"; "t"; "y"; "m"; "d"; "h"; "s"; "f";
   "null"; "enum"; "if"; "then"; "else"; "func"; "boolean"; "i8"; "i16"; "i32"; "i64"; "fp32"; "fp64"; "string";
   "binary"; "timestamp"; "timestamp_tz"; "date"; "time"; "interval_year"; "interval_day"; "interval_compound";
   "uuid"; "decimal"; "precision_time"; "precision_timestamp"; "precision_timestamp_tz"; "fixedchar"; "varchar";
   "fixedbinary"; "struct"; "nstruct"; "list"; "map"; "bool"; "str"; "vbin"; "ts"; "tstz"; "iyear"; "iday";
   "icompound"; "dec"; "pt"; "pts"; "ptstz"; "fchar"; "vchar"; "fbin"; "any"].
Definition taken (w : string) : Prop :=
  (exists x, In x taken_words /\ keyword x w) \/
  (keyword "v" ^^ number) w \/ (keyword "col" ^^ natural) w \/ (keyword "any" ^^ n_digits 1) w.
(** Kinds of tokens that can name a function. *)
Definition names_function (k : tk) : Prop := k = KIdent \/ k = KTruncate \/ k = KNonReserved.
