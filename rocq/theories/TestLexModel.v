(** Model of the lexer of function test files: the token rules of
    /repo/testcases/parser/baseparser/functestcase_lexer.go and how they are used by
    /repo/testcases/parser/parse.go 22-37.  Definitions only; theorems are in TestLexProps.v.

    The rules are data: the generated lexer holds them as a serialized automaton (functestcase_lexer.go
    115-703), decoded here rule by rule, in the order of their token types (65-88).  The ANTLR runtime that
    interprets them is not code of the repository; it is modelled by its documented meaning: the token
    taken is the longest one, and of the rules that take the longest text the first.
    Simplification: texts are read byte by byte.  The rules name characters of ASCII only, or all others,
    so on UTF-8 texts this is the same. *)

From Coq Require Import String Ascii Bool List Arith.
From Verif Require Import TypesModel TextModel TestCaseModel.
Import ListNotations.
Local Open Scope string_scope.

(** ** rules *)

(** What the transitions of the automaton can say: a character of a set, one after the other, one of two,
    any number of times.  [RNone] stands for a rule that is past matching. *)
Inductive re :=
| RNone
| REps
| RSet (p : ascii -> bool)
| RSeq (a b : re)
| RAlt (a b : re)
| RStar (a : re).

(** Whether a rule matches the empty text. *)
Fixpoint nullable (r : re) : bool :=
  match r with
  | RNone | RSet _ => false
  | REps | RStar _ => true
  | RSeq a b => nullable a && nullable b
  | RAlt a b => nullable a || nullable b
  end.

Definition seq (a b : re) : re :=
  match a, b with
  | RNone, _ | _, RNone => RNone
  | REps, _ => b
  | _, _ => RSeq a b
  end.
Definition alt (a b : re) : re :=
  match a, b with RNone, _ => b | _, RNone => a | _, _ => RAlt a b end.

(** What is left to match of a rule after a character. *)
Fixpoint after (c : ascii) (r : re) : re :=
  match r with
  | RNone | REps => RNone
  | RSet p => if p c then REps else RNone
  | RSeq a b => if nullable a then alt (seq (after c a) b) (after c b) else seq (after c a) b
  | RAlt a b => alt (after c a) (after c b)
  | RStar a => seq (after c a) (RStar a)
  end.

(** ** kinds of tokens *)

(** Tokens the grammar never tells apart have the same kind here (the long and the short name of a type;
    the kinds of option names and values), and those it never uses are [KUnused]. *)
Inductive tk :=
| KSkip | KTriple | KScalarTest | KAggregateTest | KInclude | KDependency | KVersion | KDescription
| KDefine | KErrorResult | KUndefinedResult | KOptName | KOptValue | KNaN | KNonReserved
| KTruncate | KIntLit | KDecLit | KFloatLit | KBoolLit | KTsTzLit | KTsLit | KTimeLit | KDateLit
| KYearLit | KDayLit | KCompoundLit | KNullLit | KStrLit | KEnum | KColumn
| KType (p : prim) | KFixed (k : fixedk) | KDecimal | KPrecTime | KPrecTs | KPrecTsTz | KDayType
| KCompoundType | KList | KFunc | KUser
| KOAngle | KCAngle | KDoubleColon | KEq | KOParen | KCParen | KOBracket | KCBracket | KComma | KColon
| KQMark | KDot | KArrow | KIdent | KUnused.

(** ** the rules *)

Definition chr (x : ascii) : re := RSet (Ascii.eqb x).
(** a keyword: letters of either case; written here without capitals *)
Fixpoint word (w : string) : re :=
  match w with
  | EmptyString => REps
  | String x EmptyString => RSet (fun c => Ascii.eqb x (lower_char c))
  | String x w' => RSeq (RSet (fun c => Ascii.eqb x (lower_char c))) (word w')
  end.
Definition one_of (l : list ascii) : re := RSet (fun c => existsb (Ascii.eqb c) l).
Definition none_of (l : list ascii) : re := RSet (fun c => negb (existsb (Ascii.eqb c) l)).
Definition opt (a : re) : re := RAlt a REps.
Definition plus (a : re) : re := RSeq a (RStar a).
Fixpoint rseq (l : list re) : re :=
  match l with [] => REps | [a] => a | a :: l' => RSeq a (rseq l') end.
Fixpoint ralt (l : list re) : re :=
  match l with [] => RNone | [a] => a | a :: l' => RAlt a (ralt l') end.

Definition newline : ascii := "010".
Definition return_ : ascii := "013".
Definition tab : ascii := "009".

Definition digit_re : re := RSet is_digit.
Definition digits : re := plus digit_re.
Definition sign : re := opt (one_of ["+"; "-"]%char).
(** Int: functestcase_lexer.go, rule 130 *)
Definition int_re : re := RAlt (RSeq (RSet (in_range 49 57)) (RStar digit_re)) (chr "0").
Definition integer_re : re := RSeq sign int_re.
Definition fraction : re := opt (RSeq (chr ".") digits).
Definition decimal_re : re := rseq [sign; digits; fraction].
Definition float_re : re :=
  ralt [rseq [sign; digits; opt (RSeq (chr ".") (RStar digit_re)); opt (rseq [word "e"; sign; digits])];
        RSeq sign (word "inf"); word "snan"].
Definition two : re := RSeq digit_re digit_re.
Definition four : re := rseq [digit_re; digit_re; digit_re; digit_re].
Definition quote : re := chr "'".
Definition date_re : re := rseq [four; chr "-"; two; chr "-"; two].
Definition time_re : re := rseq [two; chr ":"; two; chr ":"; two; fraction].
Definition zone_re : re := rseq [one_of ["+"; "-"]%char; two; chr ":"; two].
Definition quoted (r : re) : re := rseq [quote; r; quote].
Definition count (suffix : string) : re := RSeq integer_re (word suffix).
Definition seconds : re := RSeq decimal_re (word "s").
(** TimeInterval: rule 45 *)
Definition time_interval : re :=
  ralt [rseq [count "h"; opt (count "m"); opt seconds]; RSeq (count "m") (opt seconds); seconds].
Definition year_re : re :=
  RAlt (quoted (rseq [word "p"; count "y"; opt (count "m")])) (quoted (RSeq (word "p") (count "m"))).
Definition day_re : re :=
  RAlt (quoted (rseq [word "p"; count "d"; opt (RSeq (word "t") time_interval)]))
       (quoted (rseq [word "p"; word "t"; time_interval])).
Definition compound_re : re :=
  quoted (rseq [word "p"; opt (count "y"); opt (count "m"); opt (count "d"); opt (RSeq (word "t") time_interval)]).
Definition string_re : re :=
  quoted (RStar (ralt [RSeq (chr "\") (RSet (fun _ => true)); RSeq quote quote; none_of ["'"; "\"]%char])).
Definition line_re : re := RStar (none_of [newline; return_]).
Definition block_comment_re : re :=
  rseq [chr "/"; chr "*"; RAlt (none_of ["*"]%char) (RSeq (plus (chr "*")) (none_of ["*"; "/"]%char));
        RStar (chr "*"); chr "*"; chr "/"].
Definition identifier_re : re := RSeq (RSet is_letter) (RStar (RSet is_word_char)).

(** functestcase_lexer.go 65-88 (the token types, in order) and 115-703 (their rules).  The rules without
    a token type of their own (FourDigits, TwoDigits, TimeInterval, DIGIT, Int, Digit) are used by the others
    only. *)
Definition rules : list (tk * re) :=
  [ (KSkip, plus (one_of [tab; newline; return_; " "]%char));
    (KTriple, rseq [chr "#"; chr "#"; chr "#"]);
    (KScalarTest, word "substrait_scalar_test");
    (KAggregateTest, word "substrait_aggregate_test");
    (KInclude, word "substrait_include");
    (KDependency, word "substrait_dependency");
    (KVersion, rseq [word "v"; digits; fraction]);
    (KDescription, rseq [chr "#"; chr " "; line_re; opt (chr return_); chr newline]);
    (KDefine, word "define");
    (KErrorResult, word "<!error>");
    (KUndefinedResult, word "<!undefined>");
    (KOptName, word "overflow");
    (KOptName, word "rounding");
    (KOptValue, word "error");
    (KOptValue, word "saturate");
    (KOptValue, word "silent");
    (KOptValue, word "tie_to_even");
    (KNaN, word "nan");
    (KOptValue, word "accept_nulls");
    (KOptValue, word "ignore_nulls");
    (KOptName, word "null_handling");
    (KOptName, word "spaces_only");
    (KTruncate, word "truncate");
    (KIntLit, integer_re);
    (KDecLit, decimal_re);
    (KFloatLit, float_re);
    (KBoolLit, RAlt (word "true") (word "false"));
    (KTsTzLit, quoted (rseq [date_re; word "t"; time_re; zone_re]));
    (KTsLit, quoted (rseq [date_re; word "t"; time_re]));
    (KTimeLit, quoted time_re);
    (KDateLit, quoted date_re);
    (KUnused, word "p"); (KUnused, word "t"); (KUnused, word "y"); (KUnused, word "m");
    (KUnused, word "d"); (KUnused, word "h"); (KUnused, word "s"); (KUnused, word "f");
    (KOAngle, chr "<");
    (KCAngle, chr ">");
    (KYearLit, year_re);
    (KDayLit, day_re);
    (KCompoundLit, compound_re);
    (KNullLit, word "null");
    (KStrLit, string_re);
    (KEnum, word "enum");
    (KColumn, RSeq (word "col") int_re);
    (KSkip, rseq [chr "/"; chr "/"; line_re]);
    (KSkip, block_comment_re);
    (KUnused, word "if"); (KUnused, word "then"); (KUnused, word "else");
    (KFunc, word "func");
    (KType PrimBool, word "boolean");
    (KType PrimI8, word "i8"); (KType PrimI16, word "i16");
    (KType PrimI32, word "i32"); (KType PrimI64, word "i64");
    (KType PrimFp32, word "fp32"); (KType PrimFp64, word "fp64");
    (KType PrimString, word "string");
    (KType PrimBinary, word "binary");
    (KType PrimTimestamp, word "timestamp");
    (KType PrimTimestampTz, word "timestamp_tz");
    (KType PrimDate, word "date");
    (KType PrimTime, word "time");
    (KType PrimIntervalYear, word "interval_year");
    (KDayType, word "interval_day");
    (KCompoundType, word "interval_compound");
    (KType PrimUUID, word "uuid");
    (KDecimal, word "decimal");
    (KPrecTime, word "precision_time");
    (KPrecTs, word "precision_timestamp");
    (KPrecTsTz, word "precision_timestamp_tz");
    (KFixed FxChar, word "fixedchar");
    (KFixed FxVarChar, word "varchar");
    (KFixed FxBinary, word "fixedbinary");
    (KUnused, word "struct"); (KUnused, word "nstruct");
    (KList, word "list");
    (KUnused, word "map");
    (KUser, word "u!");
    (KType PrimBool, word "bool");
    (KType PrimString, word "str");
    (KType PrimBinary, word "vbin");
    (KType PrimTimestamp, word "ts");
    (KType PrimTimestampTz, word "tstz");
    (KType PrimIntervalYear, word "iyear");
    (KDayType, word "iday");
    (KCompoundType, word "icompound");
    (KDecimal, word "dec");
    (KPrecTime, word "pt");
    (KPrecTs, word "pts");
    (KPrecTsTz, word "ptstz");
    (KFixed FxChar, word "fchar");
    (KFixed FxVarChar, word "vchar");
    (KFixed FxBinary, word "fbin");
    (KUnused, word "any");
    (KUnused, RSeq (word "any") digit_re);
    (KDoubleColon, word "::");
    (KUnused, chr "+"); (KUnused, chr "-"); (KUnused, chr "*"); (KUnused, chr "/"); (KUnused, chr "%");
    (KEq, chr "=");
    (KUnused, word "!="); (KUnused, word ">="); (KUnused, word "<=");
    (KUnused, chr ">"); (KUnused, chr "<"); (KUnused, chr "!");
    (KOParen, chr "("); (KCParen, chr ")"); (KOBracket, chr "["); (KCBracket, chr "]");
    (KComma, chr ","); (KColon, chr ":"); (KQMark, chr "?");
    (KUnused, chr "#");
    (KDot, chr ".");
    (KNonReserved, word "and"); (KNonReserved, word "or");
    (KUnused, word ":=");
    (KArrow, word "->");
    (KUnused, RSeq (opt (chr "-")) int_re);
    (KIdent, identifier_re);
    (KUnused, RAlt (RSeq (chr return_) (opt (chr newline))) (chr newline)) ].

(** ** the lexer *)

(** The rules that can still match after a character. *)
Definition alive (kr : tk * re) : bool := match snd kr with RNone => false | _ => true end.
Definition step (c : ascii) (rs : list (tk * re)) : list (tk * re) :=
  filter alive (map (fun kr => (fst kr, after c (snd kr))) rs).

(** The longest text, not empty, at the start of [s] that some rule matches: the kind of the first such
    rule and the number of characters. *)
Fixpoint scan (rs : list (tk * re)) (s : string) : option (tk * nat) :=
  match s with
  | EmptyString => None
  | String c s' =>
      match step c rs with
      | [] => None
      | rs' =>
          match scan rs' s' with
          | Some (k, n) => Some (k, S n)
          | None => match find (fun kr => nullable (snd kr)) rs' with
                    | Some kr => Some (fst kr, 1%nat)
                    | None => None
                    end
          end
      end
  end.

(** The number of characters read before no rule is left that could still match. *)
Fixpoint viable (rs : list (tk * re)) (s : string) : nat :=
  match s with
  | EmptyString => 0
  | String c s' => match step c rs with [] => 0 | rs' => S (viable rs' s') end
  end.

Fixpoint cut (n : nat) (s : string) : string * string :=
  match n, s with
  | S n', String c s' => let (a, b) := cut n' s' in (String c a, b)
  | _, _ => ("", s)
  end.

Notation token := (tk * string)%type.
Definition skipped (k : tk) : bool := match k with KSkip => true | _ => false end.

(** parse.go 36-38: the tokens handed to the parser.  Whitespace and comments are skipped (action 0 of the
    automaton).  Where no token starts, the lexer reports this to its own listeners only (the listener of
    lines 40-41 is attached to the parser), drops what it has read up to the character no token can go on
    with, that character included, and goes on after it (the runtime's default recovery).  The fuel is the
    length of the text. *)
Fixpoint lex_fuel (n : nat) (s : string) : list token :=
  match n, s with
  | S n', String c s' =>
      match scan rules s with
      | Some (k, m) =>
          let (t, r) := cut m s in
          if skipped k then lex_fuel n' r else (k, t) :: lex_fuel n' r
      | None => lex_fuel n' (snd (cut (viable rules s) s'))
      end
  | _, _ => []
  end.
Definition tokens (s : string) : list token := lex_fuel (String.length s) s.
