(** Model of the reader of function test cases: /repo/testcases/parser/visitor.go, parse.go and the
    types of nodes.go.  Definitions only; theorems are in TestCaseProps.v and TestColumnProps.v.

    The model starts from the parse tree the generated parser hands to the visitor: one constructor per
    alternative of a grammar rule, holding the texts of its tokens.  The generated lexer and parser of
    this grammar are in TestLexModel.v and TestParseModel.v.
    Every error the visitor reports makes the whole file an error (parse.go 45-47, 62-64), and so does every
    panic, which is recovered and reported (parse.go 53); so the visitor is modelled as stopping at the
    first of them.  strconv.ParseFloat and the conversion to float32 are parameters. *)

From Coq Require Import ZArith String Ascii Bool List.
From Verif Require Import Base FMap TypesModel SigModel DecimalModel LitModel TimeModel CalModel IntervalModel TextModel DecTextModel.
Import ListNotations.
Local Open Scope string_scope.
Local Open Scope Z_scope.

(** ** the parse tree *)

(** data types; [null] is the question mark *)
Inductive dtype :=
| DPrim (p : prim) (null : bool)
| DUser
| DDecimal (ps : option (string * string)) (null : bool)
| DFixed (k : fixedk) (len : string) (null : bool)
| DPrecTime (p : string) (null : bool)
| DPrecTs (p : string) (null : bool)
| DPrecTsTz (p : string) (null : bool)
| DIntervalDay (p : option string) (null : bool)
| DIntervalCompound
| DList (elem : dtype) (null : bool)
| DFunc.

(** literals without a type: the kind of the token and its text *)
Inductive kind := KBool | KDate | KTime | KTs | KTsTz | KIntervalYear | KIntervalDay | KNum | KStr | KNull | KOther.
Record tlit := Tlit { t_kind : kind; t_text : string }.
(** elements of a list *)
Inductive element :=
| ELit (l : tlit)
| EList (es : list element).

(** arguments: a value with its type *)
Inductive targ :=
| GNull (text : string) (t : dtype)
| GInt (text : string) (p : prim) (null : bool)
| GFloat (text : string) (p : prim) (null : bool)
| GBool (text : string) (null : bool)
| GString (text : string) (null : bool)
| GDecimal (text : string) (ps : option (string * string)) (null : bool)
| GDate (text : string) (null : bool)
| GTime (text : string) (null : bool)
| GTs (text : string) (null : bool)
| GTsTz (text : string) (null : bool)
| GIntervalYear (text : string) (null : bool)
| GIntervalDay (text : string) (p : option string) (null : bool)
| GFixed (k : fixedk) (text : string) (len : string) (null : bool)
| GPrecTime (text : string) (p : string) (null : bool)
| GPrecTs (text : string) (p : string) (null : bool)
| GPrecTsTz (text : string) (p : string) (null : bool)
| GList (es : list element) (elem : dtype) (null : bool)
| GEnum (name : string)
| GOther.

Inductive tresult := RArg (a : targ) | RError | RUndefined.

(** arguments of aggregate functions *)
Inductive aarg := AAScalar (a : targ) | AAColumn (col : string) (t : dtype).
Inductive qarg := QScalar (a : targ) | QColumn (table col : string).
Inductive aggcall :=
| CSingle (name : string) (values : list tlit) (t : dtype)
| CCompact (rows : list (list tlit)) (name : string) (args : option (list aarg))
| CMulti (table : string) (types : list dtype) (rows : list (list tlit)) (name : string) (args : option (list qarg)).

Definition toptions := option (list (string * string)).
Inductive tgroup :=
| GroupScalar (desc : option string) (cases : list (string * list targ * toptions * tresult))
| GroupAgg (desc : option string) (cases : list (aggcall * toptions * tresult)).

Record tdoc := Tdoc {
  d_aggregate : bool;            (** SUBSTRAIT_AGGREGATE_TEST rather than SUBSTRAIT_SCALAR_TEST *)
  d_version : string;
  d_includes : list string;
  d_groups : list tgroup }.

(** ** what is read: nodes.go *)

(** nodes.go 33-40 [CaseLiteral]; the value is a literal or an enum argument *)
Inductive cvalue := CLit (l : lit) | CEnum (s : string).
Record caselit := Case { c_type : ty; c_text : string; c_value : cvalue }.

(** nodes.go 25-29, 495-508 *)
Inductive outcome := OValue (c : caselit) | OError | OUndefined.

(** nodes.go 449-456 [AggregateArgument]; [None]: a nil pointer or type *)
Record aggarg := AggArg {
  a_arg : option caselit; a_table : string; a_column : string; a_type : option ty; a_index : Z; a_scalar : bool }.

(** nodes.go 123-135 [TestCase], without the field [FuncType], which [k_aggregate] stands for.  [None] for
    the columns and their types: nil slices. *)
Record tcase := Tcase {
  k_uri : string; k_group : string; k_name : string; k_args : list caselit; k_aggargs : list aggarg;
  k_result : outcome; k_options : fmap string string; k_columns : list (list lit); k_table : string;
  k_coltypes : list (option ty); k_aggregate : bool }.
Record tfile := Tfile { f_version : string; f_aggregate : bool; f_uri : string; f_cases : list tcase }.

(** ** texts *)

(** [strings.Trim(text, "'")] (visitor.go 636-638): all quotes at both ends *)
Definition is_quote (c : ascii) : bool := Ascii.eqb c "'".
Fixpoint drop_while (p : ascii -> bool) (s : string) : string :=
  match s with String c s' => if p c then drop_while p s' else s | EmptyString => s end.
Fixpoint drop_end (p : ascii -> bool) (s : string) : string :=
  match s with
  | EmptyString => ""
  | String c s' => match drop_end p s' with EmptyString => if p c then "" else String c "" | r => String c r end
  end.
Definition trim (p : ascii -> bool) (s : string) : string := drop_end p (drop_while p s).
Definition raw_string (s : string) : string := trim is_quote s.
(** [strings.TrimSpace]; the spaces outside of ASCII are left out *)
Definition is_space (c : ascii) : bool :=
  let n := Z.of_nat (nat_of_ascii c) in (n =? 32) || ((9 <=? n) && (n <=? 13)).
Definition description (s : string) : string :=
  trim is_space (match s with String c s' => if Ascii.eqb c "#" then s' else s | EmptyString => s end).
(** [[]byte(s)] *)
Fixpoint bytes_of (s : string) : list Z :=
  match s with EmptyString => [] | String c s' => Z.of_nat (nat_of_ascii c) :: bytes_of s' end.

Definition is_true (text : string) : bool := String.eqb (lower text) "true".
Definition is_nullable (t : ty) : bool := get_nullability t =? NullNullable.

(** ** data types: visitor.go 918-1108, with 20-25 [getNullability] *)
Definition int_param (text : string) : res Z := let! z := atoi text in Ok (wrap 32 z).
Fixpoint dtype_of (d : dtype) : res ty :=
  match d with
  | DPrim p n => Ok (TPrim p (nullability_of n) 0)
  | DUser => Panic
  | DDecimal None n => Ok (TDecimal (nullability_of n) 0 38 0)
  | DDecimal (Some (p, s)) n =>
      let! p := int_param p in let! s := int_param s in Ok (TDecimal (nullability_of n) 0 p s)
  | DFixed k len n => let! len := int_param len in Ok (TFixed k (nullability_of n) 0 len)
  | DPrecTime p n => let! p := int_param p in Ok (TPrecTime (nullability_of n) 0 p)
  | DPrecTs p n => let! p := int_param p in Ok (TPrecTs (nullability_of n) 0 p)
  | DPrecTsTz p n => let! p := int_param p in Ok (TPrecTsTz (nullability_of n) 0 p)
  | DIntervalDay None n => Ok (TIntervalDay (nullability_of n) 0 0)
  | DIntervalDay (Some p) n => let! p := int_param p in Ok (TIntervalDay (nullability_of n) 0 p)
  | DIntervalCompound => Err
  | DList e n => let! t := dtype_of e in Ok (TList (nullability_of n) 0 t)
  | DFunc => Err
  end.

Section Floats.
(** [strconv.ParseFloat(text, 64)] as the bits of the float64, and the conversion of those to the bits of a float32 *)
Variable parse_float : string -> res Z.
Variable to_float32 : Z -> Z.

(** ** single values *)

(** 555-573 [getIntLiteral] *)
Definition int_literal (text : string) (p : prim) (null : bool) : res lit :=
  let! z := atoi text in
  match p with
  | PrimI8 => new_literal (APrim (VI8 (wrap 8 z))) null
  | PrimI16 => new_literal (APrim (VI16 (wrap 16 z))) null
  | PrimI32 => new_literal (APrim (VI32 (wrap 32 z))) null
  | PrimI64 => new_literal (APrim (VI64 z)) null
  | _ => Err
  end.
(** 539-553 [getFloatLiteral] *)
Definition float_literal (text : string) (p : prim) (null : bool) : res lit :=
  let! f := parse_float text in
  match p with
  | PrimFp32 => new_literal (APrim (VFp32 (to_float32 f))) null
  | PrimFp64 => new_literal (APrim (VFp64 f)) null
  | _ => Err
  end.
(** literal/utils.go 53-59, 81-89, 114-138, 140-146, 188-201, 349-401: the constructors from texts *)
Definition date_literal (s : string) (null : bool) : res lit :=
  let! d := new_date_from_string s in new_literal (APrim (VDate d)) null.
Definition time_literal (s : string) (null : bool) : res lit :=
  let! t := new_time_from_string s in new_literal (APrim (VTime t)) null.
Definition ts_literal (s : string) (null : bool) : res lit :=
  let! t := new_timestamp_from_string s in new_literal (APrim (VTimestamp t)) null.
Definition tstz_literal (s : string) (null : bool) : res lit :=
  let! t := new_timestamp_tz_from_string s in new_literal (APrim (VTimestampTz t)) null.
Definition interval_year_literal (s : string) (null : bool) : res lit :=
  let! (y, m) := parse_interval_years_to_month s in new_literal (AYearMonth y m) null.
(* a day-time interval given another precision more than 18 digits away: see [interval_day_with_precision] *)
Definition interval_day_literal (s : string) (null : bool) : res lit :=
  let! (d, sec, ss, p) := parse_interval_days s in new_literal (ADaySecond (Idts d sec (IM_precision p) ss)) null.
(** literal/utils.go 286-296 [NewFixedChar], [NewFixedBinary], [NewVarChar] *)
Definition fixed_literal (k : fixedk) (s : string) (null : bool) : res lit :=
  match k with
  | FxChar => new_literal (APrim (VFixedChar s)) null
  | FxVarChar => new_literal (AVarChar s (Z.of_nat (String.length s) mod 2 ^ 32)) null
  | FxBinary => new_literal (ABytes BkFixedBinary (bytes_of s)) null
  end.

(** the assertion [x.(expr.WithTypeLiteral).WithType(t)] *)
Definition must_with_type (l : lit) (t : ty) : res lit :=
  match with_type l t with Some r => r | None => Panic end.

(** 468-537 [getLiteralFromString]; [None]: nil, for a type without a case *)
Definition from_string (s : string) (t : ty) : res (option lit) :=
  match t with
  | TPrim p n _ =>
      let null := is_nullable t in
      match p with
      | PrimI8 | PrimI16 | PrimI32 | PrimI64 => let! l := int_literal s p null in Ok (Some l)
      | PrimFp32 | PrimFp64 => let! l := float_literal s p null in Ok (Some l)
      | PrimString => let! l := new_literal (APrim (VString s)) null in Ok (Some l)
      | PrimBinary => let! l := new_literal (ABytes BkBinary (bytes_of s)) null in Ok (Some l)
      | _ => Ok None
      end
  | TDecimal _ _ _ _ => let! d := new_decimal_from_string s false in let! l := must_with_type d t in Ok (Some l)
  | TFixed k _ _ _ => let! d := fixed_literal k s (is_nullable t) in let! l := must_with_type d t in Ok (Some l)
  | _ => Ok None
  end.

(** ** literals in a context: 799-893 [VisitLiteral]

    The context is the type literals are read for, [None] for nil.  The second result is the context after
    reading: the method [WithNullability] of day-time interval types, which [NewNullLiteral] calls, writes its receiver
    (types/interval_day_type.go 21-24), so a null makes the type in context nullable. *)
Definition after_null (ctx : option ty) : option ty :=
  match ctx with Some (TIntervalDay _ v p) => Some (TIntervalDay NullNullable v p) | _ => ctx end.
Definition read_literal (ctx : option ty) (l : tlit) : res (option lit * option ty) :=
  let null := match ctx with Some t => is_nullable t | None => false end in
  let s := raw_string (t_text l) in
  match t_kind l with
  | KBool => let! v := new_literal (APrim (VBool (is_true (t_text l)))) null in Ok (Some v, ctx)
  | KDate => let! v := date_literal s null in Ok (Some v, ctx)
  | KTime => let! v := time_literal s null in Ok (Some v, ctx)
  | KTs => let! v := ts_literal s null in Ok (Some v, ctx)
  | KTsTz => let! v := tstz_literal s null in Ok (Some v, ctx)
  | KIntervalYear => let! v := interval_year_literal s null in Ok (Some v, ctx)
  | KIntervalDay =>
      let! v := interval_day_literal s null in
      match ctx with
      | Some (TIntervalDay _ _ _ as t) => let! v := must_with_type v t in Ok (Some v, ctx)
      | _ => Ok (Some v, ctx)
      end
  | KNum =>
      match ctx with
      | None => let! v := new_literal (APrim (VString (t_text l))) false in Ok (Some v, ctx)
      | Some t => let! v := from_string (t_text l) t in Ok (v, ctx)
      end
  | KStr =>
      let! v := match ctx with Some t => from_string s t | None => Ok None end in
      match v with
      | Some v => Ok (Some v, ctx)
      | None => let! v := new_literal (APrim (VString s)) false in Ok (Some v, ctx)
      end
  | KNull =>
      let t := match ctx with Some t => t | None => TDecimal NullNullable 0 38 0 end in
      Ok (Some (new_null_literal t), after_null ctx)
  | KOther => Err
  end.

Definition opt_cons {A} (o : option A) (l : list A) : list A := match o with Some x => x :: l | None => l end.

(** 292-300 [VisitColumnValues] and 284-290 [VisitTableRows] *)
Fixpoint read_values (ctx : option ty) (ls : list tlit) : res (list lit * option ty) :=
  match ls with
  | [] => Ok ([], ctx)
  | l :: ls' =>
      let! (v, ctx) := read_literal ctx l in
      let! (vs, ctx) := read_values ctx ls' in
      Ok (opt_cons v vs, ctx)
  end.
Definition read_rows (rows : list (list tlit)) : res (list (list lit)) :=
  mapM (fun row => let! (vs, _) := read_values None row in Ok vs) rows.

(** Literals read for a day-time interval type share that type object, so they are nullable as soon as it is:
    [settle] gives the types in a literal the nullability of the types it shares with its context. *)
Fixpoint settle_ty (c t : ty) : ty :=
  match t with
  | TIntervalDay _ v p => match c with TIntervalDay n _ _ => TIntervalDay n v p | _ => t end
  | TList m v e => TList m v (settle_ty (match c with TList _ _ e' => e' | _ => c end) e)
  | _ => t
  end.
Fixpoint settle_lit (c : ty) (l : lit) : lit :=
  match l with
  | LNull t => LNull (settle_ty c t)
  | LProto x t => LProto x (settle_ty c t)
  | LList es t => LList (map (settle_lit (match c with TList _ _ e => e | _ => c end)) es) (settle_ty c t)
  | _ => l
  end.
Definition settle (ctx : option ty) (ls : list lit) : list lit :=
  match ctx with Some c => map (settle_lit c) ls | None => ls end.

(** 750-797 [VisitLiteralList], [VisitListElement] *)
Definition inner_context (ctx : option ty) : option ty :=
  match ctx with Some (TList _ _ t) => Some t | _ => ctx end.
Definition outer_context (ctx inner : option ty) : option ty :=
  match ctx, inner with Some (TList n v _), Some t => Some (TList n v t) | Some (TList _ _ _), None => ctx | _, _ => inner end.
Fixpoint read_element (ctx : option ty) (e : element) : res (option lit * option ty) :=
  match e with
  | ELit l => read_literal ctx l
  | EList es =>
      let! (vs, inner) :=
        (fix go (ctx : option ty) (es : list element) : res (list lit * option ty) :=
           match es with
           | [] => Ok ([], ctx)
           | e :: es' =>
               let! (v, ctx) := read_element ctx e in
               let! (vs, ctx) := go ctx es' in
               Ok (opt_cons v vs, ctx)
           end) (inner_context ctx) es in
      match settle inner vs with
      | [] =>
          match inner with
          | Some (TList _ _ t) => Ok (Some (new_empty_list_literal t false), outer_context ctx inner)
          | _ => Err
          end
      | vs => let! l := new_list vs false in Ok (Some l, outer_context ctx inner)
      end
  end.
Definition read_elements : option ty -> list element -> res (list lit * option ty) :=
  fix go (ctx : option ty) (es : list element) : res (list lit * option ty) :=
    match es with
    | [] => Ok ([], ctx)
    | e :: es' =>
        let! (v, ctx) := read_element ctx e in
        let! (vs, ctx) := go ctx es' in
        Ok (opt_cons v vs, ctx)
    end.

(** ** arguments: 368-441 [VisitArgument] and the visitors it calls *)

(** types.go 555 [CommonEnumType] *)
Definition common_enum_type : ty := TEnum true NullUnspecified 0 "" [].

Definition read_arg (a : targ) : res caselit :=
  match a with
  | GNull text d =>
      let! t := dtype_of d in
      if is_nullable t then Ok (Case t text (CLit (new_null_literal t))) else Err
  | GInt text p null =>
      let! l := int_literal text p null in Ok (Case (TPrim p (nullability_of null) 0) text (CLit l))
  | GFloat text p null =>
      let! l := float_literal text p null in let! t := lit_type l in Ok (Case t text (CLit l))
  | GBool text null =>
      let! l := new_literal (APrim (VBool (is_true text))) null in
      Ok (Case (TPrim PrimBool (nullability_of null) 0) text (CLit l))
  | GString text null =>
      let! l := new_literal (APrim (VString (raw_string text))) null in
      Ok (Case (TPrim PrimString (nullability_of null) 0) text (CLit l))
  | GDecimal text ps null =>
      let! t := dtype_of (DDecimal ps null) in
      let! l := new_decimal_from_string text null in Ok (Case t text (CLit l))
  | GDate text null =>
      let! l := date_literal (raw_string text) null in Ok (Case (TPrim PrimDate (nullability_of null) 0) text (CLit l))
  | GTime text null =>
      let! l := time_literal (raw_string text) null in Ok (Case (TPrim PrimTime (nullability_of null) 0) text (CLit l))
  | GTs text null =>
      let! l := ts_literal (raw_string text) null in Ok (Case (TPrim PrimTimestamp (nullability_of null) 0) text (CLit l))
  | GTsTz text null =>
      let! l := tstz_literal (raw_string text) null in Ok (Case (TPrim PrimTimestampTz (nullability_of null) 0) text (CLit l))
  | GIntervalYear text null =>
      let! l := interval_year_literal (raw_string text) null in
      Ok (Case (TPrim PrimIntervalYear (nullability_of null) 0) text (CLit l))
  | GIntervalDay text p null =>
      let! t := dtype_of (DIntervalDay p null) in
      let! l := interval_day_literal (raw_string text) null in Ok (Case t text (CLit l))
  | GFixed k text len null =>
      let! t := dtype_of (DFixed k len null) in
      let! l := fixed_literal k (raw_string text) null in Ok (Case t text (CLit l))
  | GPrecTime text p null =>
      let! p := int_param p in
      let! z := new_precision_time_from_string p (raw_string text) in
      let! l := new_literal (APrecTime p z) null in Ok (Case (TPrecTime (nullability_of null) 0 p) text (CLit l))
  | GPrecTs text p null =>
      let! p := int_param p in
      let! z := new_precision_timestamp_from_string p (raw_string text) in
      let! l := new_literal (APrecTs p z) null in Ok (Case (TPrecTs (nullability_of null) 0 p) text (CLit l))
  | GPrecTsTz text p null =>
      let! p := int_param p in
      let! z := new_precision_timestamp_tz_from_string p (raw_string text) in
      let! l := new_literal (APrecTsTz p z) null in Ok (Case (TPrecTsTz (nullability_of null) 0 p) text (CLit l))
  | GList es d null =>
      let! t := dtype_of d in
      let! (vs, ctx) := read_elements (Some t) es in
      let t := match ctx with Some t => t | None => t end in
      let! l := match settle ctx vs with
                | [] => Ok (new_empty_list_literal t false)
                | vs => new_list vs false
                end in
      Ok (Case (TList (nullability_of null) 0 t) "" (CLit l))
  | GEnum name => Ok (Case common_enum_type name (CEnum name))
  | GOther => Err
  end.

(** nodes.go 94-114 [updateLiteralType] *)
Definition update_type (c : caselit) : res caselit :=
  match get_parameters (c_type c) with
  | [] => Ok c
  | _ =>
      match c_value c with
      | CLit (LNull _) => Ok c
      | CLit l =>
          match with_type l (c_type c) with
          | Some r => let! l := r in Ok (Case (c_type c) (c_text c) (CLit l))
          | None => Err
          end
      | CEnum _ => Err
      end
  end.
(** 356-366 [VisitArguments], one argument *)
Definition read_typed_arg (a : targ) : res caselit := let! c := read_arg a in update_type c.
(** 895-916 [VisitResult], [VisitSubstraitError] *)
Definition read_result (r : tresult) : res outcome :=
  match r with
  | RArg a => let! c := read_typed_arg a in Ok (OValue c)
  | RError => Ok OError
  | RUndefined => Ok OUndefined
  end.

(** 325-336 [VisitFuncOptions]: a map, so that a later option of a name replaces an earlier one *)
Definition read_options (o : toptions) : fmap string string :=
  match o with
  | Some ps => fold_left (fun m p => fm_set String.eqb (fst p) (snd p) m) ps []
  | None => []
  end.

(** ** tables *)

(** 456-466 [getLiteral] *)
Definition get_literal (l : lit) (t : option ty) : res lit :=
  match l with
  | LPrim (VString s) _ =>
      match t with
      | Some t => let! o := from_string s t in Ok (match o with Some l' => l' | None => l end)
      | None => Ok l
      end
  | _ => Ok l
  end.
(** 239-248: one column of [getColumnsFromRows] *)
Fixpoint read_column (i : nat) (t cur : option ty) (rows : list (list lit)) : res (list lit * option ty) :=
  match rows with
  | [] => Ok ([], cur)
  | row :: rows' =>
      match nth_error row i with
      | None => Panic
      | Some cell =>
          let! cell := get_literal cell t in
          match cell with
          | LNull _ =>
              match t with
              | None => Panic
              | Some t' =>
                  let new := with_nullability NullNullable t' in
                  let! (cells, cur) := read_column i t (Some new) rows' in
                  Ok (new_null_literal new :: cells, cur)
              end
          | _ => let! (cells, cur) := read_column i t cur rows' in Ok (cell :: cells, cur)
          end
      end
  end.
(** 234-252 [getColumnsFromRows], from column [i] on *)
Fixpoint read_columns (i : nat) (ts : list (option ty)) (rows : list (list lit)) : res (list (list lit) * list (option ty)) :=
  match ts with
  | [] => Ok ([], [])
  | t :: ts' =>
      let! (c, t') := read_column i t t rows in
      let! (cs, ts'') := read_columns (S i) ts' rows in
      Ok (c :: cs, t' :: ts'')
  end.

(** ** arguments of aggregate functions *)

(** nodes.go 475-488 [newAggregateArgument]; the name of a column starts with three letters *)
Definition new_agg_arg (table col : string) (t : option ty) : res aggarg :=
  if Nat.ltb (String.length col) 3 then Panic
  else
    let! i := atoi (str_drop 3 col) in
    if i <? 0 then Err else Ok (AggArg None table col t (wrap 32 i) false).
Definition scalar_agg_arg (a : targ) : res aggarg :=
  let! c := read_arg a in Ok (AggArg (Some c) "" "" None 0 true).
(** 310-323 [VisitAggregateFuncArg] *)
Definition read_aarg (a : aarg) : res aggarg :=
  match a with
  | AAScalar a => scalar_agg_arg a
  | AAColumn col d => let! t := dtype_of d in new_agg_arg "" col (Some t)
  end.
(** 205-217 [VisitQualifiedAggregateFuncArg] *)
Definition read_qarg (q : qarg) : res aggarg :=
  match q with
  | QScalar a => scalar_agg_arg a
  | QColumn table col => new_agg_arg table col None
  end.

Fixpoint set_nth {A} (i : nat) (x : A) (l : list A) : list A :=
  match l, i with
  | [], _ => []
  | _ :: l', O => x :: l'
  | y :: l', S i' => y :: set_nth i' x l'
  end.
(** 156-166: the types of the columns, from the arguments *)
Fixpoint column_types (args : list aggarg) (ts : list (option ty)) : res (list (option ty)) :=
  match args with
  | [] => Ok ts
  | a :: args' =>
      if Z.of_nat (List.length ts) <=? a_index a then Err
      else
        match a_type a with
        | None => column_types args' ts
        | Some t => if a_index a <? 0 then Panic else column_types args' (set_nth (Z.to_nat (a_index a)) (Some t) ts)
        end
  end.
(** The type object of a column is that of the last argument naming the column; if a null in it makes a day-time interval
    type nullable (see [after_null]), that argument's type is. *)
Fixpoint share_types (args : list aggarg) (ts : list (option ty)) : list aggarg :=
  match args with
  | [] => []
  | a :: args' =>
      let last := negb (existsb (fun b => negb (a_scalar b) && (a_index b =? a_index a)) args') in
      let t := match a_type a with
               | Some (TIntervalDay _ _ _) =>
                   if last then match nth_error ts (Z.to_nat (a_index a)) with Some t => t | None => a_type a end
                   else a_type a
               | t => t
               end in
      AggArg (a_arg a) (a_table a) (a_column a) t (a_index a) (a_scalar a) :: share_types args' ts
  end.

Definition opt_list {A} (o : option (list A)) : list A := match o with Some l => l | None => [] end.

(** 187-193: one argument of a call on a named table *)
Definition resolve_arg (table : string) (ts : list (option ty)) (a : aggarg) : res aggarg :=
  if negb (String.eqb (a_table a) "") && negb (String.eqb table (a_table a)) then Err
  else if a_scalar a then Ok a
  else if a_index a <? 0 then Panic
  else
    match nth_error ts (Z.to_nat (a_index a)) with
    | None => Panic
    | Some t => Ok (AggArg (a_arg a) (a_table a) (a_column a) t (a_index a) (a_scalar a))
    end.

Definition is_null_lit (l : lit) : bool := match l with LNull _ => true | _ => false end.

(** The part of a test case the call gives: name, arguments, columns, table, types of the columns. *)
Definition callparts := (string * list aggarg * list (list lit) * string * list (option ty))%type.

(** 140-195, 219-232, 254-282: [VisitSingleArgAggregateFuncCall] with [VisitDataColumn], [VisitCompactAggregateFuncCall],
    [VisitMultiArgAggregateFuncCall] with [VisitTableData] *)
Definition read_call (c : aggcall) : res callparts :=
  match c with
  | CSingle name values d =>
      let! t := dtype_of d in
      let! (vs, ctx) := read_values (Some t) values in
      let vs := settle ctx vs in
      let t := match ctx with Some t => t | None => t end in
      let t := if existsb is_null_lit vs then with_nullability NullNullable t else t in
      let arg := Case t "" (CLit (LList vs (TList NullRequired 0 t))) in
      Ok (name, [AggArg (Some arg) "" "" (Some t) 0 false], [], "", [])
  | CCompact rows name args =>
      let! rows := read_rows rows in
      let! args := mapM read_aarg (opt_list args) in
      match rows with
      | [] => Panic
      | row0 :: _ =>
          let! ts := column_types args (repeat None (List.length row0)) in
          let! (cols, ts') := read_columns 0 ts rows in
          Ok (name, share_types args ts', cols, "", ts')
      end
  | CMulti table ds rows name args =>
      let! rows := read_rows rows in
      let! ts := mapM dtype_of ds in
      let! (cols, ts') := read_columns 0 (map Some ts) rows in
      let! args := mapM read_qarg (opt_list args) in
      let! args := mapM (resolve_arg table ts') args in
      Ok (name, args, cols, table, ts')
  end.

(** ** cases, groups, files *)

(** 342-354 [VisitTestCase] *)
Definition read_case (uri desc : string) (c : string * list targ * toptions * tresult) : res tcase :=
  let '(name, args, opts, r) := c in
  let! args := mapM read_typed_arg args in
  let! r := read_result r in
  Ok (Tcase uri desc name args [] r (read_options opts) [] "" [] false).
(** 131-138 [VisitAggFuncTestCase] *)
Definition read_agg_case (uri desc : string) (c : aggcall * toptions * tresult) : res tcase :=
  let '(call, opts, r) := c in
  let! (name, args, cols, table, ts) := read_call call in
  let! r := read_result r in
  Ok (Tcase uri desc name [] args r (read_options opts) cols table ts true).
(** 99-129 [VisitScalarFuncTestGroup], [VisitAggregateFuncTestGroup]; a group without a description: a failed type assertion *)
Definition read_group (aggregate : bool) (uri : string) (g : tgroup) : res (list tcase) :=
  match g with
  | GroupScalar None _ | GroupAgg None _ => Panic
  | GroupScalar (Some d) cases => if aggregate then Err else mapM (read_case uri (description d)) cases
  | GroupAgg (Some d) cases => if aggregate then mapM (read_agg_case uri (description d)) cases else Err
  end.
(** 61-97 [VisitDoc], [VisitHeader], [VisitVersion], [VisitInclude] *)
Definition read_doc (d : tdoc) : res tfile :=
  match d_includes d with
  | [] => Panic
  | inc :: _ =>
      let uri := raw_string inc in
      let! gs := mapM (read_group (d_aggregate d) uri) (d_groups d) in
      Ok (Tfile (d_version d) (d_aggregate d) uri (List.concat gs))
  end.
(** parse.go 36-70, from the tree on *)
Definition parse_doc (d : tdoc) : res tfile := match read_doc d with Panic => Err | r => r end.

End Floats.
