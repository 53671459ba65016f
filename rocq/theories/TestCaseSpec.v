(** Specification of function test cases (C64-C66), written without the reader's functions.  The texts of dates, times, intervals and
    decimals are those of C16, C60-C63; types and literals are those of the public API. *)

From Coq Require Import ZArith String Ascii Bool List.
From Verif Require Import Base FMap TypesModel LitModel TimeModel CalModel IntervalModel CalSpec DecimalSpec DecTextSpec TextSpec TestCaseModel.
Import ListNotations.
Local Open Scope string_scope.
Local Open Scope Z_scope.

(** ** texts *)

(** [r] is [s] without the characters satisfying [P] at both ends *)
Definition only (P : ascii -> Prop) (s : string) : Prop := Forall P (chars s).
Definition bare (P : ascii -> Prop) (s : string) : Prop :=
  (forall c r, s = String c r -> ~ P c) /\ (forall c r, s = r ++ String c "" -> ~ P c).
Inductive trimmed (P : ascii -> Prop) : string -> string -> Prop :=
| Trimmed a r b : only P a -> only P b -> bare P r -> trimmed P (a ++ r ++ b) r.
Definition unquoted : string -> string -> Prop := trimmed (fun c => c = "'"%char).
Definition blank (c : ascii) : Prop := In (nat_of_ascii c) [9; 10; 11; 12; 13; 32]%nat.
(** the description of a group: without the hash sign, without blanks around *)
Definition describes (text d : string) : Prop :=
  exists t, (text = String "#" t \/ text = t /\ forall r, text <> String "#" r) /\ trimmed blank t d.

(** a whole number that fits 64 bits *)
Definition whole_number (text : string) (z : Z) : Prop :=
  exists sg s k v ds, sign sg s /\ number (S k) v ds /\ text = sg ++ ds /\ z = s * v /\ in_int 64 z.

Definition text_bytes (s : string) : list Z := map (fun c => Z.of_nat (nat_of_ascii c)) (chars s).

Definition nul (null : bool) : nullability := if null then 1 else 2.

(** ** types *)

(** the type a text of a type says; its numbers are cut to 32 bits *)
Inductive parameter : string -> Z -> Prop :=
| Param_number text z : whole_number text z -> parameter text (wrap 32 z).
Inductive declares : dtype -> ty -> Prop :=
| Decl_prim p null : declares (DPrim p null) (TPrim p (nul null) 0)
| Decl_decimal null : declares (DDecimal None null) (TDecimal (nul null) 0 38 0)
| Decl_decimal_of pt st p s null : parameter pt p -> parameter st s ->
    declares (DDecimal (Some (pt, st)) null) (TDecimal (nul null) 0 p s)
| Decl_fixed k lt len null : parameter lt len -> declares (DFixed k lt null) (TFixed k (nul null) 0 len)
| Decl_prec_time pt p null : parameter pt p -> declares (DPrecTime pt null) (TPrecTime (nul null) 0 p)
| Decl_prec_ts pt p null : parameter pt p -> declares (DPrecTs pt null) (TPrecTs (nul null) 0 p)
| Decl_prec_tstz pt p null : parameter pt p -> declares (DPrecTsTz pt null) (TPrecTsTz (nul null) 0 p)
| Decl_interval_day null : declares (DIntervalDay None null) (TIntervalDay (nul null) 0 0)
| Decl_interval_day_of pt p null : parameter pt p -> declares (DIntervalDay (Some pt) null) (TIntervalDay (nul null) 0 p)
| Decl_list d t null : declares d t -> declares (DList d null) (TList (nul null) 0 t).

(** ** values *)

(** the bytes of the decimal a text says, at precision [p] and scale [s] *)
Definition decimal_value (text : string) (p s : Z) (b : list Z) : Prop :=
  exists v j x q, says_decimal text v j x /\ needs_digits v (x - Z.of_nat j) q /\ q <= 38 /\ Z.abs x <= 100000 /\ Z.of_nat j <= 100000 /\
    bytes 16 b /\ same_number (signed128 b) (- s) v (x - Z.of_nat j) /\ Z.abs (signed128 b) < 10 ^ p /\
    p <= 38 /\ 0 <= s <= p /\ (v = 0 -> s < p).

Section Floats.
Variable parse_float : string -> res Z.
Variable to_float32 : Z -> Z.

(** the value of a type that a text says, for the types whose values are written as a number or a string *)
Inductive says_value : ty -> string -> lit -> Prop :=
| Says_i8 null text z : whole_number text z ->
    says_value (TPrim PrimI8 (nul null) 0) text (LPrim (VI8 (wrap 8 z)) (TPrim PrimI8 (nul null) 0))
| Says_i16 null text z : whole_number text z ->
    says_value (TPrim PrimI16 (nul null) 0) text (LPrim (VI16 (wrap 16 z)) (TPrim PrimI16 (nul null) 0))
| Says_i32 null text z : whole_number text z ->
    says_value (TPrim PrimI32 (nul null) 0) text (LPrim (VI32 (wrap 32 z)) (TPrim PrimI32 (nul null) 0))
| Says_i64 null text z : whole_number text z ->
    says_value (TPrim PrimI64 (nul null) 0) text (LPrim (VI64 z) (TPrim PrimI64 (nul null) 0))
| Says_fp32 null text f : parse_float text = Ok f ->
    says_value (TPrim PrimFp32 (nul null) 0) text (LPrim (VFp32 (to_float32 f)) (TPrim PrimFp32 (nul null) 0))
| Says_fp64 null text f : parse_float text = Ok f ->
    says_value (TPrim PrimFp64 (nul null) 0) text (LPrim (VFp64 f) (TPrim PrimFp64 (nul null) 0))
| Says_string null text :
    says_value (TPrim PrimString (nul null) 0) text (LPrim (VString text) (TPrim PrimString (nul null) 0))
| Says_binary null text :
    says_value (TPrim PrimBinary (nul null) 0) text (LBytes BkBinary (text_bytes text) (TPrim PrimBinary (nul null) 0))
| Says_decimal null p s text b : decimal_value text p s b ->
    says_value (TDecimal (nul null) 0 p s) text (LProto (XBytes b) (TDecimal (nul null) 0 p s))
| Says_fixed_char null len text :
    says_value (TFixed FxChar (nul null) 0 len) text (LPrim (VFixedChar text) (TFixed FxChar (nul null) 0 len))
| Says_varchar null len text : Z.of_nat (String.length text) <= len ->
    says_value (TFixed FxVarChar (nul null) 0 len) text (LProto (XString text) (TFixed FxVarChar (nul null) 0 len))
| Says_fixed_binary null len text :
    says_value (TFixed FxBinary (nul null) 0 len) text (LBytes BkFixedBinary (text_bytes text) (TFixed FxBinary (nul null) 0 len)).

(** the types it is for *)
Definition takes_text (t : ty) : Prop :=
  match t with
  | TPrim p _ _ => In p [PrimI8; PrimI16; PrimI32; PrimI64; PrimFp32; PrimFp64; PrimString; PrimBinary]
  | TDecimal _ _ _ _ | TFixed _ _ _ _ => True
  | _ => False
  end.

(** the value a text says whose kind shows from the text itself *)
Inductive says_own : kind -> string -> bool -> lit -> Prop :=
| Own_bool null text b : (b = true <-> same_letters text "true") ->
    says_own KBool text null (LPrim (VBool b) (TPrim PrimBool (nul null) 0))
| Own_date null text s z : unquoted text s -> new_date_from_string s = Ok z ->
    says_own KDate text null (LPrim (VDate z) (TPrim PrimDate (nul null) 0))
| Own_time null text s z : unquoted text s -> new_time_from_string s = Ok z ->
    says_own KTime text null (LPrim (VTime z) (TPrim PrimTime (nul null) 0))
| Own_ts null text s z : unquoted text s -> new_timestamp_from_string s = Ok z ->
    says_own KTs text null (LPrim (VTimestamp z) (TPrim PrimTimestamp (nul null) 0))
| Own_tstz null text s z : unquoted text s -> new_timestamp_tz_from_string s = Ok z ->
    says_own KTsTz text null (LPrim (VTimestampTz z) (TPrim PrimTimestampTz (nul null) 0))
| Own_interval_year null text s y m : unquoted text s -> parse_interval_years_to_month s = Ok (y, m) ->
    says_own KIntervalYear text null (LProto (XYearMonth y m) (TPrim PrimIntervalYear (nul null) 0))
| Own_interval_day null text s d sec ss p : unquoted text s -> parse_interval_days s = Ok (d, sec, ss, p) ->
    says_own KIntervalDay text null (LProto (XDaySecond (Idts d sec (IM_precision p) ss)) (TIntervalDay (nul null) 0 p)).

(** a day-time interval at another precision: a count of finer units is multiplied out, one of coarser units is cut *)
Inductive interval_at : string -> Z -> idts -> Prop :=
| Interval_at text s d sec ss p q ss' : unquoted text s -> parse_interval_days s = Ok (d, sec, ss, p) ->
    (p = q -> ss' = ss) -> (p < q -> ss' = wrap 64 (ss * 10 ^ (q - p))) -> (q < p -> ss' = Z.quot ss (10 ^ (p - q))) ->
    interval_at text q (Idts d sec (IM_precision q) ss').

(** ** arguments *)

Definition own_type (k : kind) (p : prim) : Prop :=
  In (k, p) [(KBool, PrimBool); (KDate, PrimDate); (KTime, PrimTime); (KTs, PrimTimestamp); (KTsTz, PrimTimestampTz);
             (KIntervalYear, PrimIntervalYear)].

(** the argument of a function: the text, the declared type and the value of that type; lists are below *)
Inductive arg_says : targ -> caselit -> Prop :=
| Arg_null text d t : declares d t -> get_nullability t = 1 -> arg_says (GNull text d) (Case t text (CLit (LNull t)))
| Arg_int text p null v : In p [PrimI8; PrimI16; PrimI32; PrimI64] -> says_value (TPrim p (nul null) 0) text v ->
    arg_says (GInt text p null) (Case (TPrim p (nul null) 0) text (CLit v))
| Arg_float text p null v : In p [PrimFp32; PrimFp64] -> says_value (TPrim p (nul null) 0) text v ->
    arg_says (GFloat text p null) (Case (TPrim p (nul null) 0) text (CLit v))
| Arg_string text s null v : unquoted text s -> says_value (TPrim PrimString (nul null) 0) s v ->
    arg_says (GString text null) (Case (TPrim PrimString (nul null) 0) text (CLit v))
| Arg_decimal text ps null t v : declares (DDecimal ps null) t -> says_value t text v ->
    arg_says (GDecimal text ps null) (Case t text (CLit v))
| Arg_fixed k text s len null t v : declares (DFixed k len null) t -> unquoted text s -> says_value t s v ->
    arg_says (GFixed k text len null) (Case t text (CLit v))
| Arg_own a k p text null v : own_type k p ->
    In (k, a) [(KBool, GBool text null); (KDate, GDate text null); (KTime, GTime text null); (KTs, GTs text null);
               (KTsTz, GTsTz text null); (KIntervalYear, GIntervalYear text null)] ->
    says_own k text null v -> arg_says a (Case (TPrim p (nul null) 0) text (CLit v))
| Arg_interval_day text pt null q d : declares (DIntervalDay pt null) (TIntervalDay (nul null) 0 q) -> interval_at text q d ->
    arg_says (GIntervalDay text pt null) (Case (TIntervalDay (nul null) 0 q) text (CLit (LProto (XDaySecond d) (TIntervalDay (nul null) 0 q))))
| Arg_prec_time text s pt null p z z' : parameter pt p -> unquoted text s -> new_precision_time_from_string p s = Ok z ->
    change_precision z p p = Ok z' ->
    arg_says (GPrecTime text pt null) (Case (TPrecTime (nul null) 0 p) text (CLit (LProto (XInt64 z') (TPrecTime (nul null) 0 p))))
| Arg_prec_ts text s pt null p z z' : parameter pt p -> unquoted text s -> new_precision_timestamp_from_string p s = Ok z ->
    change_precision z p p = Ok z' ->
    arg_says (GPrecTs text pt null) (Case (TPrecTs (nul null) 0 p) text (CLit (LProto (XInt64 z') (TPrecTs (nul null) 0 p))))
| Arg_prec_tstz text s pt null p z z' : parameter pt p -> unquoted text s -> new_precision_timestamp_tz_from_string p s = Ok z ->
    change_precision z p p = Ok z' ->
    arg_says (GPrecTsTz text pt null) (Case (TPrecTsTz (nul null) 0 p) text (CLit (LProto (XInt64 z') (TPrecTsTz (nul null) 0 p))))
| Arg_enum name : arg_says (GEnum name) (Case (TEnum true 0 0 "" []) name (CEnum name)).

Definition is_list (a : targ) : Prop := exists es d null, a = GList es d null.

(** ** lists *)

Definition nullable_as (t : ty) (null : bool) : Prop := null = true <-> get_nullability t = 1.

(** a literal where a value of type [t] is expected: [None] if it is left out *)
Inductive literal_says (t : ty) : tlit -> option lit -> Prop :=
| Lit_own k text null v : k <> KIntervalDay -> nullable_as t null -> says_own k text null v -> literal_says t (Tlit k text) (Some v)
| Lit_interval_other text null v : (forall n v' p, t <> TIntervalDay n v' p) -> nullable_as t null -> says_own KIntervalDay text null v ->
    literal_says t (Tlit KIntervalDay text) (Some v)
| Lit_interval n v q text d : t = TIntervalDay n v q -> interval_at text q d ->
    literal_says t (Tlit KIntervalDay text) (Some (LProto (XDaySecond d) t))
| Lit_number text v : takes_text t -> says_value t text v -> literal_says t (Tlit KNum text) (Some v)
| Lit_number_dropped text : ~ takes_text t -> literal_says t (Tlit KNum text) None
| Lit_string text s v : takes_text t -> unquoted text s -> says_value t s v -> literal_says t (Tlit KStr text) (Some v)
| Lit_string_kept text s : ~ takes_text t -> unquoted text s ->
    literal_says t (Tlit KStr text) (Some (LPrim (VString s) (TPrim PrimString 2 0)))
| Lit_null text t' : t' = with_nullability 1 t -> literal_says t (Tlit KNull text) (Some (LNull t')).

Definition kept {A} (os : list (option A)) : list A := flat_map (fun o => match o with Some x => [x] | None => [] end) os.
Definition of_one_type (vs : list lit) : Prop := exists t, Forall (fun v => lit_type v = Ok t) vs.

(** the elements of a list of [t]; an inner list is for the elements of [t], if that is a list, and else for [t] itself *)
Definition inner_type (t : ty) : ty := match t with TList _ _ e => e | _ => t end.
Inductive element_says : ty -> element -> option lit -> Prop :=
| Elem_lit t l o : literal_says t l o -> element_says t (ELit l) o
| Elem_list t es os v0 vs t0 : Forall2 (element_says (inner_type t)) es os -> kept os = v0 :: vs ->
    Forall (fun v => lit_type v = Ok t0) (v0 :: vs) ->
    element_says t (EList es) (Some (LList (v0 :: vs) (TList 2 0 t0)))
| Elem_empty t es os n v t1 : Forall2 (element_says (inner_type t)) es os -> kept os = [] -> inner_type t = TList n v t1 ->
    element_says t (EList es) (Some (LList [] (TList 2 0 t1))).

(** the element type at the bottom of lists of lists *)
Fixpoint bottom (t : ty) : ty := match t with TList _ _ e => bottom e | _ => t end.
Fixpoint has_null (e : element) : bool :=
  match e with
  | ELit l => match t_kind l with KNull => true | _ => false end
  | EList es => existsb has_null es
  end.
(** no null where elements are day-time intervals of a type that is not nullable *)
Definition unshared (t : ty) (nulls : bool) : Prop :=
  nulls = true -> forall n v p, bottom t = TIntervalDay n v p -> n = 1.

End Floats.

(** ** files *)

(** the value of the last option of a name *)
Definition last_of (n : string) (ps : list (string * string)) (v : string) : Prop :=
  exists before after, ps = (before ++ (n, v) :: after)%list /\ forall w, ~ In (n, w) after.
Definition options_say (o : toptions) (m : fmap string string) : Prop :=
  forall n v, fm_get String.eqb n m = Some v <-> exists ps, o = Some ps /\ last_of n ps v.

Section Files.
(** how an argument and an aggregate call are read *)
Variable arg : targ -> caselit -> Prop.
Variable call : aggcall -> callparts -> Prop.

Inductive result_says : tresult -> outcome -> Prop :=
| Result_value a c : arg a c -> result_says (RArg a) (OValue c)
| Result_error : result_says RError OError
| Result_undefined : result_says RUndefined OUndefined.

Inductive case_says (uri desc : string) : string * list targ * toptions * tresult -> tcase -> Prop :=
| Case_scalar name args opts r cs o m : Forall2 arg args cs -> result_says r o -> options_say opts m ->
    case_says uri desc (name, args, opts, r)
      {| k_uri := uri; k_group := desc; k_name := name; k_args := cs; k_aggargs := []; k_result := o; k_options := m;
         k_columns := []; k_table := ""; k_coltypes := []; k_aggregate := false |}.
Inductive agg_case_says (uri desc : string) : aggcall * toptions * tresult -> tcase -> Prop :=
| Case_aggregate c opts r name args cols table types o m : call c (name, args, cols, table, types) -> result_says r o -> options_say opts m ->
    agg_case_says uri desc (c, opts, r)
      {| k_uri := uri; k_group := desc; k_name := name; k_args := []; k_aggargs := args; k_result := o; k_options := m;
         k_columns := cols; k_table := table; k_coltypes := types; k_aggregate := true |}.
Inductive group_says (uri : string) : bool -> tgroup -> list tcase -> Prop :=
| Group_scalar text desc cases ks : describes text desc -> Forall2 (case_says uri desc) cases ks ->
    group_says uri false (GroupScalar (Some text) cases) ks
| Group_aggregate text desc cases ks : describes text desc -> Forall2 (agg_case_says uri desc) cases ks ->
    group_says uri true (GroupAgg (Some text) cases) ks.
(** a file: its cases are those of its groups, in the order of the text *)
Inductive file_says : tdoc -> tfile -> Prop :=
| File aggregate version inc more groups uri kss : unquoted inc uri -> Forall2 (group_says uri aggregate) groups kss ->
    file_says {| d_aggregate := aggregate; d_version := version; d_includes := inc :: more; d_groups := groups |}
      {| f_version := version; f_aggregate := aggregate; f_uri := uri; f_cases := List.concat kss |}.
End Files.
