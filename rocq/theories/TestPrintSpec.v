(** Specification of how function test cases print (C69), written without the printer's functions.  The texts of dates and times are
    those of C60 and C61, those of day-time intervals of C62; names of types are those of the public API. *)

From Coq Require Import ZArith String Ascii Bool List.
From Verif Require Import Base TypesModel LitModel TimeSpec IntervalModel CalSpec TestCaseModel TestCaseSpec.
Import ListNotations.
Local Open Scope string_scope.
Local Open Scope Z_scope.

(** ** texts *)

(** a whole number: a sign if it is negative, and digits without zeros in front *)
Inductive prints_whole : Z -> string -> Prop :=
| Not_negative z s : padded 1 z s -> prints_whole z s
| Negative z s : 0 < z -> padded 1 z s -> prints_whole (- z) ("-" ++ s).

Inductive separated (sep : string) : list string -> string -> Prop :=
| Sep_none : separated sep [] ""
| Sep_one x : separated sep [x] x
| Sep_more x y l s : separated sep (y :: l) s -> separated sep (x :: y :: l) (x ++ sep ++ s).

(** bytes: two hexadecimal digits each *)
Definition hex (z : Z) : ascii :=
  nth (Z.to_nat z) ["0"; "1"; "2"; "3"; "4"; "5"; "6"; "7"; "8"; "9"; "a"; "b"; "c"; "d"; "e"; "f"]%char "0"%char.
Inductive prints_hex : list Z -> string -> Prop :=
| Hex_none : prints_hex [] ""
| Hex_byte h l bs s : 0 <= h < 16 -> 0 <= l < 16 -> prints_hex bs s -> prints_hex (16 * h + l :: bs) (String (hex h) (String (hex l) s)).

(** the instant of a count of units of [10 ^ -p] seconds *)
Definition clock_at (p u : Z) (x : date) (c : clock) : Prop := moment (u * 10 ^ (9 - p)) x c.

(** what is in quotes with its value as it is, and what is not in quotes *)
Inductive quoted_kind : lit -> Prop :=
| Quoted_prim v p n w : In p [PrimString; PrimDate] -> quoted_kind (LPrim v (TPrim p n w))
| Quoted_char v k n w len : quoted_kind (LPrim v (TFixed k n w len))
| Quoted_varchar s k n w len : quoted_kind (LProto (XString s) (TFixed k n w len))
| Quoted_binary bs n w : quoted_kind (LBytes BkBinary bs (TPrim PrimBinary n w))
| Quoted_fixed bs k n w len : quoted_kind (LBytes BkFixedBinary bs (TFixed k n w len)).
Inductive plain_kind : lit -> Prop :=
| Plain_null t : plain_kind (LNull t)
| Plain_prim v p n w : In p [PrimBool; PrimI8; PrimI16; PrimI32; PrimI64; PrimFp32; PrimFp64] -> plain_kind (LPrim v (TPrim p n w))
| Plain_decimal b n w p s : plain_kind (LProto (XBytes b) (TDecimal n w p s))
| Plain_list es n w t : plain_kind (LList es (TList n w t)).

Section Print.
Variable float_text : Z -> string.
Variable decimal_text : list Z -> Z -> string.

(** the value of a literal alone *)
Inductive prints_value : lit -> string -> Prop :=
| Value_null t : prints_value (LNull t) "null"
| Value_true t : prints_value (LPrim (VBool true) t) "true"
| Value_false t : prints_value (LPrim (VBool false) t) "false"
| Value_int v z t s : In v [VI8 z; VI16 z; VI32 z; VI64 z] -> prints_whole z s -> prints_value (LPrim v t) s
| Value_float v f t : In v [VFp32 f; VFp64 f] -> prints_value (LPrim v t) (float_text f)
| Value_string v s t : In v [VString s; VFixedChar s] -> prints_value (LPrim v t) s
| Value_varchar s k n v len : prints_value (LProto (XString s) (TFixed k n v len)) s
| Value_date n t x s : calendar n x -> prints_date 3 x s -> prints_value (LPrim (VDate n) t) s
| Value_time z t x c s : clock_at 6 z x c -> prints_clock no_frac c s -> prints_value (LPrim (VTime z) t) s
| Value_ts z t x c s : clock_at 6 z x c -> prints_stamp " " shortest "" x c s -> prints_value (LPrim (VTimestamp z) t) s
| Value_tstz z t x c s : clock_at 6 z x c -> prints_stamp "T" shortest "Z" x c s -> prints_value (LPrim (VTimestampTz z) t) s
| Value_prec_time z n v p x c s : clock_at p z x c -> prints_clock shortest c s -> prints_value (LProto (XInt64 z) (TPrecTime n v p)) s
| Value_prec_ts z n v p x c s : clock_at p z x c -> prints_stamp " " shortest "" x c s -> prints_value (LProto (XInt64 z) (TPrecTs n v p)) s
| Value_prec_tstz z n v p x c s : clock_at p z x c -> prints_stamp "T" shortest "Z" x c s -> prints_value (LProto (XInt64 z) (TPrecTsTz n v p)) s
| Value_decimal b n v p sc : List.length b = 16%nat -> prints_value (LProto (XBytes b) (TDecimal n v p sc)) (decimal_text b sc)
| Value_year y m n v ys ms : prints_whole y ys -> prints_whole m ms ->
    prints_value (LProto (XYearMonth y m) (TPrim PrimIntervalYear n v)) (ys ++ " years, " ++ ms ++ " months")
| Value_day i n v p ds ss us : prints_whole (id_days i) ds -> prints_whole (id_secs i) ss -> prints_whole (id_sub i) us ->
    prints_value (LProto (XDaySecond i) (TIntervalDay n v p)) (ds ++ " days, " ++ ss ++ " seconds, " ++ us ++ " subseconds")
| Value_fixed_binary bs t s : prints_hex bs s -> prints_value (LBytes BkFixedBinary bs t) ("0x" ++ s)
| Value_binary bs t ws s : Forall2 prints_whole bs ws -> separated " " ws s -> prints_value (LBytes BkBinary bs t) ("[" ++ s ++ "]")
| Value_list es t ws s : Forall2 prints_value es ws -> separated ", " ws s -> prints_value (LList es t) ("[" ++ s ++ "]").

(** a literal in a test case: in quotes, with times and intervals in the form of ISO 8601, or its value alone *)
Inductive prints_literal : lit -> string -> Prop :=
| Literal_time z n v x c s : clock_at 6 z x c -> prints_clock (frac_of 6) c s ->
    prints_literal (LPrim (VTime z) (TPrim PrimTime n v)) ("'" ++ s ++ "'")
| Literal_ts z n v x c s : clock_at 6 z x c -> prints_stamp "T" shortest "" x c s ->
    prints_literal (LPrim (VTimestamp z) (TPrim PrimTimestamp n v)) ("'" ++ s ++ "'")
| Literal_tstz z n v x c s : clock_at 6 z x c -> prints_stamp "T" shortest "" x c s ->
    prints_literal (LPrim (VTimestampTz z) (TPrim PrimTimestampTz n v)) ("'" ++ s ++ "'")
| Literal_prec_time z n v p x c s : clock_at p z x c -> prints_clock shortest c s ->
    prints_literal (LProto (XInt64 z) (TPrecTime n v p)) ("'" ++ s ++ "'")
| Literal_prec_ts z n v p x c s : clock_at p z x c -> prints_stamp "T" shortest "" x c s ->
    prints_literal (LProto (XInt64 z) (TPrecTs n v p)) ("'" ++ s ++ "'")
| Literal_prec_tstz z n v p x c s : clock_at p z x c -> prints_stamp "T" (frac_of 3) "+00:00" x c s ->
    prints_literal (LProto (XInt64 z) (TPrecTsTz n v p)) ("'" ++ s ++ "'")
| Literal_year y m n v ys ms : prints_whole y ys -> prints_whole m ms ->
    prints_literal (LProto (XYearMonth y m) (TPrim PrimIntervalYear n v)) ("'P" ++ ys ++ "Y" ++ ms ++ "M'")
| Literal_day i n v p s : interval_day_iso (id_days i) (id_secs i) (id_sub i) p = Ok s ->
    prints_literal (LProto (XDaySecond i) (TIntervalDay n v p)) ("'" ++ s ++ "'")
| Literal_quoted l s : quoted_kind l -> prints_value l s -> prints_literal l ("'" ++ s ++ "'")
| Literal_plain l s : plain_kind l -> prints_value l s -> prints_literal l s.

(** an argument or a result: its value and its type; an enum prints the text it was read from *)
Inductive prints_argument : caselit -> string -> Prop :=
| Argument_literal t text l s : prints_literal l s -> prints_argument (Case t text (CLit l)) (s ++ "::" ++ type_string t)
| Argument_enum t text e : prints_argument (Case t text (CEnum e)) (text ++ "::enum").

Inductive prints_outcome : outcome -> string -> Prop :=
| Outcome_value c s : prints_argument c s -> prints_outcome (OValue c) s
| Outcome_error : prints_outcome OError "<!ERROR>"
| Outcome_undefined : prints_outcome OUndefined "<!UNDEFINED>".

(** an argument of an aggregate function: a constant, a column by its name, or the values of the only column *)
Inductive prints_aggregate : aggarg -> string -> Prop :=
| Agg_constant c table col t i s : prints_argument c s -> prints_aggregate (AggArg (Some c) table col t i true) s
| Agg_column c table col t i : col <> "" -> prints_aggregate (AggArg c table col (Some t) i false) (col ++ "::" ++ type_string t)
| Agg_values es lt t text table ct i ws s : Forall2 prints_literal es ws -> separated ", " ws s ->
    prints_aggregate (AggArg (Some (Case t text (CLit (LList es lt)))) table "" ct i false) ("(" ++ s ++ ")::" ++ type_string t).

(** the options, in any order *)
Inductive prints_options : list (string * string) -> string -> Prop :=
| Options_none : prints_options [] ""
| Options_some o os s : separated "," (map (fun kv => fst kv ++ ":" ++ snd kv) (o :: os)) s -> prints_options (o :: os) (" [" ++ s ++ "]").

(** the table, by rows *)
Inductive prints_row (columns : list (list lit)) (i : nat) : string -> Prop :=
| Row cells ws s : Forall2 (fun col cell => nth_error col i = Some cell) columns cells -> Forall2 prints_literal cells ws -> separated ", " ws s ->
    prints_row columns i ("(" ++ s ++ ")").
Inductive prints_table : list (list lit) -> string -> Prop :=
| Table_none : prints_table [] ""
| Table_rows col cols rows s : List.length rows = List.length col ->
    (forall i w, nth_error rows i = Some w -> prints_row (col :: cols) i w) -> separated ", " rows s ->
    prints_table (col :: cols) ("(" ++ s ++ ")").

(** the whole case *)
Definition one_column (k : tcase) : Prop := k_aggargs k <> [] /\ Forall (fun a => a_scalar a = false /\ a_column a = "") (k_aggargs k).
Inductive prints_case (order : list (string * string)) (k : tcase) : string -> Prop :=
| Scalar ws args opts r : k_aggregate k = false -> Forall2 prints_argument (k_args k) ws -> separated ", " ws args ->
    prints_options order opts -> prints_outcome (k_result k) r ->
    prints_case order k (k_name k ++ "(" ++ args ++ ")" ++ opts ++ " = " ++ r)
| One_column ws args opts r : k_aggregate k = true -> one_column k -> Forall2 prints_aggregate (k_aggargs k) ws -> separated ", " ws args ->
    prints_options order opts -> prints_outcome (k_result k) r ->
    prints_case order k (k_name k ++ "(" ++ args ++ ")" ++ opts ++ " = " ++ r)
| On_table table ws args opts r : k_aggregate k = true -> ~ one_column k -> prints_table (k_columns k) table ->
    Forall2 prints_aggregate (k_aggargs k) ws -> separated ", " ws args -> prints_options order opts -> prints_outcome (k_result k) r ->
    prints_case order k (table ++ " " ++ k_name k ++ "(" ++ args ++ ")" ++ opts ++ " = " ++ r).

End Print.

(** ** which literals occur *)

Fixpoint test_literal (l : lit) : Prop :=
  match l with
  | LNull _ => True
  | LPrim v t =>
      match v, t with
      | VBool _, TPrim PrimBool _ _ | VI8 _, TPrim PrimI8 _ _ | VI16 _, TPrim PrimI16 _ _ | VI32 _, TPrim PrimI32 _ _
      | VI64 _, TPrim PrimI64 _ _ | VFp32 _, TPrim PrimFp32 _ _ | VFp64 _, TPrim PrimFp64 _ _ | VString _, TPrim PrimString _ _
      | VFixedChar _, TFixed FxChar _ _ _ | VDate _, TPrim PrimDate _ _ => True
      | VTime z, TPrim PrimTime _ _ | VTimestamp z, TPrim PrimTimestamp _ _ | VTimestampTz z, TPrim PrimTimestampTz _ _ => in_int 64 z
      | _, _ => False
      end
  | LProto v t =>
      match v, t with
      | XString _, TFixed FxVarChar _ _ _ | XYearMonth _ _, TPrim PrimIntervalYear _ _ | XDaySecond _, TIntervalDay _ _ _ => True
      | XInt64 z, TPrecTime _ _ p | XInt64 z, TPrecTs _ _ p | XInt64 z, TPrecTsTz _ _ p => in_int 64 z /\ 0 <= p <= 9
      | XBytes b, TDecimal _ _ _ _ => List.length b = 16%nat
      | _, _ => False
      end
  | LBytes BkFixedBinary bs (TFixed FxBinary _ _ _) | LBytes BkBinary bs (TPrim PrimBinary _ _) => Forall (fun b => 0 <= b < 256) bs
  | LList es (TList _ _ _) => (fix all l := match l with [] => True | x :: l' => test_literal x /\ all l' end) es
  | _ => False
  end.
(** a day-time interval with a positive time prints only at a precision there is a unit for *)
Definition printable (l : lit) : Prop :=
  match l with LProto (XDaySecond i) (TIntervalDay _ _ p) => 0 <= p <= 9 \/ id_secs i <= 0 /\ id_sub i <= 0 | _ => True end.

(** the literals a case shows *)
Definition shown_value (c : caselit) : list lit := match c_value c with CLit l => [l] | CEnum _ => [] end.
Definition shown_aggregate (a : aggarg) : list lit :=
  match a_arg a with
  | Some c => if a_scalar a then shown_value c else match c_value c with CLit (LList es _) => es | _ => [] end
  | None => []
  end.
Definition shown (k : tcase) : list lit :=
  (flat_map shown_value (k_args k) ++ flat_map shown_aggregate (k_aggargs k) ++ List.concat (k_columns k) ++
   match k_result k with OValue c => shown_value c | _ => [] end)%list.

(** ** reading what was printed *)

(** an argument of the same kind and declared type with another text *)
Definition with_text (a : targ) (s : string) : targ :=
  match a with
  | GNull _ d => GNull s d
  | GInt _ p n => GInt s p n
  | GFloat _ p n => GFloat s p n
  | GBool _ n => GBool s n
  | GString _ n => GString s n
  | GDecimal _ ps n => GDecimal s ps n
  | GDate _ n => GDate s n
  | GTime _ n => GTime s n
  | GTs _ n => GTs s n
  | GTsTz _ n => GTsTz s n
  | GIntervalYear _ n => GIntervalYear s n
  | GIntervalDay _ p n => GIntervalDay s p n
  | GFixed k _ len n => GFixed k s len n
  | GPrecTime _ p n => GPrecTime s p n
  | GPrecTs _ p n => GPrecTs s p n
  | GPrecTsTz _ p n => GPrecTsTz s p n
  | GList es d n => GList es d n
  | GEnum _ => GEnum s
  | GOther => GOther
  end.

(** the year at a count of units of [10 ^ -p] seconds has four digits *)
Definition four_digits (p u : Z) : Prop := exists x c, clock_at p u x c /\ 0 <= d_year x <= 9999.

(** which literals print a text that says them: no instants in other years or below the digits printed, day-time intervals of days or
    whole seconds that are not negative, no binary values and lists, and numbers whose own texts say them *)
Definition reads_back (parse_float : string -> res Z) (to_float32 : Z -> Z) (float_text : Z -> string) (decimal_text : list Z -> Z -> string)
    (l : lit) : Prop :=
  match l with
  | LPrim (VFp32 f) _ => exists g, parse_float (float_text f) = Ok g /\ to_float32 g = f
  | LPrim (VFp64 f) _ => parse_float (float_text f) = Ok f
  | LPrim (VTimestamp z) _ | LPrim (VTimestampTz z) _ => four_digits 6 z
  | LProto (XInt64 z) (TPrecTs _ _ p) => four_digits p z /\ in_int 64 (z * 10 ^ (clock_precision p - p))
  | LProto (XInt64 z) (TPrecTsTz _ _ p) => four_digits p z /\ in_int 64 (z * 10 ^ (clock_precision p - p)) /\ p <= 3
  | LProto (XDaySecond i) (TIntervalDay _ _ p) =>
      id_sub i = 0 /\ 0 <= id_days i /\ (0 < id_secs i /\ 0 <= p <= 9 \/ id_secs i = 0 /\ 0 < id_days i)
  | LProto (XBytes b) (TDecimal _ _ p s) => decimal_value (decimal_text b s) p s b
  | LBytes _ _ _ | LList _ _ => False
  | _ => True
  end.
