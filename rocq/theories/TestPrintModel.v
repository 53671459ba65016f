(** Model of how function test cases are printed: /repo/testcases/parser/nodes.go 44-92, 137-240,
    458-466, 512-520, and of the value texts of literals (/repo/expr/literals.go).

    Texts of floating point numbers (fmt's %v), of decimals (the apd library) and of values
    test cases do not contain (structs, maps, UUIDs, user-defined and compound values) are parameters.
    A nil value, which prints NULL (nodes.go 45), does not occur in cases that are read and is left out. *)

From Coq Require Import ZArith String Ascii Bool List.
From Verif Require Import Base FMap TypesModel SigModel LitModel TimeModel CalModel IntervalModel TestCaseModel.
Import ListNotations.
Local Open Scope string_scope.
Local Open Scope Z_scope.

Section Print.
Variable float_text : Z -> string.
Variable decimal_text : list Z -> Z -> string.
Variable other_text : lit -> string.

Definition bool_text (b : bool) : string := if b then "true" else "false".
(** encoding/hex *)
Definition hex_digit (z : Z) : string :=
  match get (Z.to_nat z) "0123456789abcdef" with Some c => String c "" | None => "" end.
Definition hex_text (l : list Z) : string := String.concat "" (map (fun b => hex_digit (b / 16) ++ hex_digit (b mod 16)) l).
(** fmt's %v of a byte slice *)
Definition slice_text (l : list Z) : string := "[" ++ join " " (map string_of_Z l) ++ "]".

(** literals.go 163-168: %v, or the text of a time *)
Definition pval_text (v : pval) : string :=
  match v with
  | VBool b => bool_text b
  | VI8 z | VI16 z | VI32 z | VI64 z => string_of_Z z
  | VFp32 f | VFp64 f => float_text f
  | VString s | VFixedChar s | VOther s => s
  | VTimestamp z => timestamp_text z
  | VDate z => date_text z
  | VTime z => time_text z
  | VTimestampTz z => timestamp_tz_text z
  end.

(** literals.go 114, 163, 265, 360, 428, 527-549; interval_year_to_month.go 54;
    interval_compound_literal.go 95 [ValueString].  A type assertion that fails panics; the
    two interval cases read zeros from another value. *)
Fixpoint value_string (l : lit) : res string :=
  match l with
  | LNil => Panic
  | LNull _ => Ok "null"
  | LPrim v _ => Ok (pval_text v)
  | LList es _ => let! items := mapM value_string es in Ok ("[" ++ join ", " items ++ "]")
  | LBytes BkFixedBinary s _ => Ok ("0x" ++ hex_text s)
  | LBytes BkBinary s _ => Ok (slice_text s)
  | LBytes BkUuid _ _ => Ok (other_text l)
  | LProto v t =>
      match t with
      | TPrecTime _ _ p => match v with XInt64 z => precision_time_text p z | _ => Panic end
      | TPrecTs _ _ p => match v with XInt64 z => precision_timestamp_text p z | _ => Panic end
      | TPrecTsTz _ _ p => match v with XInt64 z => precision_timestamp_tz_text p z | _ => Panic end
      | TDecimal _ _ _ s =>
          match v with
          | XBytes b => if (List.length b <? 16)%nat then Panic else Ok (decimal_text (firstn 16 b) s)
          | _ => Panic
          end
      | TPrim PrimIntervalYear _ _ =>
          let (y, m) := match v with XYearMonth y m => (y, m) | _ => (0, 0) end in
          Ok (string_of_Z y ++ " years, " ++ string_of_Z m ++ " months")
      | TIntervalDay _ _ _ =>
          let '(d, s, ss) := match v with XDaySecond i => (id_days i, id_secs i, id_sub i) | _ => (0, 0, 0) end in
          Ok (string_of_Z d ++ " days, " ++ string_of_Z s ++ " seconds, " ++ string_of_Z ss ++ " subseconds")
      | _ => match v with XString s => Ok s | _ => Ok (other_text l) end
      end
  | LStruct _ _ | LMap _ _ | LYearMonth _ _ _ | LCompound _ _ _ _ _ _ _ => Ok (other_text l)
  end.

(** literals.go 170-176, 553-586 [IsoValueString], which only these two have *)
Definition iso_value_string (l : lit) : option (res string) :=
  match l with
  | LPrim v _ =>
      Some (Ok match v with
               | VTime z => time_iso z
               | VTimestamp z => timestamp_iso z
               | VTimestampTz z => timestamp_tz_iso z
               | _ => pval_text v
               end)
  | LProto v t =>
      Some match t with
           | TPrecTime _ _ p => match v with XInt64 z => precision_time_iso p z | _ => Panic end
           | TPrecTs _ _ p => match v with XInt64 z => precision_timestamp_iso p z | _ => Panic end
           | TPrecTsTz _ _ p => match v with XInt64 z => precision_timestamp_tz_iso p z | _ => Panic end
           | TPrim PrimIntervalYear _ _ =>
               let (y, m) := match v with XYearMonth y m => (y, m) | _ => (0, 0) end in
               Ok (print_interval_years_to_month y m)
           | TIntervalDay _ _ p =>
               let '(d, s, ss) := match v with XDaySecond i => (id_days i, id_secs i, id_sub i) | _ => (0, 0, 0) end in
               interval_day_iso d s ss p
           | _ => value_string l
           end
  | _ => None
  end.

Definition quoted (s : string) : string := "'" ++ s ++ "'".

(** nodes.go 65-71: the types whose ISO text is quoted *)
Definition iso_quoted (t : ty) : bool :=
  match t with
  | TPrim p _ _ => match p with PrimIntervalYear | PrimTimestamp | PrimTime | PrimTimestampTz => true | _ => false end
  | TIntervalDay _ _ _ | TPrecTime _ _ _ | TPrecTs _ _ _ | TPrecTsTz _ _ _ => true
  | _ => false
  end.
(** 73-77: the types whose text is quoted *)
Definition text_quoted (t : ty) : bool :=
  match t with
  | TPrim p _ _ => match p with PrimString | PrimBinary | PrimDate => true | _ => false end
  | TFixed _ _ _ _ => true
  | _ => false
  end.

(** 55-81 [literalToString] *)
Definition literal_text (l : lit) : res string :=
  match l with
  | LNil => Panic
  | LNull _ => value_string l
  | _ =>
      let! t := lit_type l in
      match (if iso_quoted t then iso_value_string l else None) with
      | Some r => let! s := r in Ok (quoted s)
      | None => let! s := value_string l in Ok (if text_quoted t then quoted s else s)
      end
  end.

(** 44-53 [CaseLiteral.String] *)
Definition case_text (c : caselit) : res string :=
  match c_value c with
  | CLit l => let! s := literal_text l in Ok (s ++ "::" ++ type_string (c_type c))
  | CEnum _ => Ok (c_text c ++ "::enum")
  end.

(** 83-92 [AsAggregateArgumentString] *)
Definition aggregate_argument_text (c : caselit) : res string :=
  match c_value c with
  | CLit (LList es _) => let! items := mapM literal_text es in Ok ("(" ++ join ", " items ++ ")::" ++ type_string (c_type c))
  | _ => Ok (c_text c ++ "::" ++ type_string (c_type c))
  end.

(** 458-466 [AggregateArgument.String]; a nil argument or type panics *)
Definition aggarg_text (a : aggarg) : res string :=
  if a_scalar a then match a_arg a with Some c => case_text c | None => Panic end
  else if String.eqb (a_column a) "" then match a_arg a with Some c => aggregate_argument_text c | None => Panic end
  else match a_type a with Some t => Ok (a_column a ++ "::" ++ type_string t) | None => Panic end.

(** 512-520 and 44 *)
Definition outcome_text (o : outcome) : res string :=
  match o with OValue c => case_text c | OError => Ok "<!ERROR>" | OUndefined => Ok "<!UNDEFINED>" end.

(** 225-240 [getOptionString], the options in the order the map is ranged over *)
Definition option_text (order : list (string * string)) : string :=
  match order with
  | [] => ""
  | _ => " [" ++ join "," (map (fun kv => fst kv ++ ":" ++ snd kv) order) ++ "]"
  end.

(** 182-196 [needCompactAggregateFuncCall] *)
Definition compact (k : tcase) : bool :=
  match k_aggargs k with
  | [] => true
  | args => existsb (fun a => a_scalar a || negb (String.eqb (a_column a) "")) args
  end.

(** 198-223 [getAggregateFuncTableString]: the first column gives the number of rows; a shorter one
    panics *)
Definition row_text (columns : list (list lit)) (i : nat) : res string :=
  let! items := mapM (fun col => match nth_error col i with Some l => literal_text l | None => Panic end) columns in
  Ok ("(" ++ join ", " items ++ ")").
Definition table_text (columns : list (list lit)) : res string :=
  match columns with
  | [] => Ok ""
  | c :: _ => let! rows := mapM (row_text columns) (seq 0 (List.length c)) in Ok ("(" ++ join ", " rows ++ ")")
  end.

(** 137-180 [TestCase.String]; the function type is one of the two for every case that is read *)
Definition case_string (order : list (string * string)) (k : tcase) : res string :=
  let! head := if k_aggregate k && compact k then let! t := table_text (k_columns k) in Ok (t ++ " ") else Ok "" in
  let! args := if k_aggregate k then mapM aggarg_text (k_aggargs k) else mapM case_text (k_args k) in
  let! result := outcome_text (k_result k) in
  Ok (head ++ k_name k ++ "(" ++ join ", " args ++ ")" ++ option_text order ++ " = " ++ result).
End Print.
