(** Specification of aggregate function calls in test cases (C66). *)

From Coq Require Import ZArith String Ascii Bool List.
From Verif Require Import Base FMap TypesModel LitModel TimeModel CalModel IntervalModel CalSpec DecimalSpec DecTextModel DecTextSpec TextSpec TestCaseModel TestCaseSpec.
Import ListNotations.
Local Open Scope string_scope.
Local Open Scope Z_scope.

Section Floats.
Variable parse_float : string -> res Z.
Variable to_float32 : Z -> Z.
Notation says_value := (says_value parse_float to_float32).
Notation arg_says := (arg_says parse_float to_float32).
Notation literal_says := (literal_says parse_float to_float32).
Notation element_says := (element_says parse_float to_float32).

(** ** tables *)

(** the text of a cell that is a number or a string *)
Inductive cell_text : tlit -> string -> Prop :=
| Cell_number text : cell_text (Tlit KNum text) text
| Cell_string text s : unquoted text s -> cell_text (Tlit KStr text) s.

(** the value of a cell in a column of a type, or in a column whose type is not known *)
Inductive table_cell (t : option ty) : tlit -> lit -> Prop :=
| Cell_own k text v : says_own k text false v -> table_cell t (Tlit k text) v
| Cell_null text t' : t = Some t' -> table_cell t (Tlit KNull text) (LNull (with_nullability 1 t'))
| Cell_value l s t' v : cell_text l s -> t = Some t' -> takes_text t' -> says_value t' s v -> table_cell t l v
| Cell_untyped l s : cell_text l s -> (forall t', t = Some t' -> ~ takes_text t') -> table_cell t l (LPrim (VString s) (TPrim PrimString 2 0)).

(** a cell that can be read at all *)
Definition readable (l : tlit) : Prop :=
  t_kind l = KNull \/ (exists s, cell_text l s) \/ exists v, says_own (t_kind l) (t_text l) false v.

(** column [i] of a table *)
Definition column_says (rows : list (list tlit)) (i : nat) (t : option ty) (cells : list lit) (t' : option ty) : Prop :=
  Forall2 (fun row v => exists l, nth_error row i = Some l /\ table_cell t l v) rows cells /\
  ((exists row l, In row rows /\ nth_error row i = Some l /\ t_kind l = KNull) -> exists u, t = Some u /\ t' = Some (with_nullability 1 u)) /\
  ((forall row l, In row rows -> nth_error row i = Some l -> t_kind l <> KNull) -> t' = t).

Definition table_says (rows : list (list tlit)) (ts : list (option ty)) (cols : list (list lit)) (ts' : list (option ty)) : Prop :=
  Forall (Forall readable) rows /\ List.length cols = List.length ts /\ List.length ts' = List.length ts /\
  forall i t col t', nth_error ts i = Some t -> nth_error cols i = Some col -> nth_error ts' i = Some t' -> column_says rows i t col t'.

(** ** arguments *)

(** An argument that is not a column is the text, the type declared and a value of the type the text has by itself. *)
Inductive raw_arg : targ -> caselit -> Prop :=
| Raw_same a c : (exists p n v, c_type c = TPrim p n v) \/ (exists b n v name os, c_type c = TEnum b n v name os) \/ (exists text d, a = GNull text d) ->
    ~ is_list a -> arg_says a c -> raw_arg a c
| Raw_decimal text ps null t b p s : declares (DDecimal ps null) t -> decimal_string_to_bytes text = Ok (b, p, s) ->
    raw_arg (GDecimal text ps null) (Case t text (CLit (LProto (XBytes b) (TDecimal (nul null) 0 p s))))
| Raw_interval text p null t v : declares (DIntervalDay p null) t -> says_own KIntervalDay text null v ->
    raw_arg (GIntervalDay text p null) (Case t text (CLit v))
| Raw_fixed k text len null t s v : declares (DFixed k len null) t -> unquoted text s ->
    Z.of_nat (String.length s) < 2 ^ 31 -> says_value (TFixed k (nul null) 0 (Z.of_nat (String.length s))) s v ->
    raw_arg (GFixed k text len null) (Case t text (CLit v))
| Raw_prec_time text s pt null p z : parameter pt p -> unquoted text s -> new_precision_time_from_string p s = Ok z ->
    raw_arg (GPrecTime text pt null) (Case (TPrecTime (nul null) 0 p) text (CLit (LProto (XInt64 z) (TPrecTime (nul null) 0 p))))
| Raw_prec_ts text s pt null p z : parameter pt p -> unquoted text s -> new_precision_timestamp_from_string p s = Ok z ->
    raw_arg (GPrecTs text pt null) (Case (TPrecTs (nul null) 0 p) text (CLit (LProto (XInt64 z) (TPrecTs (nul null) 0 p))))
| Raw_prec_tstz text s pt null p z : parameter pt p -> unquoted text s -> new_precision_timestamp_tz_from_string p s = Ok z ->
    raw_arg (GPrecTsTz text pt null) (Case (TPrecTsTz (nul null) 0 p) text (CLit (LProto (XInt64 z) (TPrecTsTz (nul null) 0 p))))
| Raw_list es d null t os t0 : declares d t -> Forall2 (element_says t) es os -> Forall (fun v => lit_type v = Ok t0) (kept os) ->
    (kept os = [] -> t0 = t) ->
    raw_arg (GList es d null) (Case (TList (nul null) 0 t) "" (CLit (LList (kept os) (TList 2 0 t0)))).

(** the column a name names: three characters and a number; the number is cut to 32 bits *)
Inductive names_column : string -> Z -> Prop :=
| Names_column a b c ds i : whole_number ds i -> 0 <= i -> names_column (String a (String b (String c ds))) (wrap 32 i).

Section Args.
Variable scalar : targ -> caselit -> Prop.
Inductive agg_arg : aarg -> aggarg -> Prop :=
| Agg_scalar a c : scalar a c ->
    agg_arg (AAScalar a) {| a_arg := Some c; a_table := ""; a_column := ""; a_type := None; a_index := 0; a_scalar := true |}
| Agg_column col d t i : declares d t -> names_column col i ->
    agg_arg (AAColumn col d) {| a_arg := None; a_table := ""; a_column := col; a_type := Some t; a_index := i; a_scalar := false |}.
(** of a named table with columns of these types *)
Inductive qualified_arg (table : string) (ts : list (option ty)) : qarg -> aggarg -> Prop :=
| Qualified_scalar a c : scalar a c ->
    qualified_arg table ts (QScalar a) {| a_arg := Some c; a_table := ""; a_column := ""; a_type := None; a_index := 0; a_scalar := true |}
| Qualified_column tab col i t : names_column col i -> tab = table \/ tab = "" -> 0 <= i -> nth_error ts (Z.to_nat i) = Some t ->
    qualified_arg table ts (QColumn tab col) {| a_arg := None; a_table := tab; a_column := col; a_type := t; a_index := i; a_scalar := false |}.
End Args.

(** the type of column [j]: that of the last argument that names it *)
Definition type_from (gs : list aggarg) (j : nat) (t : option ty) : Prop :=
  (exists before g after u, gs = (before ++ g :: after)%list /\ a_type g = Some u /\ a_index g = Z.of_nat j /\ t = Some u /\
     forall h, In h after -> a_type h <> None -> a_index h <> Z.of_nat j) \/
  (t = None /\ forall h, In h gs -> a_type h <> None -> a_index h <> Z.of_nat j).

(** The arguments as they come out: only the types of day-time intervals may differ, where the type of the column has become nullable
    and no later argument names that column. *)
Definition settled_arg (after : list aggarg) (ts' : list (option ty)) (g g' : aggarg) : Prop :=
  a_arg g' = a_arg g /\ a_table g' = a_table g /\ a_column g' = a_column g /\ a_index g' = a_index g /\ a_scalar g' = a_scalar g /\
  ((forall n v p, a_type g <> Some (TIntervalDay n v p)) \/ (exists h, In h after /\ a_scalar h = false /\ a_index h = a_index g) -> a_type g' = a_type g) /\
  ((exists n v p, a_type g = Some (TIntervalDay n v p)) -> (forall h, In h after -> a_scalar h = false -> a_index h <> a_index g) ->
     nth_error ts' (Z.to_nat (a_index g)) = Some (a_type g')).

(** a call without arguments leaves the list of them out *)
Definition given {A} (o : option (list A)) : list A := match o with Some l => l | None => [] end.

End Floats.
