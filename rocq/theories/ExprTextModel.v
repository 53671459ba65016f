(** Model of how expressions print, the String methods of /repo/expr: literals.go 111, 159, 262, 357, 425, 589,
    interval_compound_literal.go 92, interval_year_to_month.go 51, field_reference.go 109, 180, 254, 624, functions.go 107-144,
    319-354, 558-614, 912-929, expression.go 503, 625, 683, 808, 989, 1092, 1258, 1390, 1509, lambda.go 17, of
    /repo/plan/subquery.go 91, 155, 283, 386, and of /repo/types/types.go 194, 200.

    A direct call of String on a nil part panics.  A part printed through fmt does not: fmt writes a
    mark for nil, and catches a panic of String and writes a text about it; that text is a parameter, as are the texts of
    floating point numbers, decimals, UUIDs and relations (fmt's %s of a pointer to a struct).
    Definitions only; theorems are in ExprTextProps.v. *)

From Coq Require Import ZArith Ascii String Bool List.
From Verif Require Import Base FMap TypesModel ExtSetModel LoadModel LitModel ExprModel TestPrintModel.
Import ListNotations.
Local Open Scope string_scope.
Local Open Scope Z_scope.

(** a generated enum's String: its name, or its number if it has none *)
Definition enum_text (names : list string) (z : Z) : string :=
  if z <? 0 then string_of_Z z else match nth_error names (Z.to_nat z) with Some s => s | None => string_of_Z z end.
(** types.go 204-210, 157-174, 186-194 *)
Definition cast_behavior_text : Z -> string :=
  enum_text ["FAILURE_BEHAVIOR_UNSPECIFIED"; "FAILURE_BEHAVIOR_RETURN_NULL"; "FAILURE_BEHAVIOR_THROW_EXCEPTION"].
Definition phase_text : Z -> string :=
  enum_text ["AGGREGATION_PHASE_UNSPECIFIED"; "AGGREGATION_PHASE_INITIAL_TO_INTERMEDIATE";
             "AGGREGATION_PHASE_INTERMEDIATE_TO_INTERMEDIATE"; "AGGREGATION_PHASE_INITIAL_TO_RESULT";
             "AGGREGATION_PHASE_INTERMEDIATE_TO_RESULT"].
Definition invocation_text : Z -> string :=
  enum_text ["AGGREGATION_INVOCATION_UNSPECIFIED"; "AGGREGATION_INVOCATION_ALL"; "AGGREGATION_INVOCATION_DISTINCT"].
Definition direction_text : Z -> string :=
  enum_text ["SORT_DIRECTION_UNSPECIFIED"; "SORT_DIRECTION_ASC_NULLS_FIRST"; "SORT_DIRECTION_ASC_NULLS_LAST";
             "SORT_DIRECTION_DESC_NULLS_FIRST"; "SORT_DIRECTION_DESC_NULLS_LAST"; "SORT_DIRECTION_CLUSTERED"].
Definition sortkind_text (k : sortkind) : res string :=
  match k with
  | SK_nil => Panic
  | SK_dir z => Ok (direction_text z)
  | SK_func z => Ok ("comparison_func_ref: " ++ string_of_Z z)
  end.

(** functions.go 107, 119, 131, 142 *)
Definition bound_text (b : bound) : string :=
  match b with
  | BPreceding z => string_of_Z z ++ " PRECEDING"
  | BFollowing z => string_of_Z z ++ " FOLLOWING"
  | BCurrent => "CURRENT ROW"
  | BUnbounded => "UNBOUNDED"
  end.
(** functions.go 596-606 *)
Definition bounds_text (lo hi : option bound) : string :=
  match lo, hi with
  | None, None => ""
  | _, _ =>
      "; bounds: [" ++ match lo with Some b => bound_text b | None => "" end ++
      match hi with Some b => ", " ++ bound_text b | None => "" end ++ "]"
  end.

(** functions.go 332-344 *)
Definition scalar_options_text (opts : list fopt) : string :=
  match opts with
  | [] => ""
  | _ => ", {" ++ join ", " (map (fun o : fopt => fst o ++ ": [" ++ join "," (snd o) ++ "]") opts) ++ "}"
  end.
(** functions.go 581-590; %v of a slice of strings *)
Definition window_options_text (opts : list fopt) : string :=
  match opts with
  | [] => ""
  | _ => "; [options: {" ++ join ", " (map (fun o : fopt => fst o ++ " => [" ++ join " " (snd o) ++ "]") opts) ++ "}]"
  end.

(** the end of a nested expression: expression.go 1272-1275, 1399-1402, 1518-1521 *)
Definition nested_end (nullable : bool) (var : Z) : string :=
  (if nullable then "?" else "") ++ "(typeref=" ++ string_of_Z var ++ ")".

(** subquery.go 284-292, 388-413 *)
Definition predicate_text (op : Z) : string := if op =? 1 then "EXISTS" else if op =? 2 then "UNIQUE" else "UNKNOWN".
Definition reduction_text (op : Z) : string := if op =? 1 then "ANY" else if op =? 2 then "ALL" else "UNKNOWN".
Definition comparison_text (op : Z) : string :=
  if op =? 1 then "=" else if op =? 2 then "!=" else if op =? 3 then "<" else if op =? 4 then ">"
  else if op =? 5 then "<=" else if op =? 6 then ">=" else "?".

(** lambda.go 20-25: the parameters, numbered from [i] *)
Fixpoint params_text (i : Z) (ts : list ty) : list string :=
  match ts with [] => [] | t :: ts' => ("$" ++ string_of_Z i ++ ": " ++ type_string t) :: params_text (i + 1) ts' end.

(** the type of a reference, if it is known (field_reference.go 636-639); a type with a nil component panics *)
Definition known_text (x : xtype) : res string :=
  match x with XNil => Ok "" | XTy t => Ok (" => " ++ type_string t) | _ => Panic end.

Section Text.
Variable R : Type.
Variable float_text : Z -> string.
Variable decimal_text : list Z -> Z -> string.
Variable other_text : lit -> string.
Variable lit_panic : lit -> string.
Variable expr_panic : expr R -> string.
Variable rel_text : R -> string.

(** fmt's %v of an element, whose String is [f] *)
Definition element_text (f : lit -> res string) (l : lit) : string :=
  match l with LNil => "<nil>" | _ => match f l with Ok s => s | _ => lit_panic l end end.
(** [String] of literals *)
Fixpoint lit_text (l : lit) : res string :=
  match l with
  | LNil => Panic
  | LNull t => Ok ("null(" ++ type_string t ++ ")")
  | LStruct es t | LList es t => Ok (type_string t ++ "([" ++ join " " (map (element_text lit_text) es) ++ "])")
  | LMap kvs t => Ok (type_string t ++ "([" ++ join " " (map (fun p => match p with (k, v) => "{" ++ element_text lit_text k ++ " " ++ element_text lit_text v ++ "}" end) kvs) ++ "])")
  | LPrim _ t | LBytes _ _ t | LProto _ t =>
      let! s := value_string float_text decimal_text other_text l in Ok (type_string t ++ "(" ++ s ++ ")")
  | LYearMonth y m n =>
      Ok (type_string (TIntervalYearToMonth n 0) ++ "(" ++ string_of_Z y ++ " years, " ++ string_of_Z m ++ " months)")
  | LCompound y m d s ss p n =>
      Ok (type_string (TIntervalCompound false n 0 p) ++ "(" ++ string_of_Z y ++ " years, " ++ string_of_Z m ++ " months, " ++
          string_of_Z d ++ " days, " ++ string_of_Z s ++ " seconds, " ++ string_of_Z ss ++ " subseconds)")
  end.

(** field_reference.go 109, 180, 254 *)
Definition step_text (s : step) : res string :=
  match s with
  | SField i => Ok (".field(" ++ string_of_Z i ++ ")")
  | SKey k => let! t := lit_text k in Ok (".[" ++ t ++ "]")
  | SElem i => Ok (".[" ++ string_of_Z i ++ "]")
  end.
(** field_reference.go 640: a mask or no reference fails the type assertion *)
Definition reference_text (f : reference) : res string :=
  match f with
  | RefSeg [] | RefMask _ => Panic
  | RefSeg l => let! ss := mapM step_text l in Ok (join "" ss)
  end.

(** field_reference.go 626-634 *)
Definition root_text (f : expr R -> res string) (r : root (expr R)) : res string :=
  match r with
  | RRoot => Ok ""
  | ROuter n => Ok ("[outerRef:" ++ string_of_Z n ++ "]")
  | RLambda n => Ok ("[lambdaParamRef:" ++ string_of_Z n ++ "]")
  | RExpr e => let! s := f e in Ok ("[root:(" ++ s ++ ")]")
  end.
(** parts of an expression, whose String is [f]: fmt's %s of one, an argument (types.go 1688), an else clause *)
Definition format_text (f : expr R -> res string) (e : expr R) : string :=
  match e with ELit LNil => "%!s(<nil>)" | _ => match f e with Ok s => s | _ => expr_panic e end end.
Definition argument_text (f : expr R -> res string) (a : farg (expr R)) : res string :=
  match a with AEnum s => Ok s | AType t => Ok (type_string t) | AExpr e => f e end.
Definition else_text (f : expr R -> res string) (word : string) (e : expr R) : res string :=
  match e with ELit LNil => Ok "" | _ => let! s := f e in Ok (word ++ s) end.

(** [String] of expressions *)
Fixpoint expr_text (e : expr R) : res string :=
  match e with
  | ELit l => lit_text l
  | ERef r f known =>
      let! rt := root_text expr_text r in
      let! kt := known_text known in
      let! ft := reference_text f in
      Ok (rt ++ ft ++ kt)
  | EScalar _ decl args opts out =>
      let! ss := mapM (argument_text expr_text) args in
      Ok (v_name decl ++ "(" ++ join ", " ss ++ scalar_options_text opts ++ ") => " ++ type_string out)
  | EWindow _ decl args opts out phase inv parts sorts _ lo hi =>
      let! ss := mapM (argument_text expr_text) args in
      let! ks := mapM (fun p => match p with (e, k) => let! t := sortkind_text k in Ok ("{expr: " ++ format_text expr_text e ++ ", " ++ t ++ "}") end) sorts in
      let! ps := mapM expr_text parts in
      Ok (v_name decl ++ "(" ++ join ", " ss ++
          (match sorts with [] => "" | _ => "; sort: [" ++ join "," ks ++ "]" end) ++
          window_options_text opts ++
          (match parts with [] => "" | _ => "; partitions: [" ++ join ", " ps ++ "]" end) ++
          bounds_text lo hi ++
          "; phase: " ++ phase_text phase ++ ", invocation: " ++ invocation_text inv ++ ") => " ++ type_string out)
  | EIf ifs els =>
      let! ss := mapM (fun p => match p with (c, t) => let! a := expr_text c in let! b := expr_text t in Ok ("(" ++ a ++ ") ?" ++ b) end) ifs in
      let! x := else_text expr_text "" els in
      Ok ("<IfThen>(" ++ join ": " ss ++ ")<Else>(" ++ x ++ ")")
  | ESwitch m ifs els =>
      let! a := expr_text m in
      let! ss := mapM (fun p => match p with (c, t) => let! x := lit_text c in let! y := expr_text t in
                                  Ok (String "010"%char "WHEN " ++ x ++ " THEN " ++ y ++ ";") end) ifs in
      let! x := else_text expr_text "Else " els in
      Ok ("CASE " ++ a ++ ":" ++ join "" ss ++ x)
  | EOr v opts =>
      let! a := expr_text v in
      let! ss := mapM expr_text opts in
      Ok (a ++ " IN [" ++ join "," ss ++ "]")
  | EMultiOr v opts =>
      let! a := mapM expr_text v in
      let! ss := mapM (fun l => let! x := mapM expr_text l in Ok ("[" ++ join ", " x ++ "]")) opts in
      Ok ("[" ++ join ", " a ++ "] IN [" ++ join ", " ss ++ "]")
  | ECast t e fb => Ok ("cast(" ++ format_text expr_text e ++ " AS " ++ type_string t ++ ", fail: " ++ cast_behavior_text fb ++ ")")
  | EMap nullable var kvs =>
      let! ss := mapM (fun p => match p with (k, v) => let! a := expr_text k in let! b := expr_text v in Ok (a ++ " => " ++ b) end) kvs in
      Ok ("{" ++ join ", " ss ++ "}" ++ nested_end nullable var)
  | EStruct nullable var fs =>
      let! ss := mapM expr_text fs in Ok ("{" ++ join ", " ss ++ "}" ++ nested_end nullable var)
  | EList nullable var vs =>
      let! ss := mapM expr_text vs in Ok ("[" ++ join ", " ss ++ "]" ++ nested_end nullable var)
  | EParam out ref => Ok ("$" ++ string_of_Z ref ++ ":" ++ type_string out)
  | ELambda _ _ params body =>
      let! b := expr_text body in Ok ("(" ++ join ", " (params_text 0 params) ++ ") -> " ++ b)
  | ESubScalar r => Ok ("SCALAR_SUBQUERY(" ++ rel_text r ++ ")")
  | ESubIn needles r =>
      let! ss := mapM expr_text needles in
      Ok ((match ss with [s] => s | _ => "(" ++ join ", " ss ++ ")" end) ++ " IN (" ++ rel_text r ++ ")")
  | ESubSet op r => Ok (predicate_text op ++ "(" ++ rel_text r ++ ")")
  | ESubCmp red cmp l r => Ok (format_text expr_text l ++ " " ++ comparison_text cmp ++ " " ++ reduction_text red ++ "(" ++ rel_text r ++ ")")
  end.

(** functions.go 912-929.  A function without a declaration (808-826) has no name to ask for: [Name]
    (873) panics. *)
Definition aggregate_text (f : aggf R) : res string :=
  match ag_decl f with
  | None => Panic
  | Some decl =>
      let! ss := mapM (argument_text expr_text) (ag_args f) in
      Ok (v_name decl ++ "(" ++ join ", " ss ++ ") => " ++ type_string (ag_out f))
  end.

End Text.
