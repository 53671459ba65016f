(** Specification of what expressions print (C73), written without the printer's functions.  Names of types, and what a literal's
    ValueString says ([value], the subject of C69), are those of the public API; whole numbers and separated lists are those of C69.

    Parts are printed in two ways: directly, so that an expression one of whose direct parts is missing or has no text
    has none itself; or through fmt, which marks a missing part and a part without a text and goes on. *)

From Coq Require Import ZArith Ascii String Bool List.
From Verif Require Import Base TypesModel LoadModel LitModel ExprModel TestPrintSpec.
Import ListNotations.
Local Open Scope string_scope.
Local Open Scope Z_scope.

(** ** lists, pairs and names *)

Inductive listed {A} (P : A -> string -> Prop) (sep : string) (l : list A) : string -> Prop :=
| Listed ws s : Forall2 P l ws -> separated sep ws s -> listed P sep l s.
(** a list in brackets, left out if there is nothing in it *)
Inductive clause {A} (P : A -> string -> Prop) (opening sep closing : string) : list A -> string -> Prop :=
| Clause_none : clause P opening sep closing [] ""
| Clause_some x l s : listed P sep (x :: l) s -> clause P opening sep closing (x :: l) (opening ++ s ++ closing).
Inductive two {A B} (P : A -> string -> Prop) (Q : B -> string -> Prop) (opening middle closing : string) : A * B -> string -> Prop :=
| Two a b x y : P a x -> Q b y -> two P Q opening middle closing (a, b) (opening ++ x ++ middle ++ y ++ closing).
Definition itself (s t : string) : Prop := s = t.

(** a number of an enumeration: its name, or itself *)
Inductive cites (names : list (Z * string)) (z : Z) : string -> Prop :=
| Cites_name s : In (z, s) names -> cites names z s
| Cites_number s : ~ In z (map fst names) -> prints_whole z s -> cites names z s.
Definition failure_behaviors : list (Z * string) :=
  [(0, "FAILURE_BEHAVIOR_UNSPECIFIED"); (1, "FAILURE_BEHAVIOR_RETURN_NULL"); (2, "FAILURE_BEHAVIOR_THROW_EXCEPTION")].
Definition phases : list (Z * string) :=
  [(0, "AGGREGATION_PHASE_UNSPECIFIED"); (1, "AGGREGATION_PHASE_INITIAL_TO_INTERMEDIATE");
   (2, "AGGREGATION_PHASE_INTERMEDIATE_TO_INTERMEDIATE"); (3, "AGGREGATION_PHASE_INITIAL_TO_RESULT");
   (4, "AGGREGATION_PHASE_INTERMEDIATE_TO_RESULT")].
Definition invocations : list (Z * string) :=
  [(0, "AGGREGATION_INVOCATION_UNSPECIFIED"); (1, "AGGREGATION_INVOCATION_ALL"); (2, "AGGREGATION_INVOCATION_DISTINCT")].
Definition directions : list (Z * string) :=
  [(0, "SORT_DIRECTION_UNSPECIFIED"); (1, "SORT_DIRECTION_ASC_NULLS_FIRST"); (2, "SORT_DIRECTION_ASC_NULLS_LAST");
   (3, "SORT_DIRECTION_DESC_NULLS_FIRST"); (4, "SORT_DIRECTION_DESC_NULLS_LAST"); (5, "SORT_DIRECTION_CLUSTERED")].
(** an operator: its name, or a mark *)
Inductive means (names : list (Z * string)) (mark : string) (z : Z) : string -> Prop :=
| Means_name s : In (z, s) names -> means names mark z s
| Means_unknown : ~ In z (map fst names) -> means names mark z mark.
Definition predicates : list (Z * string) := [(1, "EXISTS"); (2, "UNIQUE")].
Definition reductions : list (Z * string) := [(1, "ANY"); (2, "ALL")].
Definition comparisons : list (Z * string) := [(1, "="); (2, "!="); (3, "<"); (4, ">"); (5, "<="); (6, ">=")].

Inductive shows_order : sortkind -> string -> Prop :=
| Order_direction z s : cites directions z s -> shows_order (SK_dir z) s
| Order_function z s : prints_whole z s -> shows_order (SK_func z) ("comparison_func_ref: " ++ s).
Inductive shows_bound : bound -> string -> Prop :=
| Bound_preceding z s : prints_whole z s -> shows_bound (BPreceding z) (s ++ " PRECEDING")
| Bound_following z s : prints_whole z s -> shows_bound (BFollowing z) (s ++ " FOLLOWING")
| Bound_current : shows_bound BCurrent "CURRENT ROW"
| Bound_unbounded : shows_bound BUnbounded "UNBOUNDED".
(** the lower bound comes before the comma, the upper one after it *)
Inductive shows_bounds : option bound -> option bound -> string -> Prop :=
| Bounds_none : shows_bounds None None ""
| Bounds_lower b s : shows_bound b s -> shows_bounds (Some b) None ("; bounds: [" ++ s ++ "]")
| Bounds_upper b s : shows_bound b s -> shows_bounds None (Some b) ("; bounds: [, " ++ s ++ "]")
| Bounds_both b c s t : shows_bound b s -> shows_bound c t -> shows_bounds (Some b) (Some c) ("; bounds: [" ++ s ++ ", " ++ t ++ "]").

Inductive shows_nested (nullable : bool) (var : Z) : string -> Prop :=
| Nested_end s : prints_whole var s -> shows_nested nullable var ((if nullable then "?" else "") ++ "(typeref=" ++ s ++ ")").
(** the parameters of a lambda: their numbers and types *)
Inductive shows_params : Z -> list ty -> list string -> Prop :=
| Params_none i : shows_params i [] []
| Params_some i t ts s l : prints_whole i s -> shows_params (i + 1) ts l ->
    shows_params i (t :: ts) (("$" ++ s ++ ": " ++ type_string t) :: l).
(** the type of a reference, if it is known and complete *)
Inductive shows_known : xtype -> string -> Prop :=
| Known_not : shows_known XNil ""
| Known_is t : shows_known (XTy t) (" => " ++ type_string t).

Section Shows.
Variable R : Type.
Variable value : lit -> string -> Prop.
Variable lit_panic : lit -> string.
Variable expr_panic : expr R -> string.
Variable rel_text : R -> string.

(** ** literals *)

(** literals of a single value, which print their type and it *)
Inductive single_value : lit -> ty -> Prop :=
| Single_prim v t : single_value (LPrim v t) t
| Single_bytes k b t : single_value (LBytes k b t) t
| Single_proto v t : single_value (LProto v t) t.
Definition no_literal_text (l : lit) : Prop := l = LNil \/ (exists t, single_value l t) /\ forall s, ~ value l s.

Inductive element (P : lit -> string -> Prop) : lit -> string -> Prop :=
| Element_missing : element P LNil "<nil>"
| Element_text l s : P l s -> element P l s
| Element_panic l : l <> LNil -> no_literal_text l -> element P l (lit_panic l).
Inductive shows_literal : lit -> string -> Prop :=
| Shows_null t : shows_literal (LNull t) ("null(" ++ type_string t ++ ")")
| Shows_single l t s : single_value l t -> value l s -> shows_literal l (type_string t ++ "(" ++ s ++ ")")
| Shows_struct es t s : listed (element shows_literal) " " es s -> shows_literal (LStruct es t) (type_string t ++ "([" ++ s ++ "])")
| Shows_list es t s : listed (element shows_literal) " " es s -> shows_literal (LList es t) (type_string t ++ "([" ++ s ++ "])")
| Shows_map kvs t s : listed (two (element shows_literal) (element shows_literal) "{" " " "}") " " kvs s ->
    shows_literal (LMap kvs t) (type_string t ++ "([" ++ s ++ "])")
| Shows_years y m n ys ms : prints_whole y ys -> prints_whole m ms ->
    shows_literal (LYearMonth y m n) (type_string (TIntervalYearToMonth n 0) ++ "(" ++ ys ++ " years, " ++ ms ++ " months)")
| Shows_compound y m d s u p n ys ms ds ss us : prints_whole y ys -> prints_whole m ms -> prints_whole d ds -> prints_whole s ss -> prints_whole u us ->
    shows_literal (LCompound y m d s u p n)
      (type_string (TIntervalCompound false n 0 p) ++ "(" ++ ys ++ " years, " ++ ms ++ " months, " ++ ds ++ " days, " ++ ss ++ " seconds, " ++ us ++ " subseconds)").

(** ** references *)

Inductive shows_step : step -> string -> Prop :=
| Step_field i s : prints_whole i s -> shows_step (SField i) (".field(" ++ s ++ ")")
| Step_key l s : shows_literal l s -> shows_step (SKey l) (".[" ++ s ++ "]")
| Step_element i s : prints_whole i s -> shows_step (SElem i) (".[" ++ s ++ "]").
Inductive shows_root (P : expr R -> string -> Prop) : root (expr R) -> string -> Prop :=
| Root_here : shows_root P RRoot ""
| Root_outer n s : prints_whole n s -> shows_root P (ROuter n) ("[outerRef:" ++ s ++ "]")
| Root_lambda n s : prints_whole n s -> shows_root P (RLambda n) ("[lambdaParamRef:" ++ s ++ "]")
| Root_of e s : P e s -> shows_root P (RExpr e) ("[root:(" ++ s ++ ")]").

(** ** which expressions have no text *)

(** the parts that are printed directly *)
Definition direct_argument (a : farg (expr R)) : list (expr R) := match a with AExpr e => [e] | _ => [] end.
Definition direct_else (e : expr R) : list (expr R) := match e with ELit LNil => [] | _ => [e] end.
Definition direct (e : expr R) : list (expr R) :=
  (match e with
   | ERef (RExpr r) _ _ => [r]
   | EScalar _ _ args _ _ => flat_map direct_argument args
   | EWindow _ _ args _ _ _ _ parts _ _ _ _ => flat_map direct_argument args ++ parts
   | EIf ifs els => flat_map (fun p => [fst p; snd p]) ifs ++ direct_else els
   | ESwitch m ifs els => m :: map snd ifs ++ direct_else els
   | EOr v opts => v :: opts
   | EMultiOr v opts => v ++ List.concat opts
   | EMap _ _ kvs => flat_map (fun p => [fst p; snd p]) kvs
   | EStruct _ _ l | EList _ _ l | ESubIn l _ => l
   | ELambda _ _ _ body => [body]
   | _ => []
   end)%list.
(** what else has no text: a reference by mask or by nothing, a missing key, an incomplete type, a missing order, a missing case *)
Inductive malformed : expr R -> Prop :=
| No_path r known : malformed (ERef r (RefSeg []) known)
| Masked r m known : malformed (ERef r (RefMask m) known)
| No_key r path l known : In (SKey l) path -> no_literal_text l -> malformed (ERef r (RefSeg path) known)
| Incomplete r f known : (forall s, ~ shows_known known s) -> malformed (ERef r f known)
| No_order fref decl args opts out phase inv parts sorts bt lo hi e : In (e, SK_nil) sorts ->
    malformed (EWindow fref decl args opts out phase inv parts sorts bt lo hi)
| No_case m ifs els l e : In (l, e) ifs -> no_literal_text l -> malformed (ESwitch m ifs els).
Inductive no_text : expr R -> Prop :=
| No_literal l : no_literal_text l -> no_text (ELit l)
| No_form e : malformed e -> no_text e
| No_part e p : In p (direct e) -> no_text p -> no_text e.

(** ** expressions *)

Inductive formatted (P : expr R -> string -> Prop) : expr R -> string -> Prop :=
| Format_missing : formatted P (ELit LNil) "%!s(<nil>)"
| Format_text e s : P e s -> formatted P e s
| Format_panic e : e <> ELit LNil -> no_text e -> formatted P e (expr_panic e).
Inductive shows_argument (P : expr R -> string -> Prop) : farg (expr R) -> string -> Prop :=
| Argument_enum s : shows_argument P (AEnum s) s
| Argument_type t : shows_argument P (AType t) (type_string t)
| Argument_value e s : P e s -> shows_argument P (AExpr e) s.
Inductive shows_else (P : expr R -> string -> Prop) (word : string) : expr R -> string -> Prop :=
| Else_none : shows_else P word (ELit LNil) ""
| Else_some e s : P e s -> shows_else P word e (word ++ s).
Inductive shows_list (P : expr R -> string -> Prop) : list (expr R) -> string -> Prop :=
| List_text l s : listed P ", " l s -> shows_list P l ("[" ++ s ++ "]").
Inductive shows_needles (P : expr R -> string -> Prop) : list (expr R) -> string -> Prop :=
| Needle_one e s : P e s -> shows_needles P [e] s
| Needle_more l s : List.length l <> 1%nat -> listed P ", " l s -> shows_needles P l ("(" ++ s ++ ")").

Inductive shows : expr R -> string -> Prop :=
| Shows_literal l s : shows_literal l s -> shows (ELit l) s
| Shows_reference r path known a b c : path <> [] -> shows_root shows r a -> listed shows_step "" path b -> shows_known known c ->
    shows (ERef r (RefSeg path) known) (a ++ b ++ c)
| Shows_scalar fref decl args opts out a o :
    listed (shows_argument shows) ", " args a ->
    clause (two itself (listed itself ",") "" ": [" "]") ", {" ", " "}" opts o ->
    shows (EScalar fref decl args opts out) (v_name decl ++ "(" ++ a ++ o ++ ") => " ++ type_string out)
| Shows_window fref decl args opts out phase inv parts sorts bt lo hi a k o q b p i :
    listed (shows_argument shows) ", " args a ->
    clause (two (formatted shows) shows_order "{expr: " ", " "}") "; sort: [" "," "]" sorts k ->
    clause (two itself (listed itself " ") "" " => [" "]") "; [options: {" ", " "}]" opts o ->
    clause shows "; partitions: [" ", " "]" parts q ->
    shows_bounds lo hi b -> cites phases phase p -> cites invocations inv i ->
    shows (EWindow fref decl args opts out phase inv parts sorts bt lo hi)
      (v_name decl ++ "(" ++ a ++ k ++ o ++ q ++ b ++ "; phase: " ++ p ++ ", invocation: " ++ i ++ ") => " ++ type_string out)
| Shows_if ifs els a b : listed (two shows shows "(" ") ?" "") ": " ifs a -> shows_else shows "" els b ->
    shows (EIf ifs els) ("<IfThen>(" ++ a ++ ")<Else>(" ++ b ++ ")")
| Shows_switch m ifs els a b c : shows m a -> listed (two shows_literal shows (String "010"%char "WHEN ") " THEN " ";") "" ifs b ->
    shows_else shows "Else " els c ->
    shows (ESwitch m ifs els) ("CASE " ++ a ++ ":" ++ b ++ c)
| Shows_or v opts a b : shows v a -> listed shows "," opts b -> shows (EOr v opts) (a ++ " IN [" ++ b ++ "]")
| Shows_multi_or v opts a b : shows_list shows v a -> listed (shows_list shows) ", " opts b -> shows (EMultiOr v opts) (a ++ " IN [" ++ b ++ "]")
| Shows_cast t e fb a b : formatted shows e a -> cites failure_behaviors fb b ->
    shows (ECast t e fb) ("cast(" ++ a ++ " AS " ++ type_string t ++ ", fail: " ++ b ++ ")")
| Shows_map_of n v kvs a b : listed (two shows shows "" " => " "") ", " kvs a -> shows_nested n v b -> shows (EMap n v kvs) ("{" ++ a ++ "}" ++ b)
| Shows_struct_of n v l a b : listed shows ", " l a -> shows_nested n v b -> shows (EStruct n v l) ("{" ++ a ++ "}" ++ b)
| Shows_list_of n v l a b : listed shows ", " l a -> shows_nested n v b -> shows (EList n v l) ("[" ++ a ++ "]" ++ b)
| Shows_parameter out z s : prints_whole z s -> shows (EParam out z) ("$" ++ s ++ ":" ++ type_string out)
| Shows_lambda n v params body ws a b : shows_params 0 params ws -> separated ", " ws a -> shows body b ->
    shows (ELambda n v params body) ("(" ++ a ++ ") -> " ++ b)
| Shows_scalar_subquery r : shows (ESubScalar r) ("SCALAR_SUBQUERY(" ++ rel_text r ++ ")")
| Shows_in l r a : shows_needles shows l a -> shows (ESubIn l r) (a ++ " IN (" ++ rel_text r ++ ")")
| Shows_set op r a : means predicates "UNKNOWN" op a -> shows (ESubSet op r) (a ++ "(" ++ rel_text r ++ ")")
| Shows_compare red cmp l r a b c : formatted shows l a -> means comparisons "?" cmp b -> means reductions "UNKNOWN" red c ->
    shows (ESubCmp red cmp l r) (a ++ " " ++ b ++ " " ++ c ++ "(" ++ rel_text r ++ ")").

(** an aggregate function: of its reference, options, phase, invocation and sorts nothing is shown *)
Inductive shows_aggregate : aggf R -> string -> Prop :=
| Shows_aggregate ref decl args opts out phase inv sorts a : listed (shows_argument shows) ", " args a ->
    shows_aggregate (AggF ref (Some decl) args opts out phase inv sorts)
      (v_name decl ++ "(" ++ a ++ ") => " ++ type_string out).

End Shows.
