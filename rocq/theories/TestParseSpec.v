(** Specification vocabulary for the grammar of function test files (C78): which tokens make up which part
    of a file, written without the model's parser. *)

From Coq Require Import ZArith String Ascii Bool List.
From Verif Require Import TypesModel TestCaseModel TestLexModel.
Import ListNotations.
Local Open Scope string_scope.
Local Open Scope list_scope.

(** A part of a file and the tokens it is written with. *)
Definition written (A : Type) : Type := A -> list token -> Prop.

(** One or more, separated by commas. *)
Inductive commas {A} (G : written A) : list A -> list token -> Prop :=
| CommaLast : forall a w, G a w -> commas G [a] w
| CommaNext : forall a w l v c, G a w -> commas G l v -> commas G (a :: l) (w ++ (KComma, c) :: v).
(** One after the other. *)
Inductive sequence {A} (G : written A) : list A -> list token -> Prop :=
| SeqNil : sequence G [] []
| SeqCons : forall a w l v, G a w -> sequence G l v -> sequence G (a :: l) (w ++ v).

(** ** types *)

Inductive question : bool -> list token -> Prop :=
| QNone : question false []
| QMark : forall x, question true [(KQMark, x)].
Inductive parameter : string -> list token -> Prop :=
| ParamWritten : forall o n c, parameter n [(KOAngle, o); (KIntLit, n); (KCAngle, c)].
Inductive maybe_parameter : option string -> list token -> Prop :=
| NoParameter : maybe_parameter None []
| OneParameter : forall n w, parameter n w -> maybe_parameter (Some n) w.
Inductive maybe_two : option (string * string) -> list token -> Prop :=
| NoTwo : maybe_two None []
| Two : forall o a x b c, maybe_two (Some (a, b)) [(KOAngle, o); (KIntLit, a); (KComma, x); (KIntLit, b); (KCAngle, c)].

Inductive type_written : dtype -> list token -> Prop :=
| TWPrim : forall p q x w, question q w -> type_written (DPrim p q) ((KType p, x) :: w)
| TWUser : forall q x y w, question q w -> type_written DUser ((KUser, x) :: (KIdent, y) :: w)
| TWFixed : forall k len q x w v, question q w -> parameter len v ->
    type_written (DFixed k len q) ((KFixed k, x) :: w ++ v)
| TWDecimal : forall ps q x w v, question q w -> maybe_two ps v ->
    type_written (DDecimal ps q) ((KDecimal, x) :: w ++ v)
| TWPrecTime : forall p q x w v, question q w -> parameter p v ->
    type_written (DPrecTime p q) ((KPrecTime, x) :: w ++ v)
| TWPrecTs : forall p q x w v, question q w -> parameter p v ->
    type_written (DPrecTs p q) ((KPrecTs, x) :: w ++ v)
| TWPrecTsTz : forall p q x w v, question q w -> parameter p v ->
    type_written (DPrecTsTz p q) ((KPrecTsTz, x) :: w ++ v)
| TWDay : forall p q x w v, question q w -> maybe_parameter p v ->
    type_written (DIntervalDay p q) ((KDayType, x) :: w ++ v)
| TWCompound : forall p q x w v, question q w -> maybe_parameter p v ->
    type_written DIntervalCompound ((KCompoundType, x) :: w ++ v)
| TWList : forall e q x o c w v, question q w -> type_written e v ->
    type_written (DList e q) ((KList, x) :: w ++ (KOAngle, o) :: v ++ [(KCAngle, c)])
| TWFunc1 : forall q d d' x o a c w v u, question q w -> type_written d v -> type_written d' u ->
    type_written DFunc ((KFunc, x) :: w ++ (KOAngle, o) :: v ++ (KArrow, a) :: u ++ [(KCAngle, c)])
| TWFunc : forall q ds d' x o y z a c w v u, question q w -> commas type_written ds v -> type_written d' u ->
    type_written DFunc ((KFunc, x) :: w ++ (KOAngle, o) :: (KOParen, y) :: v ++ (KCParen, z) :: (KArrow, a) :: u ++ [(KCAngle, c)]).

(** ** values *)

Definition literal_kinds : list (tk * kind) :=
  [(KNullLit, KNull); (KIntLit, KNum); (KDecLit, KNum); (KFloatLit, KNum); (KNaN, KNum); (KBoolLit, KBool);
   (KStrLit, KStr); (KDateLit, KDate); (KTimeLit, KTime); (KTsLit, KTs); (KTsTzLit, KTsTz);
   (KYearLit, KIntervalYear); (KDayLit, KIntervalDay); (KCompoundLit, KOther)].
Inductive literal_written : tlit -> list token -> Prop :=
| LitWritten : forall k kd t, In (k, kd) literal_kinds -> literal_written (Tlit kd t) [(k, t)].
Inductive element_written : element -> list token -> Prop :=
| EWLit : forall l w, literal_written l w -> element_written (ELit l) w
| EWEmpty : forall x y, element_written (EList []) [(KOBracket, x); (KCBracket, y)]
| EWList : forall es w x y, commas element_written es w ->
    element_written (EList es) ((KOBracket, x) :: w ++ [(KCBracket, y)]).

Definition numeric : list tk := [KIntLit; KDecLit; KFloatLit; KNaN].
(** What can be written before a type: the kind of the literal, its text, the type, the argument. *)
Inductive literal_of : tk -> string -> dtype -> targ -> Prop :=
| LONull : forall t d, literal_of KNullLit t d (GNull t d)
| LOInt : forall t p q, In p [PrimI8; PrimI16; PrimI32; PrimI64] -> literal_of KIntLit t (DPrim p q) (GInt t p q)
| LOFloat : forall k t p q, In k numeric -> In p [PrimFp32; PrimFp64] -> literal_of k t (DPrim p q) (GFloat t p q)
| LODecimal : forall k t ps q, In k numeric -> literal_of k t (DDecimal ps q) (GDecimal t ps q)
| LOBool : forall t q, literal_of KBoolLit t (DPrim PrimBool q) (GBool t q)
| LOString : forall t q, literal_of KStrLit t (DPrim PrimString q) (GString t q)
| LOFixed : forall t k len q, literal_of KStrLit t (DFixed k len q) (GFixed k t len q)
| LODate : forall t q, literal_of KDateLit t (DPrim PrimDate q) (GDate t q)
| LOTime : forall t q, literal_of KTimeLit t (DPrim PrimTime q) (GTime t q)
| LOPrecTime : forall t p q, literal_of KTimeLit t (DPrecTime p q) (GPrecTime t p q)
| LOTs : forall t q, literal_of KTsLit t (DPrim PrimTimestamp q) (GTs t q)
| LOPrecTs : forall t p q, literal_of KTsLit t (DPrecTs p q) (GPrecTs t p q)
| LOTsTz : forall t q, literal_of KTsTzLit t (DPrim PrimTimestampTz q) (GTsTz t q)
| LOPrecTsTz : forall t p q, literal_of KTsTzLit t (DPrecTsTz p q) (GPrecTsTz t p q)
| LOYear : forall t q, literal_of KYearLit t (DPrim PrimIntervalYear q) (GIntervalYear t q)
| LODay : forall t p q, literal_of KDayLit t (DIntervalDay p q) (GIntervalDay t p q)
| LOCompound : forall t, literal_of KCompoundLit t DIntervalCompound GOther.

Inductive name_written : string -> list token -> Prop :=
| NameWritten : forall k t, In k [KIdent; KTruncate; KNonReserved] -> name_written t [(k, t)].
Inductive ident_written : string -> list token -> Prop :=
| IdentWritten : forall t, ident_written t [(KIdent, t)].

Inductive argument_written : targ -> list token -> Prop :=
| AWTyped : forall k t d a x w, literal_of k t d a -> type_written d w ->
    argument_written a ((k, t) :: (KDoubleColon, x) :: w)
| AWEnum : forall t x y, argument_written (GEnum t) [(KIdent, t); (KDoubleColon, x); (KEnum, y)]
| AWIdent : forall t, argument_written GOther [(KIdent, t)]
| AWList : forall es e q x w v, element_written (EList es) w -> type_written (DList e q) v ->
    argument_written (GList es e q) (w ++ (KDoubleColon, x) :: v)
| AWLambda1 : forall p name args x a o c c' d w v u, name_written name w -> commas argument_written args v ->
    type_written DFunc u ->
    argument_written GOther ((KOParen, x) :: (KIdent, p) :: (KArrow, a) :: w ++ (KOParen, o) :: v ++
                             (KCParen, c) :: (KCParen, c') :: (KDoubleColon, d) :: u)
| AWLambda : forall p p' ps name args x y z a o c c' d pw w v u, commas ident_written (p :: p' :: ps) pw ->
    name_written name w -> commas argument_written args v -> type_written DFunc u ->
    argument_written GOther ((KOParen, x) :: (KOParen, y) :: pw ++ (KCParen, z) :: (KArrow, a) :: w ++
                             (KOParen, o) :: v ++ (KCParen, c) :: (KCParen, c') :: (KDoubleColon, d) :: u).

Inductive result_written : tresult -> list token -> Prop :=
| RWArg : forall a w, argument_written a w -> result_written (RArg a) w
| RWError : forall x, result_written RError [(KErrorResult, x)]
| RWUndefined : forall x, result_written RUndefined [(KUndefinedResult, x)].

Inductive option_written : string * string -> list token -> Prop :=
| OptionWritten : forall k k' a b x, In k [KOptName; KIdent] ->
    In k' [KOptValue; KNaN; KTruncate; KBoolLit; KNullLit; KIdent] ->
    option_written (a, b) [(k, a); (KColon, x); (k', b)].
Inductive options_written : toptions -> list token -> Prop :=
| OWNone : options_written None []
| OWSome : forall os w x y, commas option_written os w ->
    options_written (Some os) ((KOBracket, x) :: w ++ [(KCBracket, y)]).

(** ** test cases *)

Inductive scalar_written : string * list targ * toptions * tresult -> list token -> Prop :=
| ScalarWritten : forall name args os r x y z w v u t,
    name_written name w -> commas argument_written args v -> options_written os u -> result_written r t ->
    scalar_written (name, args, os, r) (w ++ (KOParen, x) :: v ++ (KCParen, y) :: u ++ (KEq, z) :: t).

Inductive parens_written {A} (G : written A) : list A -> list token -> Prop :=
| ParensNone : forall x y, parens_written G [] [(KOParen, x); (KCParen, y)]
| ParensSome : forall l w x y, commas G l w -> parens_written G l ((KOParen, x) :: w ++ [(KCParen, y)]).
Definition row_written : written (list tlit) := parens_written literal_written.
Definition rows_written : written (list (list tlit)) := parens_written row_written.

Inductive aarg_written : aarg -> list token -> Prop :=
| AAWScalar : forall a w, argument_written a w -> aarg_written (AAScalar a) w
| AAWColumn : forall c d x w, type_written d w -> aarg_written (AAColumn c d) ((KColumn, c) :: (KDoubleColon, x) :: w).
Inductive qarg_written : qarg -> list token -> Prop :=
| QWScalar : forall a w, argument_written a w -> qarg_written (QScalar a) w
| QWColumn : forall t c x, qarg_written (QColumn t c) [(KIdent, t); (KDot, x); (KColumn, c)].
Inductive call_written {A} (G : written A) : string * option (list A) -> list token -> Prop :=
| CallNone : forall name w x y, name_written name w -> call_written G (name, None) (w ++ [(KOParen, x); (KCParen, y)])
| CallSome : forall name l w v x y, name_written name w -> commas G l v ->
    call_written G (name, Some l) (w ++ (KOParen, x) :: v ++ [(KCParen, y)]).

Inductive aggcall_written : aggcall -> list token -> Prop :=
| CWMulti : forall table types rows name args x y z e w v u,
    commas type_written types w -> rows_written rows v -> call_written qarg_written (name, args) u ->
    aggcall_written (CMulti table types rows name args)
      ((KDefine, x) :: (KIdent, table) :: (KOParen, y) :: w ++ (KCParen, z) :: (KEq, e) :: v ++ u)
| CWCompact : forall rows name args v u,
    rows_written rows v -> call_written aarg_written (name, args) u ->
    aggcall_written (CCompact rows name args) (v ++ u)
| CWSingle : forall name vs d x y c w v u,
    name_written name w -> row_written vs v -> type_written d u ->
    aggcall_written (CSingle name vs d) (w ++ (KOParen, x) :: v ++ (KDoubleColon, c) :: u ++ [(KCParen, y)]).
Inductive agg_written : aggcall * toptions * tresult -> list token -> Prop :=
| AggWritten : forall c os r z v u t,
    aggcall_written c v -> options_written os u -> result_written r t ->
    agg_written (c, os, r) (v ++ u ++ (KEq, z) :: t).

(** ** groups and files *)

Inductive description_written : option string -> list token -> Prop :=
| NoDescription : description_written None []
| OneDescription : forall d, description_written (Some d) [(KDescription, d)].
Inductive group_written : tgroup -> list token -> Prop :=
| GWScalar : forall desc cs w v, description_written desc w -> cs <> [] -> sequence scalar_written cs v ->
    group_written (GroupScalar desc cs) (w ++ v)
| GWAgg : forall desc cs w v, description_written desc w -> cs <> [] -> sequence agg_written cs v ->
    group_written (GroupAgg desc cs) (w ++ v).

(** A group without description that follows one of its own sort is part of that one. *)
Definition absorbed (g h : tgroup) : Prop :=
  match g, h with
  | GroupScalar _ _, GroupScalar None _ | GroupAgg _ _, GroupAgg None _ => True
  | _, _ => False
  end.
Inductive apart : list tgroup -> Prop :=
| ApartNil : apart []
| ApartOne : forall g, apart [g]
| ApartCons : forall g h gs, ~ absorbed g h -> apart (h :: gs) -> apart (g :: h :: gs).

Inductive string_written : string -> list token -> Prop :=
| StringWritten : forall t, string_written t [(KStrLit, t)].
Inductive dependency_written : string -> list token -> Prop :=
| DependencyWritten : forall t x y z, dependency_written t [(KTriple, x); (KDependency, y); (KColon, z); (KStrLit, t)].
Definition test_word (aggregate : bool) : tk := if aggregate then KAggregateTest else KScalarTest.

Inductive file_written : tdoc -> list token -> Prop :=
| FileWritten : forall a v l deps gs x1 x2 x3 x4 x5 x6 w u t,
    commas string_written l w -> sequence dependency_written deps u ->
    gs <> [] -> apart gs -> sequence group_written gs t ->
    file_written (Tdoc a v l gs)
      ((KTriple, x1) :: (test_word a, x2) :: (KColon, x3) :: (KVersion, v) ::
       (KTriple, x4) :: (KInclude, x5) :: (KColon, x6) :: w ++ u ++ t).
