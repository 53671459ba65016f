(** Model of package [types]: concrete types, their protobuf form, equality,
    nullability, names.  Definitions only; theorems are in TypesProps.v.

    /repo/types/types.go, interval_compound_type.go, interval_day_type.go,
    interval_year_month_type.go, precison_timestamp_types.go. *)

From Coq Require Import List ZArith String Bool.
From Verif Require Import Base.
Import ListNotations.
Local Open Scope string_scope.

(** types.go 22-28: [type Nullability int32], an open enum (any int32 read from
    the wire is kept). *)
Definition nullability := Z.
Bind Scope Z_scope with nullability.
Definition NullUnspecified : nullability := 0%Z.
Definition NullNullable : nullability := 1%Z.
Definition NullRequired : nullability := 2%Z.

(** types.go 967-981: the instances of [PrimitiveType[T]]. *)
Inductive prim :=
| PrimBool | PrimI8 | PrimI16 | PrimI32 | PrimI64 | PrimFp32 | PrimFp64
| PrimString | PrimBinary | PrimTimestamp | PrimDate | PrimTime
| PrimTimestampTz | PrimIntervalYear | PrimUUID.

(** types.go 982-984: the instances of [FixedLenType[T]]. *)
Inductive fixedk := FxChar | FxVarChar | FxBinary.

(** Go values of interface [types.Type] (types.go 457-471) and
    [types.TypeParam] (types.go 1471-1474).
    - [TIntervalCompound] has a flag saying whether the dynamic type is the
      pointer [*IntervalCompoundType] or the value [IntervalCompoundType]; both
      implement [Type] (methods have value receivers).
    - [TEnum] has a flag saying whether it is the very pointer
      [CommonEnumType] (types.go 555), which [MatchWithoutNullability] compares
      by identity.
    - [TPnil] is a nil [TypeParam] interface, produced by [TypeParamFromProto]
      for an unset oneof (types.go 1599).
    - A nil [Type] interface inside a composite type is not modelled.
    The field order is nullability, type variation reference, parameters. *)
Inductive ty :=
| TPrim (p : prim) (n : nullability) (v : Z)
| TFixed (k : fixedk) (n : nullability) (v : Z) (len : Z)
| TDecimal (n : nullability) (v : Z) (precision scale : Z)
| TPrecTime (n : nullability) (v : Z) (prec : Z)
| TPrecTs (n : nullability) (v : Z) (prec : Z)
| TPrecTsTz (n : nullability) (v : Z) (prec : Z)
| TIntervalDay (n : nullability) (v : Z) (prec : Z)
| TIntervalCompound (is_ptr : bool) (n : nullability) (v : Z) (prec : Z)
| TIntervalYearToMonth (n : nullability) (v : Z)
| TEnum (is_common : bool) (n : nullability) (v : Z) (name : string) (opts : list string)
| TStruct (n : nullability) (v : Z) (fields : list ty)
| TFunc (n : nullability) (params : list ty) (ret : ty)
| TList (n : nullability) (v : Z) (elem : ty)
| TMap (n : nullability) (v : Z) (key value : ty)
| TUser (n : nullability) (v : Z) (ref : Z) (params : list tparam)
with tparam :=
| TPnil
| TPnull
| TPbool (b : bool)
| TPdata (t : ty)
| TPint (z : Z)
| TPenum (s : string)
| TPstring (s : string).

(** The protobuf message [substrait.Type], one constructor per oneof case used
    by the code, plus the unset oneof.  [Func] has no type variation field. *)
Inductive ptype :=
| PT_unset
| PT_bool (n v : Z) | PT_i8 (n v : Z) | PT_i16 (n v : Z) | PT_i32 (n v : Z)
| PT_i64 (n v : Z) | PT_fp32 (n v : Z) | PT_fp64 (n v : Z) | PT_string (n v : Z)
| PT_binary (n v : Z) | PT_timestamp (n v : Z) | PT_date (n v : Z)
| PT_time (n v : Z) | PT_interval_year (n v : Z)
| PT_interval_day (n v : Z) (prec : option Z)
| PT_interval_compound (n v prec : Z)
| PT_timestamp_tz (n v : Z) | PT_uuid (n v : Z)
| PT_fixed_binary (n v len : Z) | PT_fixed_char (n v len : Z) | PT_varchar (n v len : Z)
| PT_decimal (n v scale precision : Z)
| PT_precision_time (n v prec : Z)
| PT_precision_timestamp (n v prec : Z)
| PT_precision_timestamp_tz (n v prec : Z)
| PT_struct (n v : Z) (types : list ptype)
| PT_func (n : Z) (params : list ptype) (ret : ptype)
| PT_list (n v : Z) (t : ptype)
| PT_map (n v : Z) (key value : ptype)
| PT_user_defined (n v ref : Z) (params : list pparam)
with pparam :=
| PP_unset
| PP_null
| PP_bool (b : bool)
| PP_data (t : ptype)
| PP_int (z : Z)
| PP_enum (s : string)
| PP_string (s : string).

(** precison_timestamp_types.go 62-67 [ProtoToTimePrecision]. *)
Definition proto_to_time_precision (val : Z) : res Z :=
  if (val <? 0)%Z || (val >? 9)%Z then Err else Ok val.

(** The [if err != nil { panic(...) }] used by TypeFromProto (e.g. types.go
    296-299). *)
Definition must {A} (r : res A) : res A :=
  match r with Ok a => Ok a | _ => Panic end.

(** types.go 225-427 [TypeFromProto] and 1584-1600 [TypeParamFromProto]. *)
Fixpoint type_from_proto (m : ptype) : res ty :=
  match m with
  | PT_bool n v => Ok (TPrim PrimBool n v)
  | PT_i8 n v => Ok (TPrim PrimI8 n v)
  | PT_i16 n v => Ok (TPrim PrimI16 n v)
  | PT_i32 n v => Ok (TPrim PrimI32 n v)
  | PT_i64 n v => Ok (TPrim PrimI64 n v)
  | PT_fp32 n v => Ok (TPrim PrimFp32 n v)
  | PT_fp64 n v => Ok (TPrim PrimFp64 n v)
  | PT_string n v => Ok (TPrim PrimString n v)
  | PT_binary n v => Ok (TPrim PrimBinary n v)
  | PT_timestamp n v => Ok (TPrim PrimTimestamp n v)
  | PT_date n v => Ok (TPrim PrimDate n v)
  | PT_time n v => Ok (TPrim PrimTime n v)
  | PT_interval_year n v => Ok (TPrim PrimIntervalYear n v)
  | PT_interval_day n v prec =>
      match prec with
      | None => Ok (TIntervalDay n v 6)
      | Some p => let! p' := must (proto_to_time_precision p) in Ok (TIntervalDay n v p')
      end
  | PT_interval_compound n v prec =>
      let! p := must (proto_to_time_precision prec) in Ok (TIntervalCompound true n v p)
  | PT_timestamp_tz n v => Ok (TPrim PrimTimestampTz n v)
  | PT_uuid n v => Ok (TPrim PrimUUID n v)
  | PT_fixed_binary n v len => Ok (TFixed FxBinary n v len)
  | PT_fixed_char n v len => Ok (TFixed FxChar n v len)
  | PT_varchar n v len => Ok (TFixed FxVarChar n v len)
  | PT_decimal n v scale precision => Ok (TDecimal n v precision scale)
  | PT_precision_time n v prec =>
      let! p := must (proto_to_time_precision prec) in Ok (TPrecTime n v p)
  | PT_precision_timestamp n v prec =>
      let! p := must (proto_to_time_precision prec) in Ok (TPrecTs n v p)
  | PT_precision_timestamp_tz n v prec =>
      let! p := must (proto_to_time_precision prec) in Ok (TPrecTsTz n v p)
  | PT_struct n v types => let! fs := mapM type_from_proto types in Ok (TStruct n v fs)
  | PT_func n params ret =>
      let! ps := mapM type_from_proto params in
      let! r := type_from_proto ret in
      Ok (TFunc n ps r)
  | PT_list n v t => let! e := type_from_proto t in Ok (TList n v e)
  | PT_map n v key value =>
      let! k := type_from_proto key in
      let! x := type_from_proto value in
      Ok (TMap n v k x)
  | PT_user_defined n v ref params =>
      let! ps := mapM type_param_from_proto params in Ok (TUser n v ref ps)
  | PT_unset => Panic
  end
with type_param_from_proto (p : pparam) : res tparam :=
  match p with
  | PP_null => Ok TPnull
  | PP_bool b => Ok (TPbool b)
  | PP_data t => let! d := type_from_proto t in Ok (TPdata d)
  | PP_int z => Ok (TPint z)
  | PP_enum s => Ok (TPenum s)
  | PP_string s => Ok (TPstring s)
  | PP_unset => Ok TPnil
  end.

(** types.go 664-752: the primitive cases of [TypeToProto]. *)
Definition prim_to_proto (p : prim) (n v : Z) : ptype :=
  match p with
  | PrimBool => PT_bool n v
  | PrimI8 => PT_i8 n v
  | PrimI16 => PT_i16 n v
  | PrimI32 => PT_i32 n v
  | PrimI64 => PT_i64 n v
  | PrimFp32 => PT_fp32 n v
  | PrimFp64 => PT_fp64 n v
  | PrimString => PT_string n v
  | PrimBinary => PT_binary n v
  | PrimDate => PT_date n v
  | PrimTime => PT_time n v
  | PrimTimestampTz => PT_timestamp_tz n v
  | PrimTimestamp => PT_timestamp n v
  | PrimIntervalYear => PT_interval_year n v
  | PrimUUID => PT_uuid n v
  end.

(** types.go 662-803 [TypeToProto] with the composite [ToProto] methods
    (1102 Decimal, 1170 Struct, 1305 Func, 1380 List, 1442 Map, 1652 UserDefined)
    and the [TypeParam.ToProto] methods (1490, 1506, 1521, 1536, 1551, 1570).
    A pointer [*IntervalCompoundType], an [IntervalYearToMonthType] and an
    [*EnumType] match no case and reach [panic("unimplemented type")] (802); a
    nil [TypeParam] panics with a nil dereference (1655). *)
Fixpoint type_to_proto (t : ty) : res ptype :=
  match t with
  | TPrim p n v => Ok (prim_to_proto p n v)
  | TFixed FxChar n v len => Ok (PT_fixed_char n v len)
  | TFixed FxVarChar n v len => Ok (PT_varchar n v len)
  | TFixed FxBinary n v len => Ok (PT_fixed_binary n v len)
  | TDecimal n v precision scale => Ok (PT_decimal n v scale precision)
  | TPrecTime n v prec => Ok (PT_precision_time n v prec)
  | TPrecTs n v prec => Ok (PT_precision_timestamp n v prec)
  | TPrecTsTz n v prec => Ok (PT_precision_timestamp_tz n v prec)
  | TIntervalDay n v prec => Ok (PT_interval_day n v (Some prec))
  | TIntervalCompound false n v prec => Ok (PT_interval_compound n v prec)
  | TIntervalCompound true _ _ _ => Panic
  | TIntervalYearToMonth _ _ => Panic
  | TEnum _ _ _ _ _ => Panic
  | TStruct n v fields => let! fs := mapM type_to_proto fields in Ok (PT_struct n v fs)
  | TFunc n params ret =>
      let! ps := mapM type_to_proto params in
      let! r := type_to_proto ret in
      Ok (PT_func n ps r)
  | TList n v elem => let! e := type_to_proto elem in Ok (PT_list n v e)
  | TMap n v key value =>
      let! k := type_to_proto key in
      let! x := type_to_proto value in
      Ok (PT_map n v k x)
  | TUser n v ref params =>
      let! ps := mapM tparam_to_proto params in Ok (PT_user_defined n v ref ps)
  end
with tparam_to_proto (p : tparam) : res pparam :=
  match p with
  | TPnil => Panic
  | TPnull => Ok PP_null
  | TPbool b => Ok (PP_bool b)
  | TPdata t => let! d := type_to_proto t in Ok (PP_data d)
  | TPint z => Ok (PP_int z)
  | TPenum s => Ok (PP_enum s)
  | TPstring s => Ok (PP_string s)
  end.

(** [GetNullability] (types.go 648, 891, 1014, 1086, 1146, 1281, 1363, 1425,
    1625; interval files; precison_timestamp_types.go 107, 213, 267). *)
Definition get_nullability (t : ty) : nullability :=
  match t with
  | TPrim _ n _ | TFixed _ n _ _ | TDecimal n _ _ _ | TPrecTime n _ _ | TPrecTs n _ _
  | TPrecTsTz n _ _ | TIntervalDay n _ _ | TIntervalCompound _ n _ _
  | TIntervalYearToMonth n _ | TEnum _ n _ _ _ | TStruct n _ _ | TFunc n _ _
  | TList n _ _ | TMap n _ _ _ | TUser n _ _ _ => n
  end.

(** [GetTypeVariationReference]; a [FuncType] always answers 0 (types.go 1282). *)
Definition get_variation (t : ty) : Z :=
  match t with
  | TPrim _ _ v | TFixed _ _ v _ | TDecimal _ v _ _ | TPrecTime _ v _ | TPrecTs _ v _
  | TPrecTsTz _ v _ | TIntervalDay _ v _ | TIntervalCompound _ _ v _
  | TIntervalYearToMonth _ v | TEnum _ _ v _ _ | TStruct _ v _
  | TList _ v _ | TMap _ v _ _ | TUser _ v _ _ => v
  | TFunc _ _ _ => 0%Z
  end.

(** [GetType] of a type, used when a type is the root of a field reference.
    [PrecisionTimestampTzType] embeds [PrecisionTimestampType] and does not
    redefine [GetType] (precison_timestamp_types.go 106, 156-158), so the promoted
    method returns the embedded zone-less type. *)
Definition get_type (t : ty) : ty :=
  match t with
  | TPrecTsTz n v prec => TPrecTs n v prec
  | _ => t
  end.

(** [WithNullability]: the returned type (types.go 587, 880, 1003, 1075, 1131,
    1263, 1352, 1414, 1610; interval_day_type.go 21; interval_compound_type.go 31
    returns the value form; interval_year_month_type.go 29;
    precison_timestamp_types.go 90, 193, 253).  [EnumType]: a copy, which is never
    the [CommonEnumType] pointer. The effect on the receiver is [with_nullability_heap]. *)
Definition with_nullability (n : nullability) (t : ty) : ty :=
  match t with
  | TPrim p _ v => TPrim p n v
  | TFixed k _ v len => TFixed k n v len
  | TDecimal _ v p s => TDecimal n v p s
  | TPrecTime _ v p => TPrecTime n v p
  | TPrecTs _ v p => TPrecTs n v p
  | TPrecTsTz _ v p => TPrecTsTz n v p
  | TIntervalDay _ v p => TIntervalDay n v p
  | TIntervalCompound _ _ v p => TIntervalCompound false n v p
  | TIntervalYearToMonth _ v => TIntervalYearToMonth n v
  | TEnum _ _ v name opts => TEnum false n v name opts
  | TStruct _ v fs => TStruct n v fs
  | TFunc _ ps r => TFunc n ps r
  | TList _ v e => TList n v e
  | TMap _ v k x => TMap n v k x
  | TUser _ v r ps => TUser n v r ps
  end.

(** Objects behind pointers.  [theap] maps an address to the type object stored
    there; a fresh address is one past the end.  interval_day_type.go 21-24 writes
    the receiver and returns it; every other method allocates a copy (the value
    types IntervalCompoundType / IntervalYearToMonthType are copied as well). *)
Definition theap := list ty.

Definition with_nullability_heap (h : theap) (a : nat) (n : nullability) : res (theap * nat) :=
  match nth_error h a with
  | None => Panic
  | Some t =>
      match t with
      | TIntervalDay _ v p =>
          Ok ((firstn a h ++ TIntervalDay n v p :: skipn (S a) h)%list, a)
      | _ => Ok ((h ++ [with_nullability n t])%list, List.length h)
      end
  end.

Definition prim_eqb (p q : prim) : bool :=
  match p, q with
  | PrimBool, PrimBool | PrimI8, PrimI8 | PrimI16, PrimI16 | PrimI32, PrimI32
  | PrimI64, PrimI64 | PrimFp32, PrimFp32 | PrimFp64, PrimFp64
  | PrimString, PrimString | PrimBinary, PrimBinary | PrimTimestamp, PrimTimestamp
  | PrimDate, PrimDate | PrimTime, PrimTime | PrimTimestampTz, PrimTimestampTz
  | PrimIntervalYear, PrimIntervalYear | PrimUUID, PrimUUID => true
  | _, _ => false
  end.

Definition fixedk_eqb (p q : fixedk) : bool :=
  match p, q with
  | FxChar, FxChar | FxVarChar, FxVarChar | FxBinary, FxBinary => true
  | _, _ => false
  end.

(** The loop of [EnumType.MatchWithoutNullability] (types.go 629-636). *)
Fixpoint strings_eqb (a b : list string) : bool :=
  match a, b with
  | [], [] => true
  | x :: a', y :: b' => String.eqb x y && strings_eqb a' b'
  | _, _ => false
  end.

(** types.go 621-640 [EnumType.MatchWithoutNullability]. *)
Definition enum_match_without_nullability (name : string) (opts : list string) (ot : ty) : bool :=
  match ot with
  | TEnum true _ _ _ _ => true
  | TEnum false _ _ name' opts' => String.eqb name name' && strings_eqb opts opts'
  | _ => false
  end.

(** The [Equals] methods: types.go 583 (Enum, through MatchWithNullability 614),
    893 (Primitive), 1016 (FixedLen), 1088 (Decimal), 1149 (Struct), 1284 (Func),
    1366 (List), 1428 (Map), 1628 (UserDefined); interval_compound_type.go 49;
    interval_day_type.go 29; interval_year_month_type.go 38;
    precison_timestamp_types.go 109, 203, 269; and [TypeParam.Equals] types.go 1485,
    1499, 1514, 1529, 1544, 1563.  Calling a method on a nil [TypeParam] panics. *)
Fixpoint type_equals (t u : ty) {struct t} : res bool :=
  match t with
  | TPrim p n v =>
      match u with
      | TPrim p' n' v' => Ok (prim_eqb p p' && Z.eqb n' n && Z.eqb v' v)
      | _ => Ok false
      end
  | TFixed k n v len =>
      match u with
      | TFixed k' n' v' len' => Ok (fixedk_eqb k k' && Z.eqb n' n && Z.eqb v' v && Z.eqb len' len)
      | _ => Ok false
      end
  | TDecimal n v p s =>
      match u with
      | TDecimal n' v' p' s' => Ok (Z.eqb n' n && Z.eqb v' v && Z.eqb s' s && Z.eqb p' p)
      | _ => Ok false
      end
  | TPrecTime n v p =>
      match u with
      | TPrecTime n' v' p' => Ok (Z.eqb p' p && Z.eqb v' v && Z.eqb n' n)
      | _ => Ok false
      end
  | TPrecTs n v p =>
      match u with
      | TPrecTs n' v' p' => Ok (Z.eqb p' p && Z.eqb v' v && Z.eqb n' n)
      | _ => Ok false
      end
  | TPrecTsTz n v p =>
      match u with
      | TPrecTsTz n' v' p' => Ok (Z.eqb p' p && Z.eqb v' v && Z.eqb n' n)
      | _ => Ok false
      end
  | TIntervalDay n v p =>
      match u with
      | TIntervalDay n' v' p' => Ok (Z.eqb p' p && Z.eqb v' v && Z.eqb n' n)
      | _ => Ok false
      end
  | TIntervalCompound _ n v p =>
      match u with
      | TIntervalCompound _ n' v' p' => Ok (Z.eqb p' p && Z.eqb v' v && Z.eqb n' n)
      | _ => Ok false
      end
  | TIntervalYearToMonth n v =>
      match u with
      | TIntervalYearToMonth n' v' => Ok (Z.eqb v' v && Z.eqb n' n)
      | _ => Ok false
      end
  | TEnum _ n _ name opts =>
      if Z.eqb n (get_nullability u)
      then Ok (enum_match_without_nullability name opts u)
      else Ok false
  | TStruct n v fs =>
      match u with
      | TStruct n' v' fs' =>
          if negb (Z.eqb n n') then Ok false
          else if negb (Z.eqb v v') then Ok false
          else if negb (Nat.eqb (List.length fs) (List.length fs')) then Ok false
          else all2M type_equals fs fs'
      | _ => Ok false
      end
  | TFunc n ps r =>
      match u with
      | TFunc n' ps' r' =>
          if negb (Z.eqb n n') then Ok false
          else if negb (Nat.eqb (List.length ps) (List.length ps')) then Ok false
          else
            let! b := type_equals r r' in
            if negb b then Ok false else all2M type_equals ps ps'
      | _ => Ok false
      end
  | TList n v e =>
      match u with
      | TList n' v' e' =>
          if negb (Z.eqb n n') then Ok false
          else if negb (Z.eqb v v') then Ok false
          else type_equals e e'
      | _ => Ok false
      end
  | TMap n v k x =>
      match u with
      | TMap n' v' k' x' =>
          if negb (Z.eqb n n') then Ok false
          else if negb (Z.eqb v v') then Ok false
          else
            let! b := type_equals k k' in
            if b then type_equals x x' else Ok false
      | _ => Ok false
      end
  | TUser n v ref ps =>
      match u with
      | TUser n' v' ref' ps' =>
          if negb (Z.eqb n n') then Ok false
          else if negb (Z.eqb v v') then Ok false
          else if negb (Z.eqb ref ref') then Ok false
          else if negb (Nat.eqb (List.length ps) (List.length ps')) then Ok false
          else all2M tparam_equals ps ps'
      | _ => Ok false
      end
  end
with tparam_equals (p q : tparam) {struct p} : res bool :=
  match p with
  | TPnil => Panic
  | TPnull => match q with TPnull => Ok true | _ => Ok false end
  | TPdata t => match q with TPdata t' => type_equals t t' | _ => Ok false end
  | TPbool b => match q with TPbool b' => Ok (Bool.eqb b b') | _ => Ok false end
  | TPint z => match q with TPint z' => Ok (Z.eqb z z') | _ => Ok false end
  | TPenum s => match q with TPenum s' => Ok (String.eqb s s') | _ => Ok false end
  | TPstring s => match q with TPstring s' => Ok (String.eqb s s') | _ => Ok false end
  end.

(** types.go 1224-1246 [DepthFirstNameCount] and [nestedNameCount]. *)
Fixpoint nested_name_count (t : ty) : nat :=
  match t with
  | TStruct _ _ fs => fold_left (fun count f => count + 1 + nested_name_count f) fs 0
  | TList _ _ e => nested_name_count e
  | TMap _ _ k x => nested_name_count k + nested_name_count x
  | _ => 0
  end.

Definition depth_first_name_count (fields : list ty) : nat :=
  fold_left (fun count f => count + 1 + nested_name_count f) fields 0.

(** plan/plan.go 306-313 [validateRootNamesForSchema]; [RecordType.AsStructType]
    (types.go 1807) keeps the field list. *)
Definition validate_root_names (record : list ty) (names : list string) : res unit :=
  if Nat.eqb (List.length names) (depth_first_name_count record) then Ok tt else Err.

(** types.go 860-869 [strFromNullability]. *)
Definition str_nullable (n : nullability) : string :=
  if Z.eqb n NullNullable then "?" else "".

(** types.go 813-836 [typeNames]. *)
Definition prim_name (p : prim) : string :=
  match p with
  | PrimBool => "boolean" | PrimI8 => "i8" | PrimI16 => "i16" | PrimI32 => "i32"
  | PrimI64 => "i64" | PrimFp32 => "fp32" | PrimFp64 => "fp64"
  | PrimString => "string" | PrimBinary => "binary" | PrimTimestamp => "timestamp"
  | PrimDate => "date" | PrimTime => "time" | PrimTimestampTz => "timestamp_tz"
  | PrimIntervalYear => "interval_year" | PrimUUID => "uuid"
  end.

Definition fixed_name (k : fixedk) : string :=
  match k with FxChar => "fixedchar" | FxVarChar => "varchar" | FxBinary => "fixedbinary" end.

(** Joining with a separator, as the loops [if i != 0 { b.WriteString(", ") }]. *)
Fixpoint join (sep : string) (l : list string) : string :=
  match l with
  | [] => ""
  | [x] => x
  | x :: l' => x ++ sep ++ join sep l'
  end.

(** The [String] methods: types.go 597 (Enum), 915, 1035, 1111, 1190, 1327, 1395,
    1458, 1678; interval_day_type.go 53; interval_compound_type.go 74;
    interval_year_month_type.go 57; precison_timestamp_types.go 134, 187, 294. *)
Fixpoint type_string (t : ty) : string :=
  match t with
  | TPrim p n _ => prim_name p ++ str_nullable n
  | TFixed k n _ len => fixed_name k ++ str_nullable n ++ "<" ++ string_of_Z len ++ ">"
  | TDecimal n _ p s => "decimal" ++ str_nullable n ++ "<" ++ string_of_Z p ++ "," ++ string_of_Z s ++ ">"
  | TPrecTime n _ p => "precision_time" ++ str_nullable n ++ "<" ++ string_of_Z p ++ ">"
  | TPrecTs n _ p => "precision_timestamp" ++ str_nullable n ++ "<" ++ string_of_Z p ++ ">"
  | TPrecTsTz n _ p => "precision_timestamp_tz" ++ str_nullable n ++ "<" ++ string_of_Z p ++ ">"
  | TIntervalDay n _ p => "interval_day" ++ str_nullable n ++ "<" ++ string_of_Z p ++ ">"
  | TIntervalCompound _ n _ p => "interval_compound" ++ str_nullable n ++ "<" ++ string_of_Z p ++ ">"
  | TIntervalYearToMonth n _ => "interval_year" ++ str_nullable n
  | TEnum _ _ _ name _ => name
  | TStruct n _ fs => "struct" ++ str_nullable n ++ "<" ++ join ", " (map type_string fs) ++ ">"
  | TFunc n ps r =>
      "func" ++ str_nullable n ++ "<" ++ join ", " (map type_string ps) ++ " -> " ++ type_string r ++ ">"
  | TList n _ e => "list" ++ str_nullable n ++ "<" ++ type_string e ++ ">"
  | TMap n _ k x => "map" ++ str_nullable n ++ "<" ++ type_string k ++ ", " ++ type_string x ++ ">"
  | TUser _ _ _ _ => "user_defined_type"
  end.

(** types.go 1722-1776 [NamedStruct.String].  [idx] is the captured variable
    [nameIdx]; indexing [n.Names] out of range panics. The result is the text
    written and the new value of [nameIdx]. *)
Section NamedStructString.
  Variable names : list string.

  Definition take_name (idx : nat) : res string :=
    match nth_error names idx with Some s => Ok s | None => Panic end.

  (** the loop over the fields of a struct (1734-1742, 1763-1772) *)
  Definition write_fields (write_type : ty -> nat -> res (string * nat)) :
    bool -> list ty -> nat -> res (string * nat) :=
    fix go (first : bool) (l : list ty) (idx : nat) : res (string * nat) :=
      match l with
      | [] => Ok ("", idx)
      | c :: l' =>
          let! nm := take_name idx in
          let! (s, idx1) := write_type c (S idx) in
          let! (rest, idx2) := go false l' idx1 in
          Ok ((if first then "" else ", ") ++ nm ++ ": " ++ s ++ rest, idx2)
      end.

  Fixpoint write_type (t : ty) (idx : nat) : res (string * nat) :=
    match t with
    | TStruct n _ fs =>
        let! (s, idx') := write_fields write_type true fs idx in
        Ok ("struct<" ++ s ++ ">" ++ str_nullable n, idx')
    | TMap n _ k x =>
        let! (sk, i1) := write_type k idx in
        let! (sx, i2) := write_type x i1 in
        Ok ("map<" ++ sk ++ "," ++ sx ++ ">" ++ str_nullable n, i2)
    | TList n _ e =>
        let! (s, i1) := write_type e idx in
        Ok ("list<" ++ s ++ ">" ++ str_nullable n, i1)
    | _ => Ok (type_string t, idx)
    end.

  Definition named_struct_string (fields : list ty) : res string :=
    let! (s, _) := write_fields write_type true fields 0 in
    Ok ("NSTRUCT<" ++ s ++ ">").
End NamedStructString.

(** types.go 1690-1720: [NamedStruct], [NewNamedStructFromProto], [ToProto].
    [None] is a nil message; a non-nil message with a nil [Struct] field is
    modelled by [Some (names, None)] and panics. *)
Record named_struct := NamedStruct {
  ns_names : list string; ns_null : nullability; ns_var : Z; ns_types : list ty }.

Record pnamed_struct := PNamedStruct {
  pns_names : list string; pns_struct : option (Z * Z * list ptype) }.

Definition named_struct_from_proto (m : option pnamed_struct) : res named_struct :=
  match m with
  | None => Ok (NamedStruct [] 0%Z 0%Z [])
  | Some (PNamedStruct names None) => Panic
  | Some (PNamedStruct names (Some (n, v, ts))) =>
      let! fs := mapM type_from_proto ts in Ok (NamedStruct names n v fs)
  end.

Definition named_struct_to_proto (s : named_struct) : res pnamed_struct :=
  let! fs := mapM type_to_proto (ns_types s) in
  Ok (PNamedStruct (ns_names s) (Some (ns_null s, ns_var s, fs))).

(** types.go 1791-1817: [RecordType] operations on the list of field types.
    (The slice aliasing of [Concat] is modelled in SliceModel.v.) *)
Definition record_equals (r other : list ty) : res bool :=
  type_equals (TStruct NullRequired 0 r) (TStruct NullRequired 0 other).

Definition record_get_field_ref (r : list ty) (index : Z) : res ty :=
  if (index <? 0)%Z then Panic
  else match nth_error r (Z.to_nat index) with Some t => Ok t | None => Panic end.

Definition record_field_count (r : list ty) : Z := wrap 32 (Z.of_nat (List.length r)).

Definition record_concat (r other : list ty) : list ty := (r ++ other)%list.
