(** Model of literals: /repo/expr/literals.go, interval_year_to_month.go,
    interval_compound_literal.go and the collection constructors of
    /repo/literal/utils.go.  Definitions only.

    Simplifications:
    - floats are their IEEE bit patterns (a non-negative integer of 32 or 64 bits);
    - byte slices are lists of integers; a nil and an empty slice are not
      distinguished;
    - nil protobuf sub-messages are not modelled except where the code tests for them
      (the two parts of an interval_compound) or produces them (an empty_list whose
      literal has no list type);
    - [reflect.DeepEqual] on protobuf values compares their fields;
    - [String], [ValueString] and [IsoValueString] are not modelled. *)

From Coq Require Import List ZArith String Bool.
From Verif Require Import Base TypesModel DecimalModel TimeModel.
Import ListNotations.
Local Open Scope Z_scope.

(** ** protobuf messages *)

(** [Expression.Literal.IntervalDayToSecond]: the [precision_mode] oneof *)
Inductive ids_mode :=
| IM_unset
| IM_micros (us : Z)
| IM_precision (p : Z).
Record idts := Idts { id_days : Z; id_secs : Z; id_mode : ids_mode; id_sub : Z }.

(** [Expression.Literal]: nullable, type_variation_reference and the literal_type
    oneof.  [uval] is the [val] oneof of a user-defined literal, whose [Any] payload
    is opaque (type URL and bytes). *)
Inductive plit :=
| PLit (nullable : bool) (var : Z) (body : pbody)
with pbody :=
| PB_unset
| PB_bool (b : bool)
| PB_i8 (z : Z) | PB_i16 (z : Z) | PB_i32 (z : Z) | PB_i64 (z : Z)
| PB_fp32 (bits : Z) | PB_fp64 (bits : Z)
| PB_string (s : string)
| PB_binary (s : list Z)
| PB_timestamp (z : Z) | PB_date (z : Z) | PB_time (z : Z)
| PB_year_month (years months : Z)
| PB_day_second (d : idts)
| PB_compound (ym : option (Z * Z)) (ds : option idts)
| PB_fixed_char (s : string)
| PB_varchar (s : string) (len : Z)
| PB_fixed_binary (s : list Z)
| PB_decimal (s : list Z) (precision scale : Z)
| PB_precision_time (p v : Z)
| PB_precision_timestamp (p v : Z)
| PB_precision_timestamp_tz (p v : Z)
| PB_timestamp_tz (z : Z)
| PB_uuid (s : list Z)
| PB_null (t : ptype)
| PB_struct (fields : list plit)
| PB_map (kvs : list (plit * plit))
| PB_list (values : list plit)
| PB_empty_list (l : option (Z * Z * ptype))
| PB_empty_map (m : option (Z * Z * ptype * ptype))
| PB_user_defined (ref : option Z) (params : list pparam) (val : uval)
with uval :=
| UV_unset
| UV_any (url : string) (payload : list Z)
| UV_struct (fields : list plit).

(** ** Go literals *)

(** The value of a [PrimitiveLiteral[T]] (literals.go 26-28, 153-156), one constructor
    per [T] that [ToProtoLiteral] knows; [VOther] is any other named integer or string
    type, which the constraint [~int32 | ~int64 | ~string] admits. *)
Inductive pval :=
| VBool (b : bool)
| VI8 (z : Z) | VI16 (z : Z) | VI32 (z : Z) | VI64 (z : Z)
| VFp32 (bits : Z) | VFp64 (bits : Z)
| VString (s : string)
| VTimestamp (z : Z) | VDate (z : Z) | VTime (z : Z)
| VFixedChar (s : string)
| VTimestampTz (z : Z)
| VOther (s : string).

(** The type argument of a [ByteSliceLiteral[T]] (419). *)
Inductive bytesk := BkBinary | BkFixedBinary | BkUuid.

(** The dynamic value of a [ProtoLiteral] (504-507); [XOther] is anything else. *)
Inductive protoval :=
| XInt64 (z : Z)
| XString (s : string)
| XBytes (s : list Z)
| XYearMonth (years months : Z)
| XDaySecond (d : idts)
| XUser (v : uval)
| XOther.

(** A value of interface [expr.Literal]; [LNil] is the nil interface, which
    [LiteralFromProto] returns for values it refuses.  [LStruct] and [LList] are
    [NestedLiteral[StructLiteralValue]] and [NestedLiteral[ListLiteralValue]]. *)
Inductive lit :=
| LNil
| LNull (t : ty)
| LPrim (v : pval) (t : ty)
| LStruct (fields : list lit) (t : ty)
| LList (elems : list lit) (t : ty)
| LMap (kvs : list (lit * lit)) (t : ty)
| LBytes (k : bytesk) (s : list Z) (t : ty)
| LProto (v : protoval) (t : ty)
| LYearMonth (years months : Z) (n : nullability)
| LCompound (years months days secs sub prec : Z) (n : nullability).

(** [GetType]: 118, 178, 276, 363, 443, 588; interval_year_to_month.go 17-19;
    interval_compound_literal.go 22-24. *)
Definition lit_type (l : lit) : res ty :=
  match l with
  | LNil => Panic
  | LNull t | LPrim _ t | LStruct _ t | LList _ t | LMap _ t | LBytes _ _ t | LProto _ t => Ok t
  | LYearMonth _ _ n => Ok (TIntervalYearToMonth n 0)
  | LCompound _ _ _ _ _ prec n => Ok (TIntervalCompound false n 0 prec)
  end.

(** [Type.GetNullability() == NullabilityNullable] (181, 279, 366, 446, 594) *)
Definition nullable_flag (t : ty) : bool := get_nullability t =? NullNullable.

(** 774-779 [getNullability] *)
Definition nullability_of (nullable : bool) : nullability :=
  if nullable then NullNullable else NullRequired.

(** 185-214: the value of a primitive literal *)
Definition pval_to_proto (v : pval) : res pbody :=
  match v with
  | VBool b => Ok (PB_bool b)
  | VI8 z => Ok (PB_i8 z)
  | VI16 z => Ok (PB_i16 z)
  | VI32 z => Ok (PB_i32 z)
  | VI64 z => Ok (PB_i64 z)
  | VFp32 b => Ok (PB_fp32 b)
  | VFp64 b => Ok (PB_fp64 b)
  | VString s => Ok (PB_string s)
  | VTimestamp z => Ok (PB_timestamp z)
  | VDate z => Ok (PB_date z)
  | VTime z => Ok (PB_time z)
  | VFixedChar s => Ok (PB_fixed_char s)
  | VTimestampTz z => Ok (PB_timestamp_tz z)
  | VOther _ => Panic
  end.

(** 450-457: the value of a byte slice literal *)
Definition bytes_to_proto (k : bytesk) (s : list Z) : pbody :=
  match k with
  | BkBinary => PB_binary s
  | BkFixedBinary => PB_fixed_binary s
  | BkUuid => PB_uuid s
  end.

(** 598-672: the value of a [ProtoLiteral], by type; a failed type assertion panics
    and an unknown type leaves the oneof unset *)
Definition protoval_to_proto (v : protoval) (t : ty) : res pbody :=
  match t with
  | TUser _ _ ref params =>
      let! ps := mapM tparam_to_proto params in
      match v with
      | XUser (UV_any u p) => Ok (PB_user_defined (Some ref) ps (UV_any u p))
      | XUser (UV_struct fs) => Ok (PB_user_defined (Some ref) ps (UV_struct fs))
      | _ => Panic
      end
  | TPrim PrimIntervalYear _ _ =>
      match v with XYearMonth y m => Ok (PB_year_month y m) | _ => Panic end
  | TIntervalDay _ _ _ =>
      match v with XDaySecond d => Ok (PB_day_second d) | _ => Panic end
  | TFixed FxVarChar _ _ len =>
      match v with XString s => Ok (PB_varchar s (uwrap 32 len)) | _ => Panic end
  | TDecimal _ _ p s =>
      match v with XBytes b => Ok (PB_decimal b p s) | _ => Panic end
  | TPrecTime _ _ p =>
      match v with XInt64 z => Ok (PB_precision_time p z) | _ => Panic end
  | TPrecTs _ _ p =>
      match v with XInt64 z => Ok (PB_precision_timestamp p z) | _ => Panic end
  | TPrecTsTz _ _ p =>
      match v with XInt64 z => Ok (PB_precision_timestamp_tz p z) | _ => Panic end
  | _ => Ok PB_unset
  end.

(** the generated getters [GetList] and [GetMap] of [proto.Type] *)
Definition get_list (m : ptype) : option (Z * Z * ptype) :=
  match m with PT_list n v t => Some (n, v, t) | _ => None end.
Definition get_map (m : ptype) : option (Z * Z * ptype * ptype) :=
  match m with PT_map n v k x => Some (n, v, k, x) | _ => None end.

(** interval_compound_literal.go 26-53 *)
Definition compound_to_proto (y mo d s ss prec : Z) : pbody :=
  PB_compound
    (if negb (y =? 0) || negb (mo =? 0) then Some (y, mo) else None)
    (if negb (d =? 0) || negb (s =? 0) || negb (ss =? 0)
     then Some (Idts d s (IM_precision prec) ss) else None).

(** Pairs in a loop that converts a key and then a value. *)
Definition pairM {A B C D} (f : A -> res C) (g : B -> res D) (p : A * B) : res (C * D) :=
  match p with
  | (a, b) => match f a with
              | Ok c => match g b with Ok d => Ok (c, d) | Err => Err | Panic => Panic end
              | Err => Err
              | Panic => Panic
              end
  end.

(** The [ToProtoLiteral] methods: 119-125 (null), 179-217, 277-310 (struct and list),
    364-389 (map), 444-460 (bytes), 592-675; interval_year_to_month.go 21-33;
    interval_compound_literal.go 26-53. *)
Fixpoint lit_to_proto (l : lit) : res plit :=
  match l with
  | LNil => Panic
  | LNull t =>
      let! p := type_to_proto t in Ok (PLit true (get_variation t) (PB_null p))
  | LPrim v t =>
      let! b := pval_to_proto v in Ok (PLit (nullable_flag t) (get_variation t) b)
  | LStruct fs t =>
      let! vals := mapM lit_to_proto fs in
      Ok (PLit (nullable_flag t) (get_variation t) (PB_struct vals))
  | LList es t =>
      let! vals := mapM lit_to_proto es in
      match vals with
      | [] =>
          let! p := type_to_proto t in
          Ok (PLit (nullable_flag t) (get_variation t) (PB_empty_list (get_list p)))
      | _ => Ok (PLit (nullable_flag t) (get_variation t) (PB_list vals))
      end
  | LMap kvs t =>
      let! vals := mapM (pairM lit_to_proto lit_to_proto) kvs in
      match vals with
      | [] =>
          let! p := type_to_proto t in
          Ok (PLit (nullable_flag t) (get_variation t) (PB_empty_map (get_map p)))
      | _ => Ok (PLit (nullable_flag t) (get_variation t) (PB_map vals))
      end
  | LBytes k s t => Ok (PLit (nullable_flag t) (get_variation t) (bytes_to_proto k s))
  | LProto v t =>
      let! b := protoval_to_proto v t in Ok (PLit (nullable_flag t) (get_variation t) b)
  | LYearMonth y m n => Ok (PLit (n =? NullNullable) 0 (PB_year_month y m))
  | LCompound y mo d s ss prec n =>
      Ok (PLit (n =? NullNullable) 0 (compound_to_proto y mo d s ss prec))
  end.

(** [int32(len(s))] *)
Definition len32 {A} (l : list A) : Z := wrap 32 (Z.of_nat (List.length l)).
Definition slen32 (s : string) : Z := wrap 32 (Z.of_nat (String.length s)).

(** 1272-1308 [NewPrecisionTimeLiteral], [NewPrecisionTimestampLiteral],
    [NewPrecisionTimestampTzLiteral] *)
Definition new_precision_time (v p : Z) (n : nullability) : lit := LProto (XInt64 v) (TPrecTime n 0 p).
Definition new_precision_timestamp (v p : Z) (n : nullability) : lit := LProto (XInt64 v) (TPrecTs n 0 p).
Definition new_precision_timestamp_tz (v p : Z) (n : nullability) : lit := LProto (XInt64 v) (TPrecTsTz n 0 p).

(** 1232-1261: the common shape of the three precision cases *)
Definition checked_precision (p v : Z) (mk : Z -> lit) : lit :=
  match proto_to_time_precision p with
  | Ok p' => if v <? 0 then LNil else mk p'
  | _ => LNil
  end.

(** interval_compound_literal.go 61-90, 116-128 [validateIntervalDayToSecondProto],
    130-147 [intervalCompoundPrecisionSubSecondsFromProto] *)
Definition compound_from_proto (n : nullability) (ym : option (Z * Z)) (ds : option idts) : lit :=
  let '(y, mo) := match ym with Some p => p | None => (0, 0) end in
  match ds with
  | None => LCompound y mo 0 0 0 0 n
  | Some (Idts d s mode ss) =>
      match mode with
      | IM_unset => LNil
      | IM_micros us => if 0 <? ss then LNil else LCompound y mo d s us 6 n
      | IM_precision p =>
          match proto_to_time_precision p with
          | Ok p' => LCompound y mo d s ss p' n
          | _ => LNil
          end
      end
  end.

(** 1002-1268 [LiteralFromProto]. *)
Fixpoint lit_from_proto (m : plit) : res lit :=
  match m with
  | PLit nullable var body =>
      let n := nullability_of nullable in
      match body with
      | PB_unset => Panic
      | PB_bool b => Ok (LPrim (VBool b) (TPrim PrimBool n var))
      | PB_i8 z => Ok (LPrim (VI8 (wrap 8 z)) (TPrim PrimI8 n var))
      | PB_i16 z => Ok (LPrim (VI16 (wrap 16 z)) (TPrim PrimI16 n var))
      | PB_i32 z => Ok (LPrim (VI32 z) (TPrim PrimI32 n var))
      | PB_i64 z => Ok (LPrim (VI64 z) (TPrim PrimI64 n var))
      | PB_fp32 b => Ok (LPrim (VFp32 b) (TPrim PrimFp32 n var))
      | PB_fp64 b => Ok (LPrim (VFp64 b) (TPrim PrimFp64 n var))
      | PB_string s => Ok (LPrim (VString s) (TPrim PrimString n var))
      | PB_binary s => Ok (LBytes BkBinary s (TPrim PrimBinary n var))
      | PB_timestamp z => Ok (LPrim (VTimestamp z) (TPrim PrimTimestamp n var))
      | PB_date z => Ok (LPrim (VDate z) (TPrim PrimDate n var))
      | PB_time z => Ok (LPrim (VTime z) (TPrim PrimTime n var))
      | PB_day_second d =>
          match id_mode d with
          | IM_precision p =>
              match proto_to_time_precision p with
              | Ok p' => Ok (LProto (XDaySecond d) (TIntervalDay n var p'))
              | _ => Ok LNil
              end
          | _ => Ok (LProto (XDaySecond d) (TIntervalDay n var 6))
          end
      | PB_fixed_char s => Ok (LPrim (VFixedChar s) (TFixed FxChar n var (slen32 s)))
      | PB_varchar s len => Ok (LProto (XString s) (TFixed FxVarChar n var (wrap 32 len)))
      | PB_fixed_binary s => Ok (LBytes BkFixedBinary s (TFixed FxBinary n var (len32 s)))
      | PB_decimal s p sc => Ok (LProto (XBytes s) (TDecimal n var p sc))
      | PB_timestamp_tz z => Ok (LPrim (VTimestampTz z) (TPrim PrimTimestampTz n var))
      | PB_uuid s => Ok (LBytes BkUuid s (TPrim PrimUUID n var))
      | PB_null t => let! t' := type_from_proto t in Ok (LNull t')
      | PB_struct fields =>
          let! fs := mapM lit_from_proto fields in
          let! ts := mapM lit_type fs in
          Ok (LStruct fs (TStruct n var ts))
      | PB_map kvs =>
          let! ret := mapM (pairM lit_from_proto lit_from_proto) kvs in
          match ret with
          | [] => Panic
          | (k0, x0) :: _ =>
              let! kt := lit_type k0 in
              let! xt := lit_type x0 in
              Ok (LMap ret (TMap n var kt xt))
          end
      | PB_list values =>
          let! ret := mapM lit_from_proto values in
          match ret with
          | [] => Panic
          | e0 :: _ => let! t := lit_type e0 in Ok (LList ret (TList n var t))
          end
      | PB_empty_list None => Panic
      | PB_empty_list (Some (_, _, t)) =>
          let! e := type_from_proto t in Ok (LList [] (TList n var e))
      | PB_empty_map None => Panic
      | PB_empty_map (Some (_, _, k, x)) =>
          let! kt := type_from_proto k in
          let! xt := type_from_proto x in
          Ok (LMap [] (TMap n var kt xt))
      | PB_user_defined ref params val =>
          let! ps := mapM type_param_from_proto params in
          let r := match ref with Some r => r | None => 0 end in
          Ok (LProto (XUser val) (TUser n var r ps))
      | PB_precision_time p v => Ok (checked_precision p v (fun p' => new_precision_time v p' n))
      | PB_precision_timestamp p v => Ok (checked_precision p v (fun p' => new_precision_timestamp v p' n))
      | PB_precision_timestamp_tz p v => Ok (checked_precision p v (fun p' => new_precision_timestamp_tz v p' n))
      | PB_year_month y m => Ok (LYearMonth y m n)
      | PB_compound ym ds => Ok (compound_from_proto n ym ds)
      end
  end.

(** ** equality *)

(** Go's [==] on float32 and float64, on bit patterns with [e] exponent bits and [m]
    fraction bits: NaN (all exponent bits set, fraction not zero) is different from
    everything, and the two zeros are equal. *)
Definition fp_is_nan (e m x : Z) : bool :=
  ((x / 2 ^ m) mod 2 ^ e =? 2 ^ e - 1) && negb (x mod 2 ^ m =? 0).
Definition fp_is_zero (e m x : Z) : bool := x mod 2 ^ (e + m) =? 0.
Definition fp_eqb (e m x y : Z) : bool :=
  negb (fp_is_nan e m x) && negb (fp_is_nan e m y) &&
  ((x =? y) || (fp_is_zero e m x && fp_is_zero e m y)).

(** [type assertion to PrimitiveLiteral[T]] and [t.Value == other.Value] (226-227) *)
Definition pval_eqb (a b : pval) : bool :=
  match a, b with
  | VBool x, VBool y => Bool.eqb x y
  | VI8 x, VI8 y | VI16 x, VI16 y | VI32 x, VI32 y | VI64 x, VI64 y
  | VTimestamp x, VTimestamp y | VDate x, VDate y | VTime x, VTime y
  | VTimestampTz x, VTimestampTz y => x =? y
  | VFp32 x, VFp32 y => fp_eqb 8 23 x y
  | VFp64 x, VFp64 y => fp_eqb 11 52 x y
  | VString x, VString y | VFixedChar x, VFixedChar y | VOther x, VOther y => String.eqb x y
  | _, _ => false
  end.

(** [bytes.Equal] *)
Fixpoint bytes_eqb (a b : list Z) : bool :=
  match a, b with
  | [], [] => true
  | x :: a', y :: b' => (x =? y) && bytes_eqb a' b'
  | _, _ => false
  end.

Definition bytesk_eqb (a b : bytesk) : bool :=
  match a, b with
  | BkBinary, BkBinary | BkFixedBinary, BkFixedBinary | BkUuid, BkUuid => true
  | _, _ => false
  end.

(** decidable equality of messages, for [reflect.DeepEqual] (686) *)
Definition list_eqb {A} (f : A -> A -> bool) : list A -> list A -> bool :=
  fix go (l m : list A) : bool :=
    match l, m with
    | [], [] => true
    | x :: l', y :: m' => f x y && go l' m'
    | _, _ => false
    end.
Definition opt_eqb {A} (f : A -> A -> bool) (a b : option A) : bool :=
  match a, b with Some x, Some y => f x y | None, None => true | _, _ => false end.

Fixpoint ptype_eqb (a b : ptype) : bool :=
  match a, b with
  | PT_unset, PT_unset => true
  | PT_bool n v, PT_bool n' v' | PT_i8 n v, PT_i8 n' v' | PT_i16 n v, PT_i16 n' v'
  | PT_i32 n v, PT_i32 n' v' | PT_i64 n v, PT_i64 n' v' | PT_fp32 n v, PT_fp32 n' v'
  | PT_fp64 n v, PT_fp64 n' v' | PT_string n v, PT_string n' v' | PT_binary n v, PT_binary n' v'
  | PT_timestamp n v, PT_timestamp n' v' | PT_date n v, PT_date n' v' | PT_time n v, PT_time n' v'
  | PT_interval_year n v, PT_interval_year n' v' | PT_timestamp_tz n v, PT_timestamp_tz n' v'
  | PT_uuid n v, PT_uuid n' v' => (n =? n') && (v =? v')
  | PT_interval_day n v p, PT_interval_day n' v' p' => (n =? n') && (v =? v') && opt_eqb Z.eqb p p'
  | PT_interval_compound n v p, PT_interval_compound n' v' p'
  | PT_fixed_binary n v p, PT_fixed_binary n' v' p' | PT_fixed_char n v p, PT_fixed_char n' v' p'
  | PT_varchar n v p, PT_varchar n' v' p' | PT_precision_time n v p, PT_precision_time n' v' p'
  | PT_precision_timestamp n v p, PT_precision_timestamp n' v' p'
  | PT_precision_timestamp_tz n v p, PT_precision_timestamp_tz n' v' p' =>
      (n =? n') && (v =? v') && (p =? p')
  | PT_decimal n v s p, PT_decimal n' v' s' p' => (n =? n') && (v =? v') && (s =? s') && (p =? p')
  | PT_struct n v ts, PT_struct n' v' ts' => (n =? n') && (v =? v') && list_eqb ptype_eqb ts ts'
  | PT_func n ps r, PT_func n' ps' r' => (n =? n') && list_eqb ptype_eqb ps ps' && ptype_eqb r r'
  | PT_list n v t, PT_list n' v' t' => (n =? n') && (v =? v') && ptype_eqb t t'
  | PT_map n v k x, PT_map n' v' k' x' => (n =? n') && (v =? v') && ptype_eqb k k' && ptype_eqb x x'
  | PT_user_defined n v r ps, PT_user_defined n' v' r' ps' =>
      (n =? n') && (v =? v') && (r =? r') && list_eqb pparam_eqb ps ps'
  | _, _ => false
  end
with pparam_eqb (a b : pparam) : bool :=
  match a, b with
  | PP_unset, PP_unset | PP_null, PP_null => true
  | PP_bool x, PP_bool y => Bool.eqb x y
  | PP_data t, PP_data t' => ptype_eqb t t'
  | PP_int x, PP_int y => x =? y
  | PP_enum s, PP_enum s' | PP_string s, PP_string s' => String.eqb s s'
  | _, _ => false
  end.

Definition ids_mode_eqb (a b : ids_mode) : bool :=
  match a, b with
  | IM_unset, IM_unset => true
  | IM_micros x, IM_micros y | IM_precision x, IM_precision y => x =? y
  | _, _ => false
  end.
Definition idts_eqb (a b : idts) : bool :=
  (id_days a =? id_days b) && (id_secs a =? id_secs b) && ids_mode_eqb (id_mode a) (id_mode b) &&
  (id_sub a =? id_sub b).
Definition zpair_eqb (a b : Z * Z) : bool := (fst a =? fst b) && (snd a =? snd b).
Definition plist_eqb (a b : Z * Z * ptype) : bool :=
  match a, b with (n, v, t), (n', v', t') => (n =? n') && (v =? v') && ptype_eqb t t' end.
Definition pmap_eqb (a b : Z * Z * ptype * ptype) : bool :=
  match a, b with
  | (n, v, k, x), (n', v', k', x') => (n =? n') && (v =? v') && ptype_eqb k k' && ptype_eqb x x'
  end.

(** [reflect.DeepEqual] on floats uses [==] as well. *)
Fixpoint plit_eqb (a b : plit) : bool :=
  match a, b with
  | PLit n v x, PLit n' v' x' => Bool.eqb n n' && (v =? v') && pbody_eqb x x'
  end
with pbody_eqb (a b : pbody) : bool :=
  match a, b with
  | PB_unset, PB_unset => true
  | PB_bool x, PB_bool y => Bool.eqb x y
  | PB_i8 x, PB_i8 y | PB_i16 x, PB_i16 y | PB_i32 x, PB_i32 y | PB_i64 x, PB_i64 y
  | PB_timestamp x, PB_timestamp y | PB_date x, PB_date y | PB_time x, PB_time y
  | PB_timestamp_tz x, PB_timestamp_tz y => x =? y
  | PB_fp32 x, PB_fp32 y => fp_eqb 8 23 x y
  | PB_fp64 x, PB_fp64 y => fp_eqb 11 52 x y
  | PB_string x, PB_string y | PB_fixed_char x, PB_fixed_char y => String.eqb x y
  | PB_binary x, PB_binary y | PB_fixed_binary x, PB_fixed_binary y | PB_uuid x, PB_uuid y => bytes_eqb x y
  | PB_year_month y m, PB_year_month y' m' => (y =? y') && (m =? m')
  | PB_day_second d, PB_day_second d' => idts_eqb d d'
  | PB_compound a1 a2, PB_compound b1 b2 => opt_eqb zpair_eqb a1 b1 && opt_eqb idts_eqb a2 b2
  | PB_varchar s l, PB_varchar s' l' => String.eqb s s' && (l =? l')
  | PB_decimal s p c, PB_decimal s' p' c' => bytes_eqb s s' && (p =? p') && (c =? c')
  | PB_precision_time p v, PB_precision_time p' v'
  | PB_precision_timestamp p v, PB_precision_timestamp p' v'
  | PB_precision_timestamp_tz p v, PB_precision_timestamp_tz p' v' => (p =? p') && (v =? v')
  | PB_null t, PB_null t' => ptype_eqb t t'
  | PB_struct l, PB_struct l' | PB_list l, PB_list l' => list_eqb plit_eqb l l'
  | PB_map l, PB_map l' =>
      list_eqb (fun p q => match p, q with (k, x), (k', x') => plit_eqb k k' && plit_eqb x x' end) l l'
  | PB_empty_list l, PB_empty_list l' => opt_eqb plist_eqb l l'
  | PB_empty_map l, PB_empty_map l' => opt_eqb pmap_eqb l l'
  | PB_user_defined r ps v, PB_user_defined r' ps' v' =>
      opt_eqb Z.eqb r r' && list_eqb pparam_eqb ps ps' && uval_eqb v v'
  | _, _ => false
  end
with uval_eqb (a b : uval) : bool :=
  match a, b with
  | UV_unset, UV_unset => true
  | UV_any u p, UV_any u' p' => String.eqb u u' && bytes_eqb p p'
  | UV_struct l, UV_struct l' => list_eqb plit_eqb l l'
  | _, _ => false
  end.

Definition protoval_eqb (a b : protoval) : bool :=
  match a, b with
  | XInt64 x, XInt64 y => x =? y
  | XString s, XString s' => String.eqb s s'
  | XBytes s, XBytes s' => bytes_eqb s s'
  | XYearMonth y m, XYearMonth y' m' => (y =? y') && (m =? m')
  | XDaySecond d, XDaySecond d' => idts_eqb d d'
  | XUser v, XUser v' => uval_eqb v v'
  | XOther, XOther => true
  | _, _ => false
  end.

(** [slices.EqualFunc]: lengths first, then element by element; the comparison itself
    may panic. *)
Definition equal_func {A B} (f : A -> B -> res bool) (l : list A) (m : list B) : res bool :=
  if Nat.eqb (List.length l) (List.length m) then all2M f l m else Ok false.

(** [a && b] with a panicking left or right operand *)
Definition andM (a : res bool) (b : res bool) : res bool :=
  let! x := a in if x then b else Ok false.

(** The [Equals] methods: 139-145, 225-230, 318-325, 397-405, 468-475, 683-689;
    interval_year_to_month.go 56-61; interval_compound_literal.go 98-103. *)
Fixpoint lit_equals (a b : lit) {struct a} : res bool :=
  match a with
  | LNil => Panic
  | LNull t => match b with LNull t' => type_equals t t' | _ => Ok false end
  | LPrim v t =>
      match b with LPrim v' t' =>
        match v, v' with
        | VBool _, VBool _ | VI8 _, VI8 _ | VI16 _, VI16 _ | VI32 _, VI32 _ | VI64 _, VI64 _
        | VFp32 _, VFp32 _ | VFp64 _, VFp64 _ | VString _, VString _ | VTimestamp _, VTimestamp _
        | VDate _, VDate _ | VTime _, VTime _ | VFixedChar _, VFixedChar _
        | VTimestampTz _, VTimestampTz _ | VOther _, VOther _ =>
            andM (type_equals t t') (Ok (pval_eqb v v'))
        | _, _ => Ok false
        end
      | _ => Ok false end
  | LStruct fs t =>
      match b with LStruct fs' t' => andM (type_equals t t') (equal_func lit_equals fs fs') | _ => Ok false end
  | LList fs t =>
      match b with LList fs' t' => andM (type_equals t t') (equal_func lit_equals fs fs') | _ => Ok false end
  | LMap kvs t =>
      match b with
      | LMap kvs' t' =>
          andM (type_equals t t')
            (equal_func (fun p q => match p, q with
                                    | (k, x), (k', x') => andM (lit_equals k k') (lit_equals x x')
                                    end) kvs kvs')
      | _ => Ok false
      end
  | LBytes k s t =>
      match b with
      | LBytes k' s' t' =>
          if bytesk_eqb k k' then andM (type_equals t t') (Ok (bytes_eqb s s')) else Ok false
      | _ => Ok false
      end
  | LProto v t =>
      match b with LProto v' t' => andM (type_equals t t') (Ok (protoval_eqb v v')) | _ => Ok false end
  | LYearMonth y m n =>
      match b with
      | LYearMonth y' m' n' =>
          andM (type_equals (TIntervalYearToMonth n 0) (TIntervalYearToMonth n' 0))
            (Ok ((y =? y') && (m =? m') && (n =? n')))
      | _ => Ok false
      end
  | LCompound y mo d s ss p n =>
      match b with
      | LCompound y' mo' d' s' ss' p' n' =>
          andM (type_equals (TIntervalCompound false n 0 p) (TIntervalCompound false n' 0 p'))
            (Ok ((y =? y') && (mo =? mo') && (d =? d') && (s =? s') && (ss =? ss') && (p =? p') && (n =? n')))
      | _ => Ok false
      end
  end.

(** ** constructors *)

(** 104-106 [NewNullLiteral].  (The effect of [WithNullability] on the argument is in
    TypesModel.) *)
Definition new_null_literal (t : ty) : lit := LNull (with_nullability NullNullable t).

(** The argument of [NewLiteral] (893-898), one constructor per case of the switch;
    [AOther] is a type that reaches the end of the switch. *)
Inductive litarg :=
| APrim (v : pval)
| ABytes (k : bytesk) (s : list Z)
| AStruct (fs : list lit)
| AList (es : list lit)
| AMap (kvs : list (lit * lit))
| AYearMonth (y m : Z)
| ADaySecond (d : idts)
| ADecimal (b : list Z) (p s : Z)
| AUser (ref : option Z) (params : list pparam) (v : uval)
| AVarChar (s : string) (len : Z)
| APrecTime (p v : Z)
| APrecTs (p v : Z)
| APrecTsTz (p v : Z).

(** the generated getter [IntervalDayToSecond.GetPrecision] *)
Definition get_precision (d : idts) : Z :=
  match id_mode d with IM_precision p => p | _ => 0 end.

(** 786-804 [NewPrimitiveLiteral], [NewFixedCharLiteral]: [None] for a type without a
    case in [NewLiteral] *)
Definition prim_lit_type (v : pval) (n : nullability) : option ty :=
  match v with
  | VBool _ => Some (TPrim PrimBool n 0)
  | VI8 _ => Some (TPrim PrimI8 n 0)
  | VI16 _ => Some (TPrim PrimI16 n 0)
  | VI32 _ => Some (TPrim PrimI32 n 0)
  | VI64 _ => Some (TPrim PrimI64 n 0)
  | VFp32 _ => Some (TPrim PrimFp32 n 0)
  | VFp64 _ => Some (TPrim PrimFp64 n 0)
  | VString _ => Some (TPrim PrimString n 0)
  | VTimestamp _ => Some (TPrim PrimTimestamp n 0)
  | VDate _ => Some (TPrim PrimDate n 0)
  | VTime _ => Some (TPrim PrimTime n 0)
  | VFixedChar s => Some (TFixed FxChar n 0 (slen32 s))
  | VTimestampTz _ => Some (TPrim PrimTimestampTz n 0)
  | VOther _ => None
  end.

(** 874-891 [NewByteSliceLiteral], [NewFixedBinaryLiteral] *)
Definition bytes_lit_type (k : bytesk) (s : list Z) (n : nullability) : ty :=
  match k with
  | BkBinary => TPrim PrimBinary n 0
  | BkUuid => TPrim PrimUUID n 0
  | BkFixedBinary => TFixed FxBinary n 0 (len32 s)
  end.

(** 900-999 [NewLiteral], with 818-852 [NewNestedLiteral] *)
Definition new_literal (a : litarg) (nullable : bool) : res lit :=
  let n := nullability_of nullable in
  match a with
  | APrim v => match prim_lit_type v n with Some t => Ok (LPrim v t) | None => Err end
  | ABytes k s => Ok (LBytes k s (bytes_lit_type k s n))
  | AStruct fs => let! ts := mapM lit_type fs in Ok (LStruct fs (TStruct n 0 ts))
  | AList es =>
      match es with
      | [] => Panic
      | e0 :: _ => let! t := lit_type e0 in Ok (LList es (TList n 0 t))
      end
  | AMap kvs =>
      match kvs with
      | [] => Panic
      | (k0, x0) :: _ =>
          let! kt := lit_type k0 in
          let! xt := lit_type x0 in
          Ok (LMap kvs (TMap n 0 kt xt))
      end
  | AYearMonth y m => Ok (LProto (XYearMonth y m) (TPrim PrimIntervalYear n 0))
  | ADaySecond d => Ok (LProto (XDaySecond d) (TIntervalDay n 0 (get_precision d)))
  | ADecimal b p s =>
      if Nat.eqb (List.length b) 16 then Ok (LProto (XBytes b) (TDecimal n 0 p s)) else Err
  | AUser ref params v =>
      let! ps := mapM type_param_from_proto params in
      Ok (LProto (XUser v) (TUser n 0 (match ref with Some r => r | None => 0 end) ps))
  | AVarChar s len => Ok (LProto (XString s) (TFixed FxVarChar n 0 (wrap 32 len)))
  | APrecTime p v => Ok (new_precision_time v p n)
  | APrecTs p v => Ok (new_precision_timestamp v p n)
  | APrecTsTz p v => Ok (new_precision_timestamp_tz v p n)
  end.

(** 854-872 [NewEmptyMapLiteral], [NewEmptyListLiteral] *)
Definition new_empty_map_literal (k x : ty) (nullable : bool) : lit :=
  LMap [] (TMap (nullability_of nullable) 0 k x).
Definition new_empty_list_literal (t : ty) (nullable : bool) : lit :=
  LList [] (TList (nullability_of nullable) 0 t).

(** ** /repo/literal/utils.go *)

(** 404-418 [hasTypeMismatch] on a non-empty slice *)
Fixpoint any_mismatch (expected : ty) (l : list lit) : res bool :=
  match l with
  | [] => Ok false
  | LNil :: _ => Ok true
  | x :: l' =>
      let! t := lit_type x in
      let! b := type_equals expected t in
      if b then any_mismatch expected l' else Ok true
  end.
Definition has_type_mismatch (l : list lit) : res bool :=
  match l with
  | [] => Panic
  | LNil :: _ => Ok true
  | x :: l' => let! t := lit_type x in any_mismatch t l'
  end.

(** 423-431 [NewList] *)
Definition new_list (es : list lit) (nullable : bool) : res lit :=
  match es with
  | [] => Err
  | _ => let! bad := has_type_mismatch es in
         if bad then Err else new_literal (AList es) nullable
  end.

(** 436-452 [NewMap] *)
Definition new_map (kvs : list (lit * lit)) (nullable : bool) : res lit :=
  match kvs with
  | [] => Err
  | _ => let! bad := has_type_mismatch (map fst kvs) in
         if bad then Err
         else
           let! bad := has_type_mismatch (map snd kvs) in
           if bad then Err else new_literal (AMap kvs) nullable
  end.

(** 456-473 [NewEmptyMap], [NewEmptyList]; [None] is a nil type *)
Definition new_empty_map (k x : option ty) (nullable : bool) : res lit :=
  match k, x with
  | Some k, Some x => Ok (new_empty_map_literal k x nullable)
  | _, _ => Err
  end.
Definition new_empty_list (t : option ty) (nullable : bool) : res lit :=
  match t with Some t => Ok (new_empty_list_literal t nullable) | None => Err end.

(** 479-496 [NewUserDefinedLiteral] *)
Definition new_user_defined_literal (ref : Z) (fields : list lit) (nullable : bool)
    (params : list tparam) : res lit :=
  let! fs := mapM lit_to_proto fields in
  let! ps := mapM tparam_to_proto params in
  new_literal (AUser (Some ref) ps (UV_struct fs)) nullable.

(** ** WithType *)

(** 700-711 [newDecimalWithType]; converting a slice of another length to [16]byte
    panics when it is shorter and truncates when it is longer. *)
Definition decimal_with_type (v : protoval) (t : ty) (n : nullability) (p s : Z) : res lit :=
  match t with
  | TDecimal _ _ _ lit_scale =>
      match v with
      | XBytes b =>
          if (List.length b <? 16)%nat then Panic
          else
            let! (b', p', s') := modify_decimal (firstn 16 b) lit_scale p s in
            new_literal (ADecimal b' p' s') (n =? NullNullable)
      | _ => Panic
      end
  | _ => Err
  end.

(** 713-721 [newVarCharWithType] *)
Definition varchar_with_type (v : protoval) (t : ty) (target : ty) (len : Z) : res lit :=
  match t with
  | TFixed FxVarChar _ _ _ =>
      match v with
      | XString s => if len <? Z.of_nat (String.length s) then Err else Ok (LProto v target)
      | _ => Panic
      end
  | _ => Err
  end.

(** The [WithType] methods: 241-252 (primitive), 338-347 (nested), 486-500 (bytes),
    509-525 and 700-772 (protobuf-valued).  [None]: the literal has no such method
    (null, map and interval literals do not implement [WithTypeLiteral]). *)
Definition with_type (l : lit) (target : ty) : option (res lit) :=
  match l with
  | LNil | LNull _ | LMap _ _ | LYearMonth _ _ _ | LCompound _ _ _ _ _ _ _ => None
  | LPrim v _ =>
      Some match target, v with
           | TFixed FxChar _ _ _, VFixedChar s => Ok (LPrim (VFixedChar s) target)
           | _, _ => Err
           end
  | LStruct fs _ | LList fs _ =>
      Some match target with TList _ _ _ => Ok (LList fs target) | _ => Err end
  | LBytes _ s _ =>
      Some match target with
           | TFixed FxBinary _ _ _ => Ok (LBytes BkFixedBinary s target)
           | TPrim PrimUUID _ _ => Ok (LBytes BkUuid s target)
           | _ => Err
           end
  | LProto v t =>
      Some match target with
           | TDecimal n _ p s => decimal_with_type v t n p s
           | TFixed FxVarChar _ _ len => varchar_with_type v t target len
           | TPrecTime _ _ q =>
               match t with
               | TPrecTime _ _ p =>
                   match v with XInt64 z => let! z' := change_precision z p q in Ok (LProto (XInt64 z') target) | _ => Panic end
               | _ => Err
               end
           | TPrecTs _ _ q =>
               match t with
               | TPrecTs _ _ p =>
                   match v with XInt64 z => let! z' := change_precision z p q in Ok (LProto (XInt64 z') target) | _ => Panic end
               | _ => Err
               end
           | TPrecTsTz _ _ q =>
               match t with
               | TPrecTsTz _ _ p =>
                   match v with XInt64 z => let! z' := change_precision z p q in Ok (LProto (XInt64 z') target) | _ => Panic end
               | _ => Err
               end
           | TIntervalDay _ _ q =>
               match t with
               | TIntervalDay _ _ _ =>
                   match v with
                   | XDaySecond d =>
                       match interval_day_with_precision (id_days d) (id_secs d) (id_sub d) (get_precision d) q with
                       | (days, secs, ss, q') => Ok (LProto (XDaySecond (Idts days secs (IM_precision q') ss)) target)
                       end
                   | _ => Panic
                   end
               | _ => Err
               end
           | _ => Err
           end
  end.
