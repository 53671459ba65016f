(** Specification vocabulary for literals (C15, C20, C42, C45), written over the data
    types of LitModel.v without its functions. *)

From Coq Require Import List ZArith String Bool.
From Verif Require Import Base TypesModel TypesSpec LitModel.
Import ListNotations.
Local Open Scope Z_scope.

(** ** types of literals *)

(** the type a literal states *)
Inductive typed : lit -> ty -> Prop :=
| Ty_null t : typed (LNull t) t
| Ty_prim v t : typed (LPrim v t) t
| Ty_struct fs t : typed (LStruct fs t) t
| Ty_list es t : typed (LList es t) t
| Ty_map kvs t : typed (LMap kvs t) t
| Ty_bytes k s t : typed (LBytes k s t) t
| Ty_proto v t : typed (LProto v t) t
| Ty_ym y m n : typed (LYearMonth y m n) (TIntervalYearToMonth n 0)
| Ty_comp y mo d s ss p n : typed (LCompound y mo d s ss p n) (TIntervalCompound false n 0 p).

(** a nullability that the boolean flag of a literal message can express *)
Definition flagged (n : nullability) : Prop := n = 1 \/ n = 2.

(** A type that survives encoding and decoding exactly: no enum, no nil parameter, no
    year-to-month and no compound interval, valid precisions. *)
Fixpoint wire_type (t : ty) : Prop :=
  match t with
  | TEnum _ _ _ _ _ | TIntervalYearToMonth _ _ | TIntervalCompound _ _ _ _ => False
  | TPrecTime _ _ p | TPrecTs _ _ p | TPrecTsTz _ _ p | TIntervalDay _ _ p => prec_ok p
  | TStruct _ _ fs => All wire_type fs
  | TFunc _ ps r => All wire_type ps /\ wire_type r
  | TList _ _ e => wire_type e
  | TMap _ _ k x => wire_type k /\ wire_type x
  | TUser _ _ _ ps => All wire_param ps
  | _ => True
  end
with wire_param (p : tparam) : Prop :=
  match p with
  | TPnil => False
  | TPdata t => wire_type t
  | _ => True
  end.

(** ** which literals survive *)

(** the value of a primitive literal fits its type *)
Definition prim_supported (v : pval) (t : ty) : Prop :=
  match t with
  | TPrim p n _ =>
      flagged n /\
      match v, p with
      | VBool _, PrimBool | VI32 _, PrimI32 | VI64 _, PrimI64 | VFp32 _, PrimFp32
      | VFp64 _, PrimFp64 | VString _, PrimString | VTimestamp _, PrimTimestamp
      | VDate _, PrimDate | VTime _, PrimTime | VTimestampTz _, PrimTimestampTz => True
      | VI8 z, PrimI8 => in_int 8 z
      | VI16 z, PrimI16 => in_int 16 z
      | _, _ => False
      end
  | TFixed FxChar n _ len =>
      flagged n /\ match v with VFixedChar s => len = wrap 32 (Z.of_nat (String.length s)) | _ => False end
  | _ => False
  end.

Definition bytes_supported (k : bytesk) (s : list Z) (t : ty) : Prop :=
  match k, t with
  | BkBinary, TPrim PrimBinary n _ | BkUuid, TPrim PrimUUID n _ => flagged n
  | BkFixedBinary, TFixed FxBinary n _ len => flagged n /\ len = wrap 32 (Z.of_nat (List.length s))
  | _, _ => False
  end.

(** protobuf-valued literals: the precision of an interval_day literal is the one in
    its value (6 when the value gives none), a varchar length fits int32, precision
    times and timestamps carry no variation and are not negative; an interval_year
    value never survives *)
Definition proto_supported (v : protoval) (t : ty) : Prop :=
  match t, v with
  | TUser n _ _ ps, XUser val => flagged n /\ All wire_param ps /\ val <> UV_unset
  | TIntervalDay n _ p, XDaySecond d =>
      flagged n /\ match id_mode d with IM_precision q => p = q /\ prec_ok q | _ => p = 6 end
  | TFixed FxVarChar n _ len, XString _ => flagged n /\ in_int 32 len
  | TDecimal n _ _ _, XBytes _ => flagged n
  | TPrecTime n var p, XInt64 z | TPrecTs n var p, XInt64 z | TPrecTsTz n var p, XInt64 z =>
      flagged n /\ var = 0 /\ prec_ok p /\ 0 <= z
  | _, _ => False
  end.

Fixpoint supported (l : lit) : Prop :=
  match l with
  | LNil => False
  | LNull t => wire_type t
  | LPrim v t => prim_supported v t
  | LBytes k s t => bytes_supported k s t
  | LProto v t => proto_supported v t
  | LStruct fs t =>
      All supported fs /\
      match t with TStruct n _ ts => flagged n /\ Forall2 typed fs ts | _ => False end
  | LList es t =>
      All supported es /\
      match t with
      | TList n _ e => flagged n /\ match es with [] => wire_type e | e0 :: _ => typed e0 e end
      | _ => False
      end
  | LMap kvs t =>
      All (fun p => match p with (k, x) => supported k /\ supported x end) kvs /\
      match t with
      | TMap n _ kt xt =>
          flagged n /\
          match kvs with [] => wire_type kt /\ wire_type xt | (k0, x0) :: _ => typed k0 kt /\ typed x0 xt end
      | _ => False
      end
  | LYearMonth _ _ n => flagged n
  | LCompound _ _ d s ss p n =>
      flagged n /\ if (d =? 0) && (s =? 0) && (ss =? 0) then p = 0 else prec_ok p
  end.

(** ** which literals can be encoded at all *)

Definition proto_encodable (v : protoval) (t : ty) : Prop :=
  match t with
  | TUser _ _ _ ps =>
      All serializable_param ps /\ match v with XUser val => val <> UV_unset | _ => False end
  | TPrim PrimIntervalYear _ _ => match v with XYearMonth _ _ => True | _ => False end
  | TIntervalDay _ _ _ => match v with XDaySecond _ => True | _ => False end
  | TFixed FxVarChar _ _ _ => match v with XString _ => True | _ => False end
  | TDecimal _ _ _ _ => match v with XBytes _ => True | _ => False end
  | TPrecTime _ _ _ | TPrecTs _ _ _ | TPrecTsTz _ _ _ => match v with XInt64 _ => True | _ => False end
  | _ => True
  end.

Fixpoint encodable (l : lit) : Prop :=
  match l with
  | LNil => False
  | LNull t => serializable t
  | LPrim v _ => match v with VOther _ => False | _ => True end
  | LBytes _ _ _ | LYearMonth _ _ _ | LCompound _ _ _ _ _ _ _ => True
  | LProto v t => proto_encodable v t
  | LStruct fs _ => All encodable fs
  | LList es t => All encodable es /\ (es = [] -> serializable t)
  | LMap kvs t =>
      All (fun p => match p with (k, x) => encodable k /\ encodable x end) kvs /\ (kvs = [] -> serializable t)
  end.

(** ** messages *)

Definition nz (z : Z) : Prop := z <> 0.

(** a message whose value is refused: the decoder answers nil *)
Definition rejected (m : plit) : Prop :=
  match m with
  | PLit _ _ body =>
      match body with
      | PB_precision_time p v | PB_precision_timestamp p v | PB_precision_timestamp_tz p v =>
          ~ prec_ok p \/ v < 0
      | PB_day_second (Idts _ _ (IM_precision p) _) => ~ prec_ok p
      | PB_compound _ (Some (Idts _ _ mode ss)) =>
          match mode with
          | IM_unset => True
          | IM_micros _ => 0 < ss
          | IM_precision p => ~ prec_ok p
          end
      | _ => False
      end
  end.

(** a message the decoder does not panic on *)
Fixpoint readable (m : plit) : Prop :=
  match m with
  | PLit _ _ body =>
      match body with
      | PB_unset => False
      | PB_null t => decodable t
      | PB_struct fs => All readable fs /\ All (fun f => ~ rejected f) fs
      | PB_list vs => All readable vs /\ match vs with [] => False | v0 :: _ => ~ rejected v0 end
      | PB_map kvs =>
          All (fun p => match p with (k, x) => readable k /\ readable x end) kvs /\
          match kvs with [] => False | (k0, x0) :: _ => ~ rejected k0 /\ ~ rejected x0 end
      | PB_empty_list l => match l with None => False | Some (_, _, t) => decodable t end
      | PB_empty_map l => match l with None => False | Some (_, _, k, x) => decodable k /\ decodable x end
      | PB_user_defined _ ps _ => All decodable_param ps
      | _ => True
      end
  end.

(** a message that can be read and written back *)
Definition wire_msg (t : ptype) : Prop := decodable t /\ no_compound_no_unset t.
Definition wire_msg_param (p : pparam) : Prop := decodable_param p /\ no_compound_no_unset_param p.

Fixpoint complete (m : plit) : Prop :=
  ~ rejected m /\
  match m with
  | PLit _ _ body =>
      match body with
      | PB_unset => False
      | PB_null t => wire_msg t
      | PB_struct fs => All complete fs
      | PB_list vs => All complete vs /\ vs <> []
      | PB_map kvs => All (fun p => match p with (k, x) => complete k /\ complete x end) kvs /\ kvs <> []
      | PB_empty_list l => match l with None => False | Some (_, _, t) => wire_msg t end
      | PB_empty_map l => match l with None => False | Some (_, _, k, x) => wire_msg k /\ wire_msg x end
      | PB_user_defined _ ps val => All wire_msg_param ps /\ val <> UV_unset
      | _ => True
      end
  end.

(** the variation reference stated in a type message *)
Definition msg_variation (m : ptype) : Z :=
  match m with
  | PT_bool _ v | PT_i8 _ v | PT_i16 _ v | PT_i32 _ v | PT_i64 _ v | PT_fp32 _ v | PT_fp64 _ v
  | PT_string _ v | PT_binary _ v | PT_timestamp _ v | PT_date _ v | PT_time _ v
  | PT_interval_year _ v | PT_interval_day _ v _ | PT_interval_compound _ v _
  | PT_timestamp_tz _ v | PT_uuid _ v | PT_fixed_binary _ v _ | PT_fixed_char _ v _
  | PT_varchar _ v _ | PT_decimal _ v _ _ | PT_precision_time _ v _ | PT_precision_timestamp _ v _
  | PT_precision_timestamp_tz _ v _ | PT_struct _ v _ | PT_list _ v _ | PT_map _ v _ _
  | PT_user_defined _ v _ _ => v
  | PT_func _ _ _ | PT_unset => 0
  end.

(** The canonical message with the meaning of [m]: integers are cut to their width,
    the fields of a null, empty list or empty map repeat what the nested type says, the
    variation of precision times, timestamps and intervals is dropped, empty parts of a
    compound interval are omitted and its precision is explicit. *)
Fixpoint normal (m : plit) : plit :=
  match m with
  | PLit nullable var body =>
      match body with
      | PB_i8 z => PLit nullable var (PB_i8 (wrap 8 z))
      | PB_i16 z => PLit nullable var (PB_i16 (wrap 16 z))
      | PB_varchar s len => PLit nullable var (PB_varchar s (uwrap 32 len))
      | PB_null t => PLit true (msg_variation t) (PB_null (explicit t))
      | PB_struct fs => PLit nullable var (PB_struct (map normal fs))
      | PB_list vs => PLit nullable var (PB_list (map normal vs))
      | PB_map kvs =>
          PLit nullable var (PB_map (map (fun p => match p with (k, x) => (normal k, normal x) end) kvs))
      | PB_empty_list (Some (_, _, t)) =>
          PLit nullable var (PB_empty_list (Some (if nullable then 1 else 2, var, explicit t)))
      | PB_empty_map (Some (_, _, k, x)) =>
          PLit nullable var (PB_empty_map (Some (if nullable then 1 else 2, var, explicit k, explicit x)))
      | PB_user_defined ref ps val =>
          PLit nullable var
            (PB_user_defined (Some (match ref with Some r => r | None => 0 end)) (map explicit_param ps) val)
      | PB_precision_time _ _ | PB_precision_timestamp _ _ | PB_precision_timestamp_tz _ _
      | PB_year_month _ _ => PLit nullable 0 body
      | PB_compound ym ds =>
          PLit nullable 0
            (PB_compound
               (match ym with Some (0, 0) => None | _ => ym end)
               (match ds with
                | Some (Idts d s mode ss) =>
                    let p := match mode with IM_precision p => p | _ => 6 end in
                    let ss' := match mode with IM_micros us => us | _ => ss end in
                    if (d =? 0) && (s =? 0) && (ss' =? 0) then None
                    else Some (Idts d s (IM_precision p) ss')
                | None => None
                end))
      | _ => m
      end
  end.

(** ** equality *)

(** IEEE equality of two bit patterns with [e] exponent and [m] fraction bits *)
Definition is_nan (e m x : Z) : Prop := (x / 2 ^ m) mod 2 ^ e = 2 ^ e - 1 /\ x mod 2 ^ m <> 0.
Definition is_zero (e m x : Z) : Prop := x mod 2 ^ (e + m) = 0.
Definition fp_same (e m x y : Z) : Prop :=
  ~ is_nan e m x /\ ~ is_nan e m y /\ (x = y \/ is_zero e m x /\ is_zero e m y).

Definition pval_same (a b : pval) : Prop :=
  match a, b with
  | VFp32 x, VFp32 y => fp_same 8 23 x y
  | VFp64 x, VFp64 y => fp_same 11 52 x y
  | _, _ => a = b
  end.

(** messages that are the same, floats compared as numbers *)
Inductive msg_same : plit -> plit -> Prop :=
| MS n v b b' : body_same b b' -> msg_same (PLit n v b) (PLit n v b')
with body_same : pbody -> pbody -> Prop :=
| BS_fp32 x y : fp_same 8 23 x y -> body_same (PB_fp32 x) (PB_fp32 y)
| BS_fp64 x y : fp_same 11 52 x y -> body_same (PB_fp64 x) (PB_fp64 y)
| BS_struct l l' : Forall2 msg_same l l' -> body_same (PB_struct l) (PB_struct l')
| BS_list l l' : Forall2 msg_same l l' -> body_same (PB_list l) (PB_list l')
| BS_map l l' :
    Forall2 (fun p q => msg_same (fst p) (fst q) /\ msg_same (snd p) (snd q)) l l' ->
    body_same (PB_map l) (PB_map l')
| BS_user r ps v v' : uval_same v v' -> body_same (PB_user_defined r ps v) (PB_user_defined r ps v')
| BS_other b :
    match b with
    | PB_fp32 _ | PB_fp64 _ | PB_struct _ | PB_list _ | PB_map _ | PB_user_defined _ _ _ => False
    | _ => True
    end -> body_same b b
with uval_same : uval -> uval -> Prop :=
| US_unset : uval_same UV_unset UV_unset
| US_any u p : uval_same (UV_any u p) (UV_any u p)
| US_struct l l' : Forall2 msg_same l l' -> uval_same (UV_struct l) (UV_struct l').

Definition protoval_same (a b : protoval) : Prop :=
  match a, b with
  | XUser v, XUser v' => uval_same v v'
  | _, _ => a = b
  end.

(** two literals of the same kind with the same type and value *)
Inductive same_lit : lit -> lit -> Prop :=
| SL_null t t' : same_type t t' -> same_lit (LNull t) (LNull t')
| SL_prim v v' t t' : same_type t t' -> pval_same v v' -> same_lit (LPrim v t) (LPrim v' t')
| SL_struct l l' t t' : same_type t t' -> Forall2 same_lit l l' -> same_lit (LStruct l t) (LStruct l' t')
| SL_list l l' t t' : same_type t t' -> Forall2 same_lit l l' -> same_lit (LList l t) (LList l' t')
| SL_map l l' t t' :
    same_type t t' ->
    Forall2 (fun p q => same_lit (fst p) (fst q) /\ same_lit (snd p) (snd q)) l l' ->
    same_lit (LMap l t) (LMap l' t')
| SL_bytes k s t t' : same_type t t' -> same_lit (LBytes k s t) (LBytes k s t')
| SL_proto v v' t t' : same_type t t' -> protoval_same v v' -> same_lit (LProto v t) (LProto v' t')
| SL_ym y m n : same_lit (LYearMonth y m n) (LYearMonth y m n)
| SL_comp y mo d s ss p n : same_lit (LCompound y mo d s ss p n) (LCompound y mo d s ss p n).

(** no nil literal and only plain types inside *)
Fixpoint lit_plain (l : lit) : Prop :=
  match l with
  | LNil => False
  | LNull t | LPrim _ t | LBytes _ _ t | LProto _ t => plain t
  | LStruct fs t | LList fs t => plain t /\ All lit_plain fs
  | LMap kvs t => plain t /\ All (fun p => match p with (k, x) => lit_plain k /\ lit_plain x end) kvs
  | LYearMonth _ _ _ | LCompound _ _ _ _ _ _ _ => True
  end.

(** no float inside is a NaN *)
Fixpoint msg_no_nan (m : plit) : Prop :=
  match m with
  | PLit _ _ b =>
      match b with
      | PB_fp32 x => ~ is_nan 8 23 x
      | PB_fp64 x => ~ is_nan 11 52 x
      | PB_struct l | PB_list l => All msg_no_nan l
      | PB_map l => All (fun p => match p with (k, x) => msg_no_nan k /\ msg_no_nan x end) l
      | PB_user_defined _ _ (UV_struct l) => All msg_no_nan l
      | _ => True
      end
  end.
Fixpoint lit_no_nan (l : lit) : Prop :=
  match l with
  | LPrim (VFp32 x) _ => ~ is_nan 8 23 x
  | LPrim (VFp64 x) _ => ~ is_nan 11 52 x
  | LStruct fs _ | LList fs _ => All lit_no_nan fs
  | LMap kvs _ => All (fun p => match p with (k, x) => lit_no_nan k /\ lit_no_nan x end) kvs
  | LProto (XUser (UV_struct l)) _ => All msg_no_nan l
  | _ => True
  end.

(** ** constructed literals *)

(** arguments of the generic constructor whose literal survives the wire *)
Definition arg_supported (a : litarg) : Prop :=
  match a with
  | APrim (VI8 z) => in_int 8 z
  | APrim (VI16 z) => in_int 16 z
  | APrim _ | ABytes _ _ | ADecimal _ _ _ | AVarChar _ _ => True
  | AStruct fs | AList fs => All supported fs
  | AMap kvs => All (fun p => match p with (k, x) => supported k /\ supported x end) kvs
  | AYearMonth _ _ => False
  | ADaySecond d => match id_mode d with IM_precision p => prec_ok p | _ => False end
  | AUser _ params v => All no_compound_no_unset_param params /\ v <> UV_unset
  | APrecTime p v | APrecTs p v | APrecTsTz p v => prec_ok p /\ 0 <= v
  end.

(** the type the generic constructor gives to its argument (nullability [n], no
    variation) *)
Inductive arg_typed (n : nullability) : litarg -> ty -> Prop :=
| AT_bool b : arg_typed n (APrim (VBool b)) (TPrim PrimBool n 0)
| AT_i8 z : arg_typed n (APrim (VI8 z)) (TPrim PrimI8 n 0)
| AT_i16 z : arg_typed n (APrim (VI16 z)) (TPrim PrimI16 n 0)
| AT_i32 z : arg_typed n (APrim (VI32 z)) (TPrim PrimI32 n 0)
| AT_i64 z : arg_typed n (APrim (VI64 z)) (TPrim PrimI64 n 0)
| AT_fp32 z : arg_typed n (APrim (VFp32 z)) (TPrim PrimFp32 n 0)
| AT_fp64 z : arg_typed n (APrim (VFp64 z)) (TPrim PrimFp64 n 0)
| AT_string s : arg_typed n (APrim (VString s)) (TPrim PrimString n 0)
| AT_timestamp z : arg_typed n (APrim (VTimestamp z)) (TPrim PrimTimestamp n 0)
| AT_date z : arg_typed n (APrim (VDate z)) (TPrim PrimDate n 0)
| AT_time z : arg_typed n (APrim (VTime z)) (TPrim PrimTime n 0)
| AT_timestamp_tz z : arg_typed n (APrim (VTimestampTz z)) (TPrim PrimTimestampTz n 0)
| AT_fixed_char s :
    arg_typed n (APrim (VFixedChar s)) (TFixed FxChar n 0 (wrap 32 (Z.of_nat (String.length s))))
| AT_binary s : arg_typed n (ABytes BkBinary s) (TPrim PrimBinary n 0)
| AT_uuid s : arg_typed n (ABytes BkUuid s) (TPrim PrimUUID n 0)
| AT_fixed_binary s :
    arg_typed n (ABytes BkFixedBinary s) (TFixed FxBinary n 0 (wrap 32 (Z.of_nat (List.length s))))
| AT_struct fs ts : Forall2 typed fs ts -> arg_typed n (AStruct fs) (TStruct n 0 ts)
| AT_list e es t : typed e t -> arg_typed n (AList (e :: es)) (TList n 0 t)
| AT_map k x kvs kt xt : typed k kt -> typed x xt -> arg_typed n (AMap ((k, x) :: kvs)) (TMap n 0 kt xt)
| AT_year_month y m : arg_typed n (AYearMonth y m) (TPrim PrimIntervalYear n 0)
| AT_day_second d s p ss : arg_typed n (ADaySecond (Idts d s (IM_precision p) ss)) (TIntervalDay n 0 p)
| AT_day_micros d s us ss : arg_typed n (ADaySecond (Idts d s (IM_micros us) ss)) (TIntervalDay n 0 0)
| AT_day_unset d s ss : arg_typed n (ADaySecond (Idts d s IM_unset ss)) (TIntervalDay n 0 0)
| AT_decimal b p s : List.length b = 16%nat -> arg_typed n (ADecimal b p s) (TDecimal n 0 p s)
| AT_varchar s len : arg_typed n (AVarChar s len) (TFixed FxVarChar n 0 (wrap 32 len))
| AT_prec_time p v : arg_typed n (APrecTime p v) (TPrecTime n 0 p)
| AT_prec_ts p v : arg_typed n (APrecTs p v) (TPrecTs n 0 p)
| AT_prec_ts_tz p v : arg_typed n (APrecTsTz p v) (TPrecTsTz n 0 p).

(** the value stored by the generic constructor *)
Inductive arg_value : litarg -> ty -> lit -> Prop :=
| AV_prim v t : arg_value (APrim v) t (LPrim v t)
| AV_bytes k s t : arg_value (ABytes k s) t (LBytes k s t)
| AV_struct fs t : arg_value (AStruct fs) t (LStruct fs t)
| AV_list es t : arg_value (AList es) t (LList es t)
| AV_map kvs t : arg_value (AMap kvs) t (LMap kvs t)
| AV_year_month y m t : arg_value (AYearMonth y m) t (LProto (XYearMonth y m) t)
| AV_day_second d t : arg_value (ADaySecond d) t (LProto (XDaySecond d) t)
| AV_decimal b p s t : arg_value (ADecimal b p s) t (LProto (XBytes b) t)
| AV_user r ps v t : arg_value (AUser r ps v) t (LProto (XUser v) t)
| AV_varchar s len t : arg_value (AVarChar s len) t (LProto (XString s) t)
| AV_prec_time p v t : arg_value (APrecTime p v) t (LProto (XInt64 v) t)
| AV_prec_ts p v t : arg_value (APrecTs p v) t (LProto (XInt64 v) t)
| AV_prec_ts_tz p v t : arg_value (APrecTsTz p v) t (LProto (XInt64 v) t).
