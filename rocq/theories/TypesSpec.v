(** Specification vocabulary for the type properties (C01-C04), written without
    the functions of TypesModel.v: only the data types [ty] and [ptype] are used. *)

From Coq Require Import List ZArith String Bool.
From Verif Require Import Base TypesModel.
Import ListNotations.
Local Open Scope string_scope.

(** A type message a decoder must accept: every oneof that holds a type is set
    and sub-second precisions are between 0 and 9.  (A type parameter's oneof may
    be unset.) *)
Definition prec_ok (p : Z) : Prop := (0 <= p <= 9)%Z.

Fixpoint decodable (m : ptype) : Prop :=
  match m with
  | PT_unset => False
  | PT_interval_day _ _ (Some p) => prec_ok p
  | PT_interval_compound _ _ p | PT_precision_time _ _ p
  | PT_precision_timestamp _ _ p | PT_precision_timestamp_tz _ _ p => prec_ok p
  | PT_struct _ _ ts => All decodable ts
  | PT_func _ ps r => All decodable ps /\ decodable r
  | PT_list _ _ t => decodable t
  | PT_map _ _ k x => decodable k /\ decodable x
  | PT_user_defined _ _ _ ps => All decodable_param ps
  | _ => True
  end
with decodable_param (p : pparam) : Prop :=
  match p with
  | PP_data t => decodable t
  | _ => True
  end.

(** The message contains no [interval_compound] and no unset type parameter, at
    any depth. *)
Fixpoint no_compound_no_unset (m : ptype) : Prop :=
  match m with
  | PT_interval_compound _ _ _ => False
  | PT_struct _ _ ts => All no_compound_no_unset ts
  | PT_func _ ps r => All no_compound_no_unset ps /\ no_compound_no_unset r
  | PT_list _ _ t => no_compound_no_unset t
  | PT_map _ _ k x => no_compound_no_unset k /\ no_compound_no_unset x
  | PT_user_defined _ _ _ ps => All no_compound_no_unset_param ps
  | _ => True
  end
with no_compound_no_unset_param (p : pparam) : Prop :=
  match p with
  | PP_unset => False
  | PP_data t => no_compound_no_unset t
  | _ => True
  end.

(** Two messages mean the same: equal, except that an absent [interval_day]
    precision means 6 (microseconds). *)
Fixpoint explicit (m : ptype) : ptype :=
  match m with
  | PT_interval_day n v None => PT_interval_day n v (Some 6%Z)
  | PT_struct n v ts => PT_struct n v (map explicit ts)
  | PT_func n ps r => PT_func n (map explicit ps) (explicit r)
  | PT_list n v t => PT_list n v (explicit t)
  | PT_map n v k x => PT_map n v (explicit k) (explicit x)
  | PT_user_defined n v r ps => PT_user_defined n v r (map explicit_param ps)
  | m => m
  end
with explicit_param (p : pparam) : pparam :=
  match p with
  | PP_data t => PP_data (explicit t)
  | p => p
  end.

(** Structural identity of types: equal up to the Go-level distinction between
    the pointer and the value form of [IntervalCompoundType]. *)
Fixpoint forget_ptr (t : ty) : ty :=
  match t with
  | TIntervalCompound _ n v p => TIntervalCompound false n v p
  | TStruct n v fs => TStruct n v (map forget_ptr fs)
  | TFunc n ps r => TFunc n (map forget_ptr ps) (forget_ptr r)
  | TList n v e => TList n v (forget_ptr e)
  | TMap n v k x => TMap n v (forget_ptr k) (forget_ptr x)
  | TUser n v r ps => TUser n v r (map forget_ptr_param ps)
  | t => t
  end
with forget_ptr_param (p : tparam) : tparam :=
  match p with
  | TPdata t => TPdata (forget_ptr t)
  | p => p
  end.
Definition same_type (t u : ty) : Prop := forget_ptr t = forget_ptr u.

(** No enum argument type and no nil type parameter occurs in the type (neither
    can be part of a serialized plan). *)
Fixpoint plain (t : ty) : Prop :=
  match t with
  | TEnum _ _ _ _ _ => False
  | TStruct _ _ fs => All plain fs
  | TFunc _ ps r => All plain ps /\ plain r
  | TList _ _ e => plain e
  | TMap _ _ k x => plain k /\ plain x
  | TUser _ _ _ ps => All plain_param ps
  | _ => True
  end
with plain_param (p : tparam) : Prop :=
  match p with
  | TPnil => False
  | TPdata t => plain t
  | _ => True
  end.

(** Types that can be part of a plan: no enum, no nil parameter, no
    [IntervalYearToMonthType], no pointer-form interval_compound. *)
Fixpoint serializable (t : ty) : Prop :=
  match t with
  | TEnum _ _ _ _ _ => False
  | TIntervalYearToMonth _ _ => False
  | TIntervalCompound is_ptr _ _ _ => is_ptr = false
  | TStruct _ _ fs => All serializable fs
  | TFunc _ ps r => All serializable ps /\ serializable r
  | TList _ _ e => serializable e
  | TMap _ _ k x => serializable k /\ serializable x
  | TUser _ _ _ ps => All serializable_param ps
  | _ => True
  end
with serializable_param (p : tparam) : Prop :=
  match p with
  | TPnil => False
  | TPdata t => serializable t
  | _ => True
  end.

(** Every sub-second precision in the type is one of the ten named values. *)
Fixpoint precisions_ok (t : ty) : Prop :=
  match t with
  | TPrecTime _ _ p | TPrecTs _ _ p | TPrecTsTz _ _ p | TIntervalDay _ _ p
  | TIntervalCompound _ _ _ p => prec_ok p
  | TStruct _ _ fs => All precisions_ok fs
  | TFunc _ ps r => All precisions_ok ps /\ precisions_ok r
  | TList _ _ e => precisions_ok e
  | TMap _ _ k x => precisions_ok k /\ precisions_ok x
  | TUser _ _ _ ps => All precisions_ok_param ps
  | _ => True
  end
with precisions_ok_param (p : tparam) : Prop :=
  match p with
  | TPdata t => precisions_ok t
  | _ => True
  end.

(** [t] and [u] agree on everything but their own (outermost) nullability. *)
Inductive same_but_nullability : ty -> ty -> Prop :=
| SB_prim p n n' v : same_but_nullability (TPrim p n v) (TPrim p n' v)
| SB_fixed k n n' v l : same_but_nullability (TFixed k n v l) (TFixed k n' v l)
| SB_decimal n n' v p s : same_but_nullability (TDecimal n v p s) (TDecimal n' v p s)
| SB_ptime n n' v p : same_but_nullability (TPrecTime n v p) (TPrecTime n' v p)
| SB_pts n n' v p : same_but_nullability (TPrecTs n v p) (TPrecTs n' v p)
| SB_ptstz n n' v p : same_but_nullability (TPrecTsTz n v p) (TPrecTsTz n' v p)
| SB_iday n n' v p : same_but_nullability (TIntervalDay n v p) (TIntervalDay n' v p)
| SB_icomp b b' n n' v p : same_but_nullability (TIntervalCompound b n v p) (TIntervalCompound b' n' v p)
| SB_iym n n' v : same_but_nullability (TIntervalYearToMonth n v) (TIntervalYearToMonth n' v)
| SB_enum c c' n n' v s o : same_but_nullability (TEnum c n v s o) (TEnum c' n' v s o)
| SB_struct n n' v fs : same_but_nullability (TStruct n v fs) (TStruct n' v fs)
| SB_func n n' ps r : same_but_nullability (TFunc n ps r) (TFunc n' ps r)
| SB_list n n' v e : same_but_nullability (TList n v e) (TList n' v e)
| SB_map n n' v k x : same_but_nullability (TMap n v k x) (TMap n' v k x)
| SB_user n n' v r ps : same_but_nullability (TUser n v r ps) (TUser n' v r ps).

(** All struct fields inside a type, depth first: a struct contributes each of
    its fields followed by the fields inside it; lists and maps are looked
    through; nothing else is. *)
Fixpoint inner_fields (t : ty) : list ty :=
  match t with
  | TStruct _ _ fs => flat_map (fun f => f :: inner_fields f) fs
  | TList _ _ e => inner_fields e
  | TMap _ _ k x => (inner_fields k ++ inner_fields x)%list
  | _ => []
  end.

(** The fields of a schema that need a name, in order. *)
Definition named_fields (schema : list ty) : list ty :=
  flat_map (fun f => f :: inner_fields f) schema.

(** Rendering of a schema whose [i]-th named field (in the order of
    [named_fields]) is called [name i]: no state is threaded, each component is
    told the position of its first field.  [leaf] renders every other type. *)
Section Render.
  Variable name : nat -> string.
  Variable leaf : ty -> string.

  Definition nullable_mark (n : nullability) : string :=
    if Z.eqb n 1 then "?" else "".

  Definition render_fields (render : ty -> nat -> string) : list ty -> nat -> list string :=
    fix go (l : list ty) (at_ : nat) : list string :=
      match l with
      | [] => []
      | f :: l' => (name at_ ++ ": " ++ render f (S at_)) :: go l' (S at_ + List.length (inner_fields f))
      end.

  Fixpoint render (t : ty) (at_ : nat) : string :=
    match t with
    | TStruct n _ fs => "struct<" ++ String.concat ", " (render_fields render fs at_) ++ ">" ++ nullable_mark n
    | TList n _ e => "list<" ++ render e at_ ++ ">" ++ nullable_mark n
    | TMap n _ k x =>
        "map<" ++ render k at_ ++ "," ++ render x (at_ + List.length (inner_fields k)) ++ ">" ++ nullable_mark n
    | t => leaf t
    end.

  Definition render_schema (schema : list ty) : string :=
    "NSTRUCT<" ++ String.concat ", " (render_fields render schema 0) ++ ">".
End Render.
