(** Specification of declared types that differ in their nullability only. *)

From Coq Require Import ZArith String Bool List.
From Verif Require Import TypesModel SigModel.

(** [g] is [f] with nullability [n]: parts are the same, and of a derivation it is the final type that changes. *)
Inductive but_nullability (n : nullability) : fdt -> fdt -> Prop :=
| B_prim p m v : but_nullability n (FPrim p m v) (FPrim p n v)
| B_enum c m v name opts : but_nullability n (FEnum c m v name opts) (FEnum c n v name opts)
| B_single k m v i : but_nullability n (FSingle k m v i) (FSingle k n v i)
| B_decimal m v p s : but_nullability n (FDecimal m v p s) (FDecimal n v p s)
| B_any name v m : but_nullability n (FAny name v m) (FAny name v n)
| B_list m v e : but_nullability n (FList m v e) (FList n v e)
| B_map m v k x : but_nullability n (FMap m v k x) (FMap n v k x)
| B_struct m v fs : but_nullability n (FStruct m v fs) (FStruct n v fs)
| B_func m ps r : but_nullability n (FFunc m ps r) (FFunc n ps r)
| B_user m v ps name : but_nullability n (FUser m v ps name) (FUser n v ps name)
| B_deriv l f g : but_nullability n f g -> but_nullability n (FDeriv l f) (FDeriv l g).

(** the type itself or the final type of a derivation is an enumeration *)
Inductive is_enum : fdt -> Prop :=
| E_enum c m v name opts : is_enum (FEnum c m v name opts)
| E_deriv l f : is_enum f -> is_enum (FDeriv l f).
