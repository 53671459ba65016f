(** Model of setting the nullability of declared types.  Definitions only; theorems are in NullSetProps.v. *)

From Coq Require Import ZArith String Bool List.
From Verif Require Import Base TypesModel SigModel.
Import ListNotations.

(** [SetNullability], which writes to the type and returns it: types/types.go 601, 933; any_type.go 18; parameterized_decimal_type.go 20;
    parameterized_single_integer_param_type.go 25; _list_type.go 19; _map_type.go 18; _struct_type.go 18; _func_type.go 19;
    _user_defined_type.go 115; type_derivation.go 264.  The model gives the type as it is afterwards. *)
Fixpoint set_nullability (f : fdt) (n : nullability) : fdt :=
  match f with
  | FPrim p _ v => FPrim p n v
  | FEnum c _ v name opts => FEnum c n v name opts
  | FSingle k _ v i => FSingle k n v i
  | FDecimal _ v p s => FDecimal n v p s
  | FAny name v _ => FAny name v n
  | FList _ v e => FList n v e
  | FMap _ v k x => FMap n v k x
  | FStruct _ v fs => FStruct n v fs
  | FFunc _ ps r => FFunc n ps r
  | FUser _ v ps name => FUser n v ps name
  | FDeriv l g => FDeriv l (set_nullability g n)
  end.

(** Where the result of [ReturnType] and [WithParameters] is: the declared type itself (types.go 652, 952, 960), or another object.
    [AnyType] returns the type of an argument or a copy of it. *)
Definition returns_itself (f : fdt) : bool :=
  match f with
  | FPrim _ _ _ | FEnum _ _ _ _ _ => true
  | FDeriv _ g => match g with FPrim _ _ _ => true | _ => false end
  | _ => false
  end.
(** A result type asked for, the declared type set, and the result type looked at. *)
Definition result_seen_after (f : fdt) (ps : list fdt) (args : list ty) (n : nullability) : res ty :=
  let! t := return_type f ps args in
  Ok (if returns_itself f
      then match t with TPrim p _ v => TPrim p n v | TEnum c _ v name opts => TEnum c n v name opts | _ => t end
      else t).
