(** Model of how extension files declare functions: the arguments as decoded from
    YAML, the words by which they appear in compound names, and the user-defined types
    that signatures mention.  simple_extension.go, validation.go,
    types/parameterized_user_defined_type.go. *)

From Coq Require Import ZArith String Bool List.
From Verif Require Import Base FMap TypesModel LoadModel SigModel FuncModel.
Import ListNotations.
Local Open Scope string_scope.

(** ** declared types *)

(** [ShortString] of declared types: types/any_type.go 49; parameterized_decimal_type.go 67;
    _list_type.go 63; _map_type.go 68; _struct_type.go 95; _func_type.go 102;
    _user_defined_type.go 194; type_derivation.go 301; types.go 642, 907 (the same method as
    of the concrete types); parameterized_single_integer_param_type.go 86-89 (the method of a
    new instance of the concrete type). *)
Fixpoint fdt_short (f : fdt) : string :=
  match f with
  | FPrim p n v => short_string (TPrim p n v)
  | FEnum _ _ _ _ _ => "req"
  | FSingle (SFixed k) _ _ _ => short_string (TFixed k 0 0 0)
  | FSingle SPrecTime _ _ _ => short_string (TPrecTime 0 0 0)
  | FSingle SPrecTs _ _ _ => short_string (TPrecTs 0 0 0)
  | FSingle SPrecTsTz _ _ _ => short_string (TPrecTsTz 0 0 0)
  | FSingle SIntervalDay _ _ _ => short_string (TIntervalDay 0 0 0)
  | FDecimal _ _ _ _ => "dec"
  | FAny _ _ _ => "any"
  | FList _ _ _ => "list"
  | FMap _ _ _ _ => "map"
  | FStruct _ _ _ => "struct"
  | FFunc _ _ _ => "func"
  | FUser _ _ _ name => "u!" ++ name
  | FDeriv _ f => fdt_short f
  end.

(** simple_extension.go 73-75, 91-93, 107 [toTypeString] *)
Definition type_word (p : fparam) : string :=
  match p with
  | PEnum _ _ => "req"
  | PValue f => fdt_short f
  | PType _ => "type"
  end.

(** types/parameterized_user_defined_type.go 247-279 [ReferencedUserDefinedTypes],
    [collectUserDefinedTypes], in the order collected.  The dependency alias is never set. *)
Fixpoint user_types (f : fdt) : list (option string * string) :=
  match f with
  | FUser _ _ ps name =>
      (None, name) :: flat_map (fun p => match p with UData g => user_types g | _ => [] end) ps
  | FList _ _ e => user_types e
  | FMap _ _ k x => (user_types k ++ user_types x)%list
  | FStruct _ _ fs => flat_map user_types fs
  | FFunc _ ps r => (flat_map user_types ps ++ user_types r)%list
  | FDeriv _ f => user_types f
  | _ => []
  end.

(** ** decoded YAML *)

(** What the decoder puts into an [any]. *)
Inductive yval :=
| YNull
| YBool (b : bool)
| YNum (z : Z)
| YStr (s : string)
| YSeq (l : list yval)
| YMap (m : list (string * yval)).

(** An entry of [FuncParameterList]: 66-114, or nil for an argument with none of the keys. *)
Inductive decl :=
| DNone
| DArg (name desc : string) (constant : bool) (p : fparam).

Section Decode.
  (** types/parser/parse.go [ParseType]: it recovers from panics, so it returns a type or
      an error (C55, C56 are about it) *)
  Variable parse : string -> option fdt.

  (** the type assertion [v.(string)] *)
  Definition as_text (v : yval) : res string := match v with YStr s => Ok s | _ => Panic end.

  (** 128-133: an optional text *)
  Definition text_field (k : string) (m : fmap string yval) : res string :=
    match fm_get String.eqb k m with None => Ok "" | Some v => as_text v end.

  (** parse.go 21-39 [UnmarshalYAML] with the decoder of 158-166 or 179-187:
      [reflect.ValueOf(nil)] is not settable *)
  Definition type_expr (v : yval) : res fdt :=
    match v with
    | YNull => Panic
    | YStr s => match parse s with Some f => Ok f | None => Err end
    | _ => Err
    end.

  (** simple_extension.go 123-193: one round of the loop *)
  Definition decode_arg (m : fmap string yval) : res decl :=
    let! name := text_field "name" m in
    let! desc := text_field "description" m in
    match fm_get String.eqb "options" m with
    | Some (YSeq vals) => let! values := mapM as_text vals in Ok (DArg name desc false (PEnum name values))
    | Some _ => Panic
    | None =>
        match fm_get String.eqb "value" m with
        | Some v =>
            let! constant := match fm_get String.eqb "constant" m with
                             | None => Ok false | Some (YBool b) => Ok b | Some _ => Panic end in
            let! f := type_expr v in
            Ok (DArg name desc constant (PValue f))
        | None =>
            match fm_get String.eqb "type" m with
            | Some v => let! f := type_expr v in Ok (DArg name desc false (PType f))
            | None => Ok DNone
            end
        end
    end.

  (** 117-196 [FuncParameterList.UnmarshalYAML], after decoding into a list of maps *)
  Definition decode_args (ms : list (fmap string yval)) : res (list decl) := mapM decode_arg ms.
End Decode.

(** ** implementations *)

(** 237-245, 318-325, 404-409: an implementation as decoded.  [d_body] stands for every field
    lookups carry along; [d_det] is the optional deterministic flag. *)
Record impl_decl := ImplDecl {
  d_args : list decl;
  d_return : option fdt;
  d_intermediate : option fdt;
  d_det : option bool;
  d_decomp : string;
  d_wtype : string;
  d_body : Z }.

(** 266-294, 349-375, 431-457: the default of an omitted flag *)
Definition deterministic (d : impl_decl) : bool := match d_det d with Some b => b | None => true end.

(** calling a method of a nil argument panics *)
Definition decl_param (d : decl) : res fparam := match d with DNone => Panic | DArg _ _ _ p => Ok p end.

Definition opt_types (o : option fdt) : list fdt := match o with Some f => [f] | None => [] end.

(** validation.go 44-84 [functionTypes] of one implementation: scalar functions have no
    intermediate type *)
Definition impl_types (agg : bool) (ps : list fparam) (d : impl_decl) : list fdt :=
  (map type_expression ps ++ opt_types (d_return d) ++ (if agg then opt_types (d_intermediate d) else []))%list.

(** what the collection keeps of an implementation: 246-255 [signatureKey] and validation.go *)
Definition declare (agg : bool) (d : impl_decl) : res impl :=
  let! ps := mapM decl_param (d_args d) in
  Ok (Impl (map type_word ps) (flat_map user_types (impl_types agg ps d)) (d_decomp d) (d_wtype d) (d_body d)).
