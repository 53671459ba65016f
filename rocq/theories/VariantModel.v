(** Model of function variants as values: those made on the fly from a name and options
    (extensions/variants.go), and those of a declared function
    (extensions/simple_extension.go). *)

From Coq Require Import ZArith String Bool List.
From Verif Require Import Base FMap ExtSetModel TypesModel LoadModel SigModel DeclModel ExprModel.
Import ListNotations.
Local Open Scope string_scope.

(** simple_extension.go 235-244, 332-338, 417-420 [ScalarFunctionImpl],
    [AggregateFunctionImpl], [WindowFunctionImpl] in one record: the fields after
    [im_return] are those of aggregate and window functions, [im_window] of window functions
    only.  An argument is its name with its parameter.  [im_rest] stands for the options and
    the implementation texts. *)
Record fimpl := FImpl {
  im_args : list (string * fparam);
  im_variadic : option variadic;
  im_session : bool;
  im_det : bool;
  im_null : nullhandling;
  im_return : option fdt;
  im_inter : option fdt;
  im_ordered : bool;
  im_max : Z;
  im_decomp : string;
  im_window : string;
  im_rest : Z }.

(** variants.go 337-343, 451-457, 501-507.  [fv_about] stands for the description and the
    metadata. *)
Record fvariant := FVariant { fv_name : string; fv_urn : string; fv_about : Z; fv_impl : fimpl }.

(** Go's [int] of a [uint] on a 64-bit platform *)
Definition int_of_uint (z : Z) : Z := if Z.ltb z (2 ^ 63) then z else (z - 2 ^ 64)%Z.

(** variants.go 401-412 and 524-536: [AggVariantOptions] and [WindowVariantOpts] in one
    record; [o_window] is for window functions only. *)
Record vopts := VOpts {
  o_variadic : option variadic;
  o_session : bool;
  o_det : bool;
  o_ordered : bool;
  o_max : Z;
  o_decomp : string;
  o_inter : string;
  o_window : string }.

Section OnTheFly.
  (** types/parser/parse.go [ParseType]: a type or an error *)
  Variable parse : string -> option fdt.

  (** variants.go 279-286: the loop of [parseFuncName]; every argument gets the name of the
      function *)
  Fixpoint parse_args (name : string) (words : list string) : res (list (string * fparam)) :=
    match words with
    | [] => Ok []
    | w :: ws =>
        match parse w with
        | None => Panic
        | Some f => let! l := parse_args name ws in Ok ((name, PValue f) :: l)
        end
    end.

  (** variants.go 273-289 [parseFuncName] *)
  Definition parse_func_name (compound : string) : res (string * list (string * fparam)) :=
    let '(name, rest) := match cut_colon compound with
                         | Some p => p
                         | None => (compound, EmptyString)
                         end in
    match rest with
    | EmptyString => Ok (name, [])
    | _ => let! l := parse_args name (split_us rest) in Ok (name, l)
    end.

  (** variants.go 311-318 [NewScalarFuncVariant] *)
  Definition new_scalar (id : ext_id) : res fvariant :=
    let! (name, args) := parse_func_name (id_name id) in
    Ok (FVariant name (id_urn id) 0 (FImpl args None false false NHNone None None false 0 "" "" 0)).

  (** variants.go 323-335 [NewScalarFuncVariantWithProps] *)
  Definition new_scalar_with (id : ext_id) (vb : option variadic) (session det : bool) : res fvariant :=
    let! (name, args) := parse_func_name (id_name id) in
    Ok (FVariant name (id_urn id) 0 (FImpl args vb session det NHNone None None false 0 "" "" 0)).

  (** variants.go 387-399 [NewAggFuncVariant] *)
  Definition new_agg (id : ext_id) : res fvariant :=
    let! (name, args) := parse_func_name (id_name id) in
    Ok (FVariant name (id_urn id) 0 (FImpl args None false false NHNone None None false 0 "NONE" "" 0)).

  (** variants.go 415-431, 542-558: the intermediate type of a decomposable function *)
  Definition intermediate_type (decomp inter : string) : res (option fdt) :=
    if String.eqb decomp "NONE" then Ok None
    else if String.eqb inter "" then Panic
    else match parse inter with Some f => Ok (Some f) | None => Panic end.

  (** variants.go 414-449 [NewAggFuncVariantOpts] *)
  Definition new_agg_opts (id : ext_id) (o : vopts) : res fvariant :=
    let decomp := if String.eqb (o_decomp o) "" then "NONE" else o_decomp o in
    let! inter := intermediate_type decomp (o_inter o) in
    let! (name, args) := parse_func_name (id_name id) in
    Ok (FVariant name (id_urn id) 0
          (FImpl args (o_variadic o) (o_session o) (o_det o) NHNone None inter (o_ordered o)
             (int_of_uint (o_max o)) decomp "" 0)).

  (** variants.go 509-522 [NewWindowFuncVariant] *)
  Definition new_window (id : ext_id) : res fvariant :=
    let! (name, args) := parse_func_name (id_name id) in
    Ok (FVariant name (id_urn id) 0 (FImpl args None false false NHNone None None false 0 "NONE" "PARTITION" 0)).

  (** variants.go 538-580 [NewWindowFuncVariantOpts] *)
  Definition new_window_opts (id : ext_id) (o : vopts) : res fvariant :=
    let decomp := if String.eqb (o_decomp o) "" then "NONE" else o_decomp o in
    let window := if String.eqb (o_window o) "" then "PARTITION" else o_window o in
    let! inter := intermediate_type decomp (o_inter o) in
    let! (name, args) := parse_func_name (id_name id) in
    Ok (FVariant name (id_urn id) 0
          (FImpl args (o_variadic o) (o_session o) (o_det o) NHNone None inter (o_ordered o)
             (int_of_uint (o_max o)) decomp window 0)).
End OnTheFly.

(** ** what a variant answers (variants.go 345-379, 459-499, 582-624) *)

Definition fparams (v : fvariant) : list fparam := map snd (im_args (fv_impl v)).

(** [CompoundName], [ID] with simple_extension.go 246-255 [signatureKey] *)
Definition fv_id (v : fvariant) : ext_id :=
  ExtId (fv_urn v) (fv_name v ++ ":" ++ String.concat "_" (map type_word (fparams v))).

(** [Match], [MatchAt] *)
Definition fv_match (v : fvariant) (ts : list ty) : res bool :=
  match_arguments (im_null (fv_impl v)) (fparams v) (im_variadic (fv_impl v)) ts.
Definition fv_match_at (v : fvariant) (t : ty) (pos : Z) : res bool :=
  match_at t pos (im_null (fv_impl v)) (fparams v) (im_variadic (fv_impl v)).

(** [ResolveType]: the declaration of the result type is behind a pointer *)
Definition fv_resolve_type (v : fvariant) (ts : list ty) (s : eset) : res (eset * ty) :=
  match im_return (fv_impl v) with
  | None => Panic
  | Some ret =>
      evaluate_type_expression (fv_urn v) (im_null (fv_impl v)) ret (fparams v) (im_variadic (fv_impl v)) ts s
  end.

(** [Intermediate] of aggregate and window variants: 477-482, 599-604 *)
Definition fv_intermediate (v : fvariant) : res fdt :=
  match im_inter (fv_impl v) with Some f => Ok f | None => Err end.

(** [MinArgumentCount], [MaxArgumentCount] *)
Definition fv_min (v : fvariant) : Z := min_argument_count (List.length (fparams v)) (im_variadic (fv_impl v)).
Definition fv_max (v : fvariant) : Z := max_argument_count (List.length (fparams v)) (im_variadic (fv_impl v)).

(** ** the variants of a declared function *)

(** simple_extension.go 257-262, 340-345, 422-427 *)
Record fdecl := FDecl { fd_name : string; fd_about : Z; fd_impls : list fimpl }.

Definition with_decomp (d : string) (i : fimpl) : fimpl :=
  FImpl (im_args i) (im_variadic i) (im_session i) (im_det i) (im_null i) (im_return i) (im_inter i)
    (im_ordered i) (im_max i) d (im_window i) (im_rest i).
Definition with_window (w : string) (i : fimpl) : fimpl :=
  FImpl (im_args i) (im_variadic i) (im_session i) (im_det i) (im_null i) (im_return i) (im_inter i)
    (im_ordered i) (im_max i) (im_decomp i) w (im_rest i).

(** simple_extension.go 296-308, 379-394, 461-479 [GetVariants] *)
Definition scalar_get_variants (urn : string) (f : fdecl) : list fvariant :=
  map (fun i => FVariant (fd_name f) urn (fd_about f) i) (fd_impls f).
Definition agg_get_variants (urn : string) (f : fdecl) : list fvariant :=
  map (fun i => FVariant (fd_name f) urn (fd_about f)
     (if String.eqb (im_decomp i) "" then with_decomp "NONE" i else i)) (fd_impls f).
Definition window_get_variants (urn : string) (f : fdecl) : list fvariant :=
  map (fun i => FVariant (fd_name f) urn (fd_about f)
     (let i := if String.eqb (im_decomp i) "" then with_decomp "NONE" i else i in
      if String.eqb (im_window i) "" then with_window "PARTITION" i else i)) (fd_impls f).

(** simple_extension.go 310-322, 396-408, 481-493 [ResolveURN], the same for the three kinds *)
Definition resolve_urn (urn : string) (f : fdecl) : list fvariant :=
  map (fun i => FVariant (fd_name f) urn (fd_about f) i) (fd_impls f).
