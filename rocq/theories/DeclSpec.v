(** Specification vocabulary for declared functions (C68). *)

From Coq Require Import ZArith String Ascii Bool List.
From Verif Require Import Base FMap TypesModel ExtSetModel LoadModel LoadSpec SigModel SigSpec ExprModel ExprSpec DeclModel.
Import ListNotations.
Local Open Scope string_scope.

(** ** reading one argument *)

Notation entry m k := (fm_get String.eqb k m).

(** the text under a key, empty if the key is missing *)
Definition text_at (m : fmap string yval) (k s : string) : Prop :=
  entry m k = Some (YStr s) \/ entry m k = None /\ s = "".

Definition flag_at (m : fmap string yval) (k : string) (b : bool) : Prop :=
  entry m k = Some (YBool b) \/ entry m k = None /\ b = false.

(** options make an enum argument, otherwise a value makes a value argument, otherwise a type
    makes a type argument *)
Inductive reads (parse : string -> option fdt) (m : fmap string yval) : decl -> Prop :=
| R_enum name desc opts :
    text_at m "name" name -> text_at m "description" desc ->
    entry m "options" = Some (YSeq (map YStr opts)) ->
    reads parse m (DArg name desc false (PEnum name opts))
| R_value name desc c s f :
    text_at m "name" name -> text_at m "description" desc -> entry m "options" = None ->
    entry m "value" = Some (YStr s) -> parse s = Some f -> flag_at m "constant" c ->
    reads parse m (DArg name desc c (PValue f))
| R_type name desc s f :
    text_at m "name" name -> text_at m "description" desc -> entry m "options" = None -> entry m "value" = None ->
    entry m "type" = Some (YStr s) -> parse s = Some f ->
    reads parse m (DArg name desc false (PType f))
| R_none name desc :
    text_at m "name" name -> text_at m "description" desc ->
    entry m "options" = None -> entry m "value" = None -> entry m "type" = None ->
    reads parse m DNone.

Definition is_text (v : yval) : Prop := exists s, v = YStr s.
Definition text_or_missing (m : fmap string yval) (k : string) : Prop := forall v, entry m k = Some v -> is_text v.
Definition flag_or_missing (m : fmap string yval) (k : string) : Prop := forall v, entry m k = Some v -> exists b, v = YBool b.

(** entries of the wrong kind that stop the program: a name, description or option that is no
    text, options that are no list, a constant that is no flag, a value or type that is null *)
Inductive stops (m : fmap string yval) : Prop :=
| St_name : ~ text_or_missing m "name" -> stops m
| St_desc : ~ text_or_missing m "description" -> stops m
| St_options v : entry m "options" = Some v -> ~ (exists l, v = YSeq l /\ Forall is_text l) -> stops m
| St_constant v : entry m "options" = None -> entry m "value" = Some v -> ~ flag_or_missing m "constant" -> stops m
| St_value : entry m "options" = None -> entry m "value" = Some YNull -> stops m
| St_type : entry m "options" = None -> entry m "value" = None -> entry m "type" = Some YNull -> stops m.

(** a value or type that is something else than a parseable text *)
Definition unparsed (parse : string -> option fdt) (v : yval) : Prop :=
  v <> YNull /\ forall s, v = YStr s -> parse s = None.
Definition refused (parse : string -> option fdt) (m : fmap string yval) : Prop :=
  ~ stops m /\ entry m "options" = None /\
  ((exists v, entry m "value" = Some v /\ unparsed parse v) \/
   entry m "value" = None /\ exists v, entry m "type" = Some v /\ unparsed parse v).

(** ** words *)

Inductive named : fdt -> string -> Prop :=
| N_prim p n v s :
    In (p, s) [(PrimBool, "bool"); (PrimI8, "i8"); (PrimI16, "i16"); (PrimI32, "i32"); (PrimI64, "i64");
      (PrimFp32, "fp32"); (PrimFp64, "fp64"); (PrimString, "str"); (PrimBinary, "vbin"); (PrimTimestamp, "ts");
      (PrimDate, "date"); (PrimTime, "time"); (PrimTimestampTz, "tstz"); (PrimIntervalYear, "iyear"); (PrimUUID, "uuid")] ->
    named (FPrim p n v) s
| N_single k n v i s :
    In (k, s) [(SFixed FxChar, "fchar"); (SFixed FxVarChar, "vchar"); (SFixed FxBinary, "fbin");
      (SPrecTime, "pt"); (SPrecTs, "pts"); (SPrecTsTz, "ptstz"); (SIntervalDay, "iday")] ->
    named (FSingle k n v i) s
| N_enum c n v w l : named (FEnum c n v w l) "req"
| N_decimal n v p s : named (FDecimal n v p s) "dec"
| N_any x v n : named (FAny x v n) "any"
| N_list n v e : named (FList n v e) "list"
| N_map n v k x : named (FMap n v k x) "map"
| N_struct n v fs : named (FStruct n v fs) "struct"
| N_func n ps r : named (FFunc n ps r) "func"
| N_user n v ps name : named (FUser n v ps name) ("u!" ++ name)
| N_derived l f s : named f s -> named (FDeriv l f) s.

Inductive param_named : fparam -> string -> Prop :=
| PN_enum w l : param_named (PEnum w l) "req"
| PN_value f s : named f s -> param_named (PValue f) s
| PN_type f : param_named (PType f) "type".

(** the declared type is, outermost, neither a type variable nor a user-defined type *)
Inductive ordinary : fdt -> Prop :=
| O_derived l f : ordinary f -> ordinary (FDeriv l f)
| O_other f : (forall l g, f <> FDeriv l g) -> (forall x v n, f <> FAny x v n) ->
    (forall n v ps w, f <> FUser n v ps w) -> ordinary f.

(** the user-defined type a declared type is, outermost *)
Inductive is_user : fdt -> string -> Prop :=
| U_user n v ps w : is_user (FUser n v ps w) w
| U_derived l f w : is_user f w -> is_user (FDeriv l f) w.

(** ** user-defined types mentioned *)

Inductive mentions (w : string) : fdt -> Prop :=
| M_itself n v ps : mentions w (FUser n v ps w)
| M_parameter n v ps x g : In (UData g) ps -> mentions w g -> mentions w (FUser n v ps x)
| M_element n v e : mentions w e -> mentions w (FList n v e)
| M_key n v k x : mentions w k -> mentions w (FMap n v k x)
| M_value n v k x : mentions w x -> mentions w (FMap n v k x)
| M_field n v fs f : In f fs -> mentions w f -> mentions w (FStruct n v fs)
| M_func_param n ps r f : In f ps -> mentions w f -> mentions w (FFunc n ps r)
| M_func_result n ps r : mentions w r -> mentions w (FFunc n ps r)
| M_derived l f : mentions w f -> mentions w (FDeriv l f).

(** ... in the arguments, the result or, for aggregate and window functions, the intermediate
    type of an implementation *)
Inductive impl_mentions (agg : bool) (d : impl_decl) (w : string) : Prop :=
| IM_value n e c f : In (DArg n e c (PValue f)) (d_args d) -> mentions w f -> impl_mentions agg d w
| IM_type n e c f : In (DArg n e c (PType f)) (d_args d) -> mentions w f -> impl_mentions agg d w
| IM_result f : d_return d = Some f -> mentions w f -> impl_mentions agg d w
| IM_intermediate f : agg = true -> d_intermediate d = Some f -> mentions w f -> impl_mentions agg d w.

(** ** calls *)

(** argument type [t] fills parameter [p] in a set of anchors: an enum argument, a type the
    declaration admits, or a user-defined type of the declared name *)
Inductive fills (s : eset) : fparam -> xtype -> Prop :=
| F_enum w l c n v w' l' : fills s (PEnum w l) (XTy (TEnum c n v w' l'))
| F_ordinary f t : ordinary f -> instance f t -> fills s (PValue f) (XTy t)
| F_user f w n v ref ps id : is_user f w -> decode_type ref s = Some id -> id_name id = w ->
    fills s (PValue f) (XTy (TUser n v ref ps)).
