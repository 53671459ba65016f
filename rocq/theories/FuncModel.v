(** Model of /repo/functions: functions.go (the function registry), types.go (type
    strings and the local type registry), dialect.go (loading and localizing a
    dialect), registries.go 88-200 and local_functions.go (local functions). *)

From Coq Require Import ZArith String Ascii Bool List.
From Verif Require Import Base FMap ExtSetModel LoadModel TypesModel TimeModel SigModel ExprModel.
Import ListNotations.
Local Open Scope string_scope.

(** ** functions.go: lookup by name and argument count *)

(** functions.go 14-20 [getOrEmpty] *)
Definition get_or_empty {K V} (eqb : K -> K -> bool) (key : K) (m : fmap K (list V)) : list V :=
  match fm_get eqb key m with Some l => l | None => [] end.

(** functions.go 42-51 [processFunctions]: the map of one kind and the running list
    of all functions *)
Definition process_functions (fs : list variant) (st : fmap string (list variant) * list variant)
  : fmap string (list variant) * list variant :=
  fold_left
    (fun st f =>
       (fm_set String.eqb (v_name f) (get_or_empty String.eqb (v_name f) (fst st) ++ [f])%list (fst st),
        (snd st ++ [f])%list))
    fs st.

(** functions.go 7-12 *)
Record registry := Registry {
  fr_scalar : fmap string (list variant);
  fr_agg : fmap string (list variant);
  fr_window : fmap string (list variant);
  fr_all : list variant }.

(** functions.go 24-40 [NewFunctionRegistry].  The collection hands out its map values
    in some order (extension_mgr.go 315-333): [sc], [ag] and [wi] are those three lists. *)
Definition new_registry (sc ag wi : list variant) : registry :=
  let '(m1, a1) := process_functions sc ([], []) in
  let '(m2, a2) := process_functions ag ([], a1) in
  let '(m3, a3) := process_functions wi ([], a2) in
  Registry m1 m2 m3 a3.

(** functions.go 53-55 [GetAllFunctions] *)
Definition all_functions (r : registry) : list variant := fr_all r.

(** functions.go 57-67 [GetScalarFunctionsByName], … *)
Definition scalar_by_name (r : registry) (name : string) := get_or_empty String.eqb name (fr_scalar r).
Definition agg_by_name (r : registry) (name : string) := get_or_empty String.eqb name (fr_agg r).
Definition window_by_name (r : registry) (name : string) := get_or_empty String.eqb name (fr_window r).

Section ByCount.
  (** variants.go 349, 463, 585 [Variadic]: a field of the implementation *)
  Variable variadic_of : variant -> option variadic.

  (** functions.go 81-89 [getFunctionVariantsByCount]; simple_extension.go 223-225 is false
      on a nil receiver *)
  Definition takes_count (f : variant) (n : Z) : bool :=
    Z.eqb (Z.of_nat (List.length (i_args (v_impl f)))) n ||
    match variadic_of f with Some v => valid_count v n | None => false end.

  Definition by_count {V} (base : V -> variant) (fs : list V) (n : Z) : list V :=
    filter (fun f => takes_count (base f) n) fs.

  (** functions.go 69-79 [GetScalarFunctions], … *)
  Definition scalar_functions (r : registry) (name : string) (n : Z) : list variant :=
    by_count (fun f => f) (scalar_by_name r name) n.
  Definition agg_functions (r : registry) (name : string) (n : Z) : list variant :=
    by_count (fun f => f) (agg_by_name r name) n.
  Definition window_functions (r : registry) (name : string) (n : Z) : list variant :=
    by_count (fun f => f) (window_by_name r name) n.
End ByCount.

(** ** types.go: type strings *)

(** types/types.go 642, 907, 1030, 1110, 1188, 1325, 1393, 1456, 1676;
    interval_day_type.go 51; interval_compound_type.go 73; interval_year_month_type.go 57;
    precison_timestamp_types.go 130, 213, 286 [ShortString] *)
Definition short_string (t : ty) : string :=
  match t with
  | TPrim p _ _ =>
      match p with
      | PrimBool => "bool" | PrimI8 => "i8" | PrimI16 => "i16" | PrimI32 => "i32" | PrimI64 => "i64"
      | PrimFp32 => "fp32" | PrimFp64 => "fp64" | PrimString => "str" | PrimBinary => "vbin"
      | PrimTimestamp => "ts" | PrimDate => "date" | PrimTime => "time" | PrimTimestampTz => "tstz"
      | PrimIntervalYear => "iyear" | PrimUUID => "uuid"
      end
  | TFixed k _ _ _ => match k with FxChar => "fchar" | FxVarChar => "vchar" | FxBinary => "fbin" end
  | TDecimal _ _ _ _ => "dec"
  | TPrecTime _ _ _ => "pt"
  | TPrecTs _ _ _ => "pts"
  | TPrecTsTz _ _ _ => "ptstz"
  | TIntervalDay _ _ _ => "iday"
  | TIntervalCompound _ _ _ _ => "icompound"
  | TIntervalYearToMonth _ _ => "iyear"
  | TEnum _ _ _ _ _ => "req"
  | TStruct _ _ _ => "struct"
  | TFunc _ _ _ => "func"
  | TList _ _ _ => "list"
  | TMap _ _ _ _ => "map"
  | TUser _ _ _ _ => ""
  end.

(** types/types.go 496-504 [CompositeType]: [BaseString] and [ParameterString], at 1041-1049,
    1116-1122, 1205-1218, 1399-1405, 1462-1468; interval_day_type.go 58-64;
    precison_timestamp_types.go 138-144, 217-219, 295-301.  [None] for a type without
    these methods. *)
Definition composite (t : ty) : option (string * string) :=
  match t with
  | TFixed k _ _ len => Some (fixed_name k, string_of_Z len)
  | TDecimal _ _ p s => Some ("decimal", string_of_Z p ++ "," ++ string_of_Z s)
  | TPrecTime _ _ p => Some ("precision_time", string_of_Z p)
  | TPrecTs _ _ p => Some ("precision_timestamp", string_of_Z p)
  | TPrecTsTz _ _ p => Some ("precision_timestamp_tz", string_of_Z p)
  | TIntervalDay _ _ p => Some ("interval_day", string_of_Z p)
  | TStruct _ _ fs => Some ("struct", join ", " (map type_string fs))
  | TList _ _ e => Some ("list", type_string e)
  | TMap _ _ k v => Some ("map", type_string k ++ ", " ++ type_string v)
  | _ => None
  end.

(** types/types.go 75-98 [simpleTypeNameMap], [fixedTypeNameMap] and 141-155
    [GetTypeNameToTypeMap]: Go zero values *)
Definition name_to_type : list (string * ty) :=
  [("i8", TPrim PrimI8 0 0); ("i16", TPrim PrimI16 0 0); ("i32", TPrim PrimI32 0 0);
   ("i64", TPrim PrimI64 0 0); ("fp32", TPrim PrimFp32 0 0); ("fp64", TPrim PrimFp64 0 0);
   ("string", TPrim PrimString 0 0); ("binary", TPrim PrimBinary 0 0);
   ("boolean", TPrim PrimBool 0 0); ("date", TPrim PrimDate 0 0); ("time", TPrim PrimTime 0 0);
   ("timestamp", TPrim PrimTimestamp 0 0); ("timestamp_tz", TPrim PrimTimestampTz 0 0);
   ("interval_year", TPrim PrimIntervalYear 0 0); ("uuid", TPrim PrimUUID 0 0);
   ("u!", TUser 0 0 0 []);
   ("fixedbinary", TFixed FxBinary 0 0 0); ("fixedchar", TFixed FxChar 0 0 0);
   ("varchar", TFixed FxVarChar 0 0 0);
   ("decimal", TDecimal 0 0 0 0); ("interval_day", TIntervalDay 0 0 0);
   ("precision_time", TPrecTime 0 0 0); ("precision_timestamp", TPrecTs 0 0 0);
   ("precision_timestamp_tz", TPrecTsTz 0 0 0)]%Z.

(** types/types.go 100-118 [shortTypeNames] *)
Definition short_type_names : list (string * string) :=
  [("string", "str"); ("binary", "vbin"); ("boolean", "bool"); ("timestamp", "ts");
   ("timestamp_tz", "tstz"); ("interval_year", "iyear"); ("interval_day", "iday");
   ("interval_compound", "icompound"); ("fixedbinary", "fbin"); ("fixedchar", "fchar");
   ("varchar", "vchar"); ("decimal", "dec"); ("precision_time", "pt");
   ("precision_timestamp", "pts"); ("precision_timestamp_tz", "ptstz")].

(** types/types.go 120-125 [GetShortTypeName] *)
Definition get_short_type_name (name : string) : string :=
  match fm_get String.eqb name short_type_names with Some n => n | None => name end.

(** functions/types.go 22-34 [initTypeMaps]: every type under its long name and under its
    short name (no short name is another type's long name, so the order does not matter) *)
Definition type_table : fmap string ty :=
  (name_to_type ++
   map (fun kv => (get_short_type_name (fst kv), snd kv))
     (filter (fun kv => negb (String.eqb (get_short_type_name (fst kv)) (fst kv))) name_to_type))%list.

(** functions/types.go 36-41 [getTypeFromBaseTypeName] and 45-48 [isSupportedType] *)
Definition base_type (name : string) : option ty := fm_get String.eqb name type_table.
Definition is_supported_type (name : string) : bool :=
  match base_type name with Some _ => true | None => false end.

(** [strings.Split] with a one-character separator *)
Fixpoint split_on (sep : ascii) (s : string) : list string :=
  match s with
  | EmptyString => [EmptyString]
  | String c s' =>
      if Ascii.eqb c sep then EmptyString :: split_on sep s'
      else match split_on sep s' with
           | w :: ws => String c w :: ws
           | [] => [String c EmptyString]
           end
  end.

(** the text before and after the first [c]: [strings.Index] and the slices around it *)
Fixpoint cut_at (c : ascii) (s : string) : option (string * string) :=
  match s with
  | EmptyString => None
  | String x s' =>
      if Ascii.eqb x c then Some (EmptyString, s')
      else match cut_at c s' with Some (a, b) => Some (String x a, b) | None => None end
  end.

(** [strings.HasSuffix] with a one-character suffix: the text before it *)
Fixpoint drop_last (c : ascii) (s : string) : option string :=
  match s with
  | EmptyString => None
  | String x EmptyString => if Ascii.eqb x c then Some EmptyString else None
  | String x s' => match drop_last c s' with Some r => Some (String x r) | None => None end
  end.

(** [strconv.ParseInt(p, 10, 32)] *)
Definition parse_int32 (s : string) : res Z :=
  match atoi s with
  | Ok z => if Z.leb (- 2 ^ 31) z && Z.ltb z (2 ^ 31) then Ok z else Err
  | _ => Err
  end.

(** 109-126 [extractTypeAndParameters].  [opening] and [closing] are the two characters
    of the enclosure (135-141: < and >; 192-198: parentheses).  The parameter text is the
    text after the first opening character without the final closing one. *)
Definition extract (opening closing : ascii) (s : string) : res (string * list Z) :=
  match cut_at opening s, drop_last closing s with
  | Some (base, rest), Some _ =>
      match drop_last closing rest with
      | None => Panic
      | Some text => let! ps := mapM parse_int32 (split_on "," text) in Ok (base, ps)
      end
  | _, _ => Ok (s, [])
  end.

(** 82-107 [getTypeWithParameters] *)
Definition type_with_parameters (t : ty) (ps : list Z) : res ty :=
  match t with
  | TDecimal _ _ _ _ => match ps with [p; s] => Ok (TDecimal 0 0 p s) | _ => Err end
  | TFixed k _ _ _ => match ps with [len] => Ok (TFixed k 0 0 len) | _ => Err end
  | _ => match ps with [] => Ok t | _ => Err end
  end.

(** 67-71: a trailing question mark makes the type nullable *)
Definition base_and_nullability (s : string) : string * nullability :=
  match drop_last "?" s with
  | Some r => (r, NullNullable)
  | None => (s, NullRequired)
  end.

(** 62-80 [getTypeFromTypeString]; what is returned for interval_day is the table's own
    object, see [get_type_heap] *)
Definition get_type (table : fmap string ty) (opening closing : ascii) (s : string) : res ty :=
  let! (text, ps) := extract opening closing s in
  let '(base, n) := base_and_nullability text in
  match fm_get String.eqb base table with
  | Some t => let! t' := type_with_parameters t ps in Ok (with_nullability n t')
  | None => Err
  end.

(** The same function with the objects: the table holds addresses.  82-107 allocates a new
    object for decimal and fixed-length types and otherwise hands back the table's own,
    whose [WithNullability] is then called. *)
Definition get_type_heap (h : theap) (table : fmap string nat) (opening closing : ascii) (s : string)
  : res (theap * nat) :=
  let! (text, ps) := extract opening closing s in
  let '(base, n) := base_and_nullability text in
  match fm_get String.eqb base table with
  | None => Err
  | Some a =>
      match nth_error h a with
      | None => Panic
      | Some t =>
          let! t' := type_with_parameters t ps in
          match t with
          | TDecimal _ _ _ _ | TFixed _ _ _ _ =>
              with_nullability_heap (h ++ [t'])%list (List.length h) n
          | _ => with_nullability_heap h a n
          end
      end
  end.

(** 50-60: the standard type registry *)
Definition standard_type (s : string) : res ty := get_type type_table "<" ">" s.

(** 143-148 *)
Record tinfo := TInfo { ti_type : ty; ti_short : string; ti_local : string; ti_column : bool }.

(** 150-156 [getLongName] *)
Definition long_name (ti : tinfo) : string :=
  match composite (ti_type ti) with Some (base, _) => base | None => type_string (ti_type ti) end.

(** 158-163 [getLocalTypeString] with the enclosure of 192-198 *)
Definition local_type_string (ti : tinfo) (input : ty) : string :=
  match composite input with
  | Some (_, params) => ti_local ti ++ "(" ++ params ++ ")"
  | None => ti_local ti
  end.

(** 165-169 *)
Record treg := TReg {
  tr_names : fmap string ty;
  tr_locals : fmap string ty;
  tr_infos : fmap string tinfo }.

(** 171-190 [NewLocalTypeRegistry] *)
Definition add_tinfo (r : treg) (ti : tinfo) : treg :=
  let names := fm_set String.eqb (ti_short ti) (ti_type ti) (tr_names r) in
  let locals := fm_set String.eqb (ti_local ti) (ti_type ti) (tr_locals r) in
  let infos := fm_set String.eqb (ti_short ti) ti (tr_infos r) in
  let long := long_name ti in
  if String.eqb long (ti_short ti) then TReg names locals infos
  else TReg (fm_set String.eqb long (ti_type ti) names) locals (fm_set String.eqb long ti infos).
Definition new_type_registry (tis : list tinfo) : treg := fold_left add_tinfo tis (TReg [] [] []).

(** 200-202 [GetTypeFromTypeString] *)
Definition reg_type (r : treg) (s : string) : res ty := get_type (tr_names r) "<" ">" s.
(** 204-206 [GetSubstraitTypeFromLocalType] *)
Definition substrait_type (r : treg) (s : string) : res ty := get_type (tr_locals r) "(" ")" s.
(** 208-215 [GetLocalTypeFromSubstraitType] *)
Definition local_type (r : treg) (t : ty) : res string :=
  match fm_get String.eqb (short_string t) (tr_infos r) with
  | Some ti => Ok (local_type_string ti t)
  | None => Err
  end.
(** 217-219 [GetSupportedTypes] *)
Definition supported_types (r : treg) : fmap string ty := tr_locals r.
(** 221-226 [IsTypeSupportedInTables] *)
Definition supported_in_tables (r : treg) (t : ty) : bool :=
  match fm_get String.eqb (short_string t) (tr_infos r) with
  | Some ti => ti_column ti
  | None => false
  end.

(** ** dialect.go *)

(** 314-324 (a decoded YAML file; RequiredOptions is a map) *)
Record dfunc := DFunc {
  df_name : string;
  df_local : string;
  df_infix : bool;
  df_postfix : bool;
  df_options : fmap string string;
  df_kernels : list string }.

(** 237-245; the type map's values are 247-250 *)
Record dfile := DFile {
  dl_types : fmap string (string * bool);
  dl_scalar : list dfunc;
  dl_agg : list dfunc;
  dl_window : list dfunc;
  dl_deps : fmap string string }.

Inductive notation := Infix | Prefix | Postfix.

(** 24-30 *)
Record dinfo := DInfo {
  di_id : ext_id;
  di_name : string;
  di_local : string;
  di_options : fmap string (list string);
  di_notation : notation }.

(** 329-338: one word of a kernel *)
Definition fix_word (w : string) : res (string * bool) :=
  match strip_prefix "any" w with
  | Some _ => Ok ("any", true)
  | None => if nonempty w && negb (is_supported_type w) then Err else Ok (w, false)
  end.

(** 326-343 [validateAndFixKernels]: the kernel the slice holds afterwards *)
Definition fix_kernel (k : string) : res string :=
  let! ws := mapM fix_word (split_on "_" k) in
  if existsb snd ws then Ok (String.concat "_" (map fst ws)) else Ok k.

(** 296-312 [validateFunction] *)
Definition validate_function (deps : fmap string string) (f : dfunc) : res dfunc :=
  if negb (nonempty (df_name f)) || Nat.eqb (List.length (df_kernels f)) 0 then Err
  else
    match split_on "." (df_name f) with
    | [p; _] =>
        match fm_get String.eqb p deps with
        | None => Err
        | Some _ =>
            let! ks := mapM fix_kernel (df_kernels f) in
            Ok (DFunc (df_name f) (df_local f) (df_infix f) (df_postfix f) (df_options f) ks)
        end
    | _ => Err
    end.

(** 270-294 [validate]; the loop variable is a copy of the function, but the copy's slice
    of kernels is the original one, so the fixed kernels stay in the file *)
Definition validate_file (d : dfile) : res dfile :=
  if Nat.eqb (List.length (dl_types d)) 0 then Err
  else if Nat.eqb (List.length (dl_scalar d)) 0 && Nat.eqb (List.length (dl_agg d)) 0
          && Nat.eqb (List.length (dl_window d)) 0 then Err
  else
    let! sc := mapM (validate_function (dl_deps d)) (dl_scalar d) in
    let! ag := mapM (validate_function (dl_deps d)) (dl_agg d) in
    let! wi := mapM (validate_function (dl_deps d)) (dl_window d) in
    Ok (DFile (dl_types d) sc ag wi (dl_deps d)).

(** 356-364 [GetNotation] *)
Definition get_notation (f : dfunc) : notation :=
  if df_infix f then Infix else if df_postfix f then Postfix else Prefix.

(** 345-354 [getOptions] (a nil map and an empty one answer alike) *)
Definition get_options (f : dfunc) : fmap string (list string) :=
  map (fun kv => (fst kv, [snd kv])) (df_options f).

(** 265-268 [getUrnAndFunctionName]; a missing dependency gives "" *)
Definition urn_and_name (deps : fmap string string) (f : dfunc) : res (string * string) :=
  match split_on "." (df_name f) with
  | p :: n :: _ => Ok (match fm_get String.eqb p deps with Some u => u | None => "" end, n)
  | _ => Panic
  end.

(** 214-235 [buildFunctionInfoMap] *)
Definition function_infos (deps : fmap string string) (f : dfunc) : res (list dinfo) :=
  let! (urn, name) := urn_and_name deps f in
  Ok (map (fun k =>
             DInfo (ExtId urn (name ++ ":" ++ k)) name
               (if nonempty (df_local f) then df_local f else name)
               (get_options f) (get_notation f))
        (df_kernels f)).
Definition build_infos (deps : fmap string string) (fs : list dfunc) : res (fmap ext_id dinfo) :=
  let! l := mapM (function_infos deps) fs in
  Ok (fold_left (fun m i => fm_set ext_id_eqb (di_id i) i m) (List.concat l) []).

(** 32-43 *)
Record dialect := Dialect {
  d_types : fmap string (string * bool);
  d_scalar : fmap ext_id dinfo;
  d_agg : fmap ext_id dinfo;
  d_window : fmap ext_id dinfo }.

(** 197-212 [Load] after decoding *)
Definition load_dialect (d : dfile) : res dialect :=
  let! d' := validate_file d in
  let! sc := build_infos (dl_deps d') (dl_scalar d') in
  let! ag := build_infos (dl_deps d') (dl_agg d') in
  let! wi := build_infos (dl_deps d') (dl_window d') in
  Ok (Dialect (dl_types d') sc ag wi).

(** 164-179 [LocalizeTypeRegistry]; [order] is the map's iteration order *)
Definition localize_types (order : list (string * (string * bool))) : res treg :=
  let! tis := mapM (fun kv => match base_type (fst kv) with
                              | Some t => Ok (TInfo t (short_string t) (fst (snd kv)) (snd (snd kv)))
                              | None => Err
                              end) order in
  Ok (new_type_registry tis).

(** registries.go 58-69: the two kinds of name a local registry is keyed by *)
Inductive fname := FSub (s : string) | FLoc (s : string).
Definition fname_eqb (a b : fname) : bool :=
  match a, b with
  | FSub x, FSub y | FLoc x, FLoc y => String.eqb x y
  | _, _ => false
  end.

(** registries.go 124-128 and 153-156, 164-167, 175-178 *)
Record lvar := LVar {
  lv_base : variant;
  lv_local : string;
  lv_options : fmap string (list string);
  lv_notation : notation }.

(** registries.go 186-217 *)
Definition new_local_variant (f : variant) (d : dinfo) : lvar :=
  LVar f (di_local d) (di_options d) (di_notation d).

Record lstate := LState {
  ls_done : list ext_id;
  ls_map : fmap fname (list lvar);
  ls_slice : list lvar }.

Definition id_in (id : ext_id) (l : list ext_id) : bool := existsb (ext_id_eqb id) l.

(** 122-129: the inner loop over the variants of one name *)
Definition localize_name (infos : fmap ext_id dinfo) (fs : list variant) (done : list ext_id)
  : list lvar * list ext_id :=
  fold_left
    (fun st f =>
       let '(out, done) := st in
       if id_in (variant_id f) done then st
       else match fm_get ext_id_eqb (variant_id f) infos with
            | Some d => ((out ++ [new_local_variant f d])%list, variant_id f :: done)
            | None => st
            end)
    fs ([], done).

(** 146-151 [addToSliceMap], 153-162 [addToSliceMapWithLocalKey] *)
Definition add_to_map (key : fname) (vs : list lvar) (m : fmap fname (list lvar)) : fmap fname (list lvar) :=
  fm_set fname_eqb key (get_or_empty fname_eqb key m ++ vs)%list m.
Definition add_local_keys (vs : list lvar) (m : fmap fname (list lvar)) : fmap fname (list lvar) :=
  fold_left (fun m v => add_to_map (FLoc (lv_local v)) [v] m) vs m.

(** 112-139: one turn of the outer loop *)
Definition localize_step (infos : fmap ext_id dinfo) (get : string -> list variant) (st : lstate) (d : dinfo)
  : res lstate :=
  match fm_get fname_eqb (FLoc (di_name d)) (ls_map st) with
  | Some _ => if id_in (di_id d) (ls_done st) then Ok st else Err
  | None =>
      let '(vs, done) := localize_name infos (get (di_name d)) (ls_done st) in
      if negb (id_in (di_id d) done) then Err
      else
        match vs with
        | [] => Ok (LState done (ls_map st) (ls_slice st))
        | _ => Ok (LState done (add_local_keys vs (add_to_map (FSub (di_name d)) vs (ls_map st)))
                     (ls_slice st ++ vs)%list)
        end
  end.

(** 105-144 [makeLocalFunctionVariantMapAndSlice]; [order] is the map's iteration order *)
Fixpoint localize_loop (infos : fmap ext_id dinfo) (get : string -> list variant) (order : list dinfo) (st : lstate)
  : res lstate :=
  match order with
  | [] => Ok st
  | d :: order' => let! st' := localize_step infos get st d in localize_loop infos get order' st'
  end.
Definition localize (infos : fmap ext_id dinfo) (get : string -> list variant) (order : list dinfo)
  : res (fmap fname (list lvar) * list lvar) :=
  let! st := localize_loop infos get order (LState [] [] []) in
  Ok (ls_map st, ls_slice st).

(** ** local_functions.go *)

Inductive fkind := KScalar | KAgg | KWindow.
Definition fkind_eqb (a b : fkind) : bool :=
  match a, b with KScalar, KScalar | KAgg, KAgg | KWindow, KWindow => true | _, _ => false end.

(** 10-22 *)
Record lregistry := LRegistry {
  lr_scalar : fmap fname (list lvar);
  lr_agg : fmap fname (list lvar);
  lr_window : fmap fname (list lvar);
  lr_all : list (fkind * lvar);
  lr_ids : fmap ext_id (fkind * lvar);
  lr_types : treg }.

(** 25-38 [makeLocalFunctionVariantsMap] *)
Definition by_id (l : list (fkind * lvar)) : fmap ext_id (fkind * lvar) :=
  fold_left (fun m f => fm_set ext_id_eqb (variant_id (lv_base (snd f))) f m) l [].

(** dialect.go 56-89 [LocalizeFunctionRegistry].  [types] is the local type registry of
    the dialect, [os], [oa], [ow] the iteration orders of its three function maps. *)
Definition localize_functions (d : dialect) (types : res treg) (os oa ow : list dinfo) (r : registry)
  : res lregistry :=
  let! t := types in
  let! (sm, ss) := localize (d_scalar d) (scalar_by_name r) os in
  let! (am, sa) := localize (d_agg d) (agg_by_name r) oa in
  let! (wm, sw) := localize (d_window d) (window_by_name r) ow in
  let all := (map (pair KScalar) ss ++ map (pair KAgg) sa ++ map (pair KWindow) sw)%list in
  Ok (LRegistry sm am wm all (by_id all) t).

Section LocalCount.
  Variable variadic_of : variant -> option variadic.

  (** 52-62 *)
  Definition local_scalar (r : lregistry) (name : fname) (n : Z) : list lvar :=
    by_count variadic_of lv_base (get_or_empty fname_eqb name (lr_scalar r)) n.
  Definition local_agg (r : lregistry) (name : fname) (n : Z) : list lvar :=
    by_count variadic_of lv_base (get_or_empty fname_eqb name (lr_agg r)) n.
  Definition local_window (r : lregistry) (name : fname) (n : Z) : list lvar :=
    by_count variadic_of lv_base (get_or_empty fname_eqb name (lr_window r)) n.
End LocalCount.

(** [strings.EqualFold], for ASCII text (other letters are compared byte by byte) *)
Definition fold_char (c : ascii) : ascii :=
  let n := nat_of_ascii c in
  if (Nat.leb 65 n && Nat.leb n 90)%bool then ascii_of_nat (n + 32) else c.
Fixpoint equal_fold (a b : string) : bool :=
  match a, b with
  | EmptyString, EmptyString => true
  | String x a', String y b' => Ascii.eqb (fold_char x) (fold_char y) && equal_fold a' b'
  | _, _ => false
  end.

(** registries.go 138-150 [IsOptionSupported] *)
Definition option_supported (v : lvar) (name value : string) : bool :=
  match fm_get String.eqb name (lv_options v) with
  | None => false
  | Some vals => existsb (fun x => equal_fold x value) vals
  end.

(** 76-97 [getFunctionVariantByInvocation]: [id], [args] and [opts] are the invocation's
    declaration ID, argument types and options; [k] is the kind of the invocation *)
Definition by_invocation (r : lregistry) (k : fkind) (id : ext_id) (args : list ty)
    (opts : list (string * list string)) : res lvar :=
  match fm_get ext_id_eqb id (lr_ids r) with
  | None => Err
  | Some (k', v) =>
      let! _ := mapM (local_type (lr_types r)) args in
      if forallb (fun o => forallb (option_supported v (fst o)) (snd o)) opts
      then if fkind_eqb k' k then Ok v else Panic
      else Err
  end.
