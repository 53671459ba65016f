(** Model of the extension collection: /repo/extensions/extension_mgr.go 33-45,
    101-333 and 449-494, validation.go 15-84, simple_extension.go GetVariants. *)

From Coq Require Import List ZArith String Ascii Bool.
From Verif Require Import Base FMap ExtSetModel.
Import ListNotations.
Local Open Scope string_scope.

(** ** URN and alias patterns *)

Definition colon : ascii := ":"%char.

(** cut at the first colon *)
Fixpoint cut_colon (s : string) : option (string * string) :=
  match s with
  | EmptyString => None
  | String c s' =>
      if Ascii.eqb c colon then Some (EmptyString, s')
      else match cut_colon s' with Some (a, b) => Some (String c a, b) | None => None end
  end.

Fixpoint strip_prefix (p s : string) : option string :=
  match p, s with
  | EmptyString, _ => Some s
  | String a p', String b s' => if Ascii.eqb a b then strip_prefix p' s' else None
  | _, _ => None
  end.

Definition nonempty (s : string) : bool := match s with EmptyString => false | _ => true end.

(** extension_mgr.go 34, 39-41 [validateUrn]: matches ^extension:[^:]+:[^:]+$ *)
Definition validate_urn (s : string) : bool :=
  match strip_prefix "extension:" s with
  | Some r =>
      match cut_colon r with
      | Some (a, b) =>
          nonempty a && nonempty b && match cut_colon b with Some _ => false | None => true end
      | None => false
      end
  | None => false
  end.

Definition in_range (lo hi c : ascii) : bool :=
  (Nat.leb (nat_of_ascii lo) (nat_of_ascii c) && Nat.leb (nat_of_ascii c) (nat_of_ascii hi))%bool.
Definition alias_start (c : ascii) : bool :=
  in_range "A" "Z" c || in_range "a" "z" c || Ascii.eqb c "_" || Ascii.eqb c "$".
Definition alias_char (c : ascii) : bool := alias_start c || in_range "0" "9" c.
Fixpoint all_chars (p : ascii -> bool) (s : string) : bool :=
  match s with EmptyString => true | String c s' => p c && all_chars p s' end.

(** 35, 43-45 [validateDependencyAlias]: ^[A-Za-z_$][A-Za-z0-9_$]*$ *)
Definition validate_alias (s : string) : bool :=
  match s with EmptyString => false | String c s' => alias_start c && all_chars alias_char s' end.

(** ** extension files (after YAML decoding) *)

(** One implementation.  [i_args] are the short type names of the arguments
    (toTypeString); [i_refs] the user-defined types its signature mentions, each
    with its dependency alias if qualified; [i_body] stands for every field that
    lookups carry along unchanged. *)
Record impl := Impl {
  i_args : list string;
  i_refs : list (option string * string);
  i_decomp : string;   (* AggregateFunctionImpl.Decomposable *)
  i_wtype : string;    (* WindowFunctionImpl.WindowType *)
  i_body : Z }.
Record func := Func { fn_name : string; fn_desc : Z; fn_impls : list impl }.
Record file := File {
  f_urn : string;
  f_deps : list (string * string);
  f_meta : option Z;
  f_types : list (string * Z);
  f_vars : list (string * Z);
  f_scalars : list func;
  f_aggs : list func;
  f_windows : list func }.

(** variants.go: a function variant keeps the function's name, description and URN,
    and one implementation. *)
Record variant := Variant { v_urn : string; v_name : string; v_desc : Z; v_impl : impl }.

(** simple_extension.go 246-255 [signatureKey], variants.go 358, 472, 594 [CompoundName] *)
Definition signature_key (i : impl) : string := String.concat "_" (i_args i).
Definition compound_name (v : variant) : string := v_name v ++ ":" ++ signature_key (v_impl v).

Definition default_str (d s : string) : string := if nonempty s then s else d.

(** simple_extension.go [GetVariants] of the three function kinds: 279-291, 379-394, 461-479 *)
Definition scalar_variants (urn : string) (f : func) : list variant :=
  map (fun i => Variant urn (fn_name f) (fn_desc f) i) (fn_impls f).
Definition agg_variants (urn : string) (f : func) : list variant :=
  map (fun i => Variant urn (fn_name f) (fn_desc f)
     (Impl (i_args i) (i_refs i) (default_str "NONE" (i_decomp i)) (i_wtype i) (i_body i)))
    (fn_impls f).
Definition window_variants (urn : string) (f : func) : list variant :=
  map (fun i => Variant urn (fn_name f) (fn_desc f)
     (Impl (i_args i) (i_refs i) (default_str "NONE" (i_decomp i)) (default_str "PARTITION" (i_wtype i)) (i_body i)))
    (fn_impls f).

(** ** the collection *)

Record coll := Coll {
  c_urns : list string;                 (* urnSet *)
  c_simple : fmap ext_id string;
  c_scalar : fmap ext_id variant;
  c_agg : fmap ext_id variant;
  c_window : fmap ext_id variant;
  c_types : fmap ext_id Z;
  c_vars : fmap ext_id Z;
  c_meta : fmap string Z }.

Definition empty_coll : coll := Coll [] [] [] [] [] [] [] [].

(** 310-313 [URNLoaded] *)
Definition urn_loaded (c : coll) (u : string) : bool := existsb (String.eqb u) (c_urns c).

(** 138-151 [checkMaps] *)
Definition check_maps (id : ext_id) (m : fmap ext_id variant) (simple : fmap ext_id string) : option variant :=
  match fm_get ext_id_eqb id m with
  | Some v => Some v
  | None =>
      match fm_get ext_id_eqb id simple with
      | Some compound => fm_get ext_id_eqb (ExtId (id_urn id) compound) m
      | None => None
      end
  end.

(** 174-184 *)
Definition get_scalar (c : coll) (id : ext_id) := check_maps id (c_scalar c) (c_simple c).
Definition get_agg (c : coll) (id : ext_id) := check_maps id (c_agg c) (c_simple c).
Definition get_window (c : coll) (id : ext_id) := check_maps id (c_window c) (c_simple c).
(** 114-127 *)
Definition get_type_def (c : coll) (id : ext_id) := fm_get ext_id_eqb id (c_types c).
Definition get_var_def (c : coll) (id : ext_id) := fm_get ext_id_eqb id (c_vars c).
Definition get_meta (c : coll) (u : string) := fm_get String.eqb u (c_meta c).

(** 157-172 [addToMaps], given the function's variants *)
Definition add_to_maps (urn : string) (vs : list variant)
    (st : fmap ext_id variant * fmap string string) : fmap ext_id variant * fmap string string :=
  let m' := fold_left (fun m v => fm_set ext_id_eqb (ExtId urn (compound_name v)) v m) vs (fst st) in
  match vs with
  | [v] =>
      match fm_get String.eqb (v_name v) (snd st) with
      | Some _ => (m', fm_del String.eqb (v_name v) (snd st))
      | None => (m', fm_set String.eqb (v_name v) (compound_name v) (snd st))
      end
  | _ => (m', snd st)
  end.

(** a loop of [addToMaps] over functions *)
Definition add_all (urn : string) (variants : func -> list variant) (fs : list func)
    (st : fmap ext_id variant * fmap string string) : fmap ext_id variant * fmap string string :=
  fold_left (fun st f => add_to_maps urn (variants f) st) fs st.

(** 276-299: an aggregate function turned into a window function *)
Definition agg_as_window (f : func) : func :=
  Func (fn_name f) (fn_desc f)
    (map (fun i => Impl (i_args i) (i_refs i) (i_decomp i) "STREAMING" (i_body i)) (fn_impls f)).

(** validation.go 15-40, 43-84 *)
Definition file_funcs (f : file) : list func := (f_scalars f ++ f_aggs f ++ f_windows f)%list.
Definition refs_declared (f : file) : bool :=
  forallb (fun fn => forallb (fun i => forallb (fun r =>
     match r with
     | (None, n) => existsb (fun t => String.eqb (fst t) n) (f_types f)
     | (Some _, _) => true
     end) (i_refs i)) (fn_impls fn)) (file_funcs f).

(** 208-234: the checks; all precede any change *)
Definition load_checks (f : file) (c : coll) : bool :=
  nonempty (f_urn f) && validate_urn (f_urn f) && negb (urn_loaded c (f_urn f)) &&
  forallb (fun d => validate_alias (fst d) && urn_loaded c (snd d)) (f_deps f) &&
  refs_declared f.

(** 236-305: the changes.  defaults.Set is taken to succeed: it only fails on a
    malformed struct tag. *)
Definition load_commit (f : file) (c : coll) : coll :=
  let urn := f_urn f in
  let add_named m l := fold_left (fun m t => fm_set ext_id_eqb (ExtId urn (fst t)) (snd t) m) l m in
  let (sc, s1) := add_all urn (scalar_variants urn) (f_scalars f) (c_scalar c, []) in
  let (ag, s2) := add_all urn (agg_variants urn) (f_aggs f) (c_agg c, s1) in
  let (w1, s3) := add_all urn (window_variants urn) (f_windows f) (c_window c, s2) in
  let (w2, s4) := add_all urn (window_variants urn) (map agg_as_window (f_aggs f)) (w1, s3) in
  Coll (urn :: c_urns c)
    (fold_left (fun m kv => fm_set ext_id_eqb (ExtId urn (fst kv)) (snd kv) m) s4 (c_simple c))
    sc ag w2
    (add_named (c_types c) (f_types f))
    (add_named (c_vars c) (f_vars f))
    (match f_meta f with Some m => fm_set String.eqb urn m (c_meta c) | None => c_meta c end).

(** 199-308 [Load]: the collection afterwards and whether it succeeded.  [None] is a
    file the YAML decoder rejects (201-206). *)
Definition load (f : option file) (c : coll) : coll * bool :=
  match f with
  | None => (c, false)
  | Some f => if load_checks f c then (load_commit f c, true) else (c, false)
  end.

(** a history of loads *)
Definition load_all (fs : list (option file)) (c : coll) : coll :=
  fold_left (fun c f => fst (load f c)) fs c.

(** 449-494: lookups through a set's anchor *)
Definition lookup_scalar (a : Z) (s : eset) (c : coll) : option variant :=
  match decode_func a s with Some id => get_scalar c id | None => None end.
Definition lookup_agg (a : Z) (s : eset) (c : coll) : option variant :=
  match decode_func a s with Some id => get_agg c id | None => None end.
Definition lookup_window (a : Z) (s : eset) (c : coll) : option variant :=
  match decode_func a s with Some id => get_window c id | None => None end.
Definition lookup_type (a : Z) (s : eset) (c : coll) : option Z :=
  match decode_type a s with Some id => get_type_def c id | None => None end.
Definition lookup_var (a : Z) (s : eset) (c : coll) : option Z :=
  match decode_var a s with Some id => get_var_def c id | None => None end.
