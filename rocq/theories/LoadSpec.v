(** Specification vocabulary for loading extension files (C25). *)

From Coq Require Import List ZArith String Ascii Bool.
From Verif Require Import Base FMap ExtSetModel LoadModel.
Import ListNotations.
Local Open Scope string_scope.

Fixpoint chars (s : string) : list ascii :=
  match s with EmptyString => [] | String c s' => c :: chars s' end.

(** extension:<owner>:<id> with non-empty, colon-free owner and id *)
Definition urn_format (u : string) : Prop :=
  exists owner name, u = "extension:" ++ owner ++ ":" ++ name /\
    owner <> "" /\ name <> "" /\ ~ In ":"%char (chars owner) /\ ~ In ":"%char (chars name).

(** a dependency alias: a letter, underscore or dollar sign, then letters, digits,
    underscores and dollar signs *)
Definition alias_letters : list ascii :=
  chars "ABCDEFGHIJKLMNOPQRSTUVWXYZabcdefghijklmnopqrstuvwxyz_$".
Definition alias_format (a : string) : Prop :=
  exists c s, a = String c s /\ In c alias_letters /\
    Forall (fun d => In d (alias_letters ++ chars "0123456789")%list) (chars s).

(** every user-defined type that a signature of the file uses without a dependency
    alias is declared in the file *)
Definition local_types_declared (f : file) : Prop :=
  forall fn i n, In fn (f_scalars f ++ f_aggs f ++ f_windows f)%list -> In i (fn_impls fn) ->
    In (None, n) (i_refs i) -> exists d, In (n, d) (f_types f).

Definition loadable (f : file) (c : coll) : Prop :=
  urn_format (f_urn f) /\ ~ In (f_urn f) (c_urns c) /\
  (forall alias dep, In (alias, dep) (f_deps f) -> alias_format alias /\ In dep (c_urns c)) /\
  local_types_declared f.

(** the last entry of an association list with a given key *)
Definition last_named {A} (n : string) (l : list (string * A)) : option A :=
  option_map snd (find (fun p => String.eqb (fst p) n) (rev l)).

(** a function's implementations as the file declares them, with the name they are
    registered under *)
Definition reg_name (fn : string) (i : impl) : string := fn ++ ":" ++ String.concat "_" (i_args i).

Definition decl_scalars (f : file) : list (string * variant) :=
  flat_map (fun fn => map (fun i => (reg_name (fn_name fn) i,
      Variant (f_urn f) (fn_name fn) (fn_desc fn) i)) (fn_impls fn)) (f_scalars f).

Definition or_default (d s : string) : string := if String.eqb s "" then d else s.

Definition decl_aggs (f : file) : list (string * variant) :=
  flat_map (fun fn => map (fun i => (reg_name (fn_name fn) i,
      Variant (f_urn f) (fn_name fn) (fn_desc fn)
        (Impl (i_args i) (i_refs i) (or_default "NONE" (i_decomp i)) (i_wtype i) (i_body i))))
      (fn_impls fn)) (f_aggs f).

(** aggregate functions are also window functions, of the streaming type *)
Definition decl_windows (f : file) : list (string * variant) :=
  (flat_map (fun fn => map (fun i => (reg_name (fn_name fn) i,
      Variant (f_urn f) (fn_name fn) (fn_desc fn)
        (Impl (i_args i) (i_refs i) (or_default "NONE" (i_decomp i)) (or_default "PARTITION" (i_wtype i)) (i_body i))))
      (fn_impls fn)) (f_windows f) ++
   flat_map (fun fn => map (fun i => (reg_name (fn_name fn) i,
      Variant (f_urn f) (fn_name fn) (fn_desc fn)
        (Impl (i_args i) (i_refs i) (or_default "NONE" (i_decomp i)) "STREAMING" (i_body i))))
      (fn_impls fn)) (f_aggs f))%list.

(** the simple names the loader counts: functions with one implementation, with the
    aggregates counted twice *)
Definition single_names (fs : list func) : list (string * string) :=
  flat_map (fun fn => match fn_impls fn with
                      | [i] => [(fn_name fn, reg_name (fn_name fn) i)]
                      | _ => []
                      end) fs.
Definition simple_mentions (f : file) : list (string * string) :=
  single_names (f_scalars f ++ f_aggs f ++ f_windows f ++ f_aggs f)%list.

(** the compound name a simple name stands for: that of the last single-implementation
    function so named, if their number is odd *)
Definition alias_of (f : file) (n : string) : option string :=
  let ms := filter (fun p => String.eqb (fst p) n) (simple_mentions f) in
  if Nat.odd (List.length ms) then last_named n ms else None.

(** lookup among a file's declarations: by compound name, else by simple name *)
Definition lookup_decl {A} (f : file) (ds : list (string * A)) (n : string) : option A :=
  match last_named n ds with
  | Some v => Some v
  | None => match alias_of f n with Some cn => last_named cn ds | None => None end
  end.
