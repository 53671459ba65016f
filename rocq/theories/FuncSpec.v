(** Specification vocabulary for the functions package.  It uses the data types of the
    model, none of its functions. *)

From Coq Require Import ZArith String Ascii Bool List Permutation.
From Verif Require Import Base FMap ExtSetModel LoadModel LoadSpec TypesModel SigModel ExprModel ExprSpec FuncModel.
Import ListNotations.
Local Open Scope string_scope.

(** ** C26 *)

(** the call has as many arguments as the variant declares, or the variant is variadic and
    the number is within its bounds (no upper bound when that is 0) *)
Definition takes (vo : variant -> option variadic) (f : variant) (n : Z) : Prop :=
  Z.of_nat (List.length (i_args (v_impl f))) = n \/
  exists v, vo f = Some v /\ (v_min v <= n /\ (n <= v_max v \/ v_max v = 0))%Z.

(** [p] decides [P] *)
Definition decides {A} (p : A -> bool) (P : A -> Prop) : Prop := forall x, p x = true <-> P x.

(** ** C28: type strings *)

Definition digit (c : ascii) (d : Z) : Prop := (0 <= d <= 9)%Z /\ c = ascii_of_nat (48 + Z.to_nat d).

(** decimal numerals, most significant digit first *)
Inductive numeral : string -> Z -> Prop :=
| Num_one c d : digit c d -> numeral (String c EmptyString) d
| Num_more s z c d : numeral s z -> digit c d -> numeral (s ++ String c EmptyString) (10 * z + d).

(** an optionally signed numeral *)
Inductive int_text : string -> Z -> Prop :=
| IT_none s z : numeral s z -> int_text s z
| IT_plus s z : numeral s z -> int_text ("+" ++ s) z
| IT_minus s z : numeral s z -> int_text ("-" ++ s) (- z).

Definition int32_text (s : string) (z : Z) : Prop := int_text s z /\ in_int 32 z.

Definition ends_with (c : ascii) (s : string) : Prop := exists r, s = r ++ String c EmptyString.

(** the name part of a type string and its parameters: [name(1,2)] with the enclosure's two
    characters, or the whole text when it is not of that shape *)
Inductive enclosed (o c : ascii) : string -> string -> list Z -> Prop :=
| Enc_plain s : no_char o s \/ ~ ends_with c s -> enclosed o c s s []
| Enc_params base words zs :
    no_char o base -> words <> [] -> Forall2 int32_text words zs ->
    enclosed o c (base ++ String o (String.concat "," words ++ String c EmptyString)) base zs.

(** a question mark after the name marks a nullable type *)
Inductive marked : string -> string -> nullability -> Prop :=
| Mk_null name : marked (name ++ "?") name NullNullable
| Mk_req name : ~ ends_with "?" name -> marked name name NullRequired.

(** The kinds of type a name can stand for. *)
Inductive kind :=
| KPrim (p : prim) | KFixed (k : fixedk) | KDecimal
| KPrecTime | KPrecTs | KPrecTsTz | KDay | KUser.

(** the names a kind goes by, long and short *)
Definition kind_names (k : kind) : list string :=
  match k with
  | KPrim PrimBool => ["boolean"; "bool"]
  | KPrim PrimI8 => ["i8"]
  | KPrim PrimI16 => ["i16"]
  | KPrim PrimI32 => ["i32"]
  | KPrim PrimI64 => ["i64"]
  | KPrim PrimFp32 => ["fp32"]
  | KPrim PrimFp64 => ["fp64"]
  | KPrim PrimString => ["string"; "str"]
  | KPrim PrimBinary => ["binary"; "vbin"]
  | KPrim PrimTimestamp => ["timestamp"; "ts"]
  | KPrim PrimDate => ["date"]
  | KPrim PrimTime => ["time"]
  | KPrim PrimTimestampTz => ["timestamp_tz"; "tstz"]
  | KPrim PrimIntervalYear => ["interval_year"; "iyear"]
  | KPrim PrimUUID => ["uuid"]
  | KFixed FxChar => ["fixedchar"; "fchar"]
  | KFixed FxVarChar => ["varchar"; "vchar"]
  | KFixed FxBinary => ["fixedbinary"; "fbin"]
  | KDecimal => ["decimal"; "dec"]
  | KPrecTime => ["precision_time"; "pt"]
  | KPrecTs => ["precision_timestamp"; "pts"]
  | KPrecTsTz => ["precision_timestamp_tz"; "ptstz"]
  | KDay => ["interval_day"; "iday"]
  | KUser => ["u!"]
  end.

(** the names a dialect's registry knows a kind by: the same, except for user types *)
Definition registered_names (k : kind) : list string :=
  match k with KUser => [""; "user_defined_type"] | _ => kind_names k end.

(** the type a name and its parameters stand for; no parameters are read for the types
    with a precision, which is then 0 *)
Inductive typed (n : nullability) : kind -> list Z -> ty -> Prop :=
| Ty_prim p : typed n (KPrim p) [] (TPrim p n 0)
| Ty_fixed k len : typed n (KFixed k) [len] (TFixed k n 0 len)
| Ty_decimal p s : typed n KDecimal [p; s] (TDecimal n 0 p s)
| Ty_ptime : typed n KPrecTime [] (TPrecTime n 0 0)
| Ty_pts : typed n KPrecTs [] (TPrecTs n 0 0)
| Ty_ptstz : typed n KPrecTsTz [] (TPrecTsTz n 0 0)
| Ty_day : typed n KDay [] (TIntervalDay n 0 0)
| Ty_user : typed n KUser [] (TUser n 0 0 []).

(** [s] is read as [t] where [entry] says which names stand for which kinds *)
Definition reads (entry : string -> kind -> Prop) (o c : ascii) (s : string) (t : ty) : Prop :=
  exists text zs name n k,
    enclosed o c s text zs /\ marked text name n /\ entry name k /\ typed n k zs t.

(** the kind of a type, if a dialect can declare it *)
Definition kind_of (t : ty) : option kind :=
  match t with
  | TPrim p _ _ => Some (KPrim p)
  | TFixed k _ _ _ => Some (KFixed k)
  | TDecimal _ _ _ _ => Some KDecimal
  | TPrecTime _ _ _ => Some KPrecTime
  | TPrecTs _ _ _ => Some KPrecTs
  | TPrecTsTz _ _ _ => Some KPrecTsTz
  | TIntervalDay _ _ _ => Some KDay
  | TIntervalYearToMonth _ _ => Some (KPrim PrimIntervalYear)
  | TUser _ _ _ _ => Some KUser
  | _ => None
  end.

(** the dialect's text for a type: its own name for the kind, then the parameters *)
Definition local_text (local : string) (t : ty) : string :=
  match t with
  | TFixed _ _ _ len => local ++ "(" ++ string_of_Z len ++ ")"
  | TDecimal _ _ p s => local ++ "(" ++ string_of_Z p ++ "," ++ string_of_Z s ++ ")"
  | TPrecTime _ _ p | TPrecTs _ _ p | TPrecTsTz _ _ p | TIntervalDay _ _ p =>
      local ++ "(" ++ string_of_Z p ++ ")"
  | _ => local
  end.

(** a dialect's table of types declares [k] under the local name [l] *)
Definition declares (table : list (string * (string * bool))) (k : kind) (l : string) (col : bool) : Prop :=
  exists name, In (name, (l, col)) table /\ In name (kind_names k).

(** every name is known; no kind is declared twice; no local name is used twice *)
Definition known_table (table : list (string * (string * bool))) : Prop :=
  forall name v, In (name, v) table -> exists k, In name (kind_names k).
Definition distinct_kinds (table : list (string * (string * bool))) : Prop :=
  forall k l l' b b', declares table k l b -> declares table k l' b' -> l = l' /\ b = b'.
Definition distinct_locals (table : list (string * (string * bool))) : Prop :=
  forall k k' l b b', declares table k l b -> declares table k' l b' -> k = k'.

(** a local name that does not look like one with parameters or a question mark *)
Definition plain_name (l : string) : Prop := no_char "(" l /\ ~ ends_with "?" l.

(** the kinds whose parameters are read back *)
Definition readable (t : ty) : Prop :=
  match t with
  | TPrim _ _ _ => True
  | TFixed _ _ _ len => in_int 32 len
  | TDecimal _ _ p s => in_int 32 p /\ in_int 32 s
  | _ => False
  end.

(** the types whose text carries a precision *)
Definition with_precision (t : ty) : Prop :=
  match t with
  | TPrecTime _ _ _ | TPrecTs _ _ _ | TPrecTsTz _ _ _ | TIntervalDay _ _ _ => True
  | _ => False
  end.

(** the same type, not nullable and without a type variation *)
Definition plain_type (n : nullability) (t : ty) : ty :=
  match t with
  | TPrim p _ _ => TPrim p n 0
  | TFixed k _ _ len => TFixed k n 0 len
  | TDecimal _ _ p s => TDecimal n 0 p s
  | _ => t
  end.

(** ** C50: dialect files *)

(** a word of a kernel as it is kept *)
Inductive kept_word : string -> string -> Prop :=
| KW_any rest : kept_word ("any" ++ rest) "any"
| KW_empty : kept_word "" ""
| KW_type w k : In w (kind_names k) -> kept_word w w.

Definition kept_kernel (k k' : string) : Prop :=
  exists ws ws', spells k ws /\ Forall2 kept_word ws ws' /\ k' = String.concat "_" ws'.

(** [p.n] with exactly one dot *)
Definition dotted (s p n : string) : Prop := no_char "." p /\ no_char "." n /\ s = p ++ "." ++ n.

(** a function of a dialect file that is accepted *)
Definition func_ok (deps : list (string * string)) (f : dfunc) : Prop :=
  df_kernels f <> [] /\
  (exists p n u, dotted (df_name f) p n /\ In (p, u) deps) /\
  (forall k, In k (df_kernels f) -> exists k', kept_kernel k k').

Definition file_ok (d : dfile) : Prop :=
  dl_types d <> [] /\ (dl_scalar d <> [] \/ dl_agg d <> [] \/ dl_window d <> []) /\
  forall f, In f (dl_scalar d) \/ In f (dl_agg d) \/ In f (dl_window d) -> func_ok (dl_deps d) f.

(** what a kernel of a function declares *)
Definition info_of (deps : list (string * string)) (f : dfunc) (k : string) (i : dinfo) : Prop :=
  exists p n u k',
    dotted (df_name f) p n /\ In (p, u) deps /\ kept_kernel k k' /\
    di_id i = ExtId u (n ++ ":" ++ k') /\ di_name i = n /\
    di_local i = (if string_dec (df_local f) "" then n else df_local f) /\
    di_options i = map (fun kv => (fst kv, [snd kv])) (df_options f) /\
    di_notation i = (if df_infix f then Infix else if df_postfix f then Postfix else Prefix).

(** the declarations of a list of functions, in file order *)
Inductive file_infos (deps : list (string * string)) : list dfunc -> list dinfo -> Prop :=
| FI_nil : file_infos deps [] []
| FI_cons f fs is is' :
    Forall2 (info_of deps f) (df_kernels f) is -> file_infos deps fs is' ->
    file_infos deps (f :: fs) (is ++ is').

(** [i] is the last of [l] with this identity *)
Definition last_with (id : ext_id) (i : dinfo) (l : list dinfo) : Prop :=
  exists l1 l2, l = (l1 ++ i :: l2)%list /\ di_id i = id /\ forall j, In j l2 -> di_id j <> id.

(** ** C27: localizing *)

(** the local form of a variant under its declaration in the dialect *)
Definition local_of (f : variant) (d : dinfo) (v : lvar) : Prop :=
  variant_id f = di_id d /\
  v = LVar f (di_local d) (di_options d) (di_notation d).

(** [vs] are the local forms of those of [fs] that the dialect [ds] declares, in order *)
Inductive picks (ds : list dinfo) : list variant -> list lvar -> Prop :=
| Pk_nil : picks ds [] []
| Pk_take f d v fs vs : In d ds -> local_of f d v -> picks ds fs vs -> picks ds (f :: fs) (v :: vs)
| Pk_skip f fs vs : (forall d, In d ds -> di_id d <> variant_id f) -> picks ds fs vs -> picks ds (f :: fs) vs.

(** the declaration is met by a function of the registry *)
Definition available (fs : list variant) (d : dinfo) : Prop := exists f, In f fs /\ variant_id f = di_id d.

(** a function is declared under a local name that is another function's own name *)
Definition conflict (ds : list dinfo) : Prop :=
  exists d e, In d ds /\ In e ds /\ di_local d = di_name e /\ di_name d <> di_name e.

(** going through the declarations in this order, no name is taken as somebody's local
    name before the functions of that name are localized *)
Definition order_ok (order : list dinfo) : Prop :=
  forall pre d post, order = (pre ++ d :: post)%list ->
  (exists e e', In e pre /\ In e' order /\ di_name e' = di_name e /\ di_local e' = di_name d) ->
  exists e, In e pre /\ di_name e = di_name d.

(** identities are spelled name:signature, without a colon in the signature *)
Definition info_spelled (d : dinfo) : Prop :=
  exists sig, no_char ":" sig /\ id_name (di_id d) = di_name d ++ ":" ++ sig.
Definition variant_spelled (f : variant) : Prop := Forall (no_char ":") (i_args (v_impl f)).

(** what lookups of a localized kind answer: [by_name] for a function's own name, [by_local]
    for a local name *)
Definition answers (ds : list dinfo) (fs : list variant) (m : fname -> list lvar) (slice : list lvar) : Prop :=
  (forall n, exists own, (forall f, In f own <-> In f fs /\ v_name f = n) /\
     (exists p, decides p (fun f => v_name f = n) /\ own = filter p fs) /\ picks ds own (m (FSub n))) /\
  (exists all, picks ds fs all /\ Permutation slice all /\
     forall l p, decides p (fun v => lv_local v = l) -> Permutation (m (FLoc l)) (filter p all)).

(** ** C51: lookup by invocation *)

Definition same_letter (a b : ascii) : Prop :=
  a = b \/
  exists i, (i < 26)%nat /\
    (a = ascii_of_nat (65 + i) /\ b = ascii_of_nat (97 + i) \/
     a = ascii_of_nat (97 + i) /\ b = ascii_of_nat (65 + i)).
Definition same_text (a b : string) : Prop := Forall2 same_letter (chars a) (chars b).

(** every preference of every option of the call is one the dialect names *)
Definition options_ok (v : lvar) (opts : list (string * list string)) : Prop :=
  forall name prefs value, In (name, prefs) opts -> In value prefs ->
  exists vals x, In (name, vals) (lv_options v) /\ In x vals /\ same_text x value.
