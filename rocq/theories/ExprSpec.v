(** Specification vocabulary for expressions (C16-C21), written over the data types of
    ExprModel.v and ExprOpsModel.v without their functions. *)

From Coq Require Import List ZArith String Ascii Bool.
From Verif Require Import Base FMap TypesModel TypesSpec ExtSetModel LoadModel LoadSpec
  LitModel LitSpec ExprModel ExprOpsModel.
Import ListNotations.
Local Open Scope Z_scope.

(** ** C16: paths into a type *)

(** [component x s y]: step [s] leads from a value of type [x] to a part of type [y].  A
    map key must have the key type of the map. *)
Inductive component : xtype -> step -> xtype -> Prop :=
| Comp_field n v ts i t :
    0 <= i -> nth_error ts (Z.to_nat i) = Some t -> component (XTy (TStruct n v ts)) (SField i) (XTy t)
| Comp_field_x n v xs i x :
    0 <= i -> nth_error xs (Z.to_nat i) = Some x -> component (XStruct n v xs) (SField i) x
| Comp_key n v kt vt k t :
    typed k t -> same_type t kt -> component (XTy (TMap n v kt vt)) (SKey k) (XTy vt)
| Comp_key_x n v kt vt k t :
    typed k t -> same_type t kt -> component (XMap n v (XTy kt) vt) (SKey k) vt
| Comp_elem n v t off : component (XTy (TList n v t)) (SElem off) (XTy t)
| Comp_elem_x n v x off : component (XList n v x) (SElem off) x.

(** following a path *)
Inductive follows : xtype -> list step -> xtype -> Prop :=
| Follow_here x : follows x [] x
| Follow_step x s y l z : component x s y -> follows y l z -> follows x (s :: l) z.

(** the same on complete types, for reading *)
Inductive leads : ty -> list step -> ty -> Prop :=
| Lead_here t : leads t [] t
| Lead_field n v ts i t l u :
    0 <= i -> nth_error ts (Z.to_nat i) = Some t -> leads t l u -> leads (TStruct n v ts) (SField i :: l) u
| Lead_key n v kt vt k t l u :
    typed k t -> same_type t kt -> leads vt l u -> leads (TMap n v kt vt) (SKey k :: l) u
| Lead_elem n v t off l u : leads t l u -> leads (TList n v t) (SElem off :: l) u.

(** a map key of a path is a literal with a plain type *)
Definition key_plain (s : step) : Prop :=
  match s with SKey k => exists t, typed k t /\ plain t | _ => True end.
(** a map key of a path survives the wire *)
Definition key_supported (s : step) : Prop := match s with SKey k => supported k | _ => True end.

(** two paths are the same *)
Inductive same_step : step -> step -> Prop :=
| SS_field i : same_step (SField i) (SField i)
| SS_key k k' : same_lit k k' -> same_step (SKey k) (SKey k')
| SS_elem i : same_step (SElem i) (SElem i).
Definition step_plain (s : step) : Prop := match s with SKey k => lit_plain k | _ => True end.

(** path messages: every key can be read, or read and written back *)
Fixpoint seg_readable (p : pseg) : Prop :=
  match p with
  | PS_unset => True
  | PS_field _ c | PS_elem _ c => match c with None => True | Some q => seg_readable q end
  | PS_key k c => readable k /\ match c with None => True | Some q => seg_readable q end
  end.
Fixpoint seg_complete (p : pseg) : Prop :=
  match p with
  | PS_unset => True
  | PS_field _ c | PS_elem _ c => match c with None => True | Some q => seg_complete q end
  | PS_key k c => complete k /\ match c with None => True | Some q => seg_complete q end
  end.
(** the same path with canonical keys and without a trailing empty segment *)
Fixpoint seg_normal (p : pseg) : option pseg :=
  match p with
  | PS_unset => None
  | PS_field i c => Some (PS_field i (match c with None => None | Some q => seg_normal q end))
  | PS_key k c => Some (PS_key (normal k) (match c with None => None | Some q => seg_normal q end))
  | PS_elem i c => Some (PS_elem i (match c with None => None | Some q => seg_normal q end))
  end.

(** ** C17: masks *)

(** a selection without nil parts *)
Fixpoint sel_ok (m : msel) : Prop :=
  match m with
  | MS_struct items => All (fun p => match p with (_, o) => match o with None => True | Some c => sel_ok c end end) items
  | MS_list sel child => ~ In MI_nil sel /\ sel_ok child
  | MS_map _ _ child => match child with None => False | Some c => sel_ok c end
  end.
Definition mask_ok (m : mask) : Prop :=
  All (fun p => match p with (_, o) => match o with None => True | Some c => sel_ok c end end) (mk_sel m).

(** messages that can be read, and the ones among them that can be written back *)
Fixpoint sel_readable (m : pmsel) : Prop :=
  match m with
  | PM_unset => False
  | PM_struct items =>
      All (fun p => match p with (_, o) => match o with None => True | Some c => sel_readable c end end) items
  | PM_list _ child => match child with None => False | Some c => sel_readable c end
  | PM_map _ child => match child with None => True | Some c => sel_readable c end
  end.
Definition mask_readable (m : pmask) : Prop :=
  match pk_sel m with
  | None => False
  | Some items =>
      All (fun p => match p with (_, o) => match o with None => True | Some c => sel_readable c end end) items
  end.
Fixpoint sel_complete (m : pmsel) : Prop :=
  match m with
  | PM_unset => False
  | PM_struct items =>
      All (fun p => match p with (_, o) => match o with None => True | Some c => sel_complete c end end) items
  | PM_list sel child => ~ In PI_unset sel /\ match child with None => False | Some c => sel_complete c end
  | PM_map _ child => match child with None => False | Some c => sel_complete c end
  end.
Definition mask_complete (m : pmask) : Prop :=
  match pk_sel m with
  | None => False
  | Some items =>
      All (fun p => match p with (_, o) => match o with None => True | Some c => sel_complete c end end) items
  end.
(** an unset map selection reads as the empty key *)
Fixpoint sel_normal (m : pmsel) : pmsel :=
  match m with
  | PM_unset => PM_unset
  | PM_struct items =>
      PM_struct (map (fun p => match p with (i, o) => (i, match o with None => None | Some c => Some (sel_normal c) end) end) items)
  | PM_list sel child => PM_list sel (match child with None => None | Some c => Some (sel_normal c) end)
  | PM_map k child =>
      PM_map (match k with PK_unset => PK_key "" | k => k end)
        (match child with None => None | Some c => Some (sel_normal c) end)
  end.
Definition mask_normal (m : pmask) : pmask :=
  PMask
    (match pk_sel m with
     | None => None
     | Some items =>
         Some (map (fun p => match p with (i, o) => (i, match o with None => None | Some c => Some (sel_normal c) end) end) items)
     end) (pk_single m).

(** ** functions *)

Definition no_char (ch : ascii) (s : string) : Prop := ~ In ch (chars s).

(** [spells text words]: [text] is [words] joined by underscores *)
Definition spells (text : string) (words : list string) : Prop :=
  words <> [] /\ Forall (no_char "_") words /\ text = String.concat "_" words.

(** A function name [n] as the reader of unknown functions takes it apart: the part before
    the first colon and the argument types spelled after it. *)
Inductive name_parts : string -> string -> list string -> Prop :=
| NP_bare n : no_char ":" n -> name_parts n n []
| NP_empty n : no_char ":" n -> name_parts (n ++ ":")%string n []
| NP_args n text words :
    no_char ":" n -> text <> EmptyString -> spells text words -> name_parts (n ++ ":" ++ text)%string n words.

(** [resolves get canon d w s ref v]: in set [s] the anchor [ref] stands for function [v]:
    one of the collection ([get]), or an unknown one that is named by [ref]'s own
    declaration, with argument types in canonical spelling ([canon]). *)
Inductive resolves (get : ext_id -> option variant) (canon : string -> option string)
  (d w : string) (s : eset) (ref : Z) : variant -> Prop :=
| RF_known id v : decode_func ref s = Some id -> get id = Some v -> resolves get canon d w s ref v
| RF_custom id name words args :
    decode_func ref s = Some id -> get id = None ->
    name_parts (id_name id) name words -> map canon words = map Some args ->
    fm_get ext_id_eqb (ExtId (id_urn id) (name ++ ":" ++ String.concat "_" args)%string) (s_funcs s) = Some ref ->
    resolves get canon d w s ref (Variant (id_urn id) name 0 (Impl args [] d w 0)).

(** ** the type an expression states *)

(** composite types, some of whose components may be unknown (nil) *)
Inductive struct_type (n v : Z) : list xtype -> xtype -> Prop :=
| ST_known ts : struct_type n v (map XTy ts) (XTy (TStruct n v ts))
| ST_unknown xs : (forall ts, xs <> map XTy ts) -> struct_type n v xs (XStruct n v xs).
Inductive list_type (n v : Z) : xtype -> xtype -> Prop :=
| LT_known t : list_type n v (XTy t) (XTy (TList n v t))
| LT_unknown x : (forall t, x <> XTy t) -> list_type n v x (XList n v x).
Inductive map_type (n v : Z) : xtype -> xtype -> xtype -> Prop :=
| MT_known k t : map_type n v (XTy k) (XTy t) (XTy (TMap n v k t))
| MT_unknown k x : (forall t u, ~ (k = XTy t /\ x = XTy u)) -> map_type n v k x (XMap n v k x).
Inductive func_type (ps : list ty) : xtype -> xtype -> Prop :=
| FT_known t : func_type ps (XTy t) (XTy (TFunc 2 ps t))
| FT_unknown x : (forall t, x <> XTy t) -> func_type ps x (XFunc 2 ps x).

(** the nullability of a known type *)
Inductive outer_null : xtype -> nullability -> Prop :=
| ON_ty t : outer_null (XTy t) (get_nullability t)
| ON_struct n v l : outer_null (XStruct n v l) n
| ON_list n v x : outer_null (XList n v x) n
| ON_map n v k x : outer_null (XMap n v k x) n
| ON_func n ps x : outer_null (XFunc n ps x) n.
(** the same type, with nullability [m] *)
Inductive with_null (m : nullability) : xtype -> xtype -> Prop :=
| WN_ty t : with_null m (XTy t) (XTy (with_nullability m t))
| WN_struct n v l : with_null m (XStruct n v l) (XStruct m v l)
| WN_list n v x : with_null m (XList n v x) (XList m v x)
| WN_map n v k x : with_null m (XMap n v k x) (XMap m v k x)
| WN_func n ps x : with_null m (XFunc n ps x) (XFunc m ps x).

(** a type with an unknown (nil) part *)
Inductive unknown_part : xtype -> Prop :=
| UP_nil : unknown_part XNil
| UP_struct n v l x : In x l -> unknown_part x -> unknown_part (XStruct n v l)
| UP_list n v x : unknown_part x -> unknown_part (XList n v x)
| UP_key n v k x : unknown_part k -> unknown_part (XMap n v k x)
| UP_value n v k x : unknown_part x -> unknown_part (XMap n v k x)
| UP_func n ps x : unknown_part x -> unknown_part (XFunc n ps x).

Definition flag (nullable : bool) : nullability := if nullable then 1 else 2.

Section Typing.
Context {R : Type}.
Variable rel_schema : R -> res (list xtype).

Inductive has_type : expr R -> xtype -> Prop :=
| HT_lit l t : typed l t -> has_type (ELit l) (XTy t)
| HT_ref r f known : has_type (ERef r f known) known
| HT_scalar n d args opts out : has_type (EScalar n d args opts out) (XTy out)
| HT_window n d args opts out ph inv parts sorts bt lo hi :
    has_type (EWindow n d args opts out ph inv parts sorts bt lo hi) (XTy out)
| HT_if ifs els x : has_type els x -> has_type (EIf ifs els) x
| HT_switch m ifs els b x : branch_type ifs b -> els_type b els x -> has_type (ESwitch m ifs els) x
| HT_or v opts : has_type (EOr v opts) (XTy (TPrim PrimBool 2 0))
| HT_multi v opts : has_type (EMultiOr v opts) (XTy (TPrim PrimBool 2 0))
| HT_cast t e fb : has_type (ECast t e fb) (XTy t)
| HT_map nu v k x kvs kt xt y :
    has_type k kt -> has_type x xt -> map_type (flag nu) v kt xt y -> has_type (EMap nu v ((k, x) :: kvs)) y
| HT_struct nu v fs xs y : have_types fs xs -> struct_type (flag nu) v xs y -> has_type (EStruct nu v fs) y
| HT_list nu v e es x y : has_type e x -> list_type (flag nu) v x y -> has_type (EList nu v (e :: es)) y
| HT_param t ref : has_type (EParam t ref) (XTy t)
| HT_lambda n v ps body x y : has_type body x -> func_type ps x y -> has_type (ELambda n v ps body) y
| HT_sub_scalar r x : rel_schema r = Ok [x] -> has_type (ESubScalar r) x
| HT_sub_in ns r : has_type (ESubIn ns r) (XTy (TPrim PrimBool 2 0))
| HT_sub_set op r : has_type (ESubSet op r) (XTy (TPrim PrimBool 2 0))
| HT_sub_cmp red cmp l r : has_type (ESubCmp red cmp l r) (XTy (TPrim PrimBool 2 0))
with have_types : list (expr R) -> list xtype -> Prop :=
| HTs_nil : have_types [] []
| HTs_cons e x es xs : has_type e x -> have_types es xs -> have_types (e :: es) (x :: xs)
(** the first nullable branch, otherwise the last branch (unknown without branches) *)
with branch_type : list (lit * expr R) -> xtype -> Prop :=
| BT_none : branch_type [] XNil
| BT_last k e x n : has_type e x -> outer_null x n -> branch_type [(k, e)] x
| BT_nullable k e x ifs : has_type e x -> outer_null x 1 -> branch_type ((k, e) :: ifs) x
| BT_next k e x n p ifs y :
    has_type e x -> outer_null x n -> n <> 1 -> branch_type (p :: ifs) y -> branch_type ((k, e) :: p :: ifs) y
(** without else clause: the branch's type made nullable; a nullable branch wins over the
    else clause *)
with els_type : xtype -> expr R -> xtype -> Prop :=
| ET_absent b x : with_null 1 b x -> els_type b (ELit LNil) x
| ET_branch b els : els <> ELit LNil -> outer_null b 1 -> els_type b els b
| ET_else b n els x : els <> ELit LNil -> outer_null b n -> n <> 1 -> has_type els x -> els_type b els x.
End Typing.

(** the type of the root record of a plan: a required struct of its columns *)
Definition record_type (cols : list xtype) (x : xtype) : Prop := struct_type 2 0 cols x.

(** ** C18: which expressions survive the wire *)

Section Survive.
Context {R PR : Type}.
Variable rel_schema : R -> res (list xtype).
Variable canon : string -> option string.
Variable c : coll.
Variable base : option (list xtype).
Variable s : eset.
(** the relation of a subquery survives *)
Variable rel_ok : R -> Prop.

(** the type stored in a field reference is the one its path leads to; references to outer
    queries or lambda parameters, masks and references without path store none *)
Definition known_ok (r : root (expr R)) (f : reference) (known : xtype) : Prop :=
  match f with
  | RefMask m => mask_ok m /\ known = XNil
  | RefSeg [] => known = XNil
  | RefSeg l =>
      Forall key_supported l /\
      match r with
      | RRoot =>
          match base with
          | None => known = XNil
          | Some cols => exists x, record_type cols x /\ follows x l known
          end
      | RExpr e => exists x, has_type rel_schema e x /\ follows x l known
      | ROuter _ | RLambda _ => known = XNil
      end
  end.

(** types in type arguments: everything readable but the pointer-less compound interval
    and the year-to-month interval, which read back as other types *)
Definition arg_wire_type (t : ty) : Prop :=
  wire_type t \/ exists n v p, t = TIntervalCompound true n v p /\ prec_ok p.

Fixpoint survives (e : expr R) : Prop :=
  let arg := fun a => match a with
                      | AEnum _ => True
                      | AType t => arg_wire_type t
                      | AExpr e => survives e
                      end in
  match e with
  | ELit l => supported l
  | ERef r f known =>
      match r with RExpr e => survives e | _ => True end /\ known_ok r f known
  | EScalar ref v args opts out =>
      resolves (get_scalar c) canon "" "" s ref v /\ All arg args /\ wire_type out
  | EWindow ref v args opts out _ _ parts sorts _ _ _ =>
      resolves (get_window c) canon "NONE" "PARTITION" s ref v /\ All arg args /\ wire_type out /\
      All survives parts /\ All (fun p => match p with (e, k) => survives e /\ k <> SK_nil end) sorts
  | EIf ifs els => All (fun p => match p with (a, b) => survives a /\ survives b end) ifs /\ survives els
  | ESwitch m ifs els =>
      survives m /\ All (fun p => match p with (k, b) => supported k /\ survives b end) ifs /\ survives els
  | EOr v opts => survives v /\ All survives opts
  | EMultiOr v opts => All survives v /\ All (All survives) opts
  | ECast t e _ => wire_type t /\ survives e
  | EMap _ _ kvs => kvs <> [] /\ All (fun p => match p with (k, x) => survives k /\ survives x end) kvs
  | EStruct _ _ fs => All survives fs
  | EList _ _ vs => vs <> [] /\ All survives vs
  | EParam t _ => wire_type t
  | ELambda n _ ps body => n = 2 /\ All wire_type ps /\ survives body
  | ESubScalar r | ESubSet _ r => rel_ok r
  | ESubIn ns r => All survives ns /\ rel_ok r
  | ESubCmp _ _ l r => survives l /\ rel_ok r
  end.

Definition arg_survives (a : farg (expr R)) : Prop :=
  match a with AEnum _ => True | AType t => arg_wire_type t | AExpr e => survives e end.
End Survive.

(** the same for an aggregate function: the reader keeps a declaration only for functions of
    the collection *)
Section SurviveAgg.
Context {R : Type}.
Variable rel_schema : R -> res (list xtype).
Variable canon : string -> option string.
Variable c : coll.
Variable base : option (list xtype).
Variable s : eset.
Variable rel_ok : R -> Prop.
Definition agg_survives (a : aggf R) : Prop :=
  match ag_decl a with
  | Some v => exists id, decode_func (ag_ref a) s = Some id /\ get_agg c id = Some v
  | None => exists id v, decode_func (ag_ref a) s = Some id /\ get_agg c id = None /\
                         resolves (get_agg c) canon "NONE" "" s (ag_ref a) v
  end /\
  Forall (arg_survives rel_schema canon c base s rel_ok) (ag_args a) /\
  wire_type (ag_out a) /\
  Forall (fun p => survives rel_schema canon c base s rel_ok (fst p) /\ snd p <> SK_nil) (ag_sorts a).
End SurviveAgg.

(** every scalar and window function call in an expression; [S] is what is asked of the
    relations of its subqueries *)
Section Calls.
Context {R : Type}.
Variable P Q : Z -> variant -> Prop.
Variable S : R -> Prop.
Fixpoint every_call (e : expr R) : Prop :=
  let arg := fun a => match a with AExpr e => every_call e | _ => True end in
  match e with
  | ELit _ | EParam _ _ => True
  | ESubScalar r | ESubSet _ r => S r
  | ERef r _ _ => match r with RExpr e => every_call e | _ => True end
  | EScalar n v args _ _ => P n v /\ All arg args
  | EWindow n v args _ _ _ _ parts sorts _ _ _ =>
      Q n v /\ All arg args /\ All every_call parts /\ All (fun p => match p with (e, _) => every_call e end) sorts
  | EIf ifs els => All (fun p => match p with (a, b) => every_call a /\ every_call b end) ifs /\ every_call els
  | ESwitch m ifs els =>
      every_call m /\ All (fun p => match p with (_, b) => every_call b end) ifs /\ every_call els
  | EOr v opts => every_call v /\ All every_call opts
  | EMultiOr v opts => All every_call v /\ All (All every_call) opts
  | ECast _ e _ => every_call e
  | EMap _ _ kvs => All (fun p => match p with (k, x) => every_call k /\ every_call x end) kvs
  | EStruct _ _ fs | EList _ _ fs => All every_call fs
  | ELambda _ _ _ body => every_call body
  | ESubIn ns r => All every_call ns /\ S r
  | ESubCmp _ _ l r => every_call l /\ S r
  end.
End Calls.

(** the function anchors of a set are 1..n and name distinct functions *)
Definition compact (s : eset) : Prop :=
  (forall a id, decode_func a s = Some id <-> fm_get ext_id_eqb id (s_funcs s) = Some a) /\
  (forall a id, decode_func a s = Some id -> 1 <= a <= fm_len (s_funcs s)).
(** a set goes on answering what it answered *)
Definition keeps (s s' : eset) : Prop :=
  forall a id, decode_func a s = Some id -> decode_func a s' = Some id.
(** anchor [ref] names [v]: a function of the collection, or the function [v] spells out *)
Definition names (get : ext_id -> option variant) (s : eset) (ref : Z) (v : variant) : Prop :=
  exists id, decode_func ref s = Some id /\
    (get id = Some v \/
     id = ExtId (v_urn v) (v_name v ++ ":" ++ String.concat "_" (i_args (v_impl v)))%string).

(** ** C19: what a visit sees *)

Section Kids.
Context {R : Type}.

(** the expressions directly inside [e] that a visit replaces, left to right; a function
    argument that is nil is not shown to the visitor ([false]) *)
Definition arg_slots (a : farg (expr R)) : list (expr R * bool) :=
  match a with
  | AExpr (ELit LNil) => [(ELit LNil, false)]
  | AExpr x => [(x, true)]
  | AEnum _ | AType _ => []
  end.
Definition slots (e : expr R) : list (expr R * bool) :=
  match e with
  | ELit _ | ERef _ _ _ | EParam _ _ | ESubScalar _ | ESubSet _ _ => []
  | EScalar _ _ args _ _ | EWindow _ _ args _ _ _ _ _ _ _ _ _ => flat_map arg_slots args
  | EIf ifs els => flat_map (fun p => [(fst p, true); (snd p, true)]) ifs ++ [(els, true)]
  | ESwitch m ifs els =>
      (m, true) :: flat_map (fun p => [(ELit (fst p), true); (snd p, true)]) ifs ++ [(els, true)]
  | EOr v opts => (v, true) :: map (fun x => (x, true)) opts
  | EMultiOr v opts => map (fun x => (x, true)) (v ++ List.concat opts)
  | ECast _ x _ => [(x, true)]
  | EMap _ _ kvs => flat_map (fun p => [(fst p, true); (snd p, true)]) kvs
  | EStruct _ _ fs | EList _ _ fs | ESubIn fs _ => map (fun x => (x, true)) fs
  | ELambda _ _ _ b => [(b, true)]
  | ESubCmp _ _ l _ => [(l, true)]
  end%list.

(** [e] with every visited position blanked: all that a visit must leave alone *)
Definition blank : expr R := ELit LNil.
Definition arg_shell (a : farg (expr R)) : farg (expr R) :=
  match a with AExpr _ => AExpr blank | a => a end.
Definition shell (e : expr R) : expr R :=
  match e with
  | ELit _ | ERef _ _ _ | EParam _ _ | ESubScalar _ | ESubSet _ _ => e
  | EScalar n d args opts out => EScalar n d (map arg_shell args) opts out
  | EWindow n d args opts out ph inv parts sorts bt lo hi =>
      EWindow n d (map arg_shell args) opts out ph inv parts sorts bt lo hi
  | EIf ifs _ => EIf (map (fun _ => (blank, blank)) ifs) blank
  | ESwitch _ ifs _ => ESwitch blank (map (fun _ => (LNil, blank)) ifs) blank
  | EOr _ opts => EOr blank (map (fun _ => blank) opts)
  | EMultiOr v opts => EMultiOr (map (fun _ => blank) v) (map (map (fun _ => blank)) opts)
  | ECast t _ fb => ECast t blank fb
  | EMap nu v kvs => EMap nu v (map (fun _ => (blank, blank)) kvs)
  | EStruct nu v fs => EStruct nu v (map (fun _ => blank) fs)
  | EList nu v vs => EList nu v (map (fun _ => blank) vs)
  | ELambda n v ps _ => ELambda n v ps blank
  | ESubIn ns r => ESubIn (map (fun _ => blank) ns) r
  | ESubCmp red cmp _ r => ESubCmp red cmp blank r
  end.

(** the visitor is called once per shown slot, in order; [ys] are its answers (the
    expression itself where it is not called, or answers with its argument), [ch] tells
    whether any answer differs from what was there *)
Context {A : Type}.
Variable visit : A -> expr R -> option (expr R) * A.
Inductive visits : A -> list (expr R * bool) -> list (expr R) -> bool -> A -> Prop :=
| V_end st : visits st [] [] false st
| V_hidden st x l ys ch st' : visits st l ys ch st' -> visits st ((x, false) :: l) (x :: ys) ch st'
| V_same st x st1 l ys ch st' :
    visit st x = (None, st1) -> visits st1 l ys ch st' -> visits st ((x, true) :: l) (x :: ys) ch st'
| V_answer st x y st1 l ys ch st' :
    visit st x = (Some y, st1) -> visits st1 l ys ch st' ->
    ~ (x = blank /\ y = blank) -> visits st ((x, true) :: l) (y :: ys) true st'
| V_nil st st1 l ys ch st' :
    visit st blank = (Some blank, st1) -> visits st1 l ys ch st' ->
    visits st ((blank, true) :: l) (blank :: ys) ch st'.

(** the slots in which a switch needs literals: the answers at even places between the
    first and the last *)
Definition is_literal (e : expr R) : Prop := exists l, e = ELit l /\ l <> LNil.
Fixpoint keys_literal (ys : list (expr R)) (cases : nat) : Prop :=
  match cases with
  | O => True
  | S n => match ys with k :: _ :: ys' => is_literal k /\ keys_literal ys' n | _ => False end
  end.
End Kids.

(** ** C20: structural equality *)

(** what two equal window bounds or sort directions are is plain equality *)

Section Same.
Context {R : Type}.
(** identity of mask objects and of relations *)
Variable same_mask : mask -> mask -> bool.
Variable same_rel : R -> R -> bool.

(** Same kind, same types, same children in the same order.  Declarations, resolved types
    of field references and the bounds type of a window are not looked at. *)
Inductive same_expr : expr R -> expr R -> Prop :=
| SE_lit a b : same_lit a b -> same_expr (ELit a) (ELit b)
| SE_ref r r' f f' k k' : same_root r r' -> same_reference f f' -> same_expr (ERef r f k) (ERef r' f' k')
| SE_scalar n d d' args args' opts out out' :
    Forall2 same_farg args args' -> same_type out out' ->
    same_expr (EScalar n d args opts out) (EScalar n d' args' opts out')
| SE_window n d d' args args' opts out out' ph inv parts parts' sorts sorts' bt bt' lo hi :
    Forall2 same_farg args args' -> same_type out out' -> Forall2 same_expr parts parts' ->
    Forall2 (fun p q => same_expr (fst p) (fst q) /\ snd p = snd q) sorts sorts' ->
    same_expr (EWindow n d args opts out ph inv parts sorts bt lo hi)
      (EWindow n d' args' opts out' ph inv parts' sorts' bt' lo hi)
| SE_if ifs ifs' els els' :
    Forall2 (fun p q => same_expr (fst p) (fst q) /\ same_expr (snd p) (snd q)) ifs ifs' ->
    same_expr els els' -> same_expr (EIf ifs els) (EIf ifs' els')
| SE_switch m m' ifs ifs' els els' :
    same_expr m m' ->
    Forall2 (fun p q => same_lit (fst p) (fst q) /\ same_expr (snd p) (snd q)) ifs ifs' ->
    same_expr els els' -> same_expr (ESwitch m ifs els) (ESwitch m' ifs' els')
| SE_switch_no_else m m' ifs ifs' :
    same_expr m m' ->
    Forall2 (fun p q => same_lit (fst p) (fst q) /\ same_expr (snd p) (snd q)) ifs ifs' ->
    same_expr (ESwitch m ifs (ELit LNil)) (ESwitch m' ifs' (ELit LNil))
| SE_or v v' opts opts' : same_expr v v' -> Forall2 same_expr opts opts' -> same_expr (EOr v opts) (EOr v' opts')
| SE_multi v v' opts opts' :
    Forall2 same_expr v v' -> Forall2 (Forall2 same_expr) opts opts' ->
    same_expr (EMultiOr v opts) (EMultiOr v' opts')
| SE_cast t t' e e' fb : same_type t t' -> same_expr e e' -> same_expr (ECast t e fb) (ECast t' e' fb)
| SE_map nu v kvs kvs' :
    Forall2 (fun p q => same_expr (fst p) (fst q) /\ same_expr (snd p) (snd q)) kvs kvs' ->
    same_expr (EMap nu v kvs) (EMap nu v kvs')
| SE_struct nu v fs fs' : Forall2 same_expr fs fs' -> same_expr (EStruct nu v fs) (EStruct nu v fs')
| SE_list nu v fs fs' : Forall2 same_expr fs fs' -> same_expr (EList nu v fs) (EList nu v fs')
| SE_param t t' n : same_type t t' -> same_expr (EParam t n) (EParam t' n)
| SE_lambda n v ps ps' b b' :
    Forall2 same_type ps ps' -> same_expr b b' -> same_expr (ELambda n v ps b) (ELambda n v ps' b')
| SE_sub_scalar r r' : same_rel r r' = true -> same_expr (ESubScalar r) (ESubScalar r')
| SE_sub_in ns ns' r r' :
    Forall2 same_expr ns ns' -> same_rel r r' = true -> same_expr (ESubIn ns r) (ESubIn ns' r')
| SE_sub_set op r r' : same_rel r r' = true -> same_expr (ESubSet op r) (ESubSet op r')
| SE_sub_cmp red cmp l l' r r' :
    same_expr l l' -> same_rel r r' = true -> same_expr (ESubCmp red cmp l r) (ESubCmp red cmp l' r')
with same_root : root (expr R) -> root (expr R) -> Prop :=
| SR_root : same_root RRoot RRoot
| SR_outer n : same_root (ROuter n) (ROuter n)
| SR_lambda n : same_root (RLambda n) (RLambda n)
| SR_expr e e' : same_expr e e' -> same_root (RExpr e) (RExpr e')
with same_reference : reference -> reference -> Prop :=
| SRf_seg l l' : l <> [] -> Forall2 same_step l l' -> same_reference (RefSeg l) (RefSeg l')
| SRf_mask m m' : same_mask m m' = true -> same_reference (RefMask m) (RefMask m')
with same_farg : farg (expr R) -> farg (expr R) -> Prop :=
| SA_enum s : same_farg (AEnum s) (AEnum s)
| SA_type t t' : same_type t t' -> same_farg (AType t) (AType t')
| SA_expr e e' : same_expr e e' -> same_farg (AExpr e) (AExpr e')
| SA_nil : same_farg (AExpr (ELit LNil)) (AExpr (ELit LNil)).

(** [e] has no nil part where one is dereferenced, only plain types, no NaN, and its scalar
    function calls have the number of arguments [arity] gives their function *)
Variable arity : Z -> nat.
Fixpoint comparable (e : expr R) : Prop :=
  let arg := fun a => match a with
                      | AEnum _ => True
                      | AType t => plain t
                      | AExpr e => e = ELit LNil \/ comparable e
                      end in
  match e with
  | ELit l => lit_plain l /\ lit_no_nan l
  | ERef r f _ =>
      match r with RExpr e => comparable e | _ => True end /\
      match f with
      | RefSeg l => l <> [] /\ Forall step_plain l /\ Forall (fun s => match s with SKey k => lit_no_nan k | _ => True end) l
      | RefMask m => same_mask m m = true
      end
  | EScalar n _ args _ out => List.length args = arity n /\ All arg args /\ plain out
  | EWindow _ _ args _ out _ _ parts sorts _ _ _ =>
      All arg args /\ plain out /\ All comparable parts /\
      All (fun p => match p with (e, _) => comparable e end) sorts
  | EIf ifs els => All (fun p => match p with (a, b) => comparable a /\ comparable b end) ifs /\ comparable els
  | ESwitch m ifs els =>
      comparable m /\
      All (fun p => match p with (k, b) => lit_plain k /\ lit_no_nan k /\ comparable b end) ifs /\
      (els = ELit LNil \/ comparable els)
  | EOr v opts => comparable v /\ All comparable opts
  | EMultiOr v opts => All comparable v /\ All (All comparable) opts
  | ECast t e _ => plain t /\ comparable e
  | EMap _ _ kvs => All (fun p => match p with (k, x) => comparable k /\ comparable x end) kvs
  | EStruct _ _ fs | EList _ _ fs => All comparable fs
  | EParam t _ => plain t
  | ELambda _ _ ps body => All plain ps /\ comparable body
  | ESubScalar r | ESubSet _ r => same_rel r r = true
  | ESubIn ns r => All comparable ns /\ same_rel r r = true
  | ESubCmp _ _ l r => comparable l /\ same_rel r r = true
  end.
End Same.

(** ** C21: lambda parameters *)

Section Scope.
Context {R : Type}.

(** [param_type ctx k i t]: [t] is the type of parameter [i] of the [k]-th lambda around
    ([ctx] lists the parameter lists, outermost first; the innermost has number 0) *)
Definition param_type (ctx : list (list ty)) (k i : Z) (t : ty) : Prop :=
  exists ps, 0 <= k /\ nth_error (rev ctx) (Z.to_nat k) = Some ps /\
             0 <= i /\ nth_error ps (Z.to_nat i) = Some t.

(** every reference to a lambda parameter in [e] has the type its path leads to from the
    parameter it names *)
Fixpoint scoped (ctx : list (list ty)) (e : expr R) : Prop :=
  let arg := fun a => match a with AExpr e => scoped ctx e | _ => True end in
  match e with
  | ELit _ | EParam _ _ | ESubScalar _ | ESubSet _ _ => True
  | ERef r f known =>
      match r with
      | RExpr e => scoped ctx e
      | RLambda k =>
          match f with
          | RefSeg (SField i :: l) => exists t, param_type ctx k i t /\ follows (XTy t) l known
          | _ => False
          end
      | RRoot | ROuter _ => True
      end
  | EScalar _ _ args _ _ => All arg args
  | EWindow _ _ args _ _ _ _ parts sorts _ _ _ =>
      All arg args /\ All (scoped ctx) parts /\ All (fun p => match p with (e, _) => scoped ctx e end) sorts
  | EIf ifs els => All (fun p => match p with (a, b) => scoped ctx a /\ scoped ctx b end) ifs /\ scoped ctx els
  | ESwitch m ifs els =>
      scoped ctx m /\ All (fun p => match p with (_, b) => scoped ctx b end) ifs /\ scoped ctx els
  | EOr v opts => scoped ctx v /\ All (scoped ctx) opts
  | EMultiOr v opts => All (scoped ctx) v /\ All (All (scoped ctx)) opts
  | ECast _ e _ => scoped ctx e
  | EMap _ _ kvs => All (fun p => match p with (k, x) => scoped ctx k /\ scoped ctx x end) kvs
  | EStruct _ _ fs | EList _ _ fs => All (scoped ctx) fs
  | ELambda _ _ ps body => scoped (ctx ++ [ps])%list body
  | ESubIn ns _ => All (scoped ctx) ns
  | ESubCmp _ _ l _ => scoped ctx l
  end.
End Scope.

(** ** calls by name *)

Section CallSpec.
Context {R : Type}.
Variable rel_schema : R -> res (list xtype).
Variable short : ty -> string.
Variable resolve : variant -> list xtype -> eset -> res (ty * eset).

(** the types a call is resolved with: the types of its expressions, the enum type for enum
    arguments; type arguments and nil arguments do not count *)
Inductive arg_types : list (farg (expr R)) -> list xtype -> Prop :=
| AT_none : arg_types [] []
| AT_enum w l ts : arg_types l ts -> arg_types (AEnum w :: l) (XTy (TEnum true 0 0 "" []) :: ts)
| AT_type t l ts : arg_types l ts -> arg_types (AType t :: l) ts
| AT_nil l ts : arg_types l ts -> arg_types (AExpr (ELit LNil) :: l) ts
| AT_expr e t l ts : e <> ELit LNil -> has_type rel_schema e t -> arg_types l ts -> arg_types (AExpr e :: l) (t :: ts).

(** how a type is spelled in a compound function name *)
Inductive spelled (s : eset) : xtype -> string -> Prop :=
| SP_enum n v w l : spelled s (XTy (TEnum true n v w l)) "req"
| SP_user n v ref ps id : decode_type ref s = Some id -> spelled s (XTy (TUser n v ref ps)) ("u!" ++ id_name id)
| SP_other t : (forall n v w l, t <> TEnum true n v w l) -> (forall n v r ps, t <> TUser n v r ps) ->
    spelled s (XTy t) (short t)
| SP_struct n v l : spelled s (XStruct n v l) "struct"
| SP_list n v x : spelled s (XList n v x) "list"
| SP_map n v k x : spelled s (XMap n v k x) "map"
| SP_func n ps x : spelled s (XFunc n ps x) "func".

(** the declaration a call by [id] uses: the one of that very name, otherwise the one whose
    name is completed with the spelled argument types *)
Inductive chosen (get : ext_id -> option variant) (id : ext_id) (ts : list xtype) (s : eset) : variant -> Prop :=
| CH_exact v : get id = Some v -> chosen get id ts s v
| CH_completed words v :
    get id = None -> no_char ":" (id_name id) -> Forall2 (spelled s) ts words ->
    get (ExtId (id_urn id) (id_name id ++ ":" ++ String.concat "_" words)%string) = Some v ->
    chosen get id ts s v.

(** declaration [v] with result type [t] and anchor [a] for a call, and the set afterwards *)
Definition call_resolves (get : ext_id -> option variant) (id : ext_id) (args : list (farg (expr R)))
  (s : eset) (v : variant) (t : ty) (a : Z) (s' : eset) : Prop :=
  exists ts s1, arg_types args ts /\ chosen get id ts s v /\ resolve v ts s = Ok (t, s1) /\
    get_func_anchor (ExtId (v_urn v) (v_name v ++ ":" ++ String.concat "_" (i_args (v_impl v)))%string) s1 = Ok (s', a).

(** ** what a builder builds *)

Variable c : coll.
Variable base : option (list xtype).
Notation builder := (@bld R).

Inductive builds : list (list ty) -> builder -> eset -> expr R -> eset -> Prop :=
| Bd_wrap ctx e s : builds ctx (BWrap e false) s e s
| Bd_root ctx l cols x t s :
    l <> [] -> base = Some cols -> record_type cols x -> follows x l t ->
    builds ctx (BRef RRoot (RefSeg l)) s (ERef RRoot (RefSeg l) t) s
| Bd_inner ctx l e x t s :
    l <> [] -> has_type rel_schema e x -> follows x l t ->
    builds ctx (BRef (RExpr e) (RefSeg l)) s (ERef (RExpr e) (RefSeg l) t) s
| Bd_param_ref ctx i l k t x s :
    param_type ctx k i t -> follows (XTy t) l x ->
    builds ctx (BLamRef i l k) s (ERef (RLambda k) (RefSeg (SField i :: l)) x) s
| Bd_cast ctx b t fb s e s' : builds ctx b s e s' -> builds ctx (BCast b t fb) s (ECast t e fb) s'
| Bd_param ctx t n s : builds ctx (BParam (Some t) n) s (EParam t n) s
| Bd_scalar ctx id opts args s args' s1 v t a s' :
    builds_args ctx args s args' s1 -> call_resolves (get_scalar c) id args' s1 v t a s' ->
    builds ctx (BScalar id opts args) s (EScalar a v args' opts t) s'
| Bd_window ctx id opts args ph inv parts sorts bt lo hi s args' s1 parts' s2 v t a s' :
    builds_args ctx args s args' s1 -> builds_all ctx parts s1 parts' s2 ->
    call_resolves (get_window c) id args' s2 v t a s' ->
    (i_decomp (v_impl v) = "NONE"%string -> ph = 3) -> (bt = 2 -> List.length sorts = 1%nat) ->
    builds ctx (BWindow id opts args ph inv parts sorts bt lo hi) s
      (EWindow a v args' opts t ph inv parts' sorts bt lo hi) s'
| Bd_lambda ctx v ps b s e s' :
    builds (ctx ++ [ps]) b s e s' ->
    builds ctx (BLambda (Some (2, v, map Some ps)) (Some b)) s (ELambda 2 v ps e) s'
with builds_args : list (list ty) -> list (@barg R) -> eset -> list (farg (expr R)) -> eset -> Prop :=
| Ba_nil ctx s : builds_args ctx [] s [] s
| Ba_enum ctx w l s l' s' : builds_args ctx l s l' s' -> builds_args ctx (BArgEnum w :: l) s (AEnum w :: l') s'
| Ba_expr ctx b l s e s1 l' s' :
    builds ctx b s e s1 -> builds_args ctx l s1 l' s' ->
    builds_args ctx (BArgExpr b :: l) s (AExpr e :: l') s'
with builds_all : list (list ty) -> list builder -> eset -> list (expr R) -> eset -> Prop :=
| Bl_nil ctx s : builds_all ctx [] s [] s
| Bl_cons ctx b l s e s1 l' s' :
    builds ctx b s e s1 -> builds_all ctx l s1 l' s' -> builds_all ctx (b :: l) s (e :: l') s'.

(** the paths in a builder have plain keys, and steps out are not negative *)
Fixpoint paths_plain (b : builder) : Prop :=
  match b with
  | BWrap _ _ | BParam _ _ => True
  | BRef _ f => match f with RefSeg l => Forall key_plain l | RefMask _ => True end
  | BLamRef _ l k => 0 <= k /\ Forall key_plain l
  | BCast b _ _ => paths_plain b
  | BScalar _ _ args => All (fun a => match a with BArgExpr b => paths_plain b | BArgEnum _ => True end) args
  | BWindow _ _ args _ _ parts _ _ _ _ =>
      All (fun a => match a with BArgExpr b => paths_plain b | BArgEnum _ => True end) args /\ All paths_plain parts
  | BLambda _ b => match b with None => True | Some b => paths_plain b end
  end.

(** the expressions put into a builder ready-made refer to no parameter of a lambda around
    them *)
Fixpoint closed_parts (b : builder) : Prop :=
  match b with
  | BWrap e _ => scoped [] e
  | BParam _ _ | BLamRef _ _ _ => True
  | BRef r _ => match r with RExpr e => scoped [] e | RLambda _ => False | _ => True end
  | BCast b _ _ => closed_parts b
  | BScalar _ _ args => All (fun a => match a with BArgExpr b => closed_parts b | BArgEnum _ => True end) args
  | BWindow _ _ args _ _ parts sorts _ _ _ =>
      All (fun a => match a with BArgExpr b => closed_parts b | BArgEnum _ => True end) args /\
      All closed_parts parts /\ Forall (fun p => scoped [] (fst p)) sorts
  | BLambda _ b => match b with None => True | Some b => closed_parts b end
  end.
End CallSpec.

(** ** C46: checked conditionals *)

Section Conditionals.
Context {R : Type}.
Variable rel_schema : R -> res (list xtype).
Notation has := (has_type rel_schema).

(** an if clause: neither part is nil and the result has type [t] *)
Definition if_ok (t : ty) (p : expr R * expr R) : Prop :=
  fst p <> ELit LNil /\ snd p <> ELit LNil /\ exists u, has (snd p) (XTy u) /\ same_type t u.

(** a switch clause: the key has the type of the subject and the result has type [out],
    nullability (on the outside) not counting *)
Definition case_ok (mt out : ty) (p : lit * expr R) : Prop :=
  fst p <> LNil /\ snd p <> ELit LNil /\
  (exists kt, typed (fst p) kt /\ same_type (with_nullability 0 mt) (with_nullability 0 kt)) /\
  (exists u, has (snd p) (XTy u) /\ same_type (with_nullability 0 out) (with_nullability 0 u)).

(** the branch whose type all others must have *)
Definition model_branch (els : expr R) (cases : list (lit * expr R)) (x : expr R) : Prop :=
  (els <> ELit LNil /\ x = els) \/ (els = ELit LNil /\ exists k l, cases = (k, x) :: l).

End Conditionals.

(** ** C49: scalar expressions *)

Section Scalar.
Context {R : Type}.
(** [operand e x]: the value of [e] is computed from that of [x] *)
Inductive operand : expr R -> expr R -> Prop :=
| Op_arg n d args opts out x : In (AExpr x) args -> x <> ELit LNil -> operand (EScalar n d args opts out) x
| Op_if ifs els p x : In p ifs -> (x = fst p \/ x = snd p) -> x <> ELit LNil -> operand (EIf ifs els) x
| Op_if_else ifs els : els <> ELit LNil -> operand (EIf ifs els) els
| Op_subject m ifs els : operand (ESwitch m ifs els) m
| Op_case m ifs els p : In p ifs -> operand (ESwitch m ifs els) (snd p)
| Op_else m ifs els : els <> ELit LNil -> operand (ESwitch m ifs els) els
| Op_or v opts : operand (EOr v opts) v
| Op_option v opts x : In x opts -> operand (EOr v opts) x
| Op_value v opts x : In x v -> operand (EMultiOr v opts) x
| Op_row v opts row x : In row opts -> In x row -> operand (EMultiOr v opts) x
| Op_cast t x fb : operand (ECast t x fb) x
| Op_key nu v kvs p x : In p kvs -> (x = fst p \/ x = snd p) -> operand (EMap nu v kvs) x
| Op_field nu v fs x : In x fs -> operand (EStruct nu v fs) x
| Op_elem nu v fs x : In x fs -> operand (EList nu v fs) x
| Op_needle ns r x : In x ns -> operand (ESubIn ns r) x
| Op_left red cmp l r : operand (ESubCmp red cmp l r) l.
(** [uses e x]: [x] is [e], one of its operands, one of their operands, ... *)
Inductive uses : expr R -> expr R -> Prop :=
| Uses_self e : uses e e
| Uses_operand e x y : operand e x -> uses x y -> uses e y.
Definition scalar (e : expr R) : Prop :=
  forall x, uses e x ->
    (forall n d args opts out ph inv parts sorts bt lo hi, x <> EWindow n d args opts out ph inv parts sorts bt lo hi) /\
    (forall n v ps b, x <> ELambda n v ps b).
(** no operand is nil *)
Definition whole (e : expr R) : Prop := forall x, uses e x -> x <> ELit LNil.
End Scalar.
