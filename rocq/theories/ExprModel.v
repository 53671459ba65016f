(** Model of expressions: /repo/expr/expression.go, functions.go, field_reference.go,
    lambda.go, builder.go and the expression side of /repo/plan/subquery.go.
    Definitions only.

    Simplifications:
    - The development is parametric in the type [R] of relations (package plan) and the
      type [PR] of relation messages, which occur in expressions only through
      subqueries; the code has the same cut (expr/utils.go 42-56 [subqueryConverter]).
    - Absent sub-messages of type Expression are [PX_nil]; absent literals and types are
      their unset forms (both make the readers panic).  Other nil sub-messages inside a
      set oneof, which cannot come off the wire, are not modelled.
    - Error values are not distinguished; the extension set after a failed read is not
      modelled.
    - [String] methods are not modelled. *)

From Coq Require Import List ZArith String Ascii Bool.
From Verif Require Import Base FMap TypesModel ExtSetModel LoadModel LitModel.
Import ListNotations.
Local Open Scope Z_scope.

(** ** what [GetType] answers *)

(** A value of interface [types.Type] as returned by [Expression.GetType]: the nil
    interface (field references whose type was not resolved), a type, or a composite
    type some component of which is nil (built by the smart constructors below, so the
    last four always contain an [XNil]). *)
Inductive xtype :=
| XNil
| XTy (t : ty)
| XStruct (n : nullability) (v : Z) (fields : list xtype)
| XList (n : nullability) (v : Z) (elem : xtype)
| XMap (n : nullability) (v : Z) (key value : xtype)
| XFunc (n : nullability) (params : list ty) (ret : xtype).

Definition all_typed (l : list xtype) : option (list ty) :=
  fold_right (fun x acc => match x, acc with XTy t, Some ts => Some (t :: ts) | _, _ => None end)
    (Some []) l.
Definition x_struct (n v : Z) (l : list xtype) : xtype :=
  match all_typed l with Some ts => XTy (TStruct n v ts) | None => XStruct n v l end.
Definition x_list (n v : Z) (x : xtype) : xtype :=
  match x with XTy t => XTy (TList n v t) | _ => XList n v x end.
Definition x_map (n v : Z) (k x : xtype) : xtype :=
  match k, x with XTy a, XTy b => XTy (TMap n v a b) | _, _ => XMap n v k x end.
Definition x_func (n : Z) (ps : list ty) (x : xtype) : xtype :=
  match x with XTy t => XTy (TFunc n ps t) | _ => XFunc n ps x end.

(** The type switch [t.( *types.StructType)] and its likes, on one level. *)
Definition expose (x : xtype) : xtype :=
  match x with
  | XTy (TStruct n v ts) => XStruct n v (map XTy ts)
  | XTy (TList n v t) => XList n v (XTy t)
  | XTy (TMap n v k t) => XMap n v (XTy k) (XTy t)
  | _ => x
  end.

(** [t.GetNullability()], [t.WithNullability(n)]; calls on nil panic *)
Definition x_nullability (x : xtype) : res nullability :=
  match x with
  | XNil => Panic
  | XTy t => Ok (get_nullability t)
  | XStruct n _ _ | XList n _ _ | XMap n _ _ _ | XFunc n _ _ => Ok n
  end.
Definition x_with_nullability (n : nullability) (x : xtype) : res xtype :=
  match x with
  | XNil => Panic
  | XTy t => Ok (XTy (with_nullability n t))
  | XStruct _ v l => Ok (XStruct n v l)
  | XList _ v e => Ok (XList n v e)
  | XMap _ v k e => Ok (XMap n v k e)
  | XFunc _ ps r => Ok (XFunc n ps r)
  end.

(** ** field references *)

(** field_reference.go 42-49, 102-312: a non-nil [ReferenceSegment] is a chain of
    segments linked by [Child]; the chain is a list here and the nil segment is []. *)
Inductive step :=
| SField (i : Z)      (* StructFieldRef *)
| SKey (k : lit)      (* MapKeyRef *)
| SElem (off : Z).    (* ListElementRef *)

(** [proto.Expression_ReferenceSegment] *)
Inductive pseg :=
| PS_unset
| PS_field (i : Z) (child : option pseg)
| PS_key (k : plit) (child : option pseg)
| PS_elem (off : Z) (child : option pseg).

(** 51-75 [RefSegmentFromProto]: the segment of a child, then the chain.  The map key is
    read before the child (field order of the composite literal). *)
Fixpoint seg_from_proto (p : pseg) : res (list step) :=
  match p with
  | PS_unset => Ok []
  | PS_field i c =>
      let! rest := match c with None => Ok [] | Some q => seg_from_proto q end in
      Ok (SField i :: rest)
  | PS_key k c =>
      let! key := lit_from_proto k in
      let! rest := match c with None => Ok [] | Some q => seg_from_proto q end in
      Ok (SKey key :: rest)
  | PS_elem i c =>
      let! rest := match c with None => Ok [] | Some q => seg_from_proto q end in
      Ok (SElem i :: rest)
  end.
Definition ref_segment_from_proto (p : option pseg) : res (list step) :=
  match p with None => Ok [] | Some q => seg_from_proto q end.

(** 117-131, 206-220, 274-288 [ToProto]; [None] for the nil segment.  The child is
    encoded first. *)
Fixpoint seg_to_proto (l : list step) : res (option pseg) :=
  match l with
  | [] => Ok None
  | SField i :: rest => let! c := seg_to_proto rest in Ok (Some (PS_field i c))
  | SKey k :: rest =>
      let! c := seg_to_proto rest in
      let! m := lit_to_proto k in Ok (Some (PS_key m c))
  | SElem i :: rest => let! c := seg_to_proto rest in Ok (Some (PS_elem i c))
  end.

(** 133-148, 189-204, 262-272 [GetType]; a nil parent type is no struct, map or list.  A
    literal's type never equals a key type with a nil component. *)
Fixpoint seg_type (l : list step) (parent : xtype) : res xtype :=
  match l with
  | [] => Panic
  | SField i :: rest =>
      match expose parent with
      | XStruct _ _ ts =>
          if (i <? 0) || (Z.of_nat (List.length ts) <=? i) then Err
          else match nth_error ts (Z.to_nat i) with
               | None => Panic
               | Some t => match rest with [] => Ok t | _ => seg_type rest t end
               end
      | _ => Err
      end
  | SKey k :: rest =>
      match expose parent with
      | XMap _ _ kt vt =>
          let! t := lit_type k in
          let! b := match kt with XTy kt => type_equals t kt | _ => Ok false end in
          if b then match rest with [] => Ok vt | _ => seg_type rest vt end else Err
      | _ => Err
      end
  | SElem _ :: rest =>
      match expose parent with
      | XList _ _ t => match rest with [] => Ok t | _ => seg_type rest t end
      | _ => Err
      end
  end.

(** 150-169, 223-243, 291-311 [Equals], up to the shortcut for two children that are the
    same object (sharing is not modelled: a child compared with itself) *)
Fixpoint seg_equals (a b : list step) : res bool :=
  match a, b with
  | SField i :: ra, SField j :: rb =>
      if negb (i =? j) then Ok false
      else match ra, rb with
           | [], [] => Ok true
           | [], _ | _, [] => Ok false
           | _, _ => seg_equals ra rb
           end
  | SKey k :: ra, SKey l :: rb =>
      let! e := lit_equals k l in
      if negb e then Ok false
      else match ra, rb with
           | [], [] => Ok true
           | [], _ | _, [] => Ok false
           | _, _ => seg_equals ra rb
           end
  | SElem i :: ra, SElem j :: rb =>
      if negb (i =? j) then Ok false
      else match ra, rb with
           | [], [] => Ok true
           | [], _ | _, [] => Ok false
           | _, _ => seg_equals ra rb
           end
  | [], _ => Panic
  | _, _ => Ok false
  end.

(** 77-100 [FlattenRefSegments]: each argument's [Child] is overwritten with the next
    argument, so only the head of every argument but the last survives.  (The writes go
    to the arguments themselves.) *)
Fixpoint flatten_refs (refs : list (list step)) : list step :=
  match refs with
  | [] => []
  | [r] => r
  | r :: rest => match r with
                 | [] => []
                 | s :: _ => s :: flatten_refs rest
                 end
  end.

(** ** masks *)

(** 323-326, 399-543: the selections of a mask.  [MI_nil] is the nil item produced for an unset
    oneof. *)
Inductive mitem := MI_elem (f : Z) | MI_slice (s e : Z) | MI_nil.
Inductive msel :=
| MS_struct (items : list (Z * option msel))
| MS_list (sel : list mitem) (child : msel)
| MS_map (is_expr : bool) (key : string) (child : option msel).
Record mask := Mask { mk_sel : list (Z * option msel); mk_single : bool }.

(** the messages *)
Inductive pitem := PI_unset | PI_item (f : Z) | PI_slice (s e : Z).
Inductive pmapsel := PK_unset | PK_key (k : string) | PK_expr (k : string).
Inductive pmsel :=
| PM_unset
| PM_struct (items : list (Z * option pmsel))
| PM_list (sel : list pitem) (child : option pmsel)
| PM_map (select : pmapsel) (child : option pmsel).
Record pmask := PMask { pk_sel : option (list (Z * option pmsel)); pk_single : bool }.

Definition optM {A B} (f : A -> res B) (o : option A) : res (option B) :=
  match o with
  | None => Ok None
  | Some a => match f a with Ok b => Ok (Some b) | Err => Err | Panic => Panic end
  end.
Definition itemM {A B} (f : A -> res B) (p : Z * option A) : res (Z * option B) :=
  match p with (i, o) => match optM f o with Ok c => Ok (i, c) | Err => Err | Panic => Panic end end.

(** 367-375 *)
Definition item_from_proto (p : pitem) : mitem :=
  match p with PI_item f => MI_elem f | PI_slice s e => MI_slice s e | PI_unset => MI_nil end.

(** 355-397 [maskSelectFromProto]; a nil message or an unset oneof panics *)
Fixpoint msel_from_proto (p : pmsel) : res msel :=
  match p with
  | PM_unset => Panic
  | PM_struct items => let! l := mapM (itemM msel_from_proto) items in Ok (MS_struct l)
  | PM_list sel child =>
      match child with
      | None => Panic
      | Some c => let! c' := msel_from_proto c in Ok (MS_list (map item_from_proto sel) c')
      end
  | PM_map select child =>
      let! c := optM msel_from_proto child in
      match select with
      | PK_expr k => Ok (MS_map true k c)
      | PK_key k => Ok (MS_map false k c)
      | PK_unset => Ok (MS_map false "" c)
      end
  end.

(** 344-353 [MaskExpressionFromProto] *)
Definition mask_from_proto (p : pmask) : res mask :=
  match pk_sel p with
  | None => Panic
  | Some items => let! l := mapM (itemM msel_from_proto) items in Ok (Mask l (pk_single p))
  end.

(** 478-484, 492-498; a nil item panics *)
Definition item_to_proto (m : mitem) : res pitem :=
  match m with MI_elem f => Ok (PI_item f) | MI_slice s e => Ok (PI_slice s e) | MI_nil => Panic end.

(** 405-421, 430-440, 447-461, 520-543 [ToProto] *)
Fixpoint msel_to_proto (m : msel) : res pmsel :=
  match m with
  | MS_struct items => let! l := mapM (itemM msel_to_proto) items in Ok (PM_struct l)
  | MS_list sel child =>
      let! s := mapM item_to_proto sel in
      let! c := msel_to_proto child in Ok (PM_list s (Some c))
  | MS_map is_expr key child =>
      match child with
      | None => Panic
      | Some c =>
          let! c' := msel_to_proto c in
          Ok (PM_map (if is_expr then PK_expr key else PK_key key) (Some c'))
      end
  end.

(** 329-334 *)
Definition mask_to_proto (m : mask) : res pmask :=
  let! l := mapM (itemM msel_to_proto) (mk_sel m) in Ok (PMask (Some l) (mk_single m)).

(** ** functions *)

(** [proto.FunctionOption] *)
Definition fopt := (string * list string)%type.
Definition fopt_eqb (a b : fopt) : bool :=
  match a, b with (n, p), (m, q) => String.eqb n m && strings_eqb p q end.

(** variants.go 361, 475, 597 [ID] *)
Definition variant_id (v : variant) : ext_id := ExtId (v_urn v) (compound_name v).

(** [strings.Split(s, "_")] *)
Fixpoint split_us (s : string) : list string :=
  match s with
  | EmptyString => [EmptyString]
  | String c s' =>
      if Ascii.eqb c "_"%char then EmptyString :: split_us s'
      else match split_us s' with
           | w :: ws => String c w :: ws
           | [] => [String c EmptyString]
           end
  end.

(** variants.go 273-290 [parseFuncName] and 311-318, 387-399, 509-522
    [NewScalarFuncVariant], [NewAggFuncVariant], [NewWindowFuncVariant].
    [canon] stands for the type parser: the short name of the type an argument name
    parses to, or [None] when it does not parse (the constructor panics). *)
Definition custom_variant (canon : string -> option string) (decomp wtype : string) (id : ext_id)
  : res variant :=
  let '(name, args) := match cut_colon (id_name id) with
                       | Some p => p
                       | None => (id_name id, EmptyString)
                       end in
  let mk := fun l => Variant (id_urn id) name 0 (Impl l [] decomp wtype 0) in
  match args with
  | EmptyString => Ok (mk [])
  | _ =>
      let! l := mapM (fun a => match canon a with Some x => Ok x | None => Panic end) (split_us args) in
      Ok (mk l)
  end.

(** functions.go 55-63, 99-164: window bounds *)
Inductive bound := BPreceding (z : Z) | BFollowing (z : Z) | BCurrent | BUnbounded.
Inductive pbound := PBd_unset | PBd_preceding (z : Z) | PBd_following (z : Z) | PBd_current | PBd_unbounded.
Definition bound_to_proto (b : bound) : pbound :=
  match b with
  | BPreceding z => PBd_preceding z
  | BFollowing z => PBd_following z
  | BCurrent => PBd_current
  | BUnbounded => PBd_unbounded
  end.
Definition bound_from_proto (b : option pbound) : option bound :=
  match b with
  | None | Some PBd_unset => None
  | Some (PBd_preceding z) => Some (BPreceding z)
  | Some (PBd_following z) => Some (BFollowing z)
  | Some PBd_current => Some BCurrent
  | Some PBd_unbounded => Some BUnbounded
  end.
Definition bound_eqb (a b : bound) : bool :=
  match a, b with
  | BPreceding z, BPreceding y | BFollowing z, BFollowing y => z =? y
  | BCurrent, BCurrent | BUnbounded, BUnbounded => true
  | _, _ => false
  end.

(** types.go 450-453 [SortKind]; [SK_nil] is the nil interface *)
Inductive sortkind := SK_nil | SK_dir (z : Z) | SK_func (z : Z).
Inductive psortkind := PSK_unset | PSK_dir (z : Z) | PSK_func (z : Z).
Definition sortkind_to_proto (k : sortkind) : psortkind :=
  match k with SK_nil => PSK_unset | SK_dir z => PSK_dir z | SK_func z => PSK_func z end.
Definition sortkind_from_proto (k : psortkind) : res sortkind :=
  match k with PSK_unset => Err | PSK_dir z => Ok (SK_dir z) | PSK_func z => Ok (SK_func z) end.
Definition sortkind_eqb (a b : sortkind) : bool :=
  match a, b with
  | SK_nil, SK_nil => true
  | SK_dir z, SK_dir y | SK_func z, SK_func y => z =? y
  | _, _ => false
  end.

(** ** expressions *)

(** types.go 443-448 [FuncArg]: an enum, a type or an expression *)
Inductive farg (E : Type) := AEnum (s : string) | AType (t : ty) | AExpr (e : E).
Arguments AEnum {E} s.
Arguments AType {E} t.
Arguments AExpr {E} e.

(** field_reference.go 22-40: the root of a field reference; [RootReference] is the nil
    interface *)
Inductive root (E : Type) := RRoot | ROuter (steps : Z) | RLambda (steps : Z) | RExpr (e : E).
Arguments RRoot {E}.
Arguments ROuter {E} steps.
Arguments RLambda {E} steps.
Arguments RExpr {E} e.

(** field_reference.go 545-554: the path or mask of a field reference ([RefSeg nil] is the
    nil interface) *)
Inductive reference := RefSeg (s : list step) | RefMask (m : mask).

(** Values of interface [expr.Expression]; [ELit LNil] is the nil interface. *)
Inductive expr (R : Type) :=
| ELit (l : lit)
| ERef (r : root (expr R)) (f : reference) (known : xtype)
| EScalar (fref : Z) (decl : variant) (args : list (farg (expr R))) (opts : list fopt) (out : ty)
| EWindow (fref : Z) (decl : variant) (args : list (farg (expr R))) (opts : list fopt) (out : ty)
    (phase inv : Z) (parts : list (expr R)) (sorts : list (expr R * sortkind))
    (btype : Z) (lo hi : option bound)
| EIf (ifs : list (expr R * expr R)) (els : expr R)
| ESwitch (m : expr R) (ifs : list (lit * expr R)) (els : expr R)
| EOr (v : expr R) (opts : list (expr R))
| EMultiOr (v : list (expr R)) (opts : list (list (expr R)))
| ECast (t : ty) (e : expr R) (fb : Z)
| EMap (nullable : bool) (var : Z) (kvs : list (expr R * expr R))
| EStruct (nullable : bool) (var : Z) (fields : list (expr R))
| EList (nullable : bool) (var : Z) (vals : list (expr R))
| EParam (out : ty) (ref : Z)
| ELambda (n var : Z) (params : list ty) (body : expr R)
| ESubScalar (r : R)
| ESubIn (needles : list (expr R)) (r : R)
| ESubSet (op : Z) (r : R)
| ESubCmp (red cmp : Z) (left : expr R) (r : R).
Arguments ELit {R} l.
Arguments ERef {R} r f known.
Arguments EScalar {R} fref decl args opts out.
Arguments EWindow {R} fref decl args opts out phase inv parts sorts btype lo hi.
Arguments EIf {R} ifs els.
Arguments ESwitch {R} m ifs els.
Arguments EOr {R} v opts.
Arguments EMultiOr {R} v opts.
Arguments ECast {R} t e fb.
Arguments EMap {R} nullable var kvs.
Arguments EStruct {R} nullable var fields.
Arguments EList {R} nullable var vals.
Arguments EParam {R} out ref.
Arguments ELambda {R} n var params body.
Arguments ESubScalar {R} r.
Arguments ESubIn {R} needles r.
Arguments ESubSet {R} op r.
Arguments ESubCmp {R} red cmp left r.

(** [e == nil] *)
Definition is_nil_expr {R} (e : expr R) : bool := match e with ELit LNil => true | _ => false end.

(** The message [proto.Expression] and its parts. *)
Inductive pfarg (E : Type) := PA_unset | PA_enum (s : string) | PA_type (t : ptype) | PA_value (e : E).
Arguments PA_unset {E}.
Arguments PA_enum {E} s.
Arguments PA_type {E} t.
Arguments PA_value {E} e.
Inductive proot (E : Type) := PRt_unset | PRt_expr (e : E) | PRt_root | PRt_outer (n : Z) | PRt_lambda (n : Z).
Arguments PRt_unset {E}.
Arguments PRt_expr {E} e.
Arguments PRt_root {E}.
Arguments PRt_outer {E} n.
Arguments PRt_lambda {E} n.
Inductive preference := PRef_unset | PRef_direct (s : option pseg) | PRef_mask (m : pmask).

Inductive pexpr (PR : Type) :=
| PX_nil
| PX_unset
| PX_lit (m : plit)
| PX_sel (r : proot (pexpr PR)) (f : preference)
| PX_scalar (fref : Z) (args : list (pfarg (pexpr PR))) (opts : list fopt) (out : option ptype)
| PX_window (fref : Z) (args : list (pfarg (pexpr PR))) (opts : list fopt) (out : option ptype)
    (phase inv : Z) (parts : list (pexpr PR)) (sorts : list (pexpr PR * psortkind))
    (btype : Z) (lo hi : option pbound)
| PX_if (ifs : list (pexpr PR * pexpr PR)) (els : pexpr PR)
| PX_switch (m : pexpr PR) (ifs : list (plit * pexpr PR)) (els : pexpr PR)
| PX_or (v : pexpr PR) (opts : list (pexpr PR))
| PX_multi (v : list (pexpr PR)) (opts : list (list (pexpr PR)))
| PX_cast (t : option ptype) (e : pexpr PR) (fb : Z)
| PX_map (nullable : bool) (var : Z) (kvs : list (pexpr PR * pexpr PR))
| PX_struct (nullable : bool) (var : Z) (fields : list (pexpr PR))
| PX_list (nullable : bool) (var : Z) (vals : list (pexpr PR))
| PX_nested_unset (nullable : bool) (var : Z)
| PX_param (p : option (ptype * Z))
| PX_enum
| PX_lambda (params : option (list ptype * Z * Z)) (body : pexpr PR)
| PX_sub_unset
| PX_sub_scalar (r : PR)
| PX_sub_in (needles : list (pexpr PR)) (r : PR)
| PX_sub_set (op : Z) (r : PR)
| PX_sub_cmp (red cmp : Z) (left : pexpr PR) (r : PR).
Arguments PX_nil {PR}.
Arguments PX_unset {PR}.
Arguments PX_lit {PR} m.
Arguments PX_sel {PR} r f.
Arguments PX_scalar {PR} fref args opts out.
Arguments PX_window {PR} fref args opts out phase inv parts sorts btype lo hi.
Arguments PX_if {PR} ifs els.
Arguments PX_switch {PR} m ifs els.
Arguments PX_or {PR} v opts.
Arguments PX_multi {PR} v opts.
Arguments PX_cast {PR} t e fb.
Arguments PX_map {PR} nullable var kvs.
Arguments PX_struct {PR} nullable var fields.
Arguments PX_list {PR} nullable var vals.
Arguments PX_nested_unset {PR} nullable var.
Arguments PX_param {PR} p.
Arguments PX_enum {PR}.
Arguments PX_lambda {PR} params body.
Arguments PX_sub_unset {PR}.
Arguments PX_sub_scalar {PR} r.
Arguments PX_sub_in {PR} needles r.
Arguments PX_sub_set {PR} op r.
Arguments PX_sub_cmp {PR} red cmp left r.

(** ** encoding *)

(** types.go and the interval and precision files: [ToProtoFuncArg] of a type.  Unlike
    [TypeToProto] it reaches the types' own [ToProto] methods, so both interval forms
    that [TypeToProto] refuses are encoded. *)
Definition arg_type_to_proto (t : ty) : res ptype :=
  match t with
  | TIntervalCompound _ n v p => Ok (PT_interval_compound n v p)
  | TIntervalYearToMonth n v => Ok (PT_interval_year n v)
  | _ => type_to_proto t
  end.

Definition farg_to_proto {E P} (enc : E -> res P) (a : farg E) : res (pfarg P) :=
  match a with
  | AEnum s => Ok (PA_enum s)
  | AType t => match arg_type_to_proto t with Ok p => Ok (PA_type p) | Err => Err | Panic => Panic end
  | AExpr e => match enc e with Ok p => Ok (PA_value p) | Err => Err | Panic => Panic end
  end.

Definition root_to_proto {E P} (enc : E -> res P) (r : root E) : res (proot P) :=
  match r with
  | RRoot => Ok PRt_root
  | ROuter n => Ok (PRt_outer n)
  | RLambda n => Ok (PRt_lambda n)
  | RExpr e => match enc e with Ok p => Ok (PRt_expr p) | Err => Err | Panic => Panic end
  end.

(** 649-658 of [ToProtoFieldRef]; a nil reference leaves the oneof unset *)
Definition reference_to_proto (f : reference) : res preference :=
  match f with
  | RefSeg [] => Ok PRef_unset
  | RefSeg l => let! s := seg_to_proto l in Ok (PRef_direct s)
  | RefMask m => let! p := mask_to_proto m in Ok (PRef_mask p)
  end.

Section Encode.
Context {R PR : Type}.
Variable rel_to_proto : R -> res PR.

(** The [ToProto] methods: literals.go, field_reference.go 648-694; functions.go 66-78,
    395-411, 673-728; expression.go 547-568, 646-656, 701-710, 882-905, 1031-1044,
    1150-1174, 1311-1332, 1437-1455, 1555-1573; lambda.go 53-72; plan/subquery.go 106-118,
    188-206, 302-315, 426-441.  An absent else clause is not encoded. *)
Fixpoint expr_to_proto (e : expr R) : res (pexpr PR) :=
  match e with
  | ELit l => let! m := lit_to_proto l in Ok (PX_lit m)
  | ERef r f _ =>
      let! f' := reference_to_proto f in
      let! r' := root_to_proto expr_to_proto r in
      Ok (PX_sel r' f')
  | EScalar fref _ args opts out =>
      let! args' := mapM (farg_to_proto expr_to_proto) args in
      let! t := type_to_proto out in
      Ok (PX_scalar fref args' opts (Some t))
  | EWindow fref _ args opts out phase inv parts sorts btype lo hi =>
      let! args' := mapM (farg_to_proto expr_to_proto) args in
      let! sorts' := mapM (pairM expr_to_proto (fun k => Ok (sortkind_to_proto k))) sorts in
      let! parts' := mapM expr_to_proto parts in
      let! t := type_to_proto out in
      Ok (PX_window fref args' opts (Some t) phase inv parts' sorts' btype
            (option_map bound_to_proto lo) (option_map bound_to_proto hi))
  | EIf ifs els =>
      let! ifs' := mapM (pairM expr_to_proto expr_to_proto) ifs in
      let! els' := if is_nil_expr els then Ok PX_nil else expr_to_proto els in
      Ok (PX_if ifs' els')
  | ESwitch m ifs els =>
      let! els' := if is_nil_expr els then Ok PX_nil else expr_to_proto els in
      let! ifs' := mapM (pairM lit_to_proto expr_to_proto) ifs in
      let! m' := expr_to_proto m in
      Ok (PX_switch m' ifs' els')
  | EOr v opts =>
      let! opts' := mapM expr_to_proto opts in
      let! v' := expr_to_proto v in
      Ok (PX_or v' opts')
  | EMultiOr v opts =>
      let! opts' := mapM (mapM expr_to_proto) opts in
      let! v' := mapM expr_to_proto v in
      Ok (PX_multi v' opts')
  | ECast t e fb =>
      let! t' := type_to_proto t in
      let! e' := expr_to_proto e in
      Ok (PX_cast (Some t') e' fb)
  | EMap nullable var kvs =>
      let! kvs' := mapM (pairM expr_to_proto expr_to_proto) kvs in Ok (PX_map nullable var kvs')
  | EStruct nullable var fs => let! fs' := mapM expr_to_proto fs in Ok (PX_struct nullable var fs')
  | EList nullable var vs => let! vs' := mapM expr_to_proto vs in Ok (PX_list nullable var vs')
  | EParam out ref => let! t := type_to_proto out in Ok (PX_param (Some (t, ref)))
  | ELambda n var params body =>
      let! ps := mapM type_to_proto params in
      let! b := expr_to_proto body in
      Ok (PX_lambda (Some (ps, var, n)) b)
  | ESubScalar r => let! r' := rel_to_proto r in Ok (PX_sub_scalar r')
  | ESubIn needles r =>
      let! ns := mapM expr_to_proto needles in
      let! r' := rel_to_proto r in Ok (PX_sub_in ns r')
  | ESubSet op r => let! r' := rel_to_proto r in Ok (PX_sub_set op r')
  | ESubCmp red cmp lhs r =>
      let! l := expr_to_proto lhs in
      let! r' := rel_to_proto r in Ok (PX_sub_cmp red cmp l r')
  end.
End Encode.

(** ** types of expressions *)

Definition bool_req : ty := TPrim PrimBool NullRequired 0.

Section TypeOf.
Context {R : Type}.
(** [RecordType().Types()] of a relation *)
Variable rel_schema : R -> res (list xtype).

(** The [GetType] methods: field_reference.go 752; functions.go 386, 628; expression.go
    543, 642, 699, 855-880, 1027, 1146, 1299-1309, 1425-1435, 1544-1553; lambda.go 37-43;
    plan/subquery.go 97-104, 184, 298, 422. *)
Fixpoint expr_type (e : expr R) : res xtype :=
  match e with
  | ELit l => let! t := lit_type l in Ok (XTy t)
  | ERef _ _ known => Ok known
  | EScalar _ _ _ _ out | EWindow _ _ _ _ out _ _ _ _ _ _ _ => Ok (XTy out)
  | EIf _ els => expr_type els
  | ESwitch _ ifs els =>
      (* the type of the first nullable branch, or of the last branch *)
      let! t := (fix go (l : list (lit * expr R)) (acc : xtype) : res xtype :=
                   match l with
                   | [] => Ok acc
                   | (_, th) :: l' =>
                       let! x := expr_type th in
                       let! n := x_nullability x in
                       if n =? NullNullable then Ok x else go l' x
                   end) ifs XNil in
      if is_nil_expr els then x_with_nullability NullNullable t
      else
        let! n := x_nullability t in
        if n =? NullNullable then Ok t else expr_type els
  | EOr _ _ | EMultiOr _ _ => Ok (XTy bool_req)
  | ECast t _ _ => Ok (XTy t)
  | EMap nullable var kvs =>
      match kvs with
      | [] => Panic
      | (k, x) :: _ =>
          let! kt := expr_type k in
          let! xt := expr_type x in
          Ok (x_map (nullability_of nullable) var kt xt)
      end
  | EStruct nullable var fs =>
      let! ts := mapM expr_type fs in Ok (x_struct (nullability_of nullable) var ts)
  | EList nullable var vs =>
      match vs with
      | [] => Panic
      | v :: _ => let! t := expr_type v in Ok (x_list (nullability_of nullable) var t)
      end
  | EParam out _ => Ok (XTy out)
  | ELambda _ _ params body =>
      let! t := expr_type body in Ok (x_func NullRequired params t)
  | ESubScalar r =>
      let! ts := rel_schema r in
      match ts with [t] => Ok t | _ => Panic end
  | ESubIn _ _ | ESubSet _ _ | ESubCmp _ _ _ _ => Ok (XTy bool_req)
  end.
End TypeOf.

(** [IsScalar]: literals true; field_reference.go 760; functions.go 306-315, 554;
    expression.go 531-541, 638, 697, 837-853, 1013-1025, 1128-1144, 1289-1297, 1416-1423,
    1535-1542; lambda.go 33; plan/subquery.go 95, 175-182, 296, 418-420.  A nil operand
    panics except where tested. *)
Fixpoint expr_scalar {R} (e : expr R) : res bool :=
  let every := fix every (l : list (expr R)) : res bool :=
    match l with
    | [] => Ok true
    | x :: l' => let! b := expr_scalar x in if b then every l' else Ok false
    end in
  match e with
  | ELit LNil => Panic
  | ELit _ | ERef _ _ _ | EParam _ _ | ESubScalar _ | ESubSet _ _ => Ok true
  | EScalar _ _ args _ _ =>
      (fix go (l : list (farg (expr R))) : res bool :=
         match l with
         | [] => Ok true
         | AExpr (ELit LNil) :: l' => go l'
         | AExpr x :: l' => let! b := expr_scalar x in if b then go l' else Ok false
         | _ :: l' => go l'
         end) args
  | EWindow _ _ _ _ _ _ _ _ _ _ _ _ | ELambda _ _ _ _ => Ok false
  | EIf ifs els =>
      let! b := (fix go (l : list (expr R * expr R)) : res bool :=
         match l with
         | [] => Ok true
         | (i, t) :: l' =>
             let! b := if is_nil_expr i then Ok true else expr_scalar i in
             if b then
               let! b' := if is_nil_expr t then Ok true else expr_scalar t in
               if b' then go l' else Ok false
             else Ok false
         end) ifs in
      if b then (if is_nil_expr els then Ok true else expr_scalar els) else Ok false
  | ESwitch m ifs els =>
      let! b := expr_scalar m in
      if b then
        let! b := (fix go (l : list (lit * expr R)) : res bool :=
          match l with
          | [] => Ok true
          | (_, t) :: l' => let! b := expr_scalar t in if b then go l' else Ok false
          end) ifs in
        if b then (if is_nil_expr els then Ok true else expr_scalar els) else Ok false
      else Ok false
  | EOr v opts => let! b := expr_scalar v in if b then every opts else Ok false
  | EMultiOr v opts =>
      let! b := every v in
      if b then
        (fix rows (l : list (list (expr R))) : res bool :=
           match l with
           | [] => Ok true
           | r :: l' => let! b := every r in if b then rows l' else Ok false
           end) opts
      else Ok false
  | ECast _ e _ => expr_scalar e
  | EMap _ _ kvs =>
      (fix go (l : list (expr R * expr R)) : res bool :=
         match l with
         | [] => Ok true
         | (k, x) :: l' =>
             let! b := expr_scalar k in
             if b then let! b' := expr_scalar x in if b' then go l' else Ok false else Ok false
         end) kvs
  | EStruct _ _ fs => every fs
  | EList _ _ vs => every vs
  | ESubIn ns _ => every ns
  | ESubCmp _ _ l _ => expr_scalar l
  end.

(** ** decoding *)

(** Loops that thread the extension set. *)
Definition mapS {A B S} (f : A -> S -> res (B * S)) : list A -> S -> res (list B * S) :=
  fix go (l : list A) (s : S) : res (list B * S) :=
    match l with
    | [] => Ok ([], s)
    | x :: l' =>
        match f x s with
        | Ok (y, s1) => match go l' s1 with
                        | Ok (ys, s2) => Ok (y :: ys, s2)
                        | Err => Err
                        | Panic => Panic
                        end
        | Err => Err
        | Panic => Panic
        end
    end.
Definition pairS {A B C D S} (f : A -> S -> res (C * S)) (g : B -> S -> res (D * S)) (p : A * B) (s : S)
  : res ((C * D) * S) :=
  match p with
  | (a, b) =>
      match f a s with
      | Ok (c, s1) => match g b s1 with
                      | Ok (d, s2) => Ok ((c, d), s2)
                      | Err => Err
                      | Panic => Panic
                      end
      | Err => Err
      | Panic => Panic
      end
  end.
Definition liftS {A B S} (f : A -> res B) (a : A) (s : S) : res (B * S) :=
  match f a with Ok b => Ok (b, s) | Err => Err | Panic => Panic end.

(** expression.go 43-54 [FuncArgFromProto] *)
Definition farg_from_proto {P E S} (dec : P -> S -> res (E * S)) (a : pfarg P) (s : S)
  : res (farg E * S) :=
  match a with
  | PA_unset => Err
  | PA_enum x => Ok (AEnum x, s)
  | PA_type t => match type_from_proto t with Ok t' => Ok (AType t', s) | Err => Err | Panic => Panic end
  | PA_value p => match dec p s with Ok (e, s1) => Ok (AExpr e, s1) | Err => Err | Panic => Panic end
  end.

Definition root_from_proto {P E S} (dec : P -> S -> res (E * S)) (r : proot P) (s : S) : res (root E * S) :=
  match r with
  | PRt_unset | PRt_root => Ok (RRoot, s)
  | PRt_outer n => Ok (ROuter n, s)
  | PRt_lambda n => Ok (RLambda n, s)
  | PRt_expr p => match dec p s with Ok (e, s1) => Ok (RExpr e, s1) | Err => Err | Panic => Panic end
  end.

(** 78-86, 122-140 of [ExprFromProto]; functions.go 190-205, 486-504, 850-857: resolving a function
    reference; an undeclared anchor is an error, an unknown function becomes a custom one
    whose anchor is requested for the re-assembled compound name. *)
Definition resolve_func (lookup : Z -> eset -> coll -> option variant) (canon : string -> option string)
  (decomp wtype : string) (c : coll) (ref : Z) (s : eset) : res (Z * variant * bool * eset) :=
  match decode_func ref s with
  | None => Err
  | Some id =>
      match lookup ref s c with
      | Some v => Ok (ref, v, true, s)
      | None =>
          let! v := custom_variant canon decomp wtype id in
          let! (s', a) := get_func_anchor (variant_id v) s in
          Ok (a, v, false, s')
      end
  end.

Section Decode.
Context {R PR : Type}.
Variable rel_schema : R -> res (list xtype).
Variable conv : option (PR -> eset -> res (R * eset)).
Variable canon : string -> option string.
Variable c : coll.
Variable base : option (list xtype).   (* baseSchema, nil or the record's types *)

(** A root expression that was read as nil is indistinguishable from [RootReference],
    which is the nil interface (field_reference.go 26, 772). *)
Definition nil_root (r : root (expr R)) : root (expr R) :=
  match r with RExpr (ELit LNil) => RRoot | _ => r end.

(** field_reference.go 783-803: the path or mask and the known type.  [AsStructType] is
    types.go 1807-1809. *)
Definition reference_from_proto (r : root (expr R)) (f : preference) : res (reference * xtype) :=
  match f with
  | PRef_unset => Ok (RefSeg [], XNil)
  | PRef_direct p =>
      let! seg := ref_segment_from_proto p in
      match r with
      | RRoot =>
          match base with
          | Some ts => let! t := seg_type seg (x_struct NullRequired 0 ts) in Ok (RefSeg seg, t)
          | None => Ok (RefSeg seg, XNil)
          end
      | RExpr e =>
          let! x := expr_type rel_schema e in
          let! t := seg_type seg x in Ok (RefSeg seg, t)
      | _ => Ok (RefSeg seg, XNil)
      end
  | PRef_mask m => let! m' := mask_from_proto m in Ok (RefMask m', XNil)
  end.

(** expression.go 55-377 [ExprFromProto], field_reference.go 762-806
    [FieldReferenceFromProto], functions.go 80-97 [SortFieldFromProto],
    plan/subquery.go 23-76 [SubqueryFromProto]. *)
Fixpoint expr_from_proto (m : pexpr PR) (s : eset) : res (expr R * eset) :=
  match m with
  | PX_nil | PX_unset | PX_enum => Err
  | PX_lit m => let! l := lit_from_proto m in Ok (ELit l, s)
  | PX_sel r f =>
      let! (r', s1) := root_from_proto expr_from_proto r s in
      let r'' := nil_root r' in
      let! (f', known) := reference_from_proto r'' f in
      Ok (ERef r'' f' known, s1)
  | PX_scalar fref args opts out =>
      let! (args', s1) := mapS (farg_from_proto expr_from_proto) args s in
      match out with
      | None => Err
      | Some t =>
          let! (r, v, _, s2) := resolve_func lookup_scalar canon "" "" c fref s1 in
          let! t' := type_from_proto t in
          Ok (EScalar r v args' opts t', s2)
      end
  | PX_window fref args opts out phase inv parts sorts btype lo hi =>
      let! (args', s1) := mapS (farg_from_proto expr_from_proto) args s in
      let! (parts', s2) := mapS expr_from_proto parts s1 in
      let! (sorts', s3) := mapS (pairS expr_from_proto (liftS sortkind_from_proto)) sorts s2 in
      match out with
      | None => Err
      | Some t =>
          let! (r, v, _, s4) := resolve_func lookup_window canon "NONE" "PARTITION" c fref s3 in
          let! t' := type_from_proto t in
          Ok (EWindow r v args' opts t' phase inv parts' sorts' btype
                (bound_from_proto lo) (bound_from_proto hi), s4)
      end
  | PX_if ifs els =>
      let! (els', s1) := expr_from_proto els s in
      let! (ifs', s2) := mapS (pairS expr_from_proto expr_from_proto) ifs s1 in
      Ok (EIf ifs' els', s2)
  | PX_switch m ifs els =>
      let! (m', s1) := expr_from_proto m s in
      let! (els', s2) := expr_from_proto els s1 in
      let! (ifs', s3) := mapS (pairS (liftS lit_from_proto) expr_from_proto) ifs s2 in
      Ok (ESwitch m' ifs' els', s3)
  | PX_or v opts =>
      let! (v', s1) := expr_from_proto v s in
      let! (opts', s2) := mapS expr_from_proto opts s1 in
      Ok (EOr v' opts', s2)
  | PX_multi v opts =>
      let! (v', s1) := mapS expr_from_proto v s in
      let! (opts', s2) := mapS (mapS expr_from_proto) opts s1 in
      Ok (EMultiOr v' opts', s2)
  | PX_cast t e fb =>
      match t with
      | None => Err
      | Some t =>
          let! (e', s1) := expr_from_proto e s in
          let! t' := type_from_proto t in
          Ok (ECast t' e' fb, s1)
      end
  | PX_map nullable var kvs =>
      match kvs with
      | [] => Err
      | _ =>
          let! (kvs', s1) := mapS (pairS expr_from_proto expr_from_proto) kvs s in
          Ok (EMap nullable var kvs', s1)
      end
  | PX_struct nullable var fs =>
      let! (fs', s1) := mapS expr_from_proto fs s in Ok (EStruct nullable var fs', s1)
  | PX_list nullable var vs =>
      match vs with
      | [] => Err
      | _ => let! (vs', s1) := mapS expr_from_proto vs s in Ok (EList nullable var vs', s1)
      end
  | PX_nested_unset _ _ => Err
  | PX_param p =>
      match p with
      | None => Err
      | Some (t, ref) => let! t' := type_from_proto t in Ok (EParam t' ref, s)
      end
  | PX_lambda params body =>
      match params with
      | None => Err
      | Some (ps, var, n) =>
          match body with
          | PX_nil => Err
          | _ =>
              let! ps' := mapM type_from_proto ps in
              if negb (n =? NullRequired) then Err
              else let! (b, s1) := expr_from_proto body s in Ok (ELambda n var ps' b, s1)
          end
      end
  | PX_sub_unset => Err
  | PX_sub_scalar r =>
      match conv with
      | None => Err
      | Some f => let! (r', s1) := f r s in Ok (ESubScalar r', s1)
      end
  | PX_sub_in ns r =>
      match conv with
      | None => Err
      | Some f =>
          let! (ns', s1) := mapS expr_from_proto ns s in
          let! (r', s2) := f r s1 in Ok (ESubIn ns' r', s2)
      end
  | PX_sub_set op r =>
      match conv with
      | None => Err
      | Some f => let! (r', s1) := f r s in Ok (ESubSet op r', s1)
      end
  | PX_sub_cmp red cmp l r =>
      match conv with
      | None => Err
      | Some f =>
          let! (l', s1) := expr_from_proto l s in
          let! (r', s2) := f r s1 in Ok (ESubCmp red cmp l' r', s2)
      end
  end.
End Decode.

(** ** aggregate functions *)

(** functions.go 770-780.  A function built by [NewCustomAggregateFunc] has no
    declaration (817-825), hence the option. *)
Record aggf (R : Type) := AggF {
  ag_ref : Z; ag_decl : option variant; ag_args : list (farg (expr R)); ag_opts : list fopt;
  ag_out : ty; ag_phase : Z; ag_inv : Z; ag_sorts : list (expr R * sortkind) }.
Arguments AggF {R}.
Arguments ag_ref {R} a.
Arguments ag_decl {R} a.
Arguments ag_args {R} a.
Arguments ag_opts {R} a.
Arguments ag_out {R} a.
Arguments ag_phase {R} a.
Arguments ag_inv {R} a.
Arguments ag_sorts {R} a.

(** [proto.AggregateFunction] *)
Record paggf (PR : Type) := PAggF {
  pa_ref : Z; pa_args : list (pfarg (pexpr PR)); pa_opts : list fopt; pa_out : option ptype;
  pa_phase : Z; pa_inv : Z; pa_sorts : list (pexpr PR * psortkind) }.
Arguments PAggF {PR}.
Arguments pa_ref {PR} p.
Arguments pa_args {PR} p.
Arguments pa_opts {PR} p.
Arguments pa_out {PR} p.
Arguments pa_phase {PR} p.
Arguments pa_inv {PR} p.
Arguments pa_sorts {PR} p.

(** functions.go 948-976 *)
Definition agg_to_proto {R PR} (rel_to_proto : R -> res PR) (a : aggf R) : res (paggf PR) :=
  let! args := mapM (farg_to_proto (expr_to_proto rel_to_proto)) (ag_args a) in
  let! sorts := mapM (pairM (expr_to_proto rel_to_proto) (fun k => Ok (sortkind_to_proto k))) (ag_sorts a) in
  let! t := type_to_proto (ag_out a) in
  Ok (PAggF (ag_ref a) args (ag_opts a) (Some t) (ag_phase a) (ag_inv a) sorts).

(** functions.go 828-869 *)
Definition agg_from_proto {R PR} (rel_schema : R -> res (list xtype))
  (conv : option (PR -> eset -> res (R * eset))) (canon : string -> option string) (c : coll)
  (base : option (list xtype)) (m : paggf PR) (s : eset) : res (aggf R * eset) :=
  let dec := expr_from_proto rel_schema conv canon c base in
  match pa_out m with
  | None => Err
  | Some t =>
      let! (args, s1) := mapS (farg_from_proto dec) (pa_args m) s in
      let! (sorts, s2) := mapS (pairS dec (liftS sortkind_from_proto)) (pa_sorts m) s1 in
      let! (r, v, known, s3) := resolve_func lookup_agg canon "NONE" "" c (pa_ref m) s2 in
      let! t' := type_from_proto t in
      Ok (AggF r (if known then Some v else None) args (pa_opts m) t' (pa_phase m) (pa_inv m) sorts, s3)
  end.
