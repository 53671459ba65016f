(** Model of relations: /repo/plan/common.go, relations.go and the reader of
    /repo/plan/plan.go.  Definitions only.

    Simplifications:
    - Hints, advanced extensions and file format options are passed through untouched by
      the code, so they are opaque strings here; [None] is the nil pointer.
    - Field counts are converted to int32 in the code; they are unbounded here.
    - The inputs of a relation are relations: a nil input (possible only through
      [SetInput(nil)] or [Copy(nil)]) is not modelled.
    - Absent sub-messages inside a set oneof, which cannot come off the wire, are not
      modelled, except for the relation, expression and field reference messages.
    - Sharing of slices is the subject of PlanAliasModel.v; here slices are values.
    - Types are values: the writes of [IntervalDayType.WithNullability] to its receiver
      (TypesModel.v, [with_nullability_heap]) are not followed through schemas. *)

From Coq Require Import List ZArith String Bool.
From Verif Require Import Base TypesModel ExtSetModel LoadModel LitModel ExprModel ExprOpsModel.
Import ListNotations.
Local Open Scope Z_scope.

(** ** relations *)

Definition opaque := string.
(** [*anypb.Any]: a type URL and a payload *)
Definition any := option (string * opaque).

(** common.go 128-132 [RelCommon]; the mapping is a slice that may be nil *)
Record common := Common { c_hint : option opaque; c_map : option (list Z); c_adv : option opaque }.

(** [types.NamedStruct]; a type of the struct may be a nil interface (virtual tables,
    builders.go 594-597) *)
Record schema := Schema { sc_names : list string; sc_null : Z; sc_var : Z; sc_types : list xtype }.

(** relations.go 55-63 [baseReadRel] without its [RelCommon] *)
Record rbase (E : Type) := RBase {
  rb_schema : schema; rb_filter : E; rb_best : E; rb_proj : option mask; rb_adv : option opaque }.
Arguments RBase {E}.
Arguments rb_schema {E} r.
Arguments rb_filter {E} r.
Arguments rb_best {E} r.
Arguments rb_proj {E} r.
Arguments rb_adv {E} r.

(** relations.go 518-551 [FileOrFiles]; the path type is an int8 *)
Inductive fformat := FmtParquet | FmtArrow | FmtOrc | FmtDwrf | FmtExtension.
Record file := File {
  fl_ptype : Z; fl_path : string; fl_part : Z; fl_start : Z; fl_len : Z;
  fl_format : option (fformat * opaque) }.

(** relations.go 396-428: only [*Direct] implements [IcebergTableType]; the advanced
    extension of an iceberg read has no setter and is always nil *)
Record direct := Direct { ic_uri : string; ic_ts : Z; ic_id : string }.

(** The five kinds of reads: relations.go 205, 267, 345, 423, 625 *)
Inductive rkind (E : Type) :=
| KNamed (names : list string) (adv : option opaque)
| KVirtual (values : list (list E))
| KExtTable (detail : any)
| KIceberg (d : direct)
| KFiles (items : list file) (adv : option opaque).
Arguments KNamed {E} names adv.
Arguments KVirtual {E} values.
Arguments KExtTable {E} detail.
Arguments KIceberg {E} d.
Arguments KFiles {E} items adv.

(** relations.go 1103-1106; a nil aggregate function is [None] *)
Record measure (R : Type) := Measure { ms_fn : option (aggf R); ms_filter : expr R }.
Arguments Measure {R}.
Arguments ms_fn {R} m.
Arguments ms_filter {R} m.

(** relations.go 1837-1872.  The pointer form of [SimpleComparison] and nil references
    cannot occur: hash and merge joins are only built by the reader. *)
Inductive keycmp := CmpSimple (t : Z) | CmpCustom (fref : Z).
Record fref (R : Type) := FRef { fr_root : root (expr R); fr_ref : reference; fr_known : xtype }.
Arguments FRef {R}.
Arguments fr_root {R} f.
Arguments fr_ref {R} f.
Arguments fr_known {R} f.
Record jkey (R : Type) := JKey { k_left : fref R; k_right : fref R; k_cmp : keycmp }.
Arguments JKey {R}.
Arguments k_left {R} j.
Arguments k_right {R} j.
Arguments k_cmp {R} j.

(** relations.go 1569-1611 [ExtensionRelDefinition]: an undecoded detail, or an
    implementation supplied by the user.  Simplification: a user's [Schema] and [Build]
    see the schemas of the inputs, not the inputs themselves; they may panic. *)
Inductive extdef :=
| DUndecoded (detail : any)
| DUser (schema : list (res (list xtype)) -> res (list xtype))
        (build : list (res (list xtype)) -> res any).

Inductive rel :=
| RRead (c : common) (b : rbase (expr rel)) (k : rkind (expr rel))
| RProject (c : common) (input : rel) (exprs : list (expr rel)) (adv : option opaque)
| RJoin (c : common) (lhs rhs : rel) (cond post : expr rel) (jt : Z) (adv : option opaque)
| RCross (c : common) (lhs rhs : rel) (adv : option opaque)
| RFetch (c : common) (input : rel) (offset count : Z) (adv : option opaque)
| RAgg (c : common) (input : rel) (measures : list (measure rel)) (gexprs : list (expr rel))
    (grefs : list (list Z)) (adv : option opaque)
| RSort (c : common) (input : rel) (sorts : list (expr rel * sortkind)) (adv : option opaque)
| RFilter (c : common) (input : rel) (cond : expr rel) (adv : option opaque)
| RSet (c : common) (inputs : list rel) (op : Z) (adv : option opaque)
| RExt1 (c : common) (input : rel) (def : extdef)
| RExt0 (c : common) (def : extdef)
| RExtN (c : common) (inputs : list rel) (def : extdef)
| RHash (c : common) (lhs rhs : rel) (keys : list (jkey rel)) (post : expr rel) (jt : Z)
    (adv : option opaque)
| RMerge (c : common) (lhs rhs : rel) (keys : list (jkey rel)) (post : expr rel) (jt : Z)
    (adv : option opaque)
| RWrite (c : common) (names : list string) (adv : option opaque) (sch : schema) (op : Z)
    (input : rel) (mode : Z).

(** the embedded [RelCommon] *)
Definition common_of (r : rel) : common :=
  match r with
  | RRead c _ _ | RProject c _ _ _ | RJoin c _ _ _ _ _ _ | RCross c _ _ _ | RFetch c _ _ _ _
  | RAgg c _ _ _ _ _ | RSort c _ _ _ | RFilter c _ _ _ | RSet c _ _ _ | RExt1 c _ _ | RExt0 c _
  | RExtN c _ _ | RHash c _ _ _ _ _ _ | RMerge c _ _ _ _ _ _ | RWrite c _ _ _ _ _ _ => c
  end.

(** the constants of [proto.JoinRel_JoinType] (relations.go 797-809) *)
Definition JoinUnspecified : Z := 0.
Definition JoinInner : Z := 1.
Definition JoinOuter : Z := 2.
Definition JoinLeft : Z := 3.
Definition JoinRight : Z := 4.
Definition JoinLeftSemi : Z := 5.
Definition JoinLeftAnti : Z := 6.
Definition JoinLeftSingle : Z := 7.
Definition JoinRightSemi : Z := 8.
Definition JoinRightAnti : Z := 9.
Definition JoinRightSingle : Z := 10.

(** relations.go 2249-2265 *)
Definition OpInsert : Z := 1.
Definition OpDelete : Z := 2.
Definition OpUpdate : Z := 3.
Definition OpCTAS : Z := 4.
Definition ModeUnspecified : Z := 0.
Definition ModeNoOutput : Z := 1.
Definition ModeModified : Z := 2.

(** relations.go 1827-1832 *)
Definition CmpEq : Z := 1.

(** ** schemas *)

(** types.go 1793-1795 [GetFieldRef] *)
Definition col {A} (l : list A) (i : Z) : res A :=
  if i <? 0 then Panic else match nth_error l (Z.to_nat i) with Some x => Ok x | None => Panic end.

(** common.go 145-157 [remap] *)
Definition remap (m : option (list Z)) (initial : list xtype) : res (list xtype) :=
  match m with
  | None => Ok initial
  | Some l => mapM (col initial) l
  end.

Definition all_nullable (l : list xtype) : res (list xtype) := mapM (x_with_nullability NullNullable) l.

(** relations.go 823-858, given the record types of the two sides.  The join types the
    switch does not name (unspecified, mark joins) give the empty record. *)
Definition join_schema (jt : Z) (lhs rhs : res (list xtype)) : res (list xtype) :=
  if jt =? JoinInner then let! l := lhs in let! r := rhs in Ok (l ++ r)%list
  else if jt =? JoinLeftSemi then lhs
  else if jt =? JoinOuter then let! l := lhs in let! r := rhs in all_nullable (l ++ r)%list
  else if (jt =? JoinLeft) || (jt =? JoinLeftSingle) then
    let! l := lhs in let! r := rhs in let! r' := all_nullable r in Ok (l ++ r')%list
  else if (jt =? JoinRight) || (jt =? JoinRightSingle) then
    let! l := lhs in let! r := rhs in let! l' := all_nullable l in Ok (l' ++ r)%list
  else if jt =? JoinLeftAnti then lhs
  else if (jt =? JoinRightSemi) || (jt =? JoinRightAnti) then rhs
  else Ok [].

(** relations.go 1590-1601 and user definitions *)
Definition def_schema (d : extdef) (inputs : list (res (list xtype))) : res (list xtype) :=
  match d with
  | DUndecoded _ => match inputs with [t] => t | _ => Ok [] end
  | DUser f _ => f inputs
  end.
Definition def_build (d : extdef) (inputs : list (res (list xtype))) : res any :=
  match d with
  | DUndecoded a => Ok a
  | DUser _ f => f inputs
  end.

(** relations.go 1140-1144: [ar.groupingExpressions[e].GetType()] for each reference *)
Definition refs_types (types : list (res xtype)) (refs : list Z) : res (list xtype) :=
  mapM (fun i => let! t := col types i in t) refs.

(** functions.go 946 *)
Definition measure_type {R} (m : measure R) : res xtype :=
  match ms_fn m with None => Panic | Some f => Ok (XTy (ag_out f)) end.

(** The [directOutputSchema] methods: relations.go 94, 706-715, 823, 962, 1034, 1137-1151,
    1327, 1417, 1508, 1621, 1690, 1748, 2028, 2145, 2283-2293; [rt] is [RecordType] of the
    inputs.  Grouping expressions are evaluated lazily, as in the code. *)
Definition direct_with (rt : rel -> res (list xtype)) (r : rel) : res (list xtype) :=
  match r with
  | RRead _ b _ => Ok (sc_types (rb_schema b))
  | RProject _ input exprs _ =>
      let! l := rt input in
      let! ts := mapM (expr_type rt) exprs in
      Ok (l ++ ts)%list
  | RJoin _ lhs rhs _ _ jt _ => join_schema jt (rt lhs) (rt rhs)
  | RCross _ lhs rhs _ | RHash _ lhs rhs _ _ _ _ | RMerge _ lhs rhs _ _ _ _ =>
      let! l := rt lhs in
      let! r := rt rhs in
      Ok (l ++ r)%list
  | RFetch _ input _ _ _ | RSort _ input _ _ | RFilter _ input _ _ => rt input
  | RAgg _ _ measures gexprs grefs _ =>
      let! gs := mapM (refs_types (map (expr_type rt) gexprs)) grefs in
      let! ms := mapM measure_type measures in
      Ok (List.concat gs ++ ms)%list
  | RSet _ inputs _ _ => match inputs with [] => Panic | i :: _ => rt i end
  | RExt1 _ input def => def_schema def [rt input]
  | RExt0 _ def => def_schema def []
  | RExtN _ inputs def => def_schema def (map rt inputs)
  | RWrite _ _ _ sch _ _ mode =>
      if mode =? ModeNoOutput then Ok []
      else if mode =? ModeModified then Ok (sc_types sch)
      else if mode =? ModeUnspecified then Panic
      else Ok []
  end.

(** The [RecordType] methods. *)
Fixpoint rel_type (r : rel) : res (list xtype) :=
  let! l := direct_with rel_type r in remap (c_map (common_of r)) l.
Definition direct_schema (r : rel) : res (list xtype) := direct_with rel_type r.

(** ** messages *)

(** [proto.RelCommon]; the mapping of an emit is a slice that may be nil *)
Inductive pemit := PE_unset | PE_direct | PE_emit (m : option (list Z)).
Record pcommon := PCommon { pc_hint : option opaque; pc_emit : pemit; pc_adv : option opaque }.

Inductive ppath := PP_unset | PP_path (s : string) | PP_glob (s : string) | PP_file (s : string) | PP_folder (s : string).
Record pfile := PFile {
  pf_path : ppath; pf_part : Z; pf_start : Z; pf_len : Z; pf_format : option (fformat * opaque) }.
Inductive psnap := PSn_unset | PSn_id (s : string) | PSn_ts (z : Z).

Inductive pread (E : Type) :=
| PRd_unset
| PRd_named (names : list string) (adv : option opaque)
| PRd_virtual (values : list (list plit)) (exprs : list (list E))
| PRd_ext (detail : any)
| PRd_iceberg (t : option (string * psnap))
| PRd_files (items : list pfile) (adv : option opaque).
Arguments PRd_unset {E}.
Arguments PRd_named {E} names adv.
Arguments PRd_virtual {E} values exprs.
Arguments PRd_ext {E} detail.
Arguments PRd_iceberg {E} t.
Arguments PRd_files {E} items adv.

(** [proto.Expression_FieldReference] *)
Record pfref (PR : Type) := PFRef { pfr_root : proot (pexpr PR); pfr_ref : preference }.
Arguments PFRef {PR}.
Arguments pfr_root {PR} p.
Arguments pfr_ref {PR} p.
Inductive pcmp := PC_unset | PC_simple (t : Z) | PC_custom (f : Z).
Record pkey (PR : Type) := PKey { pk_left : option (pfref PR); pk_right : option (pfref PR); pk_cmp : pcmp }.
Arguments PKey {PR}.
Arguments pk_left {PR} p.
Arguments pk_right {PR} p.
Arguments pk_cmp {PR} p.

(** the offset or count of a fetch: a oneof of a constant and an expression *)
Inductive pamount (E : Type) := PAm_unset | PAm_const (z : Z) | PAm_expr (e : E).
Arguments PAm_unset {E}.
Arguments PAm_const {E} z.
Arguments PAm_expr {E} e.

Inductive pwrite := PW_unset | PW_named (names : list string) (adv : option opaque) | PW_ext.

(** [proto.Rel]: [PR_nil] is a nil message, [PR_other] any relation the reader does not
    know. *)
Inductive prel :=
| PR_nil
| PR_unset
| PR_other
| PR_read (c : option pcommon) (sch : option pnamed_struct) (filter best : pexpr prel)
    (proj : option pmask) (adv : option opaque) (k : pread (pexpr prel))
| PR_project (c : option pcommon) (input : prel) (exprs : list (pexpr prel)) (adv : option opaque)
| PR_join (c : option pcommon) (lhs rhs : prel) (cond post : pexpr prel) (jt : Z) (adv : option opaque)
| PR_cross (c : option pcommon) (lhs rhs : prel) (adv : option opaque)
| PR_fetch (c : option pcommon) (input : prel) (offset count : pamount (pexpr prel)) (adv : option opaque)
| PR_agg (c : option pcommon) (input : prel) (gexprs : list (pexpr prel))
    (groupings : list (list (pexpr prel) * list Z))
    (measures : list (option (paggf prel) * pexpr prel)) (adv : option opaque)
| PR_sort (c : option pcommon) (input : prel) (sorts : list (pexpr prel * psortkind)) (adv : option opaque)
| PR_filter (c : option pcommon) (input : prel) (cond : pexpr prel) (adv : option opaque)
| PR_set (c : option pcommon) (inputs : list prel) (op : Z) (adv : option opaque)
| PR_ext1 (c : option pcommon) (input : prel) (detail : any)
| PR_ext0 (c : option pcommon) (detail : any)
| PR_extN (c : option pcommon) (inputs : list prel) (detail : any)
| PR_hash (c : option pcommon) (lhs rhs : prel) (keys : list (pkey prel))
    (lkeys rkeys : list (option (pfref prel))) (post : pexpr prel) (jt : Z) (adv : option opaque)
| PR_merge (c : option pcommon) (lhs rhs : prel) (keys : list (pkey prel))
    (lkeys rkeys : list (option (pfref prel))) (post : pexpr prel) (jt : Z) (adv : option opaque)
| PR_write (c : option pcommon) (w : pwrite) (sch : option pnamed_struct) (op : Z) (input : prel)
    (output : Z).

(** ** encoding *)

(** common.go 187-203 [toProto] *)
Definition common_to_proto (c : common) : pcommon :=
  PCommon (c_hint c) (match c_map c with None => PE_direct | Some l => PE_emit (Some l) end) (c_adv c).

(** types.go 1715-1720 [NamedStruct.ToProto]; a nil type panics in [TypeToProto] *)
Definition x_to_proto (x : xtype) : res ptype := match x with XTy t => type_to_proto t | _ => Panic end.
Definition schema_to_proto (s : schema) : res pnamed_struct :=
  let! fs := mapM x_to_proto (sc_types s) in
  Ok (PNamedStruct (sc_names s) (Some (sc_null s, sc_var s, fs))).

(** relations.go 582-622 *)
Definition file_to_proto (f : file) : pfile :=
  PFile (if fl_ptype f =? 0 then PP_path (fl_path f)
         else if fl_ptype f =? 1 then PP_glob (fl_path f)
         else if fl_ptype f =? 2 then PP_file (fl_path f)
         else if fl_ptype f =? 3 then PP_folder (fl_path f)
         else PP_unset)
        (fl_part f) (fl_start f) (fl_len f) (fl_format f).

(** relations.go 449-463 *)
Definition direct_to_proto (d : direct) : string * psnap :=
  (ic_uri d,
   if negb (String.eqb (ic_id d) "") then PSn_id (ic_id d)
   else if negb (ic_ts d =? 0) then PSn_ts (ic_ts d)
   else PSn_unset).

(** relations.go 230-243, 277-294, 353-365, 446-479, 646-664 *)
Definition kind_to_proto {E P} (enc : E -> res P) (k : rkind E) : res (pread P) :=
  match k with
  | KNamed names adv => Ok (PRd_named names adv)
  | KVirtual values =>
      match mapM (mapM enc) values with
      | Ok rows => Ok (PRd_virtual [] rows)
      | Err => Err
      | Panic => Panic
      end
  | KExtTable d => Ok (PRd_ext d)
  | KIceberg d => Ok (PRd_iceberg (Some (direct_to_proto d)))
  | KFiles items adv => Ok (PRd_files (map file_to_proto items) adv)
  end.

(** [if e != nil { out.X = e.ToProto() }] *)
Definition opt_to_proto {R PR} (enc : expr R -> res (pexpr PR)) (e : expr R) : res (pexpr PR) :=
  if is_nil_expr e then Ok PX_nil else enc e.

(** field_reference.go 648-686 [ToProtoFieldRef] *)
Definition fref_to_proto {R PR} (enc : expr R -> res (pexpr PR)) (f : fref R) : res (pfref PR) :=
  let! f' := reference_to_proto (fr_ref f) in
  let! r' := root_to_proto enc (fr_root f) in
  Ok (PFRef r' f').

(** relations.go 1846-1864 *)
Definition cmp_to_proto (k : keycmp) : pcmp :=
  match k with CmpSimple t => PC_simple t | CmpCustom f => PC_custom f end.

(** relations.go 1889-1895 *)
Definition key_to_proto {R PR} (enc : expr R -> res (pexpr PR)) (k : jkey R) : res (pkey PR) :=
  let! l := fref_to_proto enc (k_left k) in
  let! r := fref_to_proto enc (k_right k) in
  Ok (PKey (Some l) (Some r) (cmp_to_proto (k_cmp k))).

(** relations.go 1913-1935 [tryEqualityJoinKeysToLegacyProto] *)
Definition plain_eq {R} (k : jkey R) : bool :=
  match k_cmp k with CmpSimple t => t =? CmpEq | CmpCustom _ => false end.
Definition legacy_keys {R PR} (enc : expr R -> res (pexpr PR)) (keys : list (jkey R))
  : res (list (option (pfref PR)) * list (option (pfref PR))) :=
  if forallb plain_eq keys then
    let! ls := mapM (fun k => let! l := fref_to_proto enc (k_left k) in
                              let! r := fref_to_proto enc (k_right k) in Ok (Some l, Some r)) keys in
    Ok (map fst ls, map snd ls)
  else Ok ([], []).

(** relations.go 1116-1124; a nil aggregate function panics *)
Definition measure_to_proto {R PR} (encr : R -> res PR) (m : measure R) : res (option (paggf PR) * pexpr PR) :=
  match ms_fn m with
  | None => Panic
  | Some f =>
      let! a := agg_to_proto encr f in
      let! e := opt_to_proto (expr_to_proto encr) (ms_filter m) in
      Ok (Some a, e)
  end.

(** The [ToProto] methods: relations.go 117-134 and 230-664; 730-746, 887-906, 979-990,
    1050-1066, 1171-1201, 1342-1357, 1432-1443, 1523-1538, 1639-1649, 1705-1714, 1764-1778,
    2065-2088, 2182-2205, 2313-2330 (the output mode of a write is not encoded). *)
Fixpoint rel_to_proto (r : rel) : res prel :=
  let enc := expr_to_proto rel_to_proto in
  match r with
  | RRead c b k =>
      let! sch := schema_to_proto (rb_schema b) in
      let! f := opt_to_proto enc (rb_filter b) in
      let! g := opt_to_proto enc (rb_best b) in
      let! p := optM mask_to_proto (rb_proj b) in
      let! k' := kind_to_proto enc k in
      Ok (PR_read (Some (common_to_proto c)) (Some sch) f g p (rb_adv b) k')
  | RProject c input exprs adv =>
      let! es := mapM enc exprs in
      let! i := rel_to_proto input in
      Ok (PR_project (Some (common_to_proto c)) i es adv)
  | RJoin c lhs rhs cond post jt adv =>
      let! l := rel_to_proto lhs in
      let! r' := rel_to_proto rhs in
      let! e := enc cond in
      let! p := opt_to_proto enc post in
      Ok (PR_join (Some (common_to_proto c)) l r' e p jt adv)
  | RCross c lhs rhs adv =>
      let! l := rel_to_proto lhs in
      let! r' := rel_to_proto rhs in
      Ok (PR_cross (Some (common_to_proto c)) l r' adv)
  | RFetch c input offset count adv =>
      let! i := rel_to_proto input in
      Ok (PR_fetch (Some (common_to_proto c)) i (PAm_const offset) (PAm_const count) adv)
  | RAgg c input measures gexprs grefs adv =>
      let! es := mapM enc gexprs in
      let! ms := mapM (measure_to_proto rel_to_proto) measures in
      let! i := rel_to_proto input in
      Ok (PR_agg (Some (common_to_proto c)) i es (map (fun g => ([], g)) grefs) ms adv)
  | RSort c input sorts adv =>
      let! ss := mapM (pairM enc (fun k => Ok (sortkind_to_proto k))) sorts in
      let! i := rel_to_proto input in
      Ok (PR_sort (Some (common_to_proto c)) i ss adv)
  | RFilter c input cond adv =>
      let! i := rel_to_proto input in
      let! e := enc cond in
      Ok (PR_filter (Some (common_to_proto c)) i e adv)
  | RSet c inputs op adv =>
      let! is := mapM rel_to_proto inputs in
      Ok (PR_set (Some (common_to_proto c)) is op adv)
  | RExt1 c input def =>
      let! i := rel_to_proto input in
      let! d := def_build def [rel_type input] in
      Ok (PR_ext1 (Some (common_to_proto c)) i d)
  | RExt0 c def =>
      let! d := def_build def [] in
      Ok (PR_ext0 (Some (common_to_proto c)) d)
  | RExtN c inputs def =>
      let! is := mapM rel_to_proto inputs in
      let! d := def_build def (map rel_type inputs) in
      Ok (PR_extN (Some (common_to_proto c)) is d)
  | RHash c lhs rhs keys post jt adv =>
      let! l := rel_to_proto lhs in
      let! r' := rel_to_proto rhs in
      let! ks := mapM (key_to_proto enc) keys in
      let! (lk, rk) := legacy_keys enc keys in
      let! p := opt_to_proto enc post in
      Ok (PR_hash (Some (common_to_proto c)) l r' ks lk rk p jt adv)
  | RMerge c lhs rhs keys post jt adv =>
      let! l := rel_to_proto lhs in
      let! r' := rel_to_proto rhs in
      let! ks := mapM (key_to_proto enc) keys in
      let! (lk, rk) := legacy_keys enc keys in
      let! p := opt_to_proto enc post in
      Ok (PR_merge (Some (common_to_proto c)) l r' ks lk rk p jt adv)
  | RWrite c names adv sch op input mode =>
      let! sch' := schema_to_proto sch in
      let! i := rel_to_proto input in
      Ok (PR_write (Some (common_to_proto c)) (PW_named names adv) (Some sch') op i ModeUnspecified)
  end.

(** ** decoding *)

(** common.go 134-143 [fromProtoCommon] *)
Definition common_from_proto (c : pcommon) : common :=
  Common (pc_hint c) (match pc_emit c with PE_emit m => m | _ => None end) (pc_adv c).
Definition zero_common : common := Common None None None.
(** [if rel.X.Common != nil { out.fromProtoCommon(...) }] *)
Definition common_opt (c : option pcommon) : common :=
  match c with Some c => common_from_proto c | None => zero_common end.
(** the unconditional call dereferences a nil message *)
Definition common_req (c : option pcommon) : res common :=
  match c with Some c => Ok (common_from_proto c) | None => Panic end.

(** types.go 1695-1713 *)
Definition schema_from_proto (m : option pnamed_struct) : res schema :=
  let! s := named_struct_from_proto m in
  Ok (Schema (ns_names s) (ns_null s) (ns_var s) (map XTy (ns_types s))).

(** relations.go 553-580; an unset path type leaves the zero values *)
Definition file_from_proto (p : pfile) : file :=
  let '(k, s) := match pf_path p with
                 | PP_unset => (0, EmptyString)
                 | PP_path s => (0, s)
                 | PP_glob s => (1, s)
                 | PP_file s => (2, s)
                 | PP_folder s => (3, s)
                 end in
  File k s (pf_part p) (pf_start p) (pf_len p) (pf_format p).

(** plan.go 498-505 *)
Definition direct_from_proto (t : string * psnap) : direct :=
  let '(uri, sn) := t in
  match sn with
  | PSn_unset => Direct uri 0 ""
  | PSn_id s => Direct uri 0 s
  | PSn_ts z => Direct uri z ""
  end.

(** relations.go 1956-1965 *)
Definition cmp_from_proto (p : pcmp) : res keycmp :=
  match p with
  | PC_unset => Err
  | PC_simple t => Ok (CmpSimple t)
  | PC_custom f => Ok (CmpCustom f)
  end.

(** types.go 1797-1805 [RecordType.Equals] *)
Definition record_eq (a b : list xtype) : res bool :=
  x_equals (x_struct NullRequired 0 a) (x_struct NullRequired 0 b).

(** [for ... { t := in.RecordType(); if !t.Equals(&primary) { return err } }] *)
Fixpoint all_equal_to (primary : list xtype) (l : list (res (list xtype))) : res unit :=
  match l with
  | [] => Ok tt
  | r :: l' =>
      let! t := r in
      let! b := record_eq t primary in
      if b then all_equal_to primary l' else Err
  end.

(** plan.go 56-78 [groupingExprs]: the list of distinct expressions so far and the
    references of one group, with [Equals] of the listed expression as the test *)
Section Grouping.
Context {E : Type}.
Variable equals : E -> E -> res bool.

Fixpoint find_equal (seen : list E) (i : nat) (e : E) : res (option nat) :=
  match seen with
  | [] => Ok None
  | x :: seen' =>
      let! b := equals x e in
      if b then Ok (Some i) else find_equal seen' (S i) e
  end.

Fixpoint group_refs (seen : list E) (g : list E) : res (list E * list Z) :=
  match g with
  | [] => Ok (seen, [])
  | e :: g' =>
      let! o := find_equal seen O e in
      match o with
      | Some i =>
          let! (seen', refs) := group_refs seen g' in Ok (seen', Z.of_nat i :: refs)
      | None =>
          let! (seen', refs) := group_refs (seen ++ [e])%list g' in
          Ok (seen', Z.of_nat (List.length seen) :: refs)
      end
  end.

Fixpoint groups_refs (seen : list E) (groups : list (list E)) : res (list E * list (list Z)) :=
  match groups with
  | [] => Ok (seen, [])
  | g :: groups' =>
      let! (seen1, refs) := group_refs seen g in
      let! (seen2, rest) := groups_refs seen1 groups' in
      Ok (seen2, refs :: rest)
  end.

Definition grouping_exprs (groups : list (list E)) : res (list E * list (list Z)) :=
  groups_refs [] groups.
End Grouping.

(** Expressions that were just read are distinct objects, so nothing is shared; a literal
    string argument compared with itself is the exception the code makes by value. *)
Definition fresh_equals : expr rel -> expr rel -> res bool :=
  expr_equals (fun _ _ => false) (fun _ _ => false) (fun _ _ => false).

Section ReadRel.
(** the registry: the type parser for custom functions (ExprModel.v), the collection and
    the decoders of extension relations *)
Variable canon : string -> option string.
Variable c : coll.
Variable decoders : string -> option (any -> res extdef).

(** plan.go 434-447 [decodeExtensionDef]; a decoder whose result is no definition fails *)
Definition decode_def (detail : any) : res extdef :=
  match decoders (match detail with Some (url, _) => url | None => EmptyString end) with
  | Some dec => dec detail
  | None => Ok (DUndecoded detail)
  end.

Section Parts.
Variable conv : prel -> eset -> res (rel * eset).
Notation dec base := (expr_from_proto rel_type (Some conv) canon c base).

(** [if rel.X != nil { x, err = ExprFromProto(rel.X, ...) }] *)
Definition opt_from_proto (base : option (list xtype)) (m : pexpr prel) (s : eset)
  : res (expr rel * eset) :=
  match m with
  | PX_nil => Ok (nil_expr, s)
  | _ => dec base m s
  end.

(** field_reference.go 762-806 *)
Definition fref_from_proto (base : option (list xtype)) (m : option (pfref prel)) (s : eset)
  : res (fref rel * eset) :=
  match m with
  | None => Panic
  | Some m =>
      let! (r', s1) := root_from_proto (dec base) (pfr_root m) s in
      let r'' := nil_root r' in
      let! (f', known) := reference_from_proto rel_type base r'' (pfr_ref m) in
      Ok (FRef r'' f' known, s1)
  end.

(** relations.go 1970-2013 *)
Definition key_from_proto (lbase rbase : option (list xtype)) (k : pkey prel) (s : eset)
  : res (jkey rel * eset) :=
  let! (l, s1) := fref_from_proto lbase (pk_left k) s in
  let! (r, s2) := fref_from_proto rbase (pk_right k) s1 in
  let! cmp := cmp_from_proto (pk_cmp k) in
  Ok (JKey l r cmp, s2).
(** the legacy form: the readers of the two references of a key, run in order *)
Definition pair_from_proto (p : (eset -> res (fref rel * eset)) * (eset -> res (fref rel * eset)))
  (s : eset) : res (jkey rel * eset) :=
  let! (l, s1) := fst p s in
  let! (r, s2) := snd p s1 in
  Ok (JKey l r (CmpSimple CmpEq), s2).
Definition keys_from_proto (keys : list (pkey prel)) (lk rk : list (option (pfref prel)))
  (lbase rbase : option (list xtype)) (s : eset) : res (list (jkey rel) * eset) :=
  match keys with
  | _ :: _ => mapS (key_from_proto lbase rbase) keys s
  | [] =>
      if negb (Nat.eqb (List.length lk) (List.length rk)) then Err
      else mapS pair_from_proto (combine (map (fref_from_proto lbase) lk) (map (fref_from_proto rbase) rk)) s
  end.

(** plan.go 607-620 *)
Definition measure_from_proto (base : option (list xtype)) (m : option (paggf prel) * pexpr prel)
  (s : eset) : res (measure rel * eset) :=
  match m with
  | (None, _) => Panic
  | (Some a, f) =>
      let! (a', s1) := agg_from_proto rel_type (Some conv) canon c base a s in
      let! (f', s2) := opt_from_proto base f s1 in
      Ok (Measure (Some a') f', s2)
  end.

(** plan.go 453-514 *)
Definition kind_from_proto (k : pread (pexpr prel)) (s : eset) : res (rkind (expr rel) * eset) :=
  match k with
  | PRd_unset => Err
  | PRd_named names adv => Ok (KNamed names adv, s)
  | PRd_virtual values exprs =>
      match values, exprs with
      | _ :: _, _ :: _ => Err
      | _, _ =>
          let! vs := mapM (mapM lit_from_proto) values in
          let! (es, s1) := mapS (mapS (dec None)) exprs s in
          Ok (KVirtual (map (map ELit) vs ++ es)%list, s1)
      end
  | PRd_ext d => Ok (KExtTable d, s)
  | PRd_iceberg None => Err
  | PRd_iceberg (Some t) => Ok (KIceberg (direct_from_proto t), s)
  | PRd_files items adv => Ok (KFiles (map file_from_proto items) adv, s)
  end.

End Parts.

(** plan.go 449-933 [RelFromProto] *)
Fixpoint rel_from_proto (m : prel) (s : eset): res (rel * eset) :=
  let dec := fun base => expr_from_proto rel_type (Some rel_from_proto) canon c base in
  let dec_opt := opt_from_proto rel_from_proto in
  match m with
  | PR_nil => Panic
  | PR_unset | PR_other => Err
  | PR_read cm sch filter best proj adv k =>
      let! (k', s1) := kind_from_proto rel_from_proto k s in
      let! sch' := schema_from_proto sch in
      let! (f, s2) := dec_opt (Some (sc_types sch')) filter s1 in
      let! (g, s3) := dec_opt (Some (sc_types sch')) best s2 in
      let! p := optM mask_from_proto proj in
      Ok (RRead (common_opt cm) (RBase sch' f g p adv) k', s3)
  | PR_filter cm input cond adv =>
      let! (i, s1) := rel_from_proto input s in
      let! base := rel_type i in
      let! (e, s2) := dec (Some base) cond s1 in
      Ok (RFilter (common_opt cm) i e adv, s2)
  | PR_fetch cm input offset count adv =>
      let! (i, s1) := rel_from_proto input s in
      match offset, count with
      | PAm_const o, PAm_const n => Ok (RFetch (common_opt cm) i o n adv, s1)
      | _, _ => Err
      end
  | PR_agg cm input gexprs groupings measures adv =>
      let! (i, s1) := rel_from_proto input s in
      let! base := rel_type i in
      let! (es, refs, s2) :=
        match gexprs with
        | _ :: _ =>
            let! (es, s2) := mapS (dec (Some base)) gexprs s1 in
            Ok (es, map snd groupings, s2)
        | [] =>
            let! (gs, s2) := mapS (fun g => mapS (dec (Some base)) (fst g)) groupings s1 in
            let! (es, refs) := grouping_exprs fresh_equals gs in
            Ok (es, refs, s2)
        end in
      let! (ms, s3) := mapS (measure_from_proto rel_from_proto (Some base)) measures s2 in
      let! cm' := common_req cm in
      Ok (RAgg cm' i ms es refs adv, s3)
  | PR_sort cm input sorts adv =>
      let! (i, s1) := rel_from_proto input s in
      let! base := rel_type i in
      let! (ss, s2) := mapS (pairS (dec (Some base)) (liftS sortkind_from_proto)) sorts s1 in
      match ss with
      | [] => Err
      | _ => let! cm' := common_req cm in Ok (RSort cm' i ss adv, s2)
      end
  | PR_join cm lhs rhs cond post jt adv =>
      if jt =? JoinUnspecified then Err
      else
        let! (l, s1) := rel_from_proto lhs s in
        let! (r, s2) := rel_from_proto rhs s1 in
        let! cm' := common_req cm in
        let! lt := rel_type l in
        let! rt := rel_type r in
        let base := (lt ++ rt)%list in
        let! (e, s3) := dec (Some base) cond s2 in
        let! (p, s4) := dec_opt (Some base) post s3 in
        Ok (RJoin cm' l r e p jt adv, s4)
  | PR_project cm input exprs adv =>
      let! (i, s1) := rel_from_proto input s in
      let! base := rel_type i in
      let! (es, s2) := mapS (dec (Some base)) exprs s1 in
      match es with
      | [] => Err
      | _ => Ok (RProject (common_opt cm) i es adv, s2)
      end
  | PR_set cm inputs op adv =>
      match inputs with
      | _ :: _ :: _ =>
          let! (is, s1) := mapS rel_from_proto inputs s in
          if op =? 0 then Err
          else
            match map rel_type is with
            | [] => Panic
            | p :: rest =>
                let! primary := p in
                let! _ := all_equal_to primary rest in
                let! cm' := common_req cm in
                Ok (RSet cm' is op adv, s1)
            end
      | _ => Err
      end
  | PR_ext1 cm input detail =>
      let! (i, s1) := rel_from_proto input s in
      let! d := decode_def detail in
      let! cm' := common_req cm in
      Ok (RExt1 cm' i d, s1)
  | PR_extN cm inputs detail =>
      let! (is, s1) := mapS rel_from_proto inputs s in
      let! d := decode_def detail in
      let! cm' := common_req cm in
      Ok (RExtN cm' is d, s1)
  | PR_ext0 cm detail =>
      let! d := decode_def detail in
      let! cm' := common_req cm in
      Ok (RExt0 cm' d, s)
  | PR_cross cm lhs rhs adv =>
      let! (l, s1) := rel_from_proto lhs s in
      let! (r, s2) := rel_from_proto rhs s1 in
      let! cm' := common_req cm in
      Ok (RCross cm' l r adv, s2)
  | PR_hash cm lhs rhs keys lk rk post jt adv =>
      let! (l, s1) := rel_from_proto lhs s in
      let! (r, s2) := rel_from_proto rhs s1 in
      let! lt := rel_type l in
      let! rt := rel_type r in
      let! (ks, s3) := keys_from_proto rel_from_proto keys lk rk (Some lt) (Some rt) s2 in
      let! cm' := common_req cm in
      let! (p, s4) :=
        match post with
        | PX_nil => Ok (nil_expr, s3)
        | _ => let! base := remap (c_map cm') (lt ++ rt)%list in dec (Some base) post s3
        end in
      Ok (RHash cm' l r ks p (wrap 8 jt) adv, s4)
  | PR_merge cm lhs rhs keys lk rk post jt adv =>
      let! (l, s1) := rel_from_proto lhs s in
      let! (r, s2) := rel_from_proto rhs s1 in
      let! lt := rel_type l in
      let! rt := rel_type r in
      let! (ks, s3) := keys_from_proto rel_from_proto keys lk rk (Some lt) (Some rt) s2 in
      let! cm' := common_req cm in
      let! (p, s4) :=
        match post with
        | PX_nil => Ok (nil_expr, s3)
        | _ => let! base := remap (c_map cm') (lt ++ rt)%list in dec (Some base) post s3
        end in
      Ok (RMerge cm' l r ks p (wrap 8 jt) adv, s4)
  | PR_write cm w sch op input output =>
      let! (i, s1) := rel_from_proto input s in
      let! sch' := schema_from_proto sch in
      if (op =? OpCTAS) || (op =? OpInsert) || (op =? OpDelete) then
        match w with
        | PW_named names adv => Ok (RWrite (common_opt cm) names adv sch' op i output, s1)
        | PW_ext => Err
        | PW_unset => Ok (RWrite (common_opt cm) [] None sch' op i output, s1)
        end
      else Err
  end.

End ReadRel.

(** What a message looks like after it has been serialized and parsed again: an empty
    repeated field is the nil slice.  (The only place of the relation messages where the
    reader can tell the difference.) *)
Definition wire_common (p : pcommon) : pcommon :=
  PCommon (pc_hint p)
    (match pc_emit p with PE_emit (Some []) => PE_emit None | e => e end) (pc_adv p).
