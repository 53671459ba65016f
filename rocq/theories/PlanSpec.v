(** Specification vocabulary for relations and plans.  None of these definitions uses the
    functions that compute output schemas, mappings, groupings or wire forms. *)

From Coq Require Import List ZArith String Bool Arith Sorted.
From Verif Require Import Base TypesModel ExprModel ExprOpsModel PlanModel PlanOpsModel ExprSpec.
From Verif Require TypesSpec.
Import ListNotations.
Local Open Scope Z_scope.

(** ** C29, C31: mappings *)

(** column i of [out] is column m[i] of [cols] *)
Definition picks {A} (m : list Z) (cols out : list A) : Prop :=
  Forall2 (fun i t => 0 <= i /\ nth_error cols (Z.to_nat i) = Some t) m out.

(** one pick after the other *)
Fixpoint picks_all {A} (ms : list (list Z)) (cols out : list A) : Prop :=
  match ms with
  | [] => out = cols
  | m :: ms' => exists mid, picks m cols mid /\ picks_all ms' mid out
  end.

Definition in_width (n : nat) (i : Z) : Prop := 0 <= i < Z.of_nat n.

(** the same relation but for its output mapping *)
Definition same_but_map (a b : common) : Prop := c_hint a = c_hint b /\ c_adv a = c_adv b.
Inductive same_but_mapping : rel -> rel -> Prop :=
| SM_read a b x k : same_but_map a b -> same_but_mapping (RRead a x k) (RRead b x k)
| SM_project a b i es v : same_but_map a b -> same_but_mapping (RProject a i es v) (RProject b i es v)
| SM_join a b l r e p jt v : same_but_map a b -> same_but_mapping (RJoin a l r e p jt v) (RJoin b l r e p jt v)
| SM_cross a b l r v : same_but_map a b -> same_but_mapping (RCross a l r v) (RCross b l r v)
| SM_fetch a b i o n v : same_but_map a b -> same_but_mapping (RFetch a i o n v) (RFetch b i o n v)
| SM_agg a b i ms es rs v : same_but_map a b -> same_but_mapping (RAgg a i ms es rs v) (RAgg b i ms es rs v)
| SM_sort a b i ss v : same_but_map a b -> same_but_mapping (RSort a i ss v) (RSort b i ss v)
| SM_filter a b i e v : same_but_map a b -> same_but_mapping (RFilter a i e v) (RFilter b i e v)
| SM_set a b is op v : same_but_map a b -> same_but_mapping (RSet a is op v) (RSet b is op v)
| SM_ext1 a b i d : same_but_map a b -> same_but_mapping (RExt1 a i d) (RExt1 b i d)
| SM_ext0 a b d : same_but_map a b -> same_but_mapping (RExt0 a d) (RExt0 b d)
| SM_extN a b is d : same_but_map a b -> same_but_mapping (RExtN a is d) (RExtN b is d)
| SM_hash a b l r ks p jt v : same_but_map a b -> same_but_mapping (RHash a l r ks p jt v) (RHash b l r ks p jt v)
| SM_merge a b l r ks p jt v : same_but_map a b -> same_but_mapping (RMerge a l r ks p jt v) (RMerge b l r ks p jt v)
| SM_write a b ns w sc op i md : same_but_map a b -> same_but_mapping (RWrite a ns w sc op i md) (RWrite b ns w sc op i md).

Definition unmapped (r : rel) : Prop := c_map (common_of r) = None.

(** a read or an extension without inputs *)
Definition leaf (r : rel) : Prop := (exists c b k, r = RRead c b k) \/ (exists c d, r = RExt0 c d).

(** a condition: its type is boolean, whatever its nullability *)
Definition typed (e : expr rel) : Prop := exists t, expr_type rel_type e = Ok t.
Definition boolean (e : expr rel) : Prop := exists n, expr_type rel_type e = Ok (XTy (TPrim PrimBool n 0)).
Definition has_type_rel (r : rel) : Prop := exists t, rel_type r = Ok t.

(** ** C30, C52: output schemas *)

(** The columns of a join.  The numbers are those of the Substrait join types. *)
Definition nullables (l l' : list xtype) : Prop :=
  Forall2 (fun t t' => x_with_nullability NullNullable t = Ok t') l l'.
Inductive join_columns : Z -> list xtype -> list xtype -> list xtype -> Prop :=
| JC_inner l r : join_columns 1 l r (l ++ r)
| JC_outer l r l' r' : nullables l l' -> nullables r r' -> join_columns 2 l r (l' ++ r')
| JC_left l r r' : nullables r r' -> join_columns 3 l r (l ++ r')
| JC_right l r l' : nullables l l' -> join_columns 4 l r (l' ++ r)
| JC_left_semi l r : join_columns 5 l r l
| JC_left_anti l r : join_columns 6 l r l
| JC_left_single l r r' : nullables r r' -> join_columns 7 l r (l ++ r')
| JC_right_semi l r : join_columns 8 l r r
| JC_right_anti l r : join_columns 9 l r r
| JC_right_single l r l' : nullables l l' -> join_columns 10 l r (l' ++ r).

(** the columns of an aggregate: the grouping columns of every set, then the measures *)
Definition group_columns (type_of : expr rel -> res xtype) (es : list (expr rel)) (g : list Z)
  (out : list xtype) : Prop :=
  Forall2 (fun i t => exists e, 0 <= i /\ nth_error es (Z.to_nat i) = Some e /\ type_of e = Ok t) g out.
Definition measure_column (m : measure rel) (t : xtype) : Prop :=
  exists f, ms_fn m = Some f /\ t = XTy (ag_out f).

(** the columns of a relation before its output mapping, given those of its inputs *)
Inductive direct_columns : rel -> list xtype -> Prop :=
| DC_read c b k : direct_columns (RRead c b k) (sc_types (rb_schema b))
| DC_project c i es v l ts : rel_type i = Ok l -> Forall2 (fun e t => expr_type rel_type e = Ok t) es ts ->
    direct_columns (RProject c i es v) (l ++ ts)
| DC_join_left c l r e p jt v out : In jt [5; 6] -> rel_type l = Ok out ->
    direct_columns (RJoin c l r e p jt v) out
| DC_join_right c l r e p jt v out : In jt [8; 9] -> rel_type r = Ok out ->
    direct_columns (RJoin c l r e p jt v) out
| DC_join c l r e p jt v lt rt out : In jt [1; 2; 3; 4; 7; 10] -> rel_type l = Ok lt -> rel_type r = Ok rt ->
    join_columns jt lt rt out -> direct_columns (RJoin c l r e p jt v) out
| DC_join_other c l r e p jt v : (jt < 1 \/ 10 < jt) -> direct_columns (RJoin c l r e p jt v) []
| DC_cross c l r v lt rt : rel_type l = Ok lt -> rel_type r = Ok rt -> direct_columns (RCross c l r v) (lt ++ rt)
| DC_hash c l r ks p jt v lt rt : rel_type l = Ok lt -> rel_type r = Ok rt ->
    direct_columns (RHash c l r ks p jt v) (lt ++ rt)
| DC_merge c l r ks p jt v lt rt : rel_type l = Ok lt -> rel_type r = Ok rt ->
    direct_columns (RMerge c l r ks p jt v) (lt ++ rt)
| DC_fetch c i o n v out : rel_type i = Ok out -> direct_columns (RFetch c i o n v) out
| DC_sort c i ss v out : rel_type i = Ok out -> direct_columns (RSort c i ss v) out
| DC_filter c i e v out : rel_type i = Ok out -> direct_columns (RFilter c i e v) out
| DC_agg c i ms es gs v gcols mcols : Forall2 (group_columns (expr_type rel_type) es) gs gcols ->
    Forall2 measure_column ms mcols -> direct_columns (RAgg c i ms es gs v) (List.concat gcols ++ mcols)
| DC_set c i is op v out : rel_type i = Ok out -> direct_columns (RSet c (i :: is) op v) out
| DC_write_none c ns v sch op i md : md <> 0 -> md <> 2 -> direct_columns (RWrite c ns v sch op i md) []
| DC_write_modified c ns v sch op i : direct_columns (RWrite c ns v sch op i 2) (sc_types sch)
| DC_ext1 c i a out : rel_type i = Ok out -> direct_columns (RExt1 c i (DUndecoded a)) out
| DC_ext0 c a : direct_columns (RExt0 c (DUndecoded a)) []
| DC_extN_one c i a out : rel_type i = Ok out -> direct_columns (RExtN c [i] (DUndecoded a)) out
| DC_extN c is a : List.length is <> 1%nat -> direct_columns (RExtN c is (DUndecoded a)) []
| DC_user1 c i f b out : f [rel_type i] = Ok out -> direct_columns (RExt1 c i (DUser f b)) out
| DC_user0 c f b out : f [] = Ok out -> direct_columns (RExt0 c (DUser f b)) out
| DC_userN c is f b out : f (map rel_type is) = Ok out -> direct_columns (RExtN c is (DUser f b)) out.

(** the builders that take an output mapping and check it against their own columns *)
Inductive remap_builder : (option (list Z) -> res rel) -> Prop :=
| RB_project i es : Forall typed es -> remap_builder (fun m => project_remap i m es)
| RB_cross l r : remap_builder (cross_remap l r)
| RB_fetch i o n : remap_builder (fetch_remap i o n)
| RB_filter i e : (forall r, i = Some r -> unmapped r) -> remap_builder (filter_remap i e)
| RB_join l r e p jt : remap_builder (join_remap l r e p jt)
| RB_scan ns sch : remap_builder (scan_remap ns sch)
| RB_virtual ns rows : remap_builder (fun m => virtual_remap ns m rows)
| RB_sort i ss : remap_builder (fun m => sort_remap i m ss)
| RB_set op is : remap_builder (fun m => set_remap op m is).

(** ** C35, C36: grouping sets *)

(** [g] lists the elements of [refs] at the places [ps] *)
Definition at_places {A} (refs : list A) (ps : list nat) (g : list A) : Prop :=
  Forall2 (fun i x => nth_error refs i = Some x) ps g.
(** [ps] is a non-empty set of places of a list of length [n] *)
Definition places (n : nat) (ps : list nat) : Prop :=
  ps <> [] /\ StronglySorted lt ps /\ Forall (fun i => (i < n)%nat) ps.

(** the grouping sets of a rollup *)
Fixpoint prefixes_longest_first {A} (n : nat) (l : list A) : list (list A) :=
  match n with O => [] | S n' => firstn n l :: prefixes_longest_first n' l end.

(** the expressions a grouping set refers to *)
Definition resolves_to {A} (es : list A) (refs : list Z) (g : list A) : Prop :=
  Forall2 (fun i e => 0 <= i /\ nth_error es (Z.to_nat i) = Some e) refs g.

(** two expression objects of the builder with the same identity are the same expression *)
Definition honest (l : list obj) : Prop :=
  forall a b, In a l -> In b l -> fst a = fst b -> snd a = snd b.

Definition is_blank (o : obj) : Prop := snd o = blank.
Definition same_object (a b : obj) : Prop :=
  (is_blank a /\ is_blank b) \/ (~ is_blank a /\ ~ is_blank b /\ fst a = fst b).
(** no two places hold the same object *)
Definition distinct_objects (l : list obj) : Prop :=
  forall i j a b, nth_error l i = Some a -> nth_error l j = Some b -> same_object a b -> i = j.

(** ** C34: the fields of a record that need a name, depth first *)
Fixpoint x_inner (x : xtype) : list xtype :=
  match x with
  | XTy t => map XTy (TypesSpec.inner_fields t)
  | XStruct _ _ l => flat_map (fun f => f :: x_inner f) l
  | XList _ _ e => x_inner e
  | XMap _ _ k v => x_inner k ++ x_inner v
  | _ => []
  end%list.
Definition x_named (l : list xtype) : list xtype := flat_map (fun f => f :: x_inner f) l.

(** the calls on an aggregate builder that touch its expressions and grouping sets *)
Inductive agg_call :=
| CallExpr (e : obj) | CallCube (refs : list Z) | CallRollup (refs : list Z) | CallSet (refs : list Z).

(** ** C43 *)
(** expression [e] of type [t'] fits a column of type [t] *)
Definition fits (t : xtype) (e : expr rel) : Prop :=
  t <> XNil /\ exists t', expr_type rel_type e = Ok t' /\ x_equals t t' = Ok true.
