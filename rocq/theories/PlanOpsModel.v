(** Model of what is done with relations: copying, remapping, rewriting expressions
    (/repo/plan/relations.go), parameter bindings (/repo/plan/common.go), the builders
    (/repo/plan/builders.go) and plans (/repo/plan/plan.go).  Definitions only. *)

From Coq Require Import List ZArith String Bool Arith.
From Verif Require Import Base FMap TypesModel ExtSetModel LoadModel LitModel ExprModel ExprOpsModel PlanModel.
Import ListNotations.
Local Open Scope Z_scope.

(** ** inputs, copies, mappings *)

(** The [GetInputs] methods: relations.go 136, 756, 916, 1000, 1076, 1211, 1367, 1453, 1548,
    1659, 1724, 1788, 2098, 2215, 2340 *)
Definition get_inputs (r : rel) : list rel :=
  match r with
  | RRead _ _ _ | RExt0 _ _ => []
  | RProject _ i _ _ | RFetch _ i _ _ _ | RAgg _ i _ _ _ _ | RSort _ i _ _ | RFilter _ i _ _
  | RExt1 _ i _ | RWrite _ _ _ _ _ i _ => [i]
  | RJoin _ l r' _ _ _ _ | RCross _ l r' _ | RHash _ l r' _ _ _ _ | RMerge _ l r' _ _ _ _ => [l; r']
  | RSet _ is _ _ | RExtN _ is _ => is
  end.

(** whether [Copy] returns the receiver: relations.go 245, 304, 375, 489, 674, 1728 *)
Definition is_leaf (r : rel) : bool :=
  match r with RRead _ _ _ | RExt0 _ _ => true | _ => false end.

(** The [Copy] methods: relations.go 245, 304, 375, 489, 674, 760, 920, 1004, 1080, 1215,
    1371, 1457, 1552, 1663, 1728, 1792, 2102, 2219, 2344 *)
Definition rel_copy (r : rel) (ins : list rel) : res rel :=
  match r with
  | RRead _ _ _ | RExt0 _ _ => Ok r
  | RProject c _ es adv => match ins with [i] => Ok (RProject c i es adv) | _ => Err end
  | RFetch c _ o n adv => match ins with [i] => Ok (RFetch c i o n adv) | _ => Err end
  | RAgg c _ ms es rs adv => match ins with [i] => Ok (RAgg c i ms es rs adv) | _ => Err end
  | RSort c _ ss adv => match ins with [i] => Ok (RSort c i ss adv) | _ => Err end
  | RFilter c _ e adv => match ins with [i] => Ok (RFilter c i e adv) | _ => Err end
  | RExt1 c _ d => match ins with [i] => Ok (RExt1 c i d) | _ => Err end
  | RWrite c names adv sch op _ mode =>
      match ins with [i] => Ok (RWrite c names adv sch op i mode) | _ => Err end
  | RJoin c _ _ e p jt adv => match ins with [l; r'] => Ok (RJoin c l r' e p jt adv) | _ => Err end
  | RCross c _ _ adv => match ins with [l; r'] => Ok (RCross c l r' adv) | _ => Err end
  | RHash c _ _ ks p jt adv => match ins with [l; r'] => Ok (RHash c l r' ks p jt adv) | _ => Err end
  | RMerge c _ _ ks p jt adv => match ins with [l; r'] => Ok (RMerge c l r' ks p jt adv) | _ => Err end
  | RSet c _ op adv => Ok (RSet c ins op adv)
  | RExtN c _ d => Ok (RExtN c ins d)
  end.

(** common.go 169-175, 177-181 [setMapping], [SetAdvancedExtension] *)
Definition with_common (f : common -> common) (r : rel) : rel :=
  match r with
  | RRead c b k => RRead (f c) b k
  | RProject c i es adv => RProject (f c) i es adv
  | RJoin c l r' e p jt adv => RJoin (f c) l r' e p jt adv
  | RCross c l r' adv => RCross (f c) l r' adv
  | RFetch c i o n adv => RFetch (f c) i o n adv
  | RAgg c i ms es rs adv => RAgg (f c) i ms es rs adv
  | RSort c i ss adv => RSort (f c) i ss adv
  | RFilter c i e adv => RFilter (f c) i e adv
  | RSet c is op adv => RSet (f c) is op adv
  | RExt1 c i d => RExt1 (f c) i d
  | RExt0 c d => RExt0 (f c) d
  | RExtN c is d => RExtN (f c) is d
  | RHash c l r' ks p jt adv => RHash (f c) l r' ks p jt adv
  | RMerge c l r' ks p jt adv => RMerge (f c) l r' ks p jt adv
  | RWrite c names adv sch op i mode => RWrite (f c) names adv sch op i mode
  end.
Definition set_mapping (m : option (list Z)) (r : rel) : rel :=
  with_common (fun c => Common (c_hint c) m (c_adv c)) r.

(** relations.go 162-169 [isSequentialFromZero] *)
Fixpoint sequential_from (i : Z) (l : list Z) : bool :=
  match l with
  | [] => true
  | x :: l' => (x =? i) && sequential_from (i + 1) l'
  end.

(** relations.go 185-195: the new mapping, one checked entry at a time *)
Fixpoint compose_mapping (n : nat) (old : list Z) (m : list Z) : res (list Z) :=
  match m with
  | [] => Ok []
  | i :: m' =>
      if (i <? 0) || (i >=? Z.of_nat n) then Err
      else
        let! x := match old with [] => Ok i | _ => col old i end in
        let! rest := compose_mapping n old m' in
        Ok (x :: rest)
  end.

(** relations.go 172-200 [RemapHelper] behind every [Remap]: the result, and what the
    receiver is afterwards.  A read or an extension leaf is not copied, so it is itself
    given the new mapping. *)
Definition remap_helper (r : rel) (m : list Z) : res (rel * rel) :=
  let! r' := rel_copy r (get_inputs r) in
  let give x := Ok (set_mapping x r', if is_leaf r then set_mapping x r else r) in
  match m with
  | [] => give (Some [])
  | _ =>
      let! t := rel_type r in
      let old := match c_map (common_of r) with Some l => l | None => [] end in
      let! m' := compose_mapping (List.length t) old m in
      let! d := direct_schema r in
      if Nat.eqb (List.length m') (List.length d) && sequential_from 0 m' then give None
      else give (Some m')
  end.

(** successive [Remap] calls, each on the result of the one before *)
Fixpoint remap_all (r : rel) (ms : list (list Z)) : res rel :=
  match ms with
  | [] => Ok r
  | m :: ms' => let! (r', _) := remap_helper r m in remap_all r' ms'
  end.

(** ** rewriting expressions *)

Section Rewrite.
Context {A : Type}.
(** a [RewriteFunc] with its effects as state: an error, or what it answers for an
    expression, [None] standing for the very expression it was given *)
Variable rw : expr rel -> A -> res (option (expr rel) * A).
(** [Equals] between the rewritten and the old expression of a virtual table *)
Variable equals : expr rel -> expr rel -> res bool.

(** [y, err = rewriteFunc(x)] with [y == x] *)
Definition rw1 (x : expr rel) (a : A) : res (expr rel * bool * A) :=
  let! (o, a') := rw x a in
  let '(y, ch) := outcome x o in
  Ok (y, negb ch, a').

(** a loop over expressions: the results and whether all of them are the old ones *)
Fixpoint rw_list (l : list (expr rel)) (a : A) : res (list (expr rel) * bool * A) :=
  match l with
  | [] => Ok ([], true, a)
  | x :: l' =>
      let! (y, same, a1) := rw1 x a in
      let! (ys, same', a2) := rw_list l' a1 in
      Ok (y :: ys, same && same', a2)
  end.

(** relations.go 1325, 1386-1396 *)
Fixpoint rw_sorts (l : list (expr rel * sortkind)) (a : A)
  : res (list (expr rel * sortkind) * bool * A) :=
  match l with
  | [] => Ok ([], true, a)
  | (x, k) :: l' =>
      let! (y, same, a1) := rw1 x a in
      let! (ys, same', a2) := rw_sorts l' a1 in
      Ok ((y, k) :: ys, same && same', a2)
  end.

(** relations.go 1244-1256: the arguments that are expressions *)
Fixpoint rw_args (l : list (farg (expr rel))) (a : A)
  : res (list (farg (expr rel)) * bool * A) :=
  match l with
  | [] => Ok ([], true, a)
  | AExpr x :: l' =>
      if is_nil_expr x then
        let! (ys, same', a2) := rw_args l' a in
        Ok (AExpr x :: ys, same', a2)
      else
        let! (y, same, a1) := rw1 x a in
        let! (ys, same', a2) := rw_args l' a1 in
        Ok (AExpr y :: ys, same && same', a2)
  | x :: l' =>
      let! (ys, same', a2) := rw_args l' a in
      Ok (x :: ys, same', a2)
  end.

(** relations.go 1239-1261 [rewriteAggregateFunc] *)
Definition rw_agg (f : option (aggf rel)) (a : A) : res (option (aggf rel) * bool * A) :=
  match f with
  | None => Ok (None, true, a)
  | Some g =>
      let! (args, same, a1) := rw_args (ag_args g) a in
      Ok (Some (AggF (ag_ref g) (ag_decl g) args (ag_opts g) (ag_out g) (ag_phase g) (ag_inv g)
                  (ag_sorts g)), same, a1)
  end.

(** relations.go 1276-1286 *)
Fixpoint rw_measures (l : list (measure rel)) (a : A) : res (list (measure rel) * bool * A) :=
  match l with
  | [] => Ok ([], true, a)
  | m :: l' =>
      let! (f, s1, a1) := rw1 (ms_filter m) a in
      let! (g, s2, a2) := rw_agg (ms_fn m) a1 in
      let! (ms, s3, a3) := rw_measures l' a2 in
      Ok (Measure g f :: ms, s1 && s2 && s3, a3)
  end.

(** relations.go 319-331: a nil result panics in [Equals]; once something has changed it
    is not called any more *)
Fixpoint rw_row (l : list (expr rel)) (same : bool) (a : A) : res (list (expr rel) * bool * A) :=
  match l with
  | [] => Ok ([], same, a)
  | x :: l' =>
      let! (y, _, a1) := rw1 x a in
      let! same1 := (if same then if is_nil_expr y then Panic else equals y x else Ok false) in
      let! (ys, same2, a2) := rw_row l' same1 a1 in
      Ok (y :: ys, same2, a2)
  end.
Fixpoint rw_rows (l : list (list (expr rel))) (same : bool) (a : A)
  : res (list (list (expr rel)) * bool * A) :=
  match l with
  | [] => Ok ([], same, a)
  | row :: l' =>
      let! (row', same1, a1) := rw_row row same a in
      let! (rows, same2, a2) := rw_rows l' same1 a1 in
      Ok (row' :: rows, same2, a2)
  end.

(** [slices.Equal(newInputs, r.GetInputs())]; a new input comes with whether it is the
    same object as the current input in its place *)
Definition same_inputs (ins : list (rel * bool)) (cur : list rel) : bool :=
  Nat.eqb (List.length ins) (List.length cur) && forallb snd ins.

(** The [CopyWithExpressionRewrite] methods: relations.go 249-260, 308-336, 379-390, 493-500,
    678-689, 769-787, 929-948, 1013-1018, 1089-1097, 1263-1295, 1380-1401, 1466-1481,
    1558-1563, 1672-1677, 1732-1734, 1798-1803, 2111-2126, 2228-2243, 2353-2358.  [None] is
    the receiver itself. *)
Definition rewrite_rel (r : rel) (ins : list (rel * bool)) (a : A) : res (option rel * A) :=
  match r with
  | RRead c b k =>
      let! (f, s1, a1) := rw1 (rb_filter b) a in
      let! (g, s2, a2) := rw1 (rb_best b) a1 in
      if s1 && s2 then Ok (None, a2)
      else
        let b' := RBase (rb_schema b) f g (rb_proj b) (rb_adv b) in
        match k with
        | KVirtual vs =>
            let! (vs', same, a3) := rw_rows vs true a2 in
            Ok (Some (RRead c b' (KVirtual (if same then vs else vs'))), a3)
        | _ => Ok (Some (RRead c b' k), a2)
        end
  | RProject c _ es adv =>
      match ins with
      | [(i, _)] =>
          let! (es', s, a1) := rw_list es a in
          Ok (if s && same_inputs ins (get_inputs r) then None else Some (RProject c i es' adv), a1)
      | _ => Err
      end
  | RJoin c _ _ e p jt adv =>
      match ins with
      | [(l, _); (r', _)] =>
          let! (e', s1, a1) := rw1 e a in
          let! (p', s2, a2) := rw1 p a1 in
          Ok (if (s1 && s2) && same_inputs ins (get_inputs r) then None
              else Some (RJoin c l r' e' p' jt adv), a2)
      | _ => Err
      end
  | RHash c _ _ ks p jt adv =>
      match ins with
      | [(l, _); (r', _)] =>
          let! (p', s1, a1) := rw1 p a in
          Ok (if s1 && same_inputs ins (get_inputs r) then None
              else Some (RHash c l r' ks p' jt adv), a1)
      | _ => Err
      end
  | RMerge c _ _ ks p jt adv =>
      match ins with
      | [(l, _); (r', _)] =>
          let! (p', s1, a1) := rw1 p a in
          Ok (if s1 && same_inputs ins (get_inputs r) then None
              else Some (RMerge c l r' ks p' jt adv), a1)
      | _ => Err
      end
  | RAgg c _ ms es rs adv =>
      match ins with
      | [(i, _)] =>
          let! (es', s1, a1) := rw_list es a in
          let! (ms', s2, a2) := rw_measures ms a1 in
          Ok (if (s1 && s2) && same_inputs ins (get_inputs r) then None
              else Some (RAgg c i ms' es' rs adv), a2)
      | _ => Err
      end
  | RSort c _ ss adv =>
      match ins with
      | [(i, _)] =>
          let! (ss', s1, a1) := rw_sorts ss a in
          Ok (if s1 && same_inputs ins (get_inputs r) then None else Some (RSort c i ss' adv), a1)
      | _ => Err
      end
  | RFilter c _ e adv =>
      match ins with
      | [(i, _)] =>
          let! (e', s1, a1) := rw1 e a in
          Ok (if s1 && same_inputs ins (get_inputs r) then None else Some (RFilter c i e' adv), a1)
      | _ => Err
      end
  | RExt0 _ _ => Ok (None, a)
  | RFetch _ _ _ _ _ | RCross _ _ _ _ | RSet _ _ _ _ | RExt1 _ _ _ | RExtN _ _ _
  | RWrite _ _ _ _ _ _ _ =>
      if same_inputs ins (get_inputs r) then Ok (None, a)
      else let! r' := rel_copy r (map fst ins) in Ok (Some r', a)
  end.
End Rewrite.

(** ** parameters and bindings *)

(** common.go 109-118 [walkExpr]: the expressions [fn] is called with, in order.  Written
    out child by child; PlanRewriteProofs.v shows that it is the recursion through [expr_visit]
    that the code has. *)
Fixpoint walk {R} (e : expr R) : list (expr R) :=
  if is_nil_expr e then []
  else
    e :: match e with
         | ELit _ | ERef _ _ _ | EParam _ _ | ESubScalar _ | ESubSet _ _ => []
         | EScalar _ _ args _ _ | EWindow _ _ args _ _ _ _ _ _ _ _ _ =>
             flat_map (fun a => match a with AExpr x => walk x | _ => [] end) args
         | EIf ifs els => flat_map (fun p => walk (fst p) ++ walk (snd p)) ifs ++ walk els
         | ESwitch m ifs els =>
             walk m ++
             flat_map (fun p => (match fst p with LNil => [] | l => [ELit l] end) ++ walk (snd p)) ifs ++
             walk els
         | EOr v opts => walk v ++ flat_map walk opts
         | EMultiOr v opts => flat_map walk v ++ flat_map (flat_map walk) opts
         | ECast _ x _ => walk x
         | EMap _ _ kvs => flat_map (fun p => walk (fst p) ++ walk (snd p)) kvs
         | EStruct _ _ fs | EList _ _ fs | ESubIn fs _ => flat_map walk fs
         | ELambda _ _ _ b => walk b
         | ESubCmp _ _ l _ => walk l
         end%list.

(** relations.go 868-873: [PostJoinFilter] answers a literal true for a missing filter *)
Definition def_filter : expr rel := ELit (LPrim (VBool true) (TPrim PrimBool NullRequired 0)).

(** common.go 88-106 [walkRelExprs] *)
Definition rel_exprs (r : rel) : list (expr rel) :=
  match r with
  | RFilter _ _ e _ => [e]
  | RProject _ _ es _ => es
  | RJoin _ _ _ e p _ _ => [e; if is_nil_expr p then def_filter else p]
  | RSort _ _ ss _ => map fst ss
  | _ => []
  end.

Definition note_param (m : fmap Z ty) (e : expr rel) : fmap Z ty :=
  match e with EParam out ref => fm_set Z.eqb ref out m | _ => m end.

(** common.go 67-85 [collectDynamicParams] *)
Fixpoint collect (r : rel) (m : fmap Z ty) : fmap Z ty :=
  let own (m1 : fmap Z ty) := fold_left note_param (flat_map walk (rel_exprs r)) m1 in
  match r with
  | RRead _ _ _ | RExt0 _ _ => own m
  | RProject _ i _ _ | RFetch _ i _ _ _ | RAgg _ i _ _ _ _ | RSort _ i _ _ | RFilter _ i _ _
  | RExt1 _ i _ | RWrite _ _ _ _ _ i _ => own (collect i m)
  | RJoin _ l r' _ _ _ _ | RCross _ l r' _ | RHash _ l r' _ _ _ _ | RMerge _ l r' _ _ _ _ =>
      own (collect r' (collect l m))
  | RSet _ is _ _ | RExtN _ is _ => own (fold_left (fun m x => collect x m) is m)
  end.

(** common.go 19-24 [DynamicParameterBinding] *)
Definition binding := (Z * lit)%type.

(** common.go 44-60, one binding *)
Definition check_binding (m : fmap Z ty) (b : binding) : res unit :=
  match fm_get Z.eqb (fst b) m with
  | None => Err
  | Some declared =>
      let! t := lit_type (snd b) in
      let! b := type_equals (with_nullability NullUnspecified t) (with_nullability NullUnspecified declared) in
      if b then Ok tt else Err
  end.
Fixpoint check_bindings (m : fmap Z ty) (bs : list binding) : res unit :=
  match bs with
  | [] => Ok tt
  | b :: bs' => let! _ := check_binding m b in check_bindings m bs'
  end.

(** common.go 35-63 [ValidateParameterBindings] *)
Definition validate_bindings (r : rel) (bs : list binding) : res unit :=
  match bs with
  | [] => Ok tt
  | _ => check_bindings (collect r []) bs
  end.

(** ** builders *)

(** [for _, idx := range remap { if idx < 0 || idx >= noutput { return err } }] *)
Definition check_map (n : nat) (m : option (list Z)) : res unit :=
  if forallb (fun i => (0 <=? i) && (i <? Z.of_nat n)) (match m with Some l => l | None => [] end)
  then Ok tt else Err.
Definition mapped (m : option (list Z)) : common := Common None m None.

(** [input == nil] *)
Definition nonnil {X} (o : option X) : res X := match o with Some x => Ok x | None => Err end.

(** [!e.GetType().WithNullability(Unspecified).Equals(&BooleanType{})] *)
Definition check_bool (e : expr rel) : res unit :=
  let! t := expr_type rel_type e in
  let! t' := x_with_nullability NullUnspecified t in
  let! b := x_equals t' (XTy (TPrim PrimBool 0 0)) in
  if b then Ok tt else Err.

(** builders.go 278-299 *)
Definition project_remap (input : option rel) (m : option (list Z)) (es : list (expr rel)) : res rel :=
  let! i := nonnil input in
  match es with
  | [] => Err
  | _ =>
      let! t := rel_type i in
      let! _ := check_map (List.length t + List.length es) m in
      Ok (RProject (mapped m) i es None)
  end.

(** builders.go 338-358, 500-520 *)
Definition write_remap (input : option rel) (op mode : Z) (m : option (list Z)) (names : list string)
  (sch : schema) : res rel :=
  let! i := nonnil input in
  let! t := rel_type i in
  let! _ := check_map (List.length t) m in
  Ok (RWrite (mapped m) names None sch op i mode).
Definition create_table_remap input m names sch := write_remap input OpCTAS ModeModified m names sch.
Definition named_write_remap input op names sch m := write_remap input op ModeNoOutput m names sch.

(** builders.go 364-380 *)
Definition cross_remap (lhs rhs : option rel) (m : option (list Z)) : res rel :=
  let! l := nonnil lhs in
  let! r := nonnil rhs in
  let! lt := rel_type l in
  let! rt := rel_type r in
  let! _ := check_map (List.length lt + List.length rt) m in
  Ok (RCross (mapped m) l r None).

(** builders.go 386-403 *)
Definition fetch_remap (input : option rel) (offset count : Z) (m : option (list Z)) : res rel :=
  let! i := nonnil input in
  let! t := rel_type i in
  let! _ := check_map (List.length t) m in
  Ok (RFetch (mapped m) i offset count None).

(** builders.go 409-438: the bound is the width of the input before its own mapping *)
Definition filter_remap (input : option rel) (cond : expr rel) (m : option (list Z)) : res rel :=
  let! i := nonnil input in
  if is_nil_expr cond then Err
  else
    let! _ := check_bool cond in
    let! t := direct_schema i in
    let! _ := check_map (List.length t) m in
    Ok (RFilter (mapped m) i cond None).

(** builders.go 444-486 *)
Definition join_remap (lhs rhs : option rel) (cond post : expr rel) (jt : Z) (m : option (list Z)) : res rel :=
  let! l := nonnil lhs in
  let! r := nonnil rhs in
  if is_nil_expr cond then Err
  else
    let! _ := check_bool cond in
    if jt =? JoinUnspecified then Err
    else
      let! _ := (if is_nil_expr post then Ok tt else check_bool post) in
      let out := RJoin (mapped m) l r cond post jt None in
      let! t := direct_schema out in
      let! _ := check_map (List.length t) m in
      Ok out.

(** builders.go 534-552 *)
Definition scan_remap (names : list string) (sch : schema) (m : option (list Z)) : res rel :=
  let! _ := check_map (List.length (sc_types sch)) m in
  Ok (RRead (mapped m) (RBase sch nil_expr nil_expr None None) (KNamed names None)).

(** builders.go 599-606: every row after the first is compared with the column types of
    the first; a nil type or a column too many panics, a short row is not noticed *)
Fixpoint check_row (ts : list xtype) (row : list (expr rel)) : res unit :=
  match row with
  | [] => Ok tt
  | e :: row' =>
      match ts with
      | [] => Panic
      | t :: ts' =>
          let! t' := expr_type rel_type e in
          match t with
          | XNil => Panic
          | _ => let! b := x_equals t t' in if b then check_row ts' row' else Err
          end
      end
  end.
Fixpoint check_rows (ts : list xtype) (rows : list (list (expr rel))) : res unit :=
  match rows with
  | [] => Ok tt
  | row :: rows' => let! _ := check_row ts row in check_rows ts rows'
  end.

(** builders.go 576-623 *)
Definition virtual_remap (names : list string) (m : option (list Z)) (rows : list (list (expr rel))) : res rel :=
  match rows with
  | [] => Err
  | row :: rest =>
      if negb (Nat.eqb (List.length row) (List.length names)) then Err
      else
        let! _ := check_map (List.length names) m in
        let! ts := mapM (expr_type rel_type) row in
        let! _ := check_rows ts rest in
        Ok (RRead (mapped m)
              (RBase (Schema names NullRequired 0 ts) nil_expr nil_expr None None) (KVirtual rows))
  end.
(** builders.go 559-570 *)
Definition virtual_lits_remap (names : list string) (m : option (list Z)) (rows : list (list lit)) : res rel :=
  virtual_remap names m (map (map ELit) rows).
(** builders.go 629-642 *)
Definition empty_virtual (names : list string) (ts : list xtype) : rel :=
  RRead zero_common (RBase (Schema names NullRequired 0 ts) nil_expr nil_expr None None) (KVirtual []).
(** builders.go 644-651 *)
Definition extension_table (d : any) (sch : schema) : rel :=
  RRead zero_common (RBase sch nil_expr nil_expr None None) (KExtTable d).
(** builders.go 653-671; a snapshot is an id or a timestamp *)
Definition iceberg_table (uri : string) (sn : option (string + Z)) (sch : schema) : rel :=
  RRead zero_common (RBase sch nil_expr nil_expr None None)
    (KIceberg (match sn with
               | None => Direct uri 0 ""
               | Some (inl id) => Direct uri 0 id
               | Some (inr ts) => Direct uri ts ""
               end)).

(** builders.go 673-694 *)
Definition sort_remap (input : option rel) (m : option (list Z)) (ss : list (expr rel * sortkind)) : res rel :=
  let! i := nonnil input in
  let! t := rel_type i in
  let! _ := check_map (List.length t) m in
  match ss with
  | [] => Err
  | _ => Ok (RSort (mapped m) i ss None)
  end.

(** [for _, in := range inputs[1:] { t := in.RecordType(); if !output.Equals(&t) ... }] *)
Fixpoint all_equal_from (output : list xtype) (l : list rel) : res unit :=
  match l with
  | [] => Ok tt
  | r :: l' =>
      let! t := rel_type r in
      let! b := record_eq output t in
      if b then all_equal_from output l' else Err
  end.

(** builders.go 712-750 *)
Definition set_remap (op : Z) (m : option (list Z)) (inputs : list (option rel)) : res rel :=
  if op =? 0 then Err
  else if Nat.ltb (List.length inputs) 2 then Err
  else
    let! is := mapM nonnil inputs in
    match is with
    | [] => Panic
    | i :: rest =>
        let! output := rel_type i in
        let! _ := check_map (List.length output) m in
        let! _ := all_equal_from output rest in
        Ok (RSet (mapped m) is op None)
    end.

(** builders.go 1033-1080 *)
Definition extension_single (input : option rel) (d : option extdef) : res rel :=
  let! i := nonnil input in let! d' := nonnil d in Ok (RExt1 zero_common i d').
Definition extension_leaf (d : option extdef) : res rel :=
  let! d' := nonnil d in Ok (RExt0 zero_common d').
Definition extension_multi (inputs : list (option rel)) (d : option extdef) : res rel :=
  match inputs with
  | [] => Err
  | _ => let! is := mapM nonnil inputs in let! d' := nonnil d in Ok (RExtN zero_common is d')
  end.

(** builders.go 243-261.  The bound lets an index equal to the number of fields through;
    [seg_type] then refuses it. *)
Definition ref_at (base : list xtype) (i : Z) : res (expr rel) :=
  if (i <? 0) || (i >? Z.of_nat (List.length base)) then Err
  else new_field_ref rel_type RRoot (RefSeg [SField i]) (Some base).
Definition root_field_ref (input : rel) (i : Z) : res (expr rel) :=
  let! base := rel_type input in ref_at base i.
Definition joined_field_ref (lhs rhs : rel) (i : Z) : res (expr rel) :=
  let! l := rel_type lhs in let! r := rel_type rhs in ref_at (l ++ r)%list i.

(** builders.go 700-710; SortAscNullsLast is 2 *)
Definition sort_fields (input : rel) (is : list Z) : res (list (expr rel * sortkind)) :=
  mapM (fun i => let! e := root_field_ref input i in Ok (e, SK_dir 2)) is.

(** *** subqueries: builders.go 949-1031 *)
Definition in_subquery (needles : list (expr rel)) (haystack : option rel) : res (expr rel) :=
  let! h := nonnil haystack in
  match needles with
  | [] => Err
  | _ =>
      if existsb is_nil_expr needles then Err
      else
        let! t := rel_type h in
        if Nat.eqb (List.length needles) (List.length t) then Ok (ESubIn needles h) else Err
  end.
Definition set_subquery (input : option rel) (op : Z) : res (expr rel) :=
  let! i := nonnil input in if op =? 0 then Err else Ok (ESubSet op i).
Definition scalar_subquery (input : option rel) : res (expr rel) :=
  let! i := nonnil input in Ok (ESubScalar i).
Definition cmp_subquery (lhs : expr rel) (rhs : option rel) (red cmp : Z) : res (expr rel) :=
  if red =? 0 then Err
  else if cmp =? 0 then Err
  else if is_nil_expr lhs then Err
  else let! r := nonnil rhs in Ok (ESubCmp red cmp lhs r).

(** *** aggregates: builders.go 815-947 *)

(** An expression held by the builder: which object it is, and its value. *)
Definition obj := (nat * expr rel)%type.
Definition same_obj (a b : obj) : bool :=
  if is_nil_expr (snd a) || is_nil_expr (snd b) then is_nil_expr (snd a) && is_nil_expr (snd b)
  else Nat.eqb (fst a) (fst b).

Record agg_builder := AggBuilder {
  ab_input : option rel; ab_measures : list (measure rel);
  ab_exprs : list obj; ab_refs : list (list Z) }.

(** builders.go 818-820 *)
Definition new_agg_builder (input : option rel) (ms : list (measure rel)) : agg_builder :=
  AggBuilder input ms [] [].

(** builders.go 830-839 *)
Fixpoint find_obj (e : obj) (i : Z) (l : list obj) : option Z :=
  match l with
  | [] => None
  | x :: l' => if same_obj x e then Some i else find_obj e (i + 1) l'
  end.
Definition add_expression (e : obj) (b : agg_builder) : agg_builder * Z :=
  match find_obj e 0 (ab_exprs b) with
  | Some i => (b, i)
  | None =>
      (AggBuilder (ab_input b) (ab_measures b) (ab_exprs b ++ [e])%list (ab_refs b),
       Z.of_nat (List.length (ab_exprs b)))
  end.

Definition add_groups (gs : list (list Z)) (b : agg_builder) : agg_builder :=
  AggBuilder (ab_input b) (ab_measures b) (ab_exprs b) (ab_refs b ++ gs)%list.

(** builders.go 865-875 [extractGroup] *)
Fixpoint extract_group (refs : list Z) (bit : nat) (k : nat) : list Z :=
  match refs with
  | [] => []
  | x :: refs' =>
      if Nat.testbit k bit then x :: extract_group refs' (S bit) k else extract_group refs' (S bit) k
  end.
Definition max_grouping : nat := 20.
(** builders.go 847-863 [AddCube] *)
Definition add_cube (refs : list Z) (b : agg_builder) : res agg_builder :=
  if Nat.ltb max_grouping (List.length refs) then Err
  else Ok (add_groups (map (extract_group refs 0) (seq 1 (2 ^ List.length refs - 1))) b).
(** builders.go 878-883 [AddRollup] *)
Definition add_rollup (refs : list Z) (b : agg_builder) : agg_builder :=
  add_groups (map (fun i => firstn i refs) (rev (seq 1 (List.length refs)))) b.
(** builders.go 886-888 *)
Definition add_grouping_set (refs : list Z) (b : agg_builder) : agg_builder := add_groups [refs] b.
(** builders.go 890-901 *)
Definition replace_input (r : option rel) (b : agg_builder) : agg_builder :=
  AggBuilder r (ab_measures b) (ab_exprs b) (ab_refs b).
Definition clear_measures (b : agg_builder) : agg_builder :=
  AggBuilder (ab_input b) [] (ab_exprs b) (ab_refs b).
Definition clear_grouping (b : agg_builder) : agg_builder :=
  AggBuilder (ab_input b) (ab_measures b) [] [].

(** builders.go 919-947 [validate] *)
Definition validate_agg (b : agg_builder) : bool :=
  match ab_input b with None => false | Some _ => true end &&
  negb (match ab_measures b, ab_refs b with [], [] => true | _, _ => false end) &&
  negb (match ab_measures b, ab_exprs b with [], [] => true | _, _ => false end) &&
  negb (existsb (fun o => is_nil_expr (snd o)) (ab_exprs b)) &&
  forallb (forallb (fun i => i <? Z.of_nat (List.length (ab_exprs b)))) (ab_refs b).

(** builders.go 903-917 [Build] *)
Definition build_agg (b : agg_builder) : res rel :=
  if validate_agg b then
    match ab_input b with
    | Some i => Ok (RAgg zero_common i (ab_measures b) (map snd (ab_exprs b)) (ab_refs b) None)
    | None => Err
    end
  else Err.

(** builders.go 325-336 [AggregateExprs] *)
Fixpoint add_all (g : list obj) (b : agg_builder) : agg_builder * list Z :=
  match g with
  | [] => (b, [])
  | e :: g' => let '(b1, i) := add_expression e b in let '(b2, is) := add_all g' b1 in (b2, i :: is)
  end.
Fixpoint add_sets (gs : list (list obj)) (b : agg_builder) : agg_builder :=
  match gs with
  | [] => b
  | g :: gs' => let '(b1, is) := add_all g b in add_sets gs' (add_grouping_set is b1)
  end.
Definition aggregate_exprs (input : option rel) (ms : list (measure rel)) (gs : list (list obj)) : res rel :=
  build_agg (add_sets gs (new_agg_builder input ms)).

(** builders.go 308-323 [AggregateColumns]; every reference is a new object *)
Definition aggregate_columns (input : option rel) (ms : list (measure rel)) (cols : list Z) : res rel :=
  match cols with
  | [] => build_agg (new_agg_builder input ms)
  | _ =>
      match input with
      | None => Panic
      | Some i =>
          let! refs := mapM (root_field_ref i) cols in
          let '(b, is) := add_all (combine (seq 0 (List.length refs)) refs) (new_agg_builder input ms) in
          build_agg (add_grouping_set is b)
      end
  end.

(** relations.go 1226-1237 [ToBuilder]; the mapping and the extensions are not kept.  [ids]
    are the identities of the grouping expressions. *)
Definition to_builder (r : rel) (ids : list nat) : option agg_builder :=
  match r with
  | RAgg _ i ms es rs _ => Some (AggBuilder (Some i) ms (combine ids es) rs)
  | _ => None
  end.

(** ** plans *)

(** plan.go 82-85 [Relation] *)
Record relation := Relation { rl_root : option (rel * list string); rl_rel : option rel }.

(** plan.go 306-313; the depth first count of a record with nil types: a type that is not
    a struct, list or map counts no names of its own (types.go 1224-1246) *)
Fixpoint x_name_count (x : xtype) : nat :=
  match x with
  | XTy t => nested_name_count t
  | XStruct _ _ l => fold_left (fun n f => (n + 1 + x_name_count f)%nat) l 0%nat
  | XList _ _ e => x_name_count e
  | XMap _ _ k v => (x_name_count k + x_name_count v)%nat
  | _ => 0%nat
  end.
Definition schema_name_count (l : list xtype) : nat :=
  fold_left (fun n f => (n + 1 + x_name_count f)%nat) l 0%nat.
Definition check_root_names (l : list xtype) (names : list string) : res unit :=
  if Nat.eqb (List.length names) (schema_name_count l) then Ok tt else Err.

(** builders.go 783-785: [relations[i].rel = o] *)
Fixpoint put_others (i : nat) (others : list rel) (l : list relation) : list relation :=
  match others with
  | [] => l
  | o :: others' =>
      put_others (S i) others'
        (match nth_error l i with
         | Some r => set_nth i (Relation (rl_root r) (Some o)) l
         | None => l
         end)
  end.

(** plan.go 153-162 [Plan], without its registry; the extension set is kept apart *)
Record plan := Plan {
  pl_version : option opaque; pl_adv : option opaque; pl_urls : list string;
  pl_relations : list relation; pl_bindings : list binding }.

(** builders.go 764-797 [PlanWithBindings]; [version] is [CurrentVersion] *)
Definition plan_with_bindings (version : opaque) (r : option rel) (names : list string)
  (urls : list string) (bs : list binding) (others : list rel) : res plan :=
  let! r := nonnil r in
  let! t := rel_type r in
  let! _ := check_root_names t names in
  let! _ := validate_bindings r bs in
  Ok (Plan (Some version) None urls
        (put_others 0 others
           (Relation (Some (r, names)) None :: repeat (Relation None None) (List.length others))) bs).

(** plan.go 200-218 *)
Definition get_roots (p : plan) : list (rel * list string) :=
  flat_map (fun r => match rl_root r with Some x => [x] | None => [] end) (pl_relations p).
Definition get_non_roots (p : plan) : list (option rel) :=
  flat_map (fun r => match rl_root r with Some _ => [] | None => [rl_rel r] end) (pl_relations p).

(** messages [proto.PlanRel], [proto.Plan] *)
Inductive pplanrel := PPR_unset | PPR_rel (r : prel) | PPR_root (r : prel) (names : list string).
Record pplan := PPlan {
  pp_version : option opaque; pp_adv : option opaque; pp_urls : list string;
  pp_relations : list pplanrel; pp_urns : list urn_msg; pp_decls : list decl_msg;
  pp_bindings : list (Z * plit) }.

(** plan.go 130-136, 348-357; relations.go [ToProtoPlanRel] *)
Definition relation_to_proto (r : relation) : res pplanrel :=
  match rl_root r with
  | Some (i, names) => let! m := rel_to_proto i in Ok (PPR_root m names)
  | None =>
      match rl_rel r with
      | Some i => let! m := rel_to_proto i in Ok (PPR_rel m)
      | None => Panic
      end
  end.

(** plan.go 274-301; [ext] is what [ExtensionsToProto] answers for the set of the plan *)
Definition plan_to_proto (p : plan) (ext : res (list urn_msg * list decl_msg)) : res pplan :=
  let! (us, ds) := ext in
  let! rs := mapM relation_to_proto (pl_relations p) in
  let! bs := mapM (pairM (fun a => Ok a) lit_to_proto) (pl_bindings p) in
  Ok (PPlan (pl_version p) (pl_adv p) (pl_urls p) rs us ds bs).

(** plan.go 319-334 [isRecordTypeSupported] *)
Definition undecoded (d : extdef) : bool := match d with DUndecoded _ => true | _ => false end.
Definition type_supported (r : rel) : bool :=
  match r with
  | RExt1 _ _ d | RExt0 _ d | RExtN _ _ d => negb (undecoded d)
  | RWrite _ _ _ _ _ _ _ => false
  | _ => true
  end.

Section ReadPlan.
Variable canon : string -> option string.
Variable c : coll.
Variable decoders : string -> option (any -> res extdef).

(** plan.go 87-120 [Relation.FromProto] *)
Definition relation_from_proto (m : pplanrel) (s : eset) : res (relation * eset) :=
  match m with
  | PPR_unset => Err
  | PPR_rel r =>
      let! (i, s1) := rel_from_proto canon c decoders r s in Ok (Relation None (Some i), s1)
  | PPR_root r names =>
      let! (i, s1) := rel_from_proto canon c decoders r s in
      let! _ := (if type_supported i then let! t := rel_type i in check_root_names t names
                 else Ok tt) in
      Ok (Relation (Some (i, names)) None, s1)
  end.

(** plan.go 235-272 [FromProtoWithDecoder]; registering the decoders cannot fail here
    (duplicate URLs cannot occur in a Go map) *)
Definition plan_from_proto (m : pplan) : res (plan * eset) :=
  let! s := get_extension_set (urn_loaded c) (pp_urns m) (pp_decls m) in
  let! (rs, s1) := mapS relation_from_proto (pp_relations m) s in
  let! bs := mapM (pairM (fun a => Ok a) lit_from_proto) (pp_bindings m) in
  Ok (Plan (pp_version m) (pp_adv m) (pp_urls m) rs bs, s1).
End ReadPlan.
