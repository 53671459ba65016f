(** Specification vocabulary for the slices behind output mappings (C39) and record types
    (C40): what a heap of arrays is, not how it is changed. *)

From Coq Require Import List ZArith Bool Arith.
From Verif Require Import Base TypesModel ExprModel PlanModel PlanAliasModel PlanSpec.
Import ListNotations.

Section Heap.
Context {A : Type}.
(** the cells a slice sees, one by one *)
Definition cell (h : heap A) (v : sl) (i : nat) : option A :=
  match nth_error h (sl_arr v) with
  | Some arr => nth_error arr (sl_off v + i)
  | None => None
  end.
Definition shows (h : heap A) (s : slice) (l : list A) : Prop :=
  match s with
  | None => l = []
  | Some v => List.length l = sl_len v /\ forall i, i < sl_len v -> nth_error l i = cell h v i
  end.
(** the slice lies inside its array *)
Definition valid (h : heap A) (s : slice) : Prop :=
  match s with
  | None => True
  | Some v => exists arr, nth_error h (sl_arr v) = Some arr /\
                sl_len v <= sl_cap v /\ sl_off v + sl_cap v <= List.length arr
  end.
(** every array of [h] is in [h'] as it was *)
Definition untouched (h h' : heap A) : Prop :=
  forall a arr, nth_error h a = Some arr -> nth_error h' a = Some arr.
(** no room behind the last element *)
Definition tight (s : slice) : Prop :=
  match s with None => True | Some v => sl_len v = sl_cap v end.
End Heap.

(** any number of assignments through a slice *)
Fixpoint writes {A} (h : heap A) (s : slice) (ws : list (nat * A)) : res (heap A) :=
  match ws with
  | [] => Ok h
  | (i, y) :: ws' => let! h1 := write h s i y in writes h1 s ws'
  end.

(** the columns a relation should have, given the contents of the stored slices *)
Definition mapped_columns (m : option (list Z)) (cols out : list xtype) : Prop :=
  match m with None => out = cols | Some l => picks l cols out end.
Inductive has_columns (h : heap xtype) : arel -> list xtype -> Prop :=
| HC_stored m s cols out : shows h s cols -> mapped_columns m cols out -> has_columns h (AStored m s) out
| HC_fresh m ts out : mapped_columns m ts out -> has_columns h (AFresh m ts) out
| HC_project m i ts cols out : has_columns h i cols -> mapped_columns m (cols ++ ts) out ->
    has_columns h (AProject m i ts) out
| HC_through m i cols out : has_columns h i cols -> mapped_columns m cols out -> has_columns h (AThrough m i) out
| HC_cat m l r lt rt out : has_columns h l lt -> has_columns h r rt -> mapped_columns m (lt ++ rt) out ->
    has_columns h (ACat m l r) out
| HC_join_left m jt l r cols out : In jt [5; 6]%Z -> has_columns h l cols -> mapped_columns m cols out ->
    has_columns h (AJoin m jt l r) out
| HC_join_right m jt l r cols out : In jt [8; 9]%Z -> has_columns h r cols -> mapped_columns m cols out ->
    has_columns h (AJoin m jt l r) out
| HC_join m jt l r lt rt cols out : In jt [1; 2; 3; 4; 7; 10]%Z -> has_columns h l lt -> has_columns h r rt ->
    join_columns jt lt rt cols -> mapped_columns m cols out -> has_columns h (AJoin m jt l r) out
| HC_join_other m jt l r out : (jt < 1 \/ 10 < jt)%Z -> mapped_columns m [] out -> has_columns h (AJoin m jt l r) out.

(** the layouts for which computing a record type is harmless: no stored schema has room
    behind it, and the right side of an outer join has columns *)
Inductive safe (h : heap xtype) : arel -> Prop :=
| Sf_stored m s : valid h s -> tight s -> safe h (AStored m s)
| Sf_fresh m ts : safe h (AFresh m ts)
| Sf_project m i ts : safe h i -> safe h (AProject m i ts)
| Sf_through m i : safe h i -> safe h (AThrough m i)
| Sf_cat m l r : safe h l -> safe h r -> safe h (ACat m l r)
| Sf_join m jt l r : safe h l -> safe h r -> (jt = 2%Z -> ~ has_columns h r []) -> safe h (AJoin m jt l r).

(** a relation whose stored schemas are these slices; extensions with code of their own are
    left out *)
Inductive layout (h : heap xtype) : rel -> arel -> Prop :=
| LY_read c b k s : shows h s (sc_types (rb_schema b)) -> layout h (RRead c b k) (AStored (c_map c) s)
| LY_project c i es v a ts : layout h i a -> Forall2 (fun e t => expr_type rel_type e = Ok t) es ts ->
    layout h (RProject c i es v) (AProject (c_map c) a ts)
| LY_join c l r e p jt v a b : layout h l a -> layout h r b -> layout h (RJoin c l r e p jt v) (AJoin (c_map c) jt a b)
| LY_cross c l r v a b : layout h l a -> layout h r b -> layout h (RCross c l r v) (ACat (c_map c) a b)
| LY_hash c l r ks p jt v a b : layout h l a -> layout h r b -> layout h (RHash c l r ks p jt v) (ACat (c_map c) a b)
| LY_merge c l r ks p jt v a b : layout h l a -> layout h r b -> layout h (RMerge c l r ks p jt v) (ACat (c_map c) a b)
| LY_fetch c i o n v a : layout h i a -> layout h (RFetch c i o n v) (AThrough (c_map c) a)
| LY_sort c i ss v a : layout h i a -> layout h (RSort c i ss v) (AThrough (c_map c) a)
| LY_filter c i e v a : layout h i a -> layout h (RFilter c i e v) (AThrough (c_map c) a)
| LY_set c i is op v a : layout h i a -> layout h (RSet c (i :: is) op v) (AThrough (c_map c) a)
| LY_agg c i ms es gs v ts : direct_columns (RAgg c i ms es gs v) ts -> layout h (RAgg c i ms es gs v) (AFresh (c_map c) ts)
| LY_write_none c ns v sch op i md : md <> 0%Z -> md <> 2%Z -> layout h (RWrite c ns v sch op i md) (AStored (c_map c) None)
| LY_write_modified c ns v sch op i s : shows h s (sc_types sch) -> layout h (RWrite c ns v sch op i 2) (AStored (c_map c) s)
| LY_ext1 c i d a : layout h i a -> layout h (RExt1 c i (DUndecoded d)) (AThrough (c_map c) a)
| LY_ext0 c d : layout h (RExt0 c (DUndecoded d)) (AStored (c_map c) None)
| LY_extN_one c i d a : layout h i a -> layout h (RExtN c [i] (DUndecoded d)) (AThrough (c_map c) a)
| LY_extN c is d : List.length is <> 1 -> layout h (RExtN c is (DUndecoded d)) (AStored (c_map c) None).
