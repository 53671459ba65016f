(** Specification vocabulary for parameter bindings (C37) and expression rewriting (C38).
    Nothing here uses the functions that walk or rewrite relations. *)

From Coq Require Import List ZArith String Bool Arith.
From Verif Require Import Base TypesModel LitModel ExprModel PlanModel ExprSpec.
Import ListNotations.
Local Open Scope Z_scope.

(** ** inputs of a relation *)
Inductive input_of : rel -> rel -> Prop :=
| IO_project c i es v : input_of i (RProject c i es v)
| IO_join_l c l r e p jt v : input_of l (RJoin c l r e p jt v)
| IO_join_r c l r e p jt v : input_of r (RJoin c l r e p jt v)
| IO_cross_l c l r v : input_of l (RCross c l r v)
| IO_cross_r c l r v : input_of r (RCross c l r v)
| IO_fetch c i o n v : input_of i (RFetch c i o n v)
| IO_agg c i ms es gs v : input_of i (RAgg c i ms es gs v)
| IO_sort c i ss v : input_of i (RSort c i ss v)
| IO_filter c i e v : input_of i (RFilter c i e v)
| IO_set c is op v i : In i is -> input_of i (RSet c is op v)
| IO_ext1 c i d : input_of i (RExt1 c i d)
| IO_extN c is d i : In i is -> input_of i (RExtN c is d)
| IO_hash_l c l r ks p jt v : input_of l (RHash c l r ks p jt v)
| IO_hash_r c l r ks p jt v : input_of r (RHash c l r ks p jt v)
| IO_merge_l c l r ks p jt v : input_of l (RMerge c l r ks p jt v)
| IO_merge_r c l r ks p jt v : input_of r (RMerge c l r ks p jt v)
| IO_write c ns v sch op i md : input_of i (RWrite c ns v sch op i md).

(** ** C37 *)

(** [x] is [e] or lies inside [e] (through function arguments, conditions, operands,
    fields, lambda bodies; not through the relations of subqueries, references, partitions
    and sort fields of window functions) *)
Inductive occurs : expr rel -> expr rel -> Prop :=
| Oc_self e : e <> blank -> occurs e e
| Oc_inside e c shown x : In (c, shown) (slots e) -> occurs c x -> occurs e x.

(** the expressions of a relation that are searched *)
Inductive searched : rel -> expr rel -> Prop :=
| Se_filter c i e v : searched (RFilter c i e v) e
| Se_project c i es v e : In e es -> searched (RProject c i es v) e
| Se_join c l r e p jt v : searched (RJoin c l r e p jt v) e
| Se_post c l r e p jt v : searched (RJoin c l r e p jt v) p
| Se_sort c i ss v e k : In (e, k) ss -> searched (RSort c i ss v) e.

(** parameter [k] is used with type [t] *)
Inductive uses : rel -> Z -> ty -> Prop :=
| U_here r e t k : searched r e -> occurs e (EParam t k) -> uses r k t
| U_below r i t k : input_of i r -> uses i k t -> uses r k t.

(** the value of a binding has type [t], whatever its nullability *)
Definition value_of_type (l : lit) (t : ty) : Prop :=
  exists u, lit_type l = Ok u /\
    type_equals (with_nullability NullUnspecified u) (with_nullability NullUnspecified t) = Ok true.

(** a switch has no nil case keys, at any depth (a nil key makes the walk panic) *)
Inductive keyed : expr rel -> Prop :=
| Keyed e : (forall m ifs els, e = ESwitch m ifs els -> Forall (fun p => fst p <> LNil) ifs) ->
    (forall c shown, In (c, shown) (slots e) -> keyed c) -> keyed e.

(** ** C38 *)

Definition shown (x : expr rel) : expr rel * bool := (x, true).
Definition measure_slots (m : measure rel) : list (expr rel * bool) :=
  shown (ms_filter m) :: match ms_fn m with Some g => flat_map arg_slots (ag_args g) | None => [] end.
(** the expressions of a relation that a rewrite replaces, in the order they are shown to
    the rewrite function *)
Definition rel_slots (r : rel) : list (expr rel * bool) :=
  match r with
  | RRead _ b _ => [shown (rb_filter b); shown (rb_best b)]
  | RProject _ _ es _ => map shown es
  | RJoin _ _ _ e p _ _ => [shown e; shown p]
  | RHash _ _ _ _ p _ _ | RMerge _ _ _ _ p _ _ => [shown p]
  | RAgg _ _ ms es _ _ => map shown es ++ flat_map measure_slots ms
  | RSort _ _ ss _ => map (fun p => shown (fst p)) ss
  | RFilter _ _ e _ => [shown e]
  | _ => []
  end%list.
Definition measure_shell (m : measure rel) : measure rel :=
  Measure (option_map (fun g => AggF (ag_ref g) (ag_decl g) (map arg_shell (ag_args g)) (ag_opts g)
             (ag_out g) (ag_phase g) (ag_inv g) (ag_sorts g)) (ms_fn m)) blank.
(** [r] with those expressions blanked and its inputs replaced by a fixed relation: all that
    a rewrite must leave alone *)
Definition nowhere : rel := RExt0 (Common None None None) (DUndecoded None).
Definition rel_shell (r : rel) : rel :=
  match r with
  | RRead c b k => RRead c (RBase (rb_schema b) blank blank (rb_proj b) (rb_adv b)) k
  | RProject c _ es v => RProject c nowhere (map (fun _ => blank) es) v
  | RJoin c _ _ _ _ jt v => RJoin c nowhere nowhere blank blank jt v
  | RCross c _ _ v => RCross c nowhere nowhere v
  | RFetch c _ o n v => RFetch c nowhere o n v
  | RAgg c _ ms es gs v => RAgg c nowhere (map measure_shell ms) (map (fun _ => blank) es) gs v
  | RSort c _ ss v => RSort c nowhere (map (fun p => (blank, snd p)) ss) v
  | RFilter c _ _ v => RFilter c nowhere blank v
  | RSet c _ op v => RSet c [] op v
  | RExt1 c _ d => RExt1 c nowhere d
  | RExt0 c d => RExt0 c d
  | RExtN c _ d => RExtN c [] d
  | RHash c _ _ ks _ jt v => RHash c nowhere nowhere ks blank jt v
  | RMerge c _ _ ks _ jt v => RMerge c nowhere nowhere ks blank jt v
  | RWrite c ns v sch op _ md => RWrite c ns v sch op nowhere md
  end.
(** how many inputs a relation takes; [None] is any number *)
Definition arity (r : rel) : option nat :=
  match r with
  | RRead _ _ _ | RExt0 _ _ => Some 0%nat
  | RSet _ _ _ _ | RExtN _ _ _ => None
  | RJoin _ _ _ _ _ _ _ | RCross _ _ _ _ | RHash _ _ _ _ _ _ _ | RMerge _ _ _ _ _ _ _ => Some 2%nat
  | _ => Some 1%nat
  end.

(** the rewrite function is called once per shown slot, in order; [ys] are its answers (the
    expression itself where it is not called, or answers with its argument), [ch] tells
    whether any answer differs from what was there *)
Section Answers.
Context {A : Type}.
Variable rw : expr rel -> A -> res (option (expr rel) * A).
Inductive answers : A -> list (expr rel * bool) -> list (expr rel) -> bool -> A -> Prop :=
| An_end st : answers st [] [] false st
| An_hidden st x l ys ch st' : answers st l ys ch st' -> answers st ((x, false) :: l) (x :: ys) ch st'
| An_same st x st1 l ys ch st' :
    rw x st = Ok (None, st1) -> answers st1 l ys ch st' -> answers st ((x, true) :: l) (x :: ys) ch st'
| An_answer st x y st1 l ys ch st' :
    rw x st = Ok (Some y, st1) -> answers st1 l ys ch st' ->
    ~ (x = blank /\ y = blank) -> answers st ((x, true) :: l) (y :: ys) true st'
| An_nil st st1 l ys ch st' :
    rw blank st = Ok (Some blank, st1) -> answers st1 l ys ch st' ->
    answers st ((blank, true) :: l) (blank :: ys) ch st'.
(** ... or it fails at one of them *)
Inductive fails : A -> list (expr rel * bool) -> res unit -> Prop :=
| Fa_here st x l : rw x st = Err -> fails st ((x, true) :: l) Err
| Fa_panic st x l : rw x st = Panic -> fails st ((x, true) :: l) Panic
| Fa_hidden st x l o : fails st l o -> fails st ((x, false) :: l) o
| Fa_later st x y st1 l o : rw x st = Ok (y, st1) -> fails st1 l o -> fails st ((x, true) :: l) o.
End Answers.
