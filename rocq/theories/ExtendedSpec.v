(** Specification of extended expressions (C59): which survive being written and read, and
    what a message says. *)

From Coq Require Import ZArith String Bool List.
From Verif Require Import Base FMap TypesModel TypesSpec ExtSetModel ExtSetSpec LoadModel LitModel LitSpec ExprModel ExprSpec
  PlanModel PlanSpec PlanWireSpec PlanTripSpec ExtendedModel.
Import ListNotations.
Local Open Scope Z_scope.

Section Survive.
Variable canon : string -> option string.
Variable c : coll.
Variable s : eset.

(** an expression over the base schema, without subqueries *)
Definition expr_lives (base : list xtype) (e : expr rel) : Prop :=
  survives rel_type canon c (Some base) s (fun _ => False) e.
Definition agg_lives (base : list xtype) (a : aggf rel) : Prop :=
  agg_survives rel_type canon c (Some base) s (fun _ => False) a.

(** an entry is an expression, a measure or empty, never two of these *)
Definition ref_survives (base : list xtype) (r : eref) : Prop :=
  match er_measure r with
  | None => er_expr r = blank \/ expr_lives base (er_expr r)
  | Some m => er_expr r = blank /\ agg_lives base m
  end.
(** the schema survives, and so does every entry *)
Definition extended_survives (x : extended) : Prop :=
  schema_ok (ex_schema x) /\ Forall (ref_survives (sc_types (ex_schema x))) (ex_refs x).
End Survive.

(** what a message says of an entry: its names, and the expression or the measure *)
Definition entry_written (r : eref) (m : peref) : Prop :=
  pr_names m = er_names r /\
  match pr_type m with
  | PER_unset => er_expr r = blank /\ er_measure r = None
  | PER_expr e => er_expr r <> blank /\ expr_to_proto rel_to_proto (er_expr r) = Ok e
  | PER_measure a => er_expr r = blank /\ exists f, er_measure r = Some f /\ agg_to_proto rel_to_proto f = Ok a
  end.
Definition entry_read canon c base (m : peref) (r : eref) : Prop :=
  er_names r = pr_names m /\
  match pr_type m with
  | PER_unset => er_expr r = blank /\ er_measure r = None
  | PER_expr e => er_measure r = None /\
      exists s s', expr_from_proto rel_type None canon c (Some base) e s = Ok (er_expr r, s')
  | PER_measure a => er_expr r = blank /\
      exists f s s', er_measure r = Some f /\ agg_from_proto rel_type None canon c (Some base) a s = Ok (f, s')
  end.

(** every call of an entry is declared in the set *)
Definition entry_declared (c : coll) (s : eset) (r : eref) : Prop :=
  every_call (names (get_scalar c) s) (names (get_window c) s) (fun _ => False) (er_expr r) /\
  match er_measure r with
  | None => True
  | Some m =>
      agg_calls (names (get_scalar c) s) (names (get_window c) s)
        (fun ref d => match d with
                      | Some v => names (get_agg c) s ref v
                      | None => exists v, names (get_agg c) s ref v
                      end) (fun _ => False) m
  end.

(** the operations of an entry *)
Inductive entry_op := Put_expr (e : expr rel) | Put_measure (m : option (aggf rel)).
