(** Specification of whole plans (C53, C54): which plans survive being written and read, what
    a plan message says, and the function calls of a relation. *)

From Coq Require Import ZArith String Bool Arith List.
From Verif Require Import Base FMap TypesModel TypesSpec ExtSetModel ExtSetSpec LoadModel LitModel LitSpec ExprModel ExprSpec
  PlanModel PlanOpsModel PlanSpec PlanWireSpec.
Import ListNotations.
Local Open Scope Z_scope.

(** ** C53: plans *)

(** the tables of a set agree with each other and mention no URN twice *)
Definition consistent (s : eset) : Prop :=
  NoDup (fm_keys (s_urns s)) /\
  (forall a b u, fm_get Z.eqb a (s_urns s) = Some u -> fm_get Z.eqb b (s_urns s) = Some u -> a = b) /\
  (forall k, NoDup (fm_keys (anchors k s))) /\
  (forall k a id, decode k a s = Some id <-> fm_get ext_id_eqb id (anchors k s) = Some a) /\
  (forall k id a, fm_get ext_id_eqb id (anchors k s) = Some a ->
     exists b, fm_get Z.eqb b (s_urns s) = Some (id_urn id)).

(** relations whose columns the reader does not ask for: extensions it could not decode, and
    table writes *)
Definition unchecked (r : rel) : Prop :=
  match r with
  | RExt1 _ _ (DUndecoded _) | RExt0 _ (DUndecoded _) | RExtN _ _ (DUndecoded _) => True
  | RWrite _ _ _ _ _ _ _ => True
  | _ => False
  end.

(** a root has one name for every column, counting the fields of nested structs *)
Definition root_names_ok (i : rel) (names : list string) : Prop :=
  unchecked i \/ exists cols, rel_type i = Ok cols /\ List.length names = List.length (x_named cols).

Section Survive.
Variable canon : string -> option string.
Variable c : coll.
Variable decoders : string -> option (any -> res extdef).
Variable s : eset.
Definition relation_survives (r : relation) : Prop :=
  match rl_root r, rl_rel r with
  | Some (i, names), None => rel_survives canon c decoders s i /\ root_names_ok i names
  | None, Some i => rel_survives canon c decoders s i
  | _, _ => False
  end.
Definition plan_survives (p : plan) : Prop :=
  Forall relation_survives (pl_relations p) /\ Forall (fun b => supported (snd b)) (pl_bindings p).
End Survive.

(** what a written plan message says *)
Definition relation_written (r : relation) (m : pplanrel) : Prop :=
  match rl_root r, rl_rel r, m with
  | Some (i, names), _, PPR_root x names' => rel_to_proto i = Ok x /\ names' = names
  | None, Some i, PPR_rel x => rel_to_proto i = Ok x
  | _, _, _ => False
  end.
Definition binding_written (b : binding) (m : Z * plit) : Prop :=
  fst m = fst b /\ lit_to_proto (snd b) = Ok (snd m).
(** what a plan that was read says *)
Definition relation_read canon c decoders (m : pplanrel) (r : relation) : Prop :=
  match m with
  | PPR_unset => False
  | PPR_rel x => rl_root r = None /\
      exists i s s', rl_rel r = Some i /\ rel_from_proto canon c decoders x s = Ok (i, s')
  | PPR_root x names => rl_rel r = None /\
      exists i s s', rl_root r = Some (i, names) /\ rel_from_proto canon c decoders x s = Ok (i, s') /\
                     root_names_ok i names
  end.
Definition binding_read (m : Z * plit) (b : binding) : Prop :=
  fst b = fst m /\ lit_from_proto (snd m) = Ok (snd b).

(** ** C54: the function calls of a relation *)

Section Calls.
Variable P Q : Z -> variant -> Prop.
(** an aggregate function: its reference, and its declaration if it has one *)
Variable A : Z -> option variant -> Prop.

Definition agg_calls (rel_ok : rel -> Prop) (a : aggf rel) : Prop :=
  A (ag_ref a) (ag_decl a) /\
  All (fun x => match x with AExpr e => every_call P Q rel_ok e | _ => True end) (ag_args a) /\
  All (fun p => match p with (e, _) => every_call P Q rel_ok e end) (ag_sorts a).
Definition measure_calls (rel_ok : rel -> Prop) (m : measure rel) : Prop :=
  match ms_fn m with None => True | Some a => agg_calls rel_ok a end /\ every_call P Q rel_ok (ms_filter m).
Definition side_calls (rel_ok : rel -> Prop) (f : fref rel) : Prop :=
  match fr_root f with RExpr e => every_call P Q rel_ok e | _ => True end.

(** every call in the relation, in its inputs and in the subqueries of its expressions *)
Fixpoint rel_calls (r : rel) : Prop :=
  match r with
  | RRead _ b k =>
      every_call P Q rel_calls (rb_filter b) /\ every_call P Q rel_calls (rb_best b) /\
      match k with KVirtual rows => All (All (every_call P Q rel_calls)) rows | _ => True end
  | RProject _ i es _ => rel_calls i /\ All (every_call P Q rel_calls) es
  | RJoin _ l r e p _ _ =>
      rel_calls l /\ rel_calls r /\ every_call P Q rel_calls e /\ every_call P Q rel_calls p
  | RCross _ l r _ => rel_calls l /\ rel_calls r
  | RFetch _ i _ _ _ => rel_calls i
  | RAgg _ i ms es _ _ =>
      rel_calls i /\ All (every_call P Q rel_calls) es /\ All (measure_calls rel_calls) ms
  | RSort _ i ss _ => rel_calls i /\ All (fun p => match p with (e, _) => every_call P Q rel_calls e end) ss
  | RFilter _ i e _ => rel_calls i /\ every_call P Q rel_calls e
  | RSet _ is _ _ | RExtN _ is _ => All rel_calls is
  | RExt1 _ i _ => rel_calls i
  | RExt0 _ _ => True
  | RHash _ l r ks p _ _ | RMerge _ l r ks p _ _ =>
      rel_calls l /\ rel_calls r /\
      All (fun k => side_calls rel_calls (k_left k) /\ side_calls rel_calls (k_right k)) ks /\
      every_call P Q rel_calls p
  | RWrite _ _ _ _ _ i _ => rel_calls i
  end.
End Calls.

(** every call names a function the set declares: one of the collection, or the one the call
    spells out *)
Definition calls_declared (c : coll) (s : eset) (r : rel) : Prop :=
  rel_calls (names (get_scalar c) s) (names (get_window c) s)
    (fun ref d => match d with
                  | Some v => names (get_agg c) s ref v
                  | None => exists v, names (get_agg c) s ref v
                  end) r.

(** the declarations of functions in a message number the functions from 1 *)
Definition functions_numbered (us : list urn_msg) (ds : list decl_msg) : Prop :=
  let fs := flat_map (fun d => match declared us d with Some (KFunc, a, id) => [(a, id)] | _ => [] end) ds in
  NoDup (map fst fs) /\ NoDup (map snd fs) /\
  Forall (fun f => 1 <= fst f <= Z.of_nat (List.length fs)) fs.
