(** Model of extended expressions: expr/expression.go 1612-1729. *)

From Coq Require Import ZArith String Bool List.
From Verif Require Import Base FMap TypesModel ExtSetModel LoadModel LitModel ExprModel ExprOpsModel PlanModel.
Import ListNotations.
Local Open Scope Z_scope.

(** expression.go 1614-1621 [ExpressionReference]: the output names and the two private
    fields; [nil_expr] is the nil interface, [None] the nil pointer. *)
Record eref := ExprRef { er_names : list string; er_expr : expr rel; er_measure : option (aggf rel) }.

(** expression.go 1623-1629 *)
Definition new_expression_reference (names : list string) (e : expr rel) : eref := ExprRef names e None.
Definition new_measure_reference (names : list string) (m : option (aggf rel)) : eref := ExprRef names nil_expr m.
(** expression.go 1647-1658; [GetExpr] and [GetMeasure] are the fields *)
Definition set_expr (r : eref) (e : expr rel) : eref := ExprRef (er_names r) e None.
Definition set_measure (r : eref) (m : option (aggf rel)) : eref := ExprRef (er_names r) nil_expr m.

(** [proto.ExpressionReference]: a oneof of an expression and a measure *)
Inductive pereft := PER_unset | PER_expr (e : pexpr prel) | PER_measure (m : paggf prel).
Record peref := PExprRef { pr_names : list string; pr_type : pereft }.

(** expression.go 1631-1645 *)
Definition eref_to_proto (r : eref) : res peref :=
  if is_nil_expr (er_expr r)
  then match er_measure r with
       | Some m => let! m' := agg_to_proto rel_to_proto m in Ok (PExprRef (er_names r) (PER_measure m'))
       | None => Ok (PExprRef (er_names r) PER_unset)
       end
  else let! e' := expr_to_proto rel_to_proto (er_expr r) in Ok (PExprRef (er_names r) (PER_expr e')).

(** expression.go 1660-1669 [Extended].  [ex_set] is the public field [Extensions] and
    [ex_reg] the set of the private registry, [None] in a value that was not read from a
    message.  (After reading, both are the same set.) *)
Record extended := Extended {
  ex_version : option opaque; ex_set : option eset; ex_refs : list eref; ex_schema : schema;
  ex_adv : option opaque; ex_urls : list string; ex_reg : option eset }.

(** [proto.ExtendedExpression] *)
Record pextended := PExtended {
  px_version : option opaque; px_urns : list urn_msg; px_decls : list decl_msg; px_refs : list peref;
  px_schema : option pnamed_struct; px_adv : option opaque; px_urls : list string }.

(** expression.go 1713-1729; [write] is what [ExtensionsToProto] answers for a set (its order
    is that of Go's maps) *)
Definition extended_to_proto (write : eset -> res (list urn_msg * list decl_msg)) (x : extended) : res pextended :=
  match ex_reg x with
  | None => Panic
  | Some s =>
      let! (us, ds) := write s in
      let! rs := mapM eref_to_proto (ex_refs x) in
      let! sch := schema_to_proto (ex_schema x) in
      Ok (PExtended (ex_version x) us ds rs (Some sch) (ex_adv x) (ex_urls x))
  end.

Section Read.
Variable canon : string -> option string.
Variable c : coll.

(** expression.go 1682-1700, the body of the loop; the registry has no subquery converter *)
Definition eref_from_proto (base : list xtype) (m : peref) (s : eset) : res (eref * eset) :=
  match pr_type m with
  | PER_unset => Ok (ExprRef (pr_names m) nil_expr None, s)
  | PER_expr e =>
      let! (e', s') := expr_from_proto rel_type None canon c (Some base) e s in
      Ok (set_expr (ExprRef (pr_names m) nil_expr None) e', s')
  | PER_measure a =>
      let! (a', s') := agg_from_proto rel_type None canon c (Some base) a s in
      Ok (set_measure (ExprRef (pr_names m) nil_expr None) (Some a'), s')
  end.

(** expression.go 1671-1711 *)
Definition extended_from_proto (m : pextended) : res extended :=
  let! s := get_extension_set (urn_loaded c) (px_urns m) (px_decls m) in
  let! sch := schema_from_proto (px_schema m) in
  let! (rs, s') := mapS (eref_from_proto (sc_types sch)) (px_refs m) s in
  Ok (Extended (px_version m) (Some s') rs sch (px_adv m) (px_urls m) (Some s')).
End Read.
