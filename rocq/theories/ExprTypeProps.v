(** C48: the type of an expression.  C49: IsScalar. *)

From Coq Require Import ZArith String List Bool Lia.
From Verif Require Import Base TypesModel TypesSpec ExtSetModel LoadModel LitModel LitSpec ExprModel ExprOpsModel ExprSpec
  ExprProofs ExprWireProofs ExprScalarProofs.
Import ListNotations.
Local Open Scope Z_scope.

Definition i64 : ty := TPrim PrimI64 2 0.
Definition one : lit := LPrim (VI64 1) i64.
Definition decl : variant := Variant "u" "f" 0 (Impl [] [] "" "" 0).

(** ** C48 *)

Theorem C48_type : forall R (rel_schema : R -> res (list xtype)) e x,
  expr_type rel_schema e = Ok x <-> has_type rel_schema e x.
Proof. intros R rel_schema. exact (has_type_spec rel_schema). Qed.
(** an expression has one type *)
Theorem C48_type_unique : forall R (rel_schema : R -> res (list xtype)) e x y,
  has_type rel_schema e x -> has_type rel_schema e y -> x = y.
Proof. intros R rel_schema e x y H1 H2. apply C48_type in H1. apply C48_type in H2. congruence. Qed.
Definition switch_sample (n : Z) : expr unit :=
  ESwitch (ELit one) [(one, ELit one); (one, ECast (TPrim PrimI64 n 0) (ELit one) 1)] (EStruct true 0 [ELit one]).
Example C48_nonvacuous :
  has_type (fun _ => Err) (switch_sample 1) (XTy (TPrim PrimI64 1 0)) /\
  has_type (fun _ => Err) (switch_sample 2) (XTy (TStruct 1 0 [i64])) /\
  has_type (fun _ => Err) (ELambda 2 0 [i64] (EList false 0 [ELit one; switch_sample 1]) : expr unit)
    (XTy (TFunc 2 [i64] (TList 2 0 i64))).
Proof. repeat split; apply C48_type; reflexivity. Qed.

(** Finding: an if takes its type from the else clause; without one it panics. *)
Theorem C48_if_without_else_refuted : exists e : expr unit,
  expr_type (fun _ => Err) e = Panic /\ expr_to_proto (PR := unit) (fun _ => Err) e <> Panic.
Proof. exists (EIf [(ELit one, ELit one)] (ELit LNil)). split; [reflexivity|discriminate]. Qed.

(** ** C49 *)

(** [IsScalar] answers true exactly for expressions whose value is computed without window
    functions and lambdas. *)
Theorem C49_is_scalar : forall R (e : expr R), whole e ->
  exists b, expr_scalar e = Ok b /\ (b = true <-> scalar e).
Proof. intros R. exact scalar_char. Qed.
Definition window_call : expr unit := EWindow 1 decl [] [] i64 3 1 [] [] 1 None None.
Example C49_nonvacuous :
  whole (EIf [(ELit one, window_call)] (ELit one)) /\ ~ scalar (EIf [(ELit one, window_call)] (ELit one)) /\
  expr_scalar (EScalar 2 decl [AEnum "x"; AExpr (EIf [(ELit one, ELit one)] (ELit one))] [] i64 : expr unit) = Ok true.
Proof.
  assert (U : forall x : expr unit, uses (EIf [(ELit one, window_call)] (ELit one)) x ->
            x = EIf [(ELit one, window_call)] (ELit one) \/ x = ELit one \/ x = window_call).
  { assert (L : forall x : expr unit, uses (ELit one) x -> x = ELit one) by (intros x H; inversion H as [|? ? ? O ?]; auto; inversion O).
    assert (W : forall x : expr unit, uses window_call x -> x = window_call) by (intros x H; inversion H as [|? ? ? O ?]; auto; inversion O).
    intros x H. inversion H as [|? y ? O U]; subst; auto. inversion O as [|? ? p ? Hi Hx HN|? ? HN| | | | | | | | | | | | |]; subst.
    - destruct Hi as [<-|[]]. cbn [fst snd] in Hx. destruct Hx; subst; auto.
    - auto. }
  split; [|split; [|reflexivity]].
  - intros x H. apply U in H. destruct H as [->|[->| ->]]; discriminate.
  - intros H. destruct (H window_call) as [H1 _].
    + eapply Uses_operand; [|constructor]. eapply Op_if; [left; reflexivity|right; reflexivity|discriminate].
    + eapply H1. reflexivity.
Qed.

Print Assumptions C48_type.
Print Assumptions C48_type_unique.
Print Assumptions C48_if_without_else_refuted.
Print Assumptions C49_is_scalar.
