(** Specification of builders as objects: what a history of calls leaves in a builder, and what a builder stands for. *)

From Coq Require Import ZArith String Bool List.
From Verif Require Import Base FMap TypesModel ExtSetModel LoadModel LitModel ExprModel ExprOpsModel FluentModel.
Import ListNotations.

(** [x] is what the last of the calls that give a value ([gives]) gave, or [init] if none did *)
Definition latest {K A} (gives : K -> A -> Prop) (init : A) (l : list K) (x : A) : Prop :=
  (exists before k after, l = (before ++ k :: after)%list /\ gives k x /\ forall k' y, In k' after -> ~ gives k' y) \/
  ((forall k y, In k l -> ~ gives k y) /\ x = init).

Section Stands.
Context {R : Type}.

(** The expression a builder describes, with the builders it refers to as they are now. *)
Inductive stands (h : heap R) : nat -> bld (R := R) -> Prop :=
| St_wrap b e f : nth_error h b = Some (NWrap e f) -> stands h b (BWrap e f)
| St_ref b r f : nth_error h b = Some (NRef r f) -> stands h b (BRef r f)
| St_lamref b i l n : nth_error h b = Some (NLamRef i l n) -> stands h b (BLamRef i l n)
| St_cast b b' t fb x : nth_error h b = Some (NCast b' t fb) -> stands h b' x -> stands h b (BCast x t fb)
| St_param b t n : nth_error h b = Some (NParam t n) -> stands h b (BParam t n)
| St_scalar b id opts args xs : nth_error h b = Some (NScalar id opts args) -> stand_args h args xs -> stands h b (BScalar id opts xs)
| St_window b id opts args xs ph inv parts ys sorts bt lo hi :
    nth_error h b = Some (NWindow id opts args ph inv parts sorts bt lo hi) -> stand_args h args xs -> stand_all h parts ys ->
    stands h b (BWindow id opts xs ph inv ys sorts bt lo hi)
| St_lambda b ps b' x : nth_error h b = Some (NLambda ps (Some b')) -> stands h b' x -> stands h b (BLambda ps (Some x))
| St_bare b ps : nth_error h b = Some (NLambda ps None) -> stands h b (BLambda ps None)
with stand_args (h : heap R) : list narg -> list (barg (R := R)) -> Prop :=
| Sa_nil : stand_args h [] []
| Sa_enum s l r : stand_args h l r -> stand_args h (NEnum s :: l) (BArgEnum s :: r)
| Sa_builder b x l r : stands h b x -> stand_args h l r -> stand_args h (NBuilder b :: l) (BArgExpr x :: r)
with stand_all (h : heap R) : list nat -> list (bld (R := R)) -> Prop :=
| Sl_nil : stand_all h [] []
| Sl_cons b x l r : stands h b x -> stand_all h l r -> stand_all h (b :: l) (x :: r).

(** the builders of an argument list *)
Definition arg_builders (l : list narg) : list nat := flat_map (fun a => match a with NBuilder b => [b] | NEnum _ => [] end) l.
(** The call gives a builder only builders of expressions made before it; [b] is the number of the next builder to be made, [agg] says which
    builders are of aggregate functions. *)
Definition gives_earlier (agg : nat -> Prop) (next : nat) (k : fcall R) : Prop :=
  let ok b l := forall x, In x l -> (x < b)%nat /\ ~ agg x in
  match k with
  | MkCast x _ => ok next [x]
  | MkLambda _ (Some x) => ok next [x]
  | SetArgs b args => ok b (arg_builders args)
  | SetPartitions b l => ok b l
  | _ => True
  end.
End Stands.
