(** Specification: the schema of a relation by the relations it is built on. *)

From Coq Require Import ZArith List.
From Verif Require Import Base RelObjModel.
Import ListNotations.
Local Open Scope Z_scope.

Section Spec.
Context {T : Type}.
(** the columns at those positions, in that order; all of them if there is no list of positions *)
Definition selected (m : option (list Z)) (cols out : list T) : Prop :=
  match m with
  | None => out = cols
  | Some l => Forall2 (fun z x => 0 <= z /\ nth_error cols (Z.to_nat z) = Some x) l out
  end.
(** the positions listed, if any *)
Definition positions (m : option (list Z)) : list Z := match m with None => [] | Some l => l end.
Inductive shows (h : heap T) : nat -> list T -> Prop :=
| shows_table : forall r cols m out, nth_error h r = Some (Table cols, m) -> selected m cols out -> shows h r out
| shows_project : forall r i ex m c out, nth_error h r = Some (Project i ex, m) -> shows h i c -> selected m (c ++ ex) out -> shows h r out
| shows_fetch : forall r i m c out, nth_error h r = Some (Fetch i, m) -> shows h i c -> selected m c out -> shows h r out
| shows_cross : forall r i j m a b out, nth_error h r = Some (Cross i j, m) -> shows h i a -> shows h j b -> selected m (a ++ b) out -> shows h r out.

(** a relation is used by itself and by all built on it *)
Definition input_of (n : node T) (i : nat) : Prop :=
  match n with Table _ => False | Project j _ | Fetch j => i = j | Cross a b => i = a \/ i = b end.
Inductive uses (h : heap T) : nat -> nat -> Prop :=
| uses_self : forall r, uses h r r
| uses_input : forall r n m i l, nth_error h r = Some (n, m) -> input_of n i -> uses h i l -> uses h r l.
Definition is_table (h : heap T) (r : nat) : Prop := exists cols m, nth_error h r = Some (Table cols, m).
End Spec.
