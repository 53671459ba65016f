(** Common vocabulary of the model.

    Go conventions:
    - a Go function returning [(T, error)] becomes a [res T]: [Ok v] is
      [(v, nil)] and [Err] is [(_, err)] with a non-nil error.  The error's
      text and class are not modelled (no code in /repo branches on them).
    - a Go panic (explicit [panic], nil dereference, index out of range, failed
      type assertion, division by zero) is the separate outcome [Panic].       *)

From Coq Require Import List ZArith String Ascii Bool Lia.
From Coq Require Import DecimalString DecimalZ.
Import ListNotations.

Set Implicit Arguments.

Inductive res (A : Type) : Type :=
| Ok (a : A)
| Err
| Panic.
Arguments Ok {A} a.
Arguments Err {A}.
Arguments Panic {A}.

Definition bind {A B} (r : res A) (f : A -> res B) : res B :=
  match r with
  | Ok a => f a
  | Err => Err
  | Panic => Panic
  end.

Notation "'let!' x ':=' r 'in' k" := (bind r (fun x => k))
  (at level 200, x pattern, r at level 100, k at level 200, right associativity).

Definition rmap {A B} (f : A -> B) (r : res A) : res B :=
  match r with
  | Ok a => Ok (f a)
  | Err => Err
  | Panic => Panic
  end.

(** A loop [for i, x := range l { y, err := f(x); if err != nil {return err};
    out = append(out, y) }]: stops at the first error or panic. *)
Definition mapM {A B} (f : A -> res B) : list A -> res (list B) :=
  fix go (l : list A) : res (list B) :=
    match l with
    | [] => Ok []
    | x :: l' =>
        match f x with
        | Ok y => match go l' with
                  | Ok ys => Ok (y :: ys)
                  | Err => Err
                  | Panic => Panic
                  end
        | Err => Err
        | Panic => Panic
        end
    end.

(** [for i := range xs { if !xs[i].Equals(ys[i]) { return false } }; return true]
    where the lengths have already been compared. *)
Definition all2M {A B} (f : A -> B -> res bool) : list A -> list B -> res bool :=
  fix go (l : list A) (m : list B) : res bool :=
    match l with
    | [] => Ok true
    | x :: l' =>
        match m with
        | [] => Panic
        | y :: m' =>
            match f x y with
            | Ok true => go l' m'
            | Ok false => Ok false
            | Err => Err
            | Panic => Panic
            end
        end
    end.

Definition is_ok {A} (r : res A) : bool := match r with Ok _ => true | _ => false end.

(** Fixed-width integers: the model uses [Z]; these are the explicit wraps. *)
Definition wrap (bits : Z) (z : Z) : Z :=
  ((z + 2 ^ (bits - 1)) mod 2 ^ bits - 2 ^ (bits - 1))%Z.
Definition uwrap (bits : Z) (z : Z) : Z := (z mod 2 ^ bits)%Z.

Definition in_int (bits : Z) (z : Z) : Prop :=
  (- 2 ^ (bits - 1) <= z < 2 ^ (bits - 1))%Z.
Definition in_uint (bits : Z) (z : Z) : Prop := (0 <= z < 2 ^ bits)%Z.

(** Decimal rendering of an integer, as [fmt.Sprintf("%d", z)]. *)
Definition string_of_Z (z : Z) : string := NilZero.string_of_int (Z.to_int z).

(** Specification vocabulary: a predicate holds of every element (a computing
    form of [Forall], usable in nested recursion). *)
Definition All {A} (P : A -> Prop) : list A -> Prop :=
  fix go (l : list A) : Prop :=
    match l with
    | [] => True
    | x :: l' => P x /\ go l'
    end.
