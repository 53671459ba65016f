(** Specification vocabulary for C74: aggregate functions as plain values, without storage. *)

From Coq Require Import List Bool Arith String.
From Verif Require Import Base ExprModel PlanAliasModel PlanAliasSpec CloneModel.
Import ListNotations.

Section Clone.
Context {A S F : Type}.

(** what can be seen of a function; [None] is a nil slice, an option is the number of its message *)
Record value := Value { v_args : option (list A); v_opts : option (list nat); v_sorts : option (list S); v_rest : F }.

(** [l'] is [l] with [x] in place [j]; there is no such list if [l] has no place [j] *)
Definition sets {B} (l : list B) (j : nat) (x : B) (l' : list B) : Prop :=
  exists a y b, l = a ++ y :: b /\ List.length a = j /\ l' = a ++ x :: b.

(** what an operation does to option messages and values: one function, or one message, and nothing else *)
Inductive step : list fopt * list value -> op A S -> list fopt * list value -> Prop :=
| Step_clone ms vs i v : nth_error vs i = Some v -> step (ms, vs) (Clone i) (ms, vs ++ [v])
| Step_arg ms vs i j a l o s r l' vs' : nth_error vs i = Some (Value (Some l) o s r) -> sets l j a l' ->
    sets vs i (Value (Some l') o s r) vs' -> step (ms, vs) (SetArg i j a) (ms, vs')
| Step_option ms vs i j m l o s r o' vs' : nth_error vs i = Some (Value l (Some o) s r) -> sets o j m o' ->
    sets vs i (Value l (Some o') s r) vs' -> step (ms, vs) (SetOption i j m) (ms, vs')
| Step_edit ms vs i j m l o s r n ms' : nth_error vs i = Some (Value l (Some o) s r) -> nth_error o j = Some n ->
    sets ms n m ms' -> step (ms, vs) (EditOption i j m) (ms', vs)
| Step_sort ms vs i j x l o s r s' vs' : nth_error vs i = Some (Value l o (Some s) r) -> sets s j x s' ->
    sets vs i (Value l o (Some s') r) vs' -> step (ms, vs) (SetSort i j x) (ms, vs')
| Step_add ms vs i x l o s r vs' : nth_error vs i = Some (Value l o (Some s) r) ->
    sets vs i (Value l o (Some (s ++ [x])) r) vs' -> step (ms, vs) (AddSort i x) (ms, vs')
| Step_add_nil ms vs i x l o r vs' : nth_error vs i = Some (Value l o None r) ->
    sets vs i (Value l o (Some [x]) r) vs' -> step (ms, vs) (AddSort i x) (ms, vs').
Inductive steps : list fopt * list value -> list (op A S) -> list fopt * list value -> Prop :=
| Steps_none x : steps x [] x
| Steps_more x o y os z : step x o y -> steps y os z -> steps x (o :: os) z.

(** the contents of a slice, nil told apart from empty *)
Definition holds {B} (h : heap B) (s : slice) (v : option (list B)) : Prop :=
  match v with
  | None => s = None
  | Some l => s <> None /\ shows h s l
  end.
Definition seen (w : world A S F) (f : func F) (v : value) : Prop :=
  holds (w_args w) (f_args f) (v_args v) /\ holds (w_opts w) (f_opts f) (v_opts v) /\
  holds (w_sorts w) (f_sorts f) (v_sorts v) /\ f_rest f = v_rest v.
Definition views (w : world A S F) (x : list fopt * list value) : Prop :=
  w_msgs w = fst x /\ Forall2 (seen w) (w_funcs w) (snd x).

(** no array belongs to two of the slices *)
Definition apart (ss : list slice) : Prop :=
  forall i j a b, i <> j -> nth_error ss i = Some (Some a) -> nth_error ss j = Some (Some b) -> sl_arr a <> sl_arr b.
Definition bank {B} (h : heap B) (ss : list slice) : Prop := Forall (valid h) ss /\ apart ss.
(** functions that were built from slices of their own *)
Definition separate (w : world A S F) : Prop :=
  bank (w_args w) (map f_args (w_funcs w)) /\ bank (w_opts w) (map f_opts (w_funcs w)) /\
  bank (w_sorts w) (map f_sorts (w_funcs w)).

(** the preferences of the first option called [name]; every option before it exists *)
Inductive option_of (ms : list fopt) (name : string) : list nat -> list string -> Prop :=
| Option_none rs : (forall r, In r rs -> exists n p, nth_error ms r = Some (n, p) /\ n <> name) -> option_of ms name rs []
| Option_first a r b p : (forall x, In x a -> exists n q, nth_error ms x = Some (n, q) /\ n <> name) ->
    nth_error ms r = Some (name, p) -> option_of ms name (a ++ r :: b) p.
End Clone.
Arguments value A S F : clear implicits.
