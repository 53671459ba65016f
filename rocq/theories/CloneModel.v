(** Model of aggregate functions as values with storage: the slices of arguments, options and
    sorts a function holds, which of them [Clone] copies, and what the setters write.
    /repo/expr/functions.go.  Definitions only.

    The slices are those of PlanAliasModel.v.  Simplification: everything else a function holds (its
    reference, declaration, output type, phase, invocation), which is copied with the struct and never
    written, is one value. *)

From Coq Require Import List Bool Arith String.
From Verif Require Import Base ExprModel PlanAliasModel.
Import ListNotations.

Section Clone.
(** arguments, sorts, and the rest *)
Context {A S F : Type}.
Variable no_arg : A.
Variable no_sort : S.
Variable spare : nat -> nat.

(** 770-780.  A cell of the options is a pointer to an option message: its number in the store; a
    number without a message is nil. *)
Record func := Func { f_args : slice; f_opts : slice; f_sorts : slice; f_rest : F }.
Record world := World {
  w_args : heap A; w_opts : heap nat; w_sorts : heap S; w_msgs : list fopt; w_funcs : list func }.

(** 808-826 (and 745-806): the slices are kept as they were given *)
Definition construct (args opts sorts : slice) (rest : F) : func := Func args opts sorts rest.

(** [if s != nil { t = make([]T, len(s)); copy(t, s) }] *)
Definition copy_slice {B} (pad : B) (h : heap B) (s : slice) : heap B * slice :=
  match s with
  | None => (h, None)
  | Some _ => alloc pad h (read h s) 0
  end.

(** 890-905 *)
Definition clone (w : world) (f : func) : world :=
  let '(ha, a) := copy_slice no_arg (w_args w) (f_args f) in
  let '(ho, o) := copy_slice 0 (w_opts w) (f_opts f) in
  let '(hs, s) := copy_slice no_sort (w_sorts w) (f_sorts f) in
  World ha ho hs (w_msgs w) (w_funcs w ++ [Func a o s (f_rest f)])%list.

(** 907-910 *)
Definition set_arg (w : world) (f : func) (j : nat) (a : A) : res world :=
  let! h := write (w_args w) (f_args f) j a in
  Ok (World h (w_opts w) (w_sorts w) (w_msgs w) (w_funcs w)).

(** [f.GetOptions()[j] = o] (940: the slice itself) *)
Definition set_option (w : world) (f : func) (j r : nat) : res world :=
  let! h := write (w_opts w) (f_opts f) j r in
  Ok (World (w_args w) h (w_sorts w) (w_msgs w) (w_funcs w)).

(** [*f.GetOptions()[j] = o] *)
Definition edit_option (w : world) (f : func) (j : nat) (o : fopt) : res world :=
  match nth_error (read (w_opts w) (f_opts f)) j with
  | None => Panic
  | Some r =>
      if r <? List.length (w_msgs w) then
        Ok (World (w_args w) (w_opts w) (w_sorts w) (put r o (w_msgs w)) (w_funcs w))
      else Panic
  end.

(** [f.Sorts[j] = s] *)
Definition set_sort (w : world) (f : func) (j : nat) (s : S) : res world :=
  let! h := write (w_sorts w) (f_sorts f) j s in
  Ok (World (w_args w) (w_opts w) h (w_msgs w) (w_funcs w)).

(** [f.Sorts = append(f.Sorts, s)]; [i] is the number of [f] *)
Definition add_sort (w : world) (i : nat) (f : func) (s : S) : world :=
  let '(h, t) := append no_sort spare (w_sorts w) (f_sorts f) [s] in
  World (w_args w) (w_opts w) h (w_msgs w) (put i (Func (f_args f) (f_opts f) t (f_rest f)) (w_funcs w)).

(** What a program can do to its functions; functions are numbered in the order they were made. *)
Inductive op :=
| Clone (i : nat)
| SetArg (i j : nat) (a : A)
| SetOption (i j r : nat)
| EditOption (i j : nat) (o : fopt)
| SetSort (i j : nat) (s : S)
| AddSort (i : nat) (s : S).
Definition target (o : op) : nat :=
  match o with Clone i | SetArg i _ _ | SetOption i _ _ | EditOption i _ _ | SetSort i _ _ | AddSort i _ => i end.

(** An operation on a function that does not exist is not a program: [Err]. *)
Definition do_op (w : world) (o : op) : res world :=
  match nth_error (w_funcs w) (target o) with
  | None => Err
  | Some f =>
      match o with
      | Clone _ => Ok (clone w f)
      | SetArg _ j a => set_arg w f j a
      | SetOption _ j r => set_option w f j r
      | EditOption _ j m => edit_option w f j m
      | SetSort _ j s => set_sort w f j s
      | AddSort i s => Ok (add_sort w i f s)
      end
  end.
Fixpoint run (w : world) (os : list op) : res world :=
  match os with
  | [] => Ok w
  | o :: os' => let! w' := do_op w o in run w' os'
  end.

(** 931-938 [GetOption]: of the first option of that name; reading the name of a nil option panics *)
Fixpoint find_option (msgs : list fopt) (name : string) (rs : list nat) : res (list string) :=
  match rs with
  | [] => Ok []
  | r :: rs' =>
      match nth_error msgs r with
      | None => Panic
      | Some (n, prefs) => if String.eqb name n then Ok prefs else find_option msgs name rs'
      end
  end.
Definition get_option (w : world) (f : func) (name : string) : res (list string) :=
  find_option (w_msgs w) name (read (w_opts w) (f_opts f)).
End Clone.
Arguments func F : clear implicits.
Arguments world A S F : clear implicits.
Arguments op A S : clear implicits.
