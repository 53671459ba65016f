(** Model of aggregate relations and their builders as holders of slices: /repo/plan/builders.go 815-917 and relations.go 1157-1237, 1301-1315.
    Definitions only; theorems are in AggShareProps.v.

    Slices of expressions and of groupings are kept in arrays with a capacity: appending to a slice that does not fill its array writes
    into the array, where other slices may see it.  The input, the measures and the validation are left out (C35).
    The setters of relations.go 1301-1315 are used by [Build] only; slices that start inside an array are left out. *)

From Coq Require Import ZArith Bool List.
Import ListNotations.

Section Slices.
Context {T : Type}.
(** A slice starts at the beginning of its array; nil is a slice of capacity 0.  Of an array the elements written so far are kept. *)
Record slice := Slice { s_arr : nat; s_len : nat; s_cap : nat }.
Definition nil_slice : slice := Slice 0 0 0.
Definition memory := list (list T).
(** the elements a slice shows, as [range] and [len] see them (builders.go 831) *)
Definition elements (m : memory) (s : slice) : list T := firstn (s_len s) (nth (s_arr s) m []).
(** an assignment to one place of an array *)
Definition write_at (i : nat) (x : T) (l : list T) : list T := firstn i l ++ x :: skipn (S i) l.
(** the arrays with one of them changed *)
Fixpoint change (n : nat) (f : list T -> list T) (m : memory) : memory :=
  match m, n with
  | [], _ => []
  | l :: m', O => f l :: m'
  | l :: m', S n' => l :: change n' f m'
  end.
(** [append(s, x)]; [grow] is the runtime's choice of the new capacity *)
Definition append (grow : nat -> nat) (m : memory) (s : slice) (x : T) : memory * slice :=
  if s_len s <? s_cap s
  then (change (s_arr s) (write_at (s_len s) x) m, Slice (s_arr s) (S (s_len s)) (s_cap s))
  else ((m ++ [elements m s ++ [x]])%list, Slice (List.length m) (S (s_len s)) (Nat.max (S (s_len s)) (grow (s_len s)))).
(** [make] of that length and [copy] *)
Definition copied (m : memory) (s : slice) : memory * slice :=
  ((m ++ [elements m s])%list, Slice (List.length m) (s_len s) (s_len s)).
(** a slice made elsewhere, with some room left *)
Definition given (m : memory) (l : list T) (room : nat) : memory * slice :=
  ((m ++ [l])%list, Slice (List.length m) (List.length l) (List.length l + room)).
End Slices.
Arguments memory : clear implicits.

Section Aggregates.
(** expressions, and whether two are the same object *)
Context {E : Type} (same : E -> E -> bool) (grow : nat -> nat).

(** A grouping: the first so many references of an array of references. *)
Record gref := GRef { g_arr : nat; g_len : nat }.
(** the [groupingExpressions] and [groupingReferences] of a builder (builders.go 822-827) or a relation (relations.go 1157-1160) *)
Definition holder := (slice * slice)%type.
(** all arrays, builders and relations there are; each is known by its number *)
Record state := State {
  k_exprs : memory E; k_groups : memory gref; k_refs : memory Z;
  k_builders : list holder; k_rels : list holder }.
(** before the first call *)
Definition start : state := State [] [] [] [] [].
(** the references of one grouping, a [[]uint32] of builders.go 826 *)
Definition references (m : memory Z) (g : gref) : list Z := firstn (g_len g) (nth (g_arr g) m []).

(** [RelBuilder.AggregateRel] (818-820), a caller making and writing a slice of references, [AddExpression] (830-839), [AddGroupingSet]
    (886-888), [AddRollup] (878-883), [AddCube] (847-863), [ClearGrouping] (898-901), [Build] (903-917) where it succeeds; [ToBuilder]
    (relations.go 1226-1237), [Copy] (1215-1222), and a relation read from a plan with slices of any capacity. *)
Inductive kcall :=
| KNew
| KSlice (l : list Z)
| KWrite (a i : nat) (v : Z)
| KExpr (b : nat) (e : E)
| KSet (b : nat) (g : gref)
| KRollup (b : nat) (g : gref)
| KCube (b : nat) (g : gref)
| KClear (b : nat)
| KBuild (b : nat)
| KToBuilder (r : nat)
| KCopy (r : nat)
| KRead (es : list E) (gs : list gref) (room room' : nat).

(** a list with one element replaced: the assignment to a field of one builder, or to a place of a caller's slice *)
Fixpoint replace {T} (n : nat) (x : T) (l : list T) : list T :=
  match l, n with
  | [], _ => []
  | _ :: l', O => x :: l'
  | y :: l', S n' => y :: replace n' x l'
  end.
(** builders.go 857-860 and 879-882: one [append] for each grouping *)
Fixpoint append_all (m : memory gref) (s : slice) (gs : list gref) : memory gref * slice :=
  match gs with
  | [] => (m, s)
  | g :: gs' => let '(m1, s1) := append grow m s g in append_all m1 s1 gs'
  end.
(** builders.go 879-881: prefixes of the slice given, which share its array, longest first *)
Definition rollup (g : gref) : list gref := map (GRef (g_arr g)) (rev (seq 1 (g_len g))).
(** builders.go 865-875 [extractGroup] *)
Fixpoint chosen (refs : list Z) (bit k : nat) : list Z :=
  match refs with
  | [] => []
  | x :: refs' => if Nat.testbit k bit then x :: chosen refs' (S bit) k else chosen refs' (S bit) k
  end.
(** the groupings of [AddCube] are new slices *)
Definition cube (refs : list Z) : list (list Z) := map (chosen refs 0) (seq 1 (2 ^ List.length refs - 1)).
(** builders.go 858: the new slices are the next arrays of references *)
Fixpoint place_all (from : nat) (ls : list (list Z)) : list gref :=
  match ls with [] => [] | l :: ls' => GRef from (List.length l) :: place_all (S from) ls' end.

(** builders.go 859, 881 and 887: the builder is left with the slice [append] returned *)
Definition add_groups (s : state) (b : nat) (refs : memory Z) (gs : list gref) : state :=
  match nth_error (k_builders s) b with
  | None => s
  | Some (es, g) =>
      let '(m, g') := append_all (k_groups s) g gs in
      State (k_exprs s) m refs (replace b (es, g') (k_builders s)) (k_rels s)
  end.
(** builders.go 818-917 and relations.go 1215-1237, case by case; a call of a builder or relation that is not there changes nothing *)
Definition kstep (s : state) (c : kcall) : state :=
  match c with
  | KNew => State (k_exprs s) (k_groups s) (k_refs s) (k_builders s ++ [(nil_slice, nil_slice)])%list (k_rels s)
  | KSlice l => State (k_exprs s) (k_groups s) (k_refs s ++ [l])%list (k_builders s) (k_rels s)
  | KWrite a i v => State (k_exprs s) (k_groups s) (change a (replace i v) (k_refs s)) (k_builders s) (k_rels s)
  | KExpr b e =>
      match nth_error (k_builders s) b with
      | None => s
      | Some (es, gs) =>
          if existsb (fun x => same x e) (elements (k_exprs s) es) then s
          else let '(m, es') := append grow (k_exprs s) es e in
               State m (k_groups s) (k_refs s) (replace b (es', gs) (k_builders s)) (k_rels s)
      end
  | KSet b g => add_groups s b (k_refs s) [g]
  | KRollup b g => add_groups s b (k_refs s) (rollup g)
  | KCube b g =>
      let refs := references (k_refs s) g in
      if 20 <? List.length refs then s
      else add_groups s b (k_refs s ++ cube refs)%list (place_all (List.length (k_refs s)) (cube refs))
  | KClear b =>
      match nth_error (k_builders s) b with
      | None => s
      | Some _ => State (k_exprs s) (k_groups s) (k_refs s) (replace b (nil_slice, nil_slice) (k_builders s)) (k_rels s)
      end
  | KBuild b =>
      match nth_error (k_builders s) b with
      | None => s
      | Some h => State (k_exprs s) (k_groups s) (k_refs s) (k_builders s) (k_rels s ++ [h])%list
      end
  | KToBuilder r =>
      match nth_error (k_rels s) r with
      | None => s
      | Some (es, gs) =>
          let '(m, es') := copied (k_exprs s) es in
          let '(m', gs') := copied (k_groups s) gs in
          State m m' (k_refs s) (k_builders s ++ [(es', gs')])%list (k_rels s)
      end
  | KCopy r =>
      match nth_error (k_rels s) r with
      | None => s
      | Some h => State (k_exprs s) (k_groups s) (k_refs s) (k_builders s) (k_rels s ++ [h])%list
      end
  | KRead es gs room room' =>
      let '(m, es') := given (k_exprs s) es room in
      let '(m', gs') := given (k_groups s) gs room' in
      State m m' (k_refs s) (k_builders s) (k_rels s ++ [(es', gs')])%list
  end.
(** a history of calls *)
Definition krun (l : list kcall) : state := fold_left kstep l start.

(** what the getters of a relation show (relations.go 1159-1160), and what a builder would build *)
Definition shown (s : state) (h : holder) : list E * list gref := (elements (k_exprs s) (fst h), elements (k_groups s) (snd h)).
(** relations.go 1159-1160 of the relation with that number *)
Definition rel_shown (s : state) (r : nat) : option (list E * list gref) := option_map (shown s) (nth_error (k_rels s) r).
(** builders.go 825-826 of the builder with that number *)
Definition builder_shown (s : state) (b : nat) : option (list E * list gref) := option_map (shown s) (nth_error (k_builders s) b).
End Aggregates.
Arguments state : clear implicits.
Arguments kcall : clear implicits.
