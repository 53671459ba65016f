(** Model of the slices behind record types and output mappings: which arrays
    [RecordType] and [OutputMapping] allocate, share and write.  /repo/plan/common.go,
    relations.go, /repo/types/types.go.  Definitions only.

    Simplification: the types of expressions and measures are given; that computing the
    type of a scalar subquery computes another record type is not followed. *)

From Coq Require Import List ZArith Bool Arith.
From Verif Require Import Base TypesModel ExprModel PlanModel.
Import ListNotations.

(** ** Go slices over a heap of arrays *)

Section Heap.
Context {A : Type}.
Definition heap := list (list A).
(** array, first cell, length, capacity *)
Record sl := Sl { sl_arr : nat; sl_off : nat; sl_len : nat; sl_cap : nat }.
(** [None] is the nil slice *)
Definition slice := option sl.

Definition read (h : heap) (s : slice) : list A :=
  match s with
  | None => []
  | Some s => firstn (sl_len s) (skipn (sl_off s) (nth (sl_arr s) h []))
  end.

Fixpoint put {B} (i : nat) (y : B) (l : list B) : list B :=
  match l, i with
  | [], _ => []
  | _ :: l', O => y :: l'
  | x :: l', S i' => x :: put i' y l'
  end.

(** consecutive cells of an array overwritten *)
Fixpoint put_all (i : nat) (ys : list A) (l : list A) : list A :=
  match ys with
  | [] => l
  | y :: ys' => put_all (S i) ys' (put i y l)
  end.

Definition update (h : heap) (a i : nat) (ys : list A) : heap :=
  put a (put_all i ys (nth a h [])) h.

(** [s[i] = y] *)
Definition write (h : heap) (s : slice) (i : nat) (y : A) : res heap :=
  match s with
  | None => Panic
  | Some s => if i <? sl_len s then Ok (update h (sl_arr s) (sl_off s + i) [y]) else Panic
  end.

(** a new array holding [l], with [spare] unused cells after it *)
Variable pad : A.
Definition alloc (h : heap) (l : list A) (spare : nat) : heap * slice :=
  ((h ++ [l ++ repeat pad spare])%list,
   Some (Sl (List.length h) 0 (List.length l) (List.length l + spare))).

(** [append(s, ys...)]; [spare n] is how many cells more than the [n] needed a new array
    gets *)
Variable spare : nat -> nat.
Definition append (h : heap) (s : slice) (ys : list A) : heap * slice :=
  match s with
  | None => match ys with [] => (h, None) | _ => alloc h ys (spare (List.length ys)) end
  | Some v =>
      if sl_len v + List.length ys <=? sl_cap v then
        (update h (sl_arr v) (sl_off v + sl_len v) ys,
         Some (Sl (sl_arr v) (sl_off v) (sl_len v + List.length ys) (sl_cap v)))
      else
        let l := (read h s ++ ys)%list in alloc h l (spare (List.length l))
  end.
End Heap.
Arguments heap A : clear implicits.

(** ** output mappings *)

(** common.go 159-167 [OutputMapping]: nil, or a copy *)
Definition output_mapping (h : heap Z) (m : slice) : heap Z * slice :=
  match m with
  | None => (h, None)
  | Some _ => alloc 0%Z h (read h m) 0
  end.

(** builders.go ([RelCommon{mapping: remap}]) and common.go 197-199 (the emit message): the
    slice itself *)
Definition builder_mapping (remap : slice) : slice := remap.
Definition emitted_mapping (m : slice) : slice := m.

(** ** record types *)

(** A relation as far as its record type goes; a mapping is read, never written. *)
Inductive arel :=
| AStored (m : option (list Z)) (s : slice)
    (* reads (relations.go 94) and writes (2283-2293): the slice of the stored schema, or nil *)
| AFresh (m : option (list Z)) (ts : list xtype)
    (* aggregates (1137-1151) *)
| AProject (m : option (list Z)) (input : arel) (ts : list xtype)
    (* 706-715 *)
| AThrough (m : option (list Z)) (input : arel)
    (* 1034, 1327, 1417, 1508, 1590: the record type of an input *)
| ACat (m : option (list Z)) (lhs rhs : arel)
    (* cross, hash and merge joins: 962, 2028, 2145 *)
| AJoin (m : option (list Z)) (jt : Z) (lhs rhs : arel).

Section Record.
Variable spare : nat -> nat.
Notation app := (append XNil spare).

(** common.go 145-157: a new array if there is a mapping *)
Definition remap_heap (m : option (list Z)) (h : heap xtype) (s : slice) : res (heap xtype * slice) :=
  match m with
  | None => Ok (h, s)
  | Some l => let! ts := mapM (col (read h s)) l in Ok (alloc XNil h ts 0)
  end.

(** [for i, t := range typeList { typeList[i] = t.WithNullability(Nullable) }] *)
Definition nullable_in_place (h : heap xtype) (s : slice) : res (heap xtype) :=
  let! ts := all_nullable (read h s) in
  match s with
  | None => Ok h
  | Some v => Ok (update h (sl_arr v) (sl_off v) ts)
  end.

(** relations.go 823-858 on the slices of the two sides *)
Definition join_heap (jt : Z) (rec_l rec_r : heap xtype -> res (heap xtype * slice)) (h : heap xtype)
  : res (heap xtype * slice) :=
  (if jt =? JoinInner then
     let! (h1, l) := rec_l h in let! (h2, r) := rec_r h1 in Ok (app h2 l (read h2 r))
   else if jt =? JoinLeftSemi then rec_l h
   else if jt =? JoinOuter then
     let! (h1, l) := rec_l h in
     let! (h2, r) := rec_r h1 in
     let '(h3, s) := app h2 l (read h2 r) in
     let! h4 := nullable_in_place h3 s in Ok (h4, s)
   else if (jt =? JoinLeft) || (jt =? JoinLeftSingle) then
     let! (h1, l) := rec_l h in
     let! (h2, r) := rec_r h1 in
     let! r' := all_nullable (read h2 r) in
     Ok (alloc XNil h2 (read h2 l ++ r')%list 0)
   else if (jt =? JoinRight) || (jt =? JoinRightSingle) then
     let! (h1, l) := rec_l h in
     let! (h2, r) := rec_r h1 in
     let! l' := all_nullable (read h2 l) in
     Ok (alloc XNil h2 (l' ++ read h2 r)%list 0)
   else if jt =? JoinLeftAnti then rec_l h
   else if (jt =? JoinRightSemi) || (jt =? JoinRightAnti) then rec_r h
   else Ok (h, None))%Z.

(** [RecordType] *)
Fixpoint record (r : arel) (h : heap xtype) : res (heap xtype * slice) :=
  match r with
  | AStored m s => remap_heap m h s
  | AFresh m ts =>
      let '(h1, s) := alloc XNil h ts (spare (List.length ts)) in remap_heap m h1 s
  | AProject m input ts =>
      let! (h1, s) := record input h in
      let l := (read h1 s ++ ts)%list in
      let '(h2, s2) := alloc XNil h1 l (spare (List.length l)) in
      remap_heap m h2 s2
  | AThrough m input => let! (h1, s) := record input h in remap_heap m h1 s
  | ACat m l r' =>
      let! (h1, sl) := record l h in
      let! (h2, sr) := record r' h1 in
      let '(h3, s) := app h2 sl (read h2 sr) in
      remap_heap m h3 s
  | AJoin m jt l r' =>
      let! (h1, s) := join_heap jt (record l) (record r') h in remap_heap m h1 s
  end.
End Record.
