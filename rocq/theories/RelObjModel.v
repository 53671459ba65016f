(** Model of relations as objects that other relations are built on: /repo/plan/relations.go 160-200 [RemapHelper] and the [Copy], [GetInputs],
    [RecordType] and [directOutputSchema] methods, /repo/plan/builders.go 277-299, 364-409, 533-557, /repo/plan/common.go 128-171.
    Definitions only; theorems are in RelObjProps.v.

    A relation is known by its number and holds the numbers of its inputs.  Kinds of relations: a read (named table, virtual table, local
    files, iceberg, extension table: all [Copy] methods return the receiver, 245, 304, 375, 481, 674), a projection, a fetch and a cross
    product; the others differ in the schema only (C52).  The types of the expressions of a projection are given. *)

From Coq Require Import ZArith Bool List.
From Verif Require Import Base.
Import ListNotations.
Local Open Scope Z_scope.

Section Objects.
Context {T : Type}.
(** relations.go 55-63 with 205-210, 698-704, 1026-1032, 955-960 *)
Inductive node :=
| Table (cols : list T)
| Project (input : nat) (ex : list T)
| Fetch (input : nat)
| Cross (left right : nat).
(** the relation and its [RelCommon.mapping] (common.go 130), nil or not *)
Definition object := (node * option (list Z))%type.
(** all relations there are, by their numbers *)
Definition heap := list object.
(** relations.go 136-138, 756-758, 1076-1078, 1000-1002 [GetInputs] *)
Definition inputs (n : node) : list nat :=
  match n with Table _ => [] | Project i _ | Fetch i => [i] | Cross l r => [l; r] end.

(** types.go 1799-1801 [GetFieldRef] *)
Definition field (cols : list T) (z : Z) : res T :=
  if z <? 0 then Panic else match nth_error cols (Z.to_nat z) with Some x => Ok x | None => Panic end.
(** common.go 145-157 [remap] *)
Fixpoint fields (cols : list T) (m : list Z) : res (list T) :=
  match m with
  | [] => Ok []
  | z :: m' => let! x := field cols z in let! xs := fields cols m' in Ok (x :: xs)
  end.
(** common.go 146-148: nil is no mapping *)
Definition mapped (m : option (list Z)) (cols : list T) : res (list T) :=
  match m with None => Ok cols | Some l => fields cols l end.
(** [directOutputSchema]: relations.go 94-96, 706-715, 1034, 962-964, given the schemas of the inputs *)
Definition direct (rec : nat -> res (list T)) (n : node) : res (list T) :=
  match n with
  | Table cols => Ok cols
  | Project i ex => let! c := rec i in Ok (c ++ ex)%list
  | Fetch i => rec i
  | Cross l r => let! a := rec l in let! b := rec r in Ok (a ++ b)%list
  end.
(** [RecordType]: relations.go 98-100, 716-718, 1035-1037, 965-967.  Inputs have smaller numbers, so the fuel below is enough. *)
Fixpoint cols_in (fuel : nat) (h : heap) (r : nat) : res (list T) :=
  match fuel with
  | O => Panic
  | S f =>
      match nth_error h r with
      | None => Panic
      | Some (n, m) => let! d := direct (cols_in f h) n in mapped m d
      end
  end.
(** [RecordType] of the relation with that number *)
Definition schema (h : heap) (r : nat) : res (list T) := cols_in (S r) h r.

(** the calls: [NamedScanRemap], [ProjectRemap], [FetchRemap], [CrossRemap], [Copy] and [Remap] *)
Inductive ocall :=
| OTable (cols : list T) (m : option (list Z))
| OProject (input : nat) (m : option (list Z)) (ex : list T)
| OFetch (input : nat) (m : option (list Z))
| OCross (left right : nat) (m : option (list Z))
| OCopy (r : nat) (ins : list nat)
| ORemap (r : nat) (m : list Z).

(** the range checks of builders.go 287-292, 369-374, 391-396, 534-540 and relations.go 185 *)
Definition in_range (n : nat) (m : list Z) : bool := forallb (fun z => (0 <=? z) && (z <? Z.of_nat n)) m.
(** a nil mapping has no positions to check (builders.go 288) *)
Definition indices (m : option (list Z)) : list Z := match m with None => [] | Some l => l end.
(** builders.go 277-299: a new object if the range check passes.  A relation that is not there stands for a nil input. *)
Definition make (h : heap) (n : node) (m : option (list Z)) : heap * res nat :=
  match direct (schema h) n with
  | Ok d => if in_range (List.length d) (indices m) then ((h ++ [(n, m)])%list, Ok (List.length h)) else (h, Err)
  | Err => (h, Err)
  | Panic => (h, Panic)
  end.
(** all of them exist *)
Definition there (h : heap) (ins : list nat) : bool := forallb (fun i => Nat.ltb i (List.length h)) ins.
(** the [Copy] methods: relations.go 760-767, 1080-1087, 1004-1011 *)
Definition with_inputs (n : node) (ins : list nat) : option node :=
  match n, ins with
  | Project _ ex, [i] => Some (Project i ex)
  | Fetch _, [i] => Some (Fetch i)
  | Cross _ _, [l; r] => Some (Cross l r)
  | _, _ => None
  end.
(** relations.go 162-169 [isSequentialFromZero] *)
Fixpoint sequential (x : Z) (l : list Z) : bool :=
  match l with [] => true | z :: l' => (z =? x) && sequential (x + 1) l' end.
(** relations.go 183-193 *)
Definition composed (old : option (list Z)) (m : list Z) : list Z :=
  match old with
  | Some (a :: l) => map (fun z => nth (Z.to_nat z) (a :: l) 0) m
  | _ => m
  end.
(** relations.go 177-198: the mapping the new relation is given *)
Definition remapping (h : heap) (r : nat) (n : node) (old : option (list Z)) (m : list Z) : res (option (list Z)) :=
  match m with
  | [] => Ok (Some [])
  | _ =>
      let! cols := schema h r in
      if in_range (List.length cols) m
      then let! d := direct (schema h) n in
           let l := composed old m in
           if Nat.eqb (List.length l) (List.length d) && sequential 0 l then Ok None else Ok (Some l)
      else Err
  end.
(** common.go 169-171 [setMapping] on the relation with that number *)
Fixpoint assign (r : nat) (o : object) (h : heap) : heap :=
  match h, r with
  | [], _ => []
  | _ :: h', O => o :: h'
  | x :: h', S r' => x :: assign r' o h'
  end.
(** the relation that [Copy] with the inputs it has returns is the receiver for a read, and a new one otherwise (relations.go 173) *)
Definition ostep (h : heap) (c : ocall) : heap * res nat :=
  match c with
  | OTable cols m => make h (Table cols) m
  | OProject i m ex => if there h [i] then match ex with [] => (h, Err) | _ => make h (Project i ex) m end else (h, Err)
  | OFetch i m => if there h [i] then make h (Fetch i) m else (h, Err)
  | OCross l r m => if there h [l; r] then make h (Cross l r) m else (h, Err)
  | OCopy r ins =>
      match nth_error h r with
      | None => (h, Panic)
      | Some (Table _, _) => (h, Ok r)
      | Some (n, m) =>
          match with_inputs n ins with
          | None => (h, Err)
          | Some n' => if there h ins then ((h ++ [(n', m)])%list, Ok (List.length h)) else (h, Err)
          end
      end
  | ORemap r m =>
      match nth_error h r with
      | None => (h, Panic)
      | Some (n, old) =>
          match remapping h r n old m with
          | Ok new =>
              match n with
              | Table _ => (assign r (n, new) h, Ok r)
              | _ => ((h ++ [(n, new)])%list, Ok (List.length h))
              end
          | Err => (h, Err)
          | Panic => (h, Panic)
          end
      end
  end.
(** a history of calls *)
Definition orun (cs : list ocall) : heap := fold_left (fun h c => fst (ostep h c)) cs [].
End Objects.
Arguments node : clear implicits.
Arguments object : clear implicits.
Arguments heap : clear implicits.
Arguments ocall : clear implicits.
