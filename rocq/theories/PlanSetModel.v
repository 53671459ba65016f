(** Model of plan builders, the plans they build and the extension sets these share: /repo/plan/builders.go 197-241, 764-801 and
    /repo/plan/plan.go 170, 274-275.  Definitions only; theorems are in PlanSetProps.v.

    A builder makes a set of its own; the plans it builds keep that set (builders.go 791, [extensions: b.extSet]) and a registry with it
    (787-792).  Relations and their checks are left out: a call stands for a call that succeeds otherwise. *)

From Coq Require Import ZArith List Bool.
From Verif Require Import Base FMap ExtSetModel.
Import ListNotations.

(** the sets, one for each builder in the order they were made, and for each plan the set it holds *)
Record shop := Shop { h_sets : list eset; h_plans : list nat }.
(** [NewBuilder] (197-204); a request for an anchor from a builder ([GetFunctionRef] 230-232, [UserDefinedType] 234-241, or the registry of
    the expression builder 223-228); [Plan] (764-801); and a request from the registry of a plan (plan.go 170) *)
Inductive bcall :=
| BNew
| BAsk (b : nat) (r : request)
| BPlan (b : nat)
| PAsk (p : nat) (r : request).

(** the set with that number after a request *)
Fixpoint put (n : nat) (x : eset) (l : list eset) : list eset :=
  match l, n with
  | [], _ => []
  | _ :: l', O => x :: l'
  | y :: l', S n' => y :: put n' x l'
  end.
(** a request of the set with that number: extension_mgr.go 511-551, in place *)
Definition ask (w : shop) (b : nat) (r : request) : shop * res Z :=
  match nth_error (h_sets w) b with
  | None => (w, Panic)
  | Some s =>
      match get_anchor r s with
      | Ok (s', a) => (Shop (put b s' (h_sets w)) (h_plans w), Ok a)
      | Err => (w, Err)
      | Panic => (w, Panic)
      end
  end.
(** the calls; those that return no anchor return 0 *)
Definition bstep (w : shop) (c : bcall) : shop * res Z :=
  match c with
  | BNew => (Shop (h_sets w ++ [new_set]) (h_plans w), Ok 0%Z)
  | BAsk b r => ask w b r
  | BPlan b => if Nat.ltb b (List.length (h_sets w)) then (Shop (h_sets w) (h_plans w ++ [b]), Ok 0%Z) else (w, Panic)
  | PAsk p r => match nth_error (h_plans w) p with None => (w, Panic) | Some b => ask w b r end
  end.
(** a history of calls *)
Definition brun (h : list bcall) : shop := fold_left (fun w c => fst (bstep w c)) h (Shop [] []).
(** what an anchor stands for in the set of a builder, and in that of a plan: extension_mgr.go 496-509 *)
Definition builder_sees (w : shop) (b : nat) (k : kind) (a : Z) : option ext_id :=
  match nth_error (h_sets w) b with None => None | Some s => decode k a s end.
Definition plan_sees (w : shop) (p : nat) (k : kind) (a : Z) : option ext_id :=
  match nth_error (h_plans w) p with None => None | Some b => builder_sees w b k a end.
(** plan.go 274-275: the set whose declarations a plan writes *)
Definition plan_set (w : shop) (p : nat) : option eset :=
  match nth_error (h_plans w) p with None => None | Some b => nth_error (h_sets w) b end.
