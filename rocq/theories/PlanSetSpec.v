(** Specification: the requests that concern a builder, from the history alone. *)

From Coq Require Import ZArith List Bool.
From Verif Require Import Base ExtSetModel PlanSetModel.
Import ListNotations.

(** how many builders a history makes *)
Fixpoint builders (h : list bcall) : nat :=
  match h with [] => 0 | BNew :: h' => S (builders h') | _ :: h' => builders h' end.
(** the builders of the plans of a history, in the order the plans are made; [n] builders are there before *)
Fixpoint owners_from (n : nat) (h : list bcall) : list nat :=
  match h with
  | [] => []
  | BNew :: h' => owners_from (S n) h'
  | BPlan b :: h' => if Nat.ltb b n then b :: owners_from n h' else owners_from n h'
  | _ :: h' => owners_from n h'
  end.
Definition owners (h : list bcall) : list nat := owners_from 0 h.
(** the builder a request goes to after a history: the one asked, or the one that built the plan asked *)
Definition asked_of (h : list bcall) (c : bcall) : option (nat * request) :=
  match c with
  | BAsk b r => if Nat.ltb b (builders h) then Some (b, r) else None
  | PAsk p r => match nth_error (owners h) p with Some b => Some (b, r) | None => None end
  | _ => None
  end.
(** the requests that concern builder [b], in order; [rh] is the history, last call first *)
Fixpoint asked_rev (b : nat) (rh : list bcall) : list request :=
  match rh with
  | [] => []
  | c :: rh' =>
      match asked_of (rev rh') c with
      | Some (b', r) => if Nat.eqb b' b then (asked_rev b rh' ++ [r])%list else asked_rev b rh'
      | None => asked_rev b rh'
      end
  end.
Definition asked (b : nat) (h : list bcall) : list request := asked_rev b (rev h).
