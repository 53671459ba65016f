(** Specification: builders and relations as plain values.  No arrays, no capacities: every builder and every relation has lists of its own. *)

From Coq Require Import ZArith Bool List.
From Verif Require Import AggShareModel.
Import ListNotations.

Section Spec.
Context {E : Type} (same : E -> E -> bool).
Definition value := (list E * list gref)%type.

(** what a call makes of the builder it is about, given the arrays of references at the call *)
Definition changed (refs : memory Z) (c : kcall E) (v : value) : value :=
  let '(es, gs) := v in
  match c with
  | KExpr _ e => ((if existsb (fun x => same x e) es then es else es ++ [e]), gs)%list
  | KSet _ g => (es, gs ++ [g])%list
  | KRollup _ g => (es, gs ++ map (GRef (g_arr g)) (rev (seq 1 (g_len g))))%list
  | KCube _ g =>
      if 20 <? List.length (references refs g) then (es, gs)
      else (es, gs ++ place_all (List.length refs) (cube (references refs g)))%list
  | KClear _ => ([], [])
  | _ => v
  end.
(** the builder a call changes *)
Definition changes (c : kcall E) : option nat :=
  match c with KExpr b _ | KSet b _ | KRollup b _ | KCube b _ | KClear b => Some b | _ => None end.
End Spec.

(** the references at the positions that are ones in the binary digits of k *)
Definition picked (refs : list Z) (k : nat) : list Z :=
  map snd (filter (fun p => Nat.testbit k (fst p)) (combine (seq 0 (List.length refs)) refs)).
