(** Go maps as association lists with distinct keys.  The order of the list is
    never observable through [fm_get]/[fm_set]/[fm_len]; where Go code iterates a
    map, the model takes an arbitrary permutation of the bindings. *)

From Coq Require Import List Bool ZArith Permutation.
Import ListNotations.

Section FMap.
  Context {K V : Type}.
  Variable eqb : K -> K -> bool.

  Definition fmap := list (K * V).

  (** [m[k]], with the comma-ok form as an option *)
  Fixpoint fm_get (k : K) (m : fmap) : option V :=
    match m with
    | [] => None
    | (k', v) :: m' => if eqb k k' then Some v else fm_get k m'
    end.

  (** [delete(m, k)] *)
  Definition fm_del (k : K) (m : fmap) : fmap :=
    filter (fun kv => negb (eqb k (fst kv))) m.

  (** [m[k] = v] *)
  Definition fm_set (k : K) (v : V) (m : fmap) : fmap := (k, v) :: fm_del k m.

  (** [len(m)] *)
  Definition fm_len (m : fmap) : Z := Z.of_nat (length m).

  Definition fm_keys (m : fmap) : list K := map fst m.
End FMap.
Arguments fmap : clear implicits.
