(** Specification vocabulary for times (C14, C41). *)

From Coq Require Import ZArith.
From Verif Require Import Base TimeModel.
Local Open Scope Z_scope.

Definition time_ok (t : time) : Prop := in_int 64 (t_sec t) /\ 0 <= t_nsec t < 10 ^ 9.

(** nanoseconds since the epoch *)
Definition instant (t : time) : Z := t_sec t * 10 ^ 9 + t_nsec t.

(** nanoseconds in one unit of precision [p] *)
Definition unit_ns (p : Z) : Z := 10 ^ (9 - p).

Definition precision_ok (p : Z) : Prop := 0 <= p <= 9.

(** The precisions the clock itself offers are 0, 3, 6, 9; any other goes through the
    next finer one. *)
Definition clock_precision (p : Z) : Z := ((p + 2) / 3) * 3.
