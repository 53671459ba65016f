(** Specification of the float64 arithmetic day-time intervals are read with (C62).  A float64 is given as a multiple of 2^-1074. *)

From Coq Require Import ZArith List.
From Verif Require Import Base IntervalSpec.
Local Open Scope Z_scope.

(** a number of 53 binary digits and an exponent *)
Definition is_float (x : Z) : Prop := exists m e, 0 <= e /\ Z.abs m < 2 ^ 53 /\ x = m * 2 ^ e.
(** how far a float is from [n / d], times [d] *)
Definition distance (n d x : Z) : Z := Z.abs (x * d - n * 2 ^ 1074).
(** the float nearest to [n / d]; of two it is the one whose last digit is even *)
Definition rounds (n d x : Z) : Prop :=
  is_float x /\ forall y, is_float y -> distance n d x <= distance n d y /\ (y <> x -> distance n d x = distance n d y -> (2 * (x - y) | x)).
(** its whole part as an int64, and the least int64 for what is too large *)
Definition whole (x w : Z) : Prop :=
  let z := Z.quot x (2 ^ 1074) in in_int 64 z /\ w = z \/ ~ in_int 64 z /\ w = - 2 ^ 63.

(** the seconds are rounded, their whole part is taken away, and the rest is multiplied out *)
Inductive reads_span (x : span) : stored -> Prop :=
| Reads f w fw r n' n u' u d s ss p :
    rounds (sp_num x) (10 ^ Z.of_nat (sp_digits x)) f -> whole f w -> rounds w 1 fw -> rounds (f - fw) (2 ^ 1074) r ->
    rounds (r * 10 ^ 9) (2 ^ 1074) n' -> whole n' n -> rounds (r * 10 ^ 6) (2 ^ 1074) u' -> whole u' u ->
    cut_to_int32 (sp_days x) d -> cut_to_int32 (sp_hours x * 3600 + sp_minutes x * 60 + w) s ->
    (ss, p) = (if wrap 64 (u * 1000) <? n then (n, 9) else (u, 6)) ->
    reads_span x (Stored d s ss p).
