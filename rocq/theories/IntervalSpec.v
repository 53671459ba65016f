(** Specification of the texts of day-time intervals (C62). *)

From Coq Require Import ZArith String List.
From Verif Require Import Base CalSpec.
Import ListNotations.
Local Open Scope string_scope.

(** days, hours, minutes and [sp_num / 10 ^ sp_digits] seconds *)
Record span := Span { sp_days : Z; sp_hours : Z; sp_minutes : Z; sp_num : Z; sp_digits : nat }.

(** nothing, or digits and a letter *)
Inductive part (letter : string) : Z -> string -> Prop :=
| Absent : part letter 0 ""
| Present k z ds : number (S k) z ds -> part letter z (ds ++ letter).
(** seconds may lack digits before the point, or any digits *)
Inductive says_seconds : string -> Z -> nat -> Prop :=
| No_seconds : says_seconds "" 0 0
| Whole_seconds k v ds : number k v ds -> says_seconds (ds ++ "S") v 0
| Fraction_seconds k j v w ds fs : number k v ds -> number (S j) w fs ->
    says_seconds (ds ++ "." ++ fs ++ "S") (v * 10 ^ Z.of_nat (S j) + w) (S j).
(** an ISO 8601 duration of days, hours, minutes and seconds *)
Inductive says_interval : string -> span -> Prop :=
| Days_only d a : part "D" d a -> says_interval ("P" ++ a) (Span d 0 0 0 0)
| Days_and_time d h m v k a b c e : part "D" d a -> part "H" h b -> part "M" m c -> says_seconds e v k ->
    says_interval ("P" ++ a ++ "T" ++ b ++ c ++ e) (Span d h m v k).

Local Open Scope Z_scope.

(** what must be representable: int64 counts, and seconds that round to a finite float64 *)
Definition in_bounds (x : span) : Prop :=
  sp_days x < 2 ^ 63 /\ sp_hours x < 2 ^ 63 /\ sp_minutes x < 2 ^ 63 /\
  sp_num x < (2 ^ 1024 - 2 ^ 970) * 10 ^ Z.of_nat (sp_digits x).

(** an interval as it is stored: days, seconds, and [ss] units of [10 ^ -p] seconds *)
Record stored := Stored { sv_days : Z; sv_secs : Z; sv_sub : Z; sv_prec : Z }.
(** its seconds and subseconds, in nanoseconds *)
Definition sub_nanos (x : stored) : Z := sv_sub x * 10 ^ (9 - sv_prec x).
Definition time_nanos (x : stored) : Z := sv_secs x * 10 ^ 9 + sub_nanos x.

(** an interval that can be stored, with subseconds that stay far from overflow *)
Definition storable (x : stored) : Prop :=
  0 <= sv_prec x <= 9 /\ in_int 32 (sv_days x) /\ in_int 32 (sv_secs x) /\ Z.abs (sv_sub x) <= 2 ^ 32.

(** a count cut to int32 *)
Definition cut_to_int32 (z z' : Z) : Prop := in_int 32 z' /\ (2 ^ 32 | z - z').
