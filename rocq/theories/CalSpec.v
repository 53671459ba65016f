(** Specification of dates and of the texts of dates and times (C60, C61). *)

From Coq Require Import ZArith String Ascii List.
From Verif Require Import Base.
Import ListNotations.
Local Open Scope Z_scope.

(** ** the calendar *)
Record date := Date { d_year : Z; d_month : Z; d_day : Z }.

Definition leap (y : Z) : Prop := (4 | y) /\ (~ (100 | y) \/ (400 | y)).
Inductive month_has : Z -> Z -> Z -> Prop :=
| Has31 y m : In m [1; 3; 5; 7; 8; 10; 12] -> month_has y m 31
| Has30 y m : In m [4; 6; 9; 11] -> month_has y m 30
| Has29 y : leap y -> month_has y 2 29
| Has28 y : ~ leap y -> month_has y 2 28.
Definition valid_date (x : date) : Prop :=
  exists k, month_has (d_year x) (d_month x) k /\ 1 <= d_day x <= k.

(** the day after: in the same month, or the first of the next *)
Inductive tomorrow : date -> date -> Prop :=
| SameMonth y m d k : month_has y m k -> 1 <= d < k -> tomorrow (Date y m d) (Date y m (d + 1))
| NextMonth y m k : month_has y m k -> m < 12 -> tomorrow (Date y m k) (Date y (m + 1) 1)
| NextYear y : tomorrow (Date y 12 31) (Date (y + 1) 1 1).

(** day 0 is the first of January 1970; the days follow one another, both ways *)
Inductive calendar : Z -> date -> Prop :=
| Epoch : calendar 0 (Date 1970 1 1)
| Later n x y : calendar n x -> tomorrow x y -> calendar (n + 1) y
| Earlier n x y : calendar (n + 1) y -> tomorrow x y -> calendar n x.

(** ** texts *)

(** [k] decimal digits, and their value *)
Definition digit (z : Z) : ascii := nth (Z.to_nat z) ["0"; "1"; "2"; "3"; "4"; "5"; "6"; "7"; "8"; "9"]%char "0"%char.
Inductive number : nat -> Z -> string -> Prop :=
| No_digit : number 0 0 ""
| One_more k z s d : number k z s -> 0 <= d <= 9 -> number (S k) (10 * z + d) (s ++ String (digit d) "").

Local Open Scope string_scope.

(** year, month and day, of a day that exists *)
Inductive says_date : string -> date -> Prop :=
| Says_date ys ms ds y m d : number 4 y ys -> number 2 m ms -> number 2 d ds -> valid_date (Date y m d) ->
    says_date (ys ++ "-" ++ ms ++ "-" ++ ds) (Date y m d).

(** a fraction of a second: point or comma and at least one digit, cut to nanoseconds *)
Inductive says_fraction : string -> Z -> Prop :=
| No_fraction : says_fraction "" 0
| Fraction sep k v ds : sep = "." \/ sep = "," -> number (S k) v ds ->
    says_fraction (sep ++ ds) (v * 10 ^ 9 / 10 ^ Z.of_nat (S k)).

(** hours (one digit or two), minutes, seconds, and nanoseconds *)
Record clock := Clock { c_hour : Z; c_min : Z; c_sec : Z; c_nano : Z }.
Inductive says_clock : string -> clock -> Prop :=
| Says_clock k hs ms ss fs h m s ns : k = 1%nat \/ k = 2%nat -> number k h hs -> number 2 m ms -> number 2 s ss -> says_fraction fs ns ->
    (h < 24)%Z -> (m < 60)%Z -> (s < 60)%Z ->
    says_clock (hs ++ ":" ++ ms ++ ":" ++ ss ++ fs) (Clock h m s ns).

(** the offset from UTC, in seconds *)
Inductive says_zone : string -> Z -> Prop :=
| Utc : says_zone "Z" 0
| East hs ms h m : number 2 h hs -> number 2 m ms -> (h <= 24)%Z -> (m <= 60)%Z ->
    says_zone ("+" ++ hs ++ ":" ++ ms) (h * 3600 + m * 60)
| West hs ms h m : number 2 h hs -> number 2 m ms -> (h <= 24)%Z -> (m <= 60)%Z ->
    says_zone ("-" ++ hs ++ ":" ++ ms) (- (h * 3600 + m * 60)).

(** a date and a time with or without offset, or a time alone: then the first day of the
    year 0 *)
Inductive says_time : string -> date -> clock -> Z -> Prop :=
| Zoned ds cs zs x c off : says_date ds x -> says_clock cs c -> says_zone zs off -> says_time (ds ++ "T" ++ cs ++ zs) x c off
| Unzoned ds cs x c : says_date ds x -> says_clock cs c -> says_time (ds ++ "T" ++ cs) x c 0
| Clock_only cs c : says_clock cs c -> says_time cs (Date 0 1 1) c 0.

(** nanoseconds since the epoch *)
Definition nanos (day : Z) (c : clock) (off : Z) : Z :=
  (((day * 24 + c_hour c) * 60 + c_min c) * 60 + c_sec c - off) * 10 ^ 9 + c_nano c.
Local Open Scope Z_scope.

(** the date and the clock (in UTC) at an instant given in nanoseconds *)
Definition clock_ok (c : clock) : Prop :=
  0 <= c_hour c < 24 /\ 0 <= c_min c < 60 /\ 0 <= c_sec c < 60 /\ 0 <= c_nano c < 10 ^ 9.
Definition moment (ns : Z) (x : date) (c : clock) : Prop :=
  exists day, calendar day x /\ clock_ok c /\ ns = nanos day c 0.

(** ** printed texts, to the letter *)
Local Open Scope string_scope.

(** at least [w] digits, filled up with zeros *)
Inductive padded (w : nat) : Z -> string -> Prop :=
| Short z s : number w z s -> padded w z s
| Long k z s : (w < k)%nat -> (10 ^ (Z.of_nat k - 1) <= z)%Z -> number k z s -> padded w z s.
(** a year has four digits or more; before the year 0 a sign and at least [v] digits *)
Inductive prints_year (v : nat) : Z -> string -> Prop :=
| After y s : padded 4 y s -> prints_year v y s
| Before y s : (0 < y)%Z -> padded v y s -> prints_year v (- y) ("-" ++ s).
Inductive prints_date (v : nat) : date -> string -> Prop :=
| Prints_date y m d ys ms ds : prints_year v y ys -> number 2 m ms -> number 2 d ds ->
    prints_date v (Date y m d) (ys ++ "-" ++ ms ++ "-" ++ ds).
(** two digits each, and a fraction *)
Inductive prints_clock (frac : Z -> string -> Prop) : clock -> string -> Prop :=
| Prints_clock h m s ns hs ms ss fs : number 2 h hs -> number 2 m ms -> number 2 s ss -> frac ns fs ->
    prints_clock frac (Clock h m s ns) (hs ++ ":" ++ ms ++ ":" ++ ss ++ fs).
(** none; exactly [k] digits; as many digits as are needed *)
Inductive no_frac : Z -> string -> Prop := No_frac ns : no_frac ns "".
Inductive frac_of (k : nat) : Z -> string -> Prop :=
| Frac_of ns ds : number k (ns / 10 ^ (9 - Z.of_nat k)) ds -> frac_of k ns ("." ++ ds).
Inductive shortest : Z -> string -> Prop :=
| Whole : shortest 0 ""
| Needed k v ds : (k <= 9)%nat -> number k v ds -> ~ (10 | v)%Z -> shortest (v * 10 ^ (9 - Z.of_nat k)) ("." ++ ds).
Inductive prints_stamp (sep : string) (frac : Z -> string -> Prop) (zone : string) : date -> clock -> string -> Prop :=
| Prints_stamp x c ds cs : prints_date 4 x ds -> prints_clock frac c cs -> prints_stamp sep frac zone x c (ds ++ sep ++ cs ++ zone).
Local Open Scope Z_scope.
