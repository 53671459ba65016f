(** Specification of the texts decimals are printed as (C71). *)

From Coq Require Import ZArith String List.
From Verif Require Import Base CalSpec DecimalSpec.
Import ListNotations.
Local Open Scope string_scope.
Local Open Scope Z_scope.

(** the digits of a number that is not negative, without zeros in front (and "0" for zero) *)
Definition unpadded (v : Z) (text : string) : Prop := exists k, number k v text /\ has_digits v (Z.of_nat k).

Inductive minus_if_negative (v : Z) : string -> Prop :=
| Negative : v < 0 -> minus_if_negative v "-"
| Not_negative : 0 <= v -> minus_if_negative v "".

(** [v * 10 ^ -s] is written with all its places: they are not missing, and fewer than six zeros stand between the point and
    the first other digit.  A zero may be written so with up to 2000 places. *)
Definition in_full (zeros_in_full : bool) (v s : Z) : Prop :=
  0 <= s /\ ((exists k, has_digits (Z.abs v) k /\ s < k + 6) \/ (v = 0 /\ zeros_in_full = true /\ s <= 2000)).

(** a power of ten, with its sign *)
Inductive shows_power (x : Z) : string -> Prop :=
| Power_down ds : x < 0 -> unpadded (- x) ds -> shows_power x ("E-" ++ ds)
| Power_up ds : 0 <= x -> unpadded x ds -> shows_power x ("E+" ++ ds).

(** the text of [v * 10 ^ -s] *)
Inductive shows_decimal (zeros_in_full : bool) (v : Z) : Z -> string -> Prop :=
| Shows_whole sg ds : minus_if_negative v sg -> unpadded (Z.abs v) ds -> shows_decimal zeros_in_full v 0 (sg ++ ds)
| Shows_places s sg ds fs : in_full zeros_in_full v (Z.of_nat s) -> (0 < s)%nat ->
    minus_if_negative v sg -> unpadded (Z.abs v / 10 ^ Z.of_nat s) ds -> number s (Z.abs v mod 10 ^ Z.of_nat s) fs ->
    shows_decimal zeros_in_full v (Z.of_nat s) (sg ++ ds ++ "." ++ fs)
| Shows_digit_power s sg d p : ~ in_full zeros_in_full v s -> minus_if_negative v sg -> Z.abs v <= 9 -> number 1 (Z.abs v) d ->
    shows_power (- s) p -> shows_decimal zeros_in_full v s (sg ++ d ++ p)
| Shows_digits_power s sg k d fs p : ~ in_full zeros_in_full v s -> minus_if_negative v sg -> (0 < k)%nat ->
    0 < Z.abs v / 10 ^ Z.of_nat k <= 9 -> number 1 (Z.abs v / 10 ^ Z.of_nat k) d -> number k (Z.abs v mod 10 ^ Z.of_nat k) fs ->
    shows_power (Z.of_nat k - s) p -> shows_decimal zeros_in_full v s (sg ++ d ++ "." ++ fs ++ p).
