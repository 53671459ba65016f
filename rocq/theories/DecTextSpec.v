(** Specification of the texts of decimals (C63). *)

From Coq Require Import ZArith String List.
From Verif Require Import Base CalSpec DecimalSpec.
Import ListNotations.
Local Open Scope string_scope.

Inductive sign : string -> Z -> Prop :=
| Unsigned : sign "" 1
| Plus : sign "+" 1
| Minus : sign "-" (-1).

(** digits with at most one point among them; the second number counts the places after it *)
Inductive digits_and_point : string -> Z -> nat -> Prop :=
| Without_point k v ds : number (S k) v ds -> digits_and_point ds v 0
| With_point k j v w ds fs : number k v ds -> number j w fs -> (0 < k + j)%nat ->
    digits_and_point (ds ++ "." ++ fs) (v * 10 ^ Z.of_nat j + w) j.
(** a power of ten *)
Inductive power : string -> Z -> Prop :=
| No_power : power "" 0
| Power e sg k s z ds : e = "e" \/ e = "E" -> sign sg s -> number (S k) z ds -> power (e ++ sg ++ ds) (s * z).

(** the text says [v * 10 ^ (x - j)], with [j] places after the point and the power [x] *)
Inductive says_decimal : string -> Z -> nat -> Z -> Prop :=
| Says_decimal sg m e s v j x : sign sg s -> digits_and_point m v j -> power e x ->
    says_decimal (sg ++ m ++ e) (s * v) j x.

Local Open Scope Z_scope.

(** the digits a number [v * 10 ^ e] needs: all of them, and one before the point *)
Definition needs_digits (v e p : Z) : Prop :=
  exists nd, has_digits (Z.abs v) nd /\ (0 < e -> p = nd + e) /\ (e <= 0 -> p = Z.max nd (1 - e)).
