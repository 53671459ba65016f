(** Specification of the floating point numbers of test cases (C70). *)

From Coq Require Import ZArith String Ascii List.
From Verif Require Import Base CalSpec.
Import ListNotations.
Local Open Scope Z_scope.
Local Open Scope string_scope.

(** ** texts *)

(** digits, between any two of which there may be an underscore: how many, and their value *)
Inductive digits : string -> nat -> Z -> Prop :=
| One_digit d : 0 <= d <= 9 -> digits (String (digit d) "") 1 d
| More_digits t k v u d : digits t k v -> u = "" \/ u = "_" -> 0 <= d <= 9 ->
    digits (t ++ u ++ String (digit d) "") (S k) (10 * v + d).
(** digits with or without a point: their value without the point, and how many are after it *)
Inductive mantissa : string -> Z -> nat -> Prop :=
| Whole t k v : digits t k v -> mantissa t v 0
| Point_last t k v : digits t k v -> mantissa (t ++ ".") v 0
| Point_first f j w : digits f j w -> mantissa ("." ++ f) w j
| Point_between t k v f j w : digits t k v -> digits f j w -> mantissa (t ++ "." ++ f) (v * 10 ^ Z.of_nat j + w) j.
(** of an exponent that is written only the first five digits count, after zeros *)
Definition counts_as (w e : Z) : Prop :=
  w < 100000 /\ e = w \/ 10000 <= e < 100000 /\ exists k r, 0 <= k /\ w = e * 10 ^ k + r /\ 0 <= r < 10 ^ k.
Inductive signed : string -> bool -> Prop :=
| Unsigned : signed "" false
| Plus : signed "+" false
| Minus : signed "-" true.
Inductive power_of_ten : string -> Z -> Prop :=
| No_power : power_of_ten "" 0
| Power c sg neg t k w e : c = "e" \/ c = "E" -> signed sg neg -> digits t k w -> counts_as w e ->
    power_of_ten (c ++ sg ++ t) (if neg then - e else e).
(** the text says [m * 10 ^ e], or minus that *)
Inductive says_float : string -> bool -> Z -> Z -> Prop :=
| Says_float sg neg t m j p e : signed sg neg -> mantissa t m j -> power_of_ten p e ->
    says_float (sg ++ t ++ p) neg m (e - Z.of_nat j).

(** a word in small letters, spelled with any of them capital *)
Inductive spells : string -> string -> Prop :=
| Spells_nothing : spells "" ""
| Spells c c' w t : c' = c \/ nat_of_ascii c = (nat_of_ascii c' + 32)%nat -> spells w t -> spells (String c w) (String c' t).

(** ** numbers *)
Local Open Scope Z_scope.

(** [p] binary digits and an exponent *)
Definition binary (p x : Z) : Prop := exists m e, 0 <= e /\ Z.abs m < 2 ^ p /\ x = m * 2 ^ e.
(** the binary number nearest to [n / d]; of two it is the one whose last digit is even *)
Definition nearest_binary (p n d x : Z) : Prop :=
  binary p x /\ forall y, binary p y ->
    Z.abs (x * d - n) <= Z.abs (y * d - n) /\ (y <> x -> Z.abs (x * d - n) = Z.abs (y * d - n) -> (2 * (x - y) | x)).
(** an exponent and [p - 1] digits of a fraction are the bits of [x] times the least positive number of the format *)
Definition bits_of (p x b : Z) : Prop :=
  exists e f, 0 <= e /\ 0 <= f < 2 ^ (p - 1) /\ b = e * 2 ^ (p - 1) + f /\
    x = (if e =? 0 then f else (2 ^ (p - 1) + f) * 2 ^ (e - 1)).

(** the nearest float64 to [m * 10 ^ e], as a multiple of 2^-1074 *)
Definition nearest64 (m e x : Z) : Prop := nearest_binary 53 (m * 10 ^ Z.max 0 e * 2 ^ 1074) (10 ^ Z.max 0 (- e)) x.
(** the nearest float32 to [x * 2^-1074], as a multiple of 2^-149 *)
Definition nearest32 (x y : Z) : Prop := nearest_binary 24 x (2 ^ 925) y.

(** the bits of the float64 a text stands for *)
Inductive float64_of (text : string) : Z -> Prop :=
| Of_number neg m e x b : says_float text neg m e -> nearest64 m e x -> x < 2 ^ 1024 * 2 ^ 1074 -> bits_of 53 x b ->
    float64_of text (if neg then 2 ^ 63 + b else b)
| Of_infinity sg neg t : text = sg ++ t -> signed sg neg -> spells "inf" t \/ spells "infinity" t ->
    float64_of text (if neg then 0xFFF0000000000000 else 0x7FF0000000000000)
| Of_no_number : spells "nan" text -> float64_of text 0x7FF8000000000001.
Definition hexadecimal (text : string) : Prop :=
  exists sg neg x c r, signed sg neg /\ (x = "x" \/ x = "X") /\ text = sg ++ "0" ++ x ++ String c r.

(** the bits of the float32 that bits of a float64 become *)
Inductive float32_of : Z -> Z -> Prop :=
| Of_float64 (neg : bool) x b y b' : 0 <= x < 2 ^ 1024 * 2 ^ 1074 -> bits_of 53 x b -> nearest32 x y -> y < 2 ^ 128 * 2 ^ 149 -> bits_of 24 y b' ->
    float32_of (if neg then 2 ^ 63 + b else b) (if neg then 2 ^ 31 + b' else b')
| Of_too_large (neg : bool) x b y : 0 <= x < 2 ^ 1024 * 2 ^ 1074 -> bits_of 53 x b -> nearest32 x y -> 2 ^ 128 * 2 ^ 149 <= y ->
    float32_of (if neg then 2 ^ 63 + b else b) (if neg then 0xFF800000 else 0x7F800000)
| Of_infinite (neg : bool) : float32_of (if neg then 0xFFF0000000000000 else 0x7FF0000000000000) (if neg then 0xFF800000 else 0x7F800000)
| Of_nan (neg : bool) f g : 0 < f < 2 ^ 52 -> g = (f / 2 ^ 29) mod 2 ^ 22 -> 
    float32_of ((if neg then 2 ^ 63 else 0) + 0x7FF0000000000000 + f) ((if neg then 2 ^ 31 else 0) + 0x7FC00000 + g).
