(** Specification vocabulary for decimals (C11-C13). *)

From Coq Require Import List ZArith Bool.
From Verif Require Import Base DecimalModel.
Import ListNotations.
Local Open Scope Z_scope.

Definition is_byte (b : Z) : Prop := 0 <= b < 256.
Definition bytes (n : nat) (l : list Z) : Prop := List.length l = n /\ Forall is_byte l.

(** value of little-endian bytes: l0 + 256 l1 + 256^2 l2 + ... *)
Fixpoint le_value (l : list Z) : Z :=
  match l with [] => 0 | b :: l' => b + 256 * le_value l' end.
(** value of big-endian bytes *)
Definition be_value (l : list Z) : Z := le_value (rev l).

(** two's complement reading of 16 little-endian bytes *)
Definition signed128 (l : list Z) : Z :=
  if le_value l <? 2 ^ 127 then le_value l else le_value l - 2 ^ 128.

(** m * 10^e = m' * 10^e', without fractions *)
Definition same_number (m e m' e' : Z) : Prop :=
  m * 10 ^ (e - Z.min e e') = m' * 10 ^ (e' - Z.min e e').

Definition apd_int (d : apd) : Z := if a_neg d then - a_coeff d else a_coeff d.

(** number of decimal digits, characterized by powers of ten *)
Definition has_digits (n d : Z) : Prop :=
  0 < d /\ n < 10 ^ d /\ (n = 0 /\ d = 1 \/ 10 ^ (d - 1) <= n).

(** an apd decimal whose digit count and exponent are not near the int32 bounds
    (anything parsed from a string is) *)
Definition apd_ok (d : apd) : Prop :=
  0 <= a_coeff d /\ (exists nd, has_digits (a_coeff d) nd /\ nd < 2 ^ 30) /\ - 2 ^ 30 < a_exp d < 2 ^ 30.
