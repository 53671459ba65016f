(** Model of the texts of decimals: /repo/expr/decimal_util.go 97-116 and the String method
    of the apd library (v3.2.1, format.go) that it calls.  apd is not part of /repo; it is
    modelled after its documentation (the to-scientific-string of the General Decimal Arithmetic).
    Definitions only; theorems are in DecPrintProps.v. *)

From Coq Require Import ZArith String Bool List.
From Verif Require Import Base DecimalModel.
Import ListNotations.
Local Open Scope string_scope.
Local Open Scope Z_scope.

Section Zeros.
(** whether a zero with up to 2000 places is written with all of them: releases of apd differ *)
Variable zeros_in_full : bool.

(** the digit zero, [n] times *)
Fixpoint zeros (n : nat) : string := match n with O => "" | S k => "0" ++ zeros k end.

(** apd's fmtF: all digits, and a point before the last [-e] of them *)
Definition plain_form (digits : string) (e : Z) : string :=
  if e <? 0 then
    let left := - e - Z.of_nat (String.length digits) in
    if 0 <=? left then "0." ++ zeros (Z.to_nat left) ++ digits
    else let offset := Z.to_nat (- left) in
         substring 0 offset digits ++ "." ++ substring offset (String.length digits - offset) digits
  else digits ++ zeros (Z.to_nat e).

(** apd's fmtE: a point after the first digit, and a power of ten *)
Definition power_form (digits : string) (e : Z) : string :=
  let adj := e + Z.of_nat (String.length digits) - 1 in
  substring 0 1 digits ++
  (if (1 <? String.length digits)%nat then "." ++ substring 1 (String.length digits - 1) digits else "") ++
  "E" ++ (if adj <? 0 then "-" ++ string_of_Z (- adj) else "+" ++ string_of_Z adj).

(** apd's String, which is Append with the verb G *)
Definition apd_string (d : apd) : string :=
  let digits := string_of_Z (a_coeff d) in
  let len := Z.of_nat (String.length digits) in
  let len := if (a_coeff d =? 0) && zeros_in_full && (-2000 <=? a_exp d) && (a_exp d <? 0) then len - a_exp d else len in
  let adj := a_exp d + (len - 1) in
  (if a_neg d then "-" else "") ++
  (if (a_exp d <=? 0) && (-6 <=? adj) then plain_form digits (a_exp d) else power_form digits (a_exp d)).

(** decimal_util.go 97-116 [decimalBytesToString] *)
Definition decimal_text (b : list Z) (scale : Z) : string := apd_string (decimal_of_bytes b scale).

End Zeros.
