(** Model of /repo/expr/decimal_util.go.  Parsing and printing of decimal strings is
    done by the apd library and is not modelled: an [apd.Decimal] is a sign, a
    non-negative coefficient and an int32 exponent. *)

From Coq Require Import List ZArith Bool.
From Verif Require Import Base.
Import ListNotations.
Local Open Scope Z_scope.

Record apd := Apd { a_neg : bool; a_coeff : Z; a_exp : Z }.

(** ** big integers (math/big, apd.BigInt) *)

(** apd.NumDigits: number of decimal digits, 1 for zero *)
Fixpoint num_digits_fuel (fuel : nat) (n : Z) : Z :=
  match fuel with
  | O => 1
  | S f => if n <? 10 then 1 else 1 + num_digits_fuel f (n / 10)
  end.
Definition num_digits (n : Z) : Z := num_digits_fuel (Z.to_nat (Z.log2 n + 1)) n.

(** big.Int.Bytes: minimal big-endian bytes of a non-negative integer *)
Fixpoint le_bytes_fuel (fuel : nat) (n : Z) : list Z :=
  match fuel with
  | O => []
  | S f => if n =? 0 then [] else n mod 256 :: le_bytes_fuel f (n / 256)
  end.
Definition be_bytes (n : Z) : list Z := rev (le_bytes_fuel (Z.to_nat (Z.log2 n + 1)) n).

(** big.Int.SetBytes *)
Definition set_bytes (l : list Z) : Z := fold_left (fun acc b => acc * 256 + b) l 0.

(** ** 83-95 [negate] on big-endian bytes: flip all, then add one from the last byte,
    stopping at the first byte that does not become zero *)
Fixpoint carry (l : list Z) : list Z :=
  match l with
  | [] => []
  | b :: l' =>
      let b' := (b + 1) mod 256 in
      if b' =? 0 then b' :: carry l' else b' :: l'
  end.
Definition negate (l : list Z) : list Z := rev (carry (rev (map (fun b => 255 - b) l))).

(** [copy(result[16-len(b):], b)] into sixteen zero bytes *)
Definition pad16 (l : list Z) : list Z := repeat 0 (16 - List.length l) ++ l.

(** ** 39-80 [DecimalToBytes]: bytes, precision, scale.  int32 arithmetic wraps. *)
Definition decimal_to_bytes (d : apd) : res (list Z * Z * Z) :=
  let nd := wrap 32 (num_digits (a_coeff d)) in
  let '(p, s) :=
    if 0 <? a_exp d then (wrap 32 (nd + a_exp d), 0)
    else let s := wrap 32 (- a_exp d) in (Z.max nd (wrap 32 (s + 1)), s) in
  if 38 <? p then Err
  else
    let c := if 0 <? a_exp d then a_coeff d * 10 ^ a_exp d else a_coeff d in
    let b := be_bytes c in
    if 16 <? Z.of_nat (List.length b) then Err
    else
      let r := pad16 b in
      let r := if a_neg d then negate r else r in
      Ok (rev r, p, s).

(** bit 7 of byte 15 *)
Definition top_bit (b : list Z) : bool := 128 <=? nth 15 b 0.

(** 97-116 [decimalBytesToString]: the number handed to apd for printing.  The
    argument is a [16]byte. *)
Definition decimal_of_bytes (b : list Z) (scale : Z) : apd :=
  let neg := top_bit b in
  let v := rev b in
  let v := if neg then negate v else v in
  let n := set_bytes v in
  let n := if neg then - n else n in
  Apd (n <? 0) (Z.abs n) (wrap 32 (- scale)).

(** apd's Reduce on a non-negative number: drop trailing zeros; zero becomes 0E0 *)
Fixpoint reduce_fuel (fuel : nat) (c e : Z) : Z * Z :=
  match fuel with
  | O => (c, e)
  | S f => if c mod 10 =? 0 then reduce_fuel f (c / 10) (e + 1) else (c, e)
  end.
Definition reduce (c e : Z) : Z * Z :=
  if c =? 0 then (0, 0) else reduce_fuel (Z.to_nat (Z.log2 c + 1)) c e.

(** 190-199 [getMinimumPrecisionAndScale] *)
Definition min_prec_scale (c e : Z) : Z * Z :=
  if 0 <? e then (num_digits c + e, 0) else (Z.max (num_digits c) (- e), - e).

(** 175-188 [validatePrecisionAndScale] *)
Definition validate_prec_scale (c e tp ts : Z) : bool :=
  let '(mp, ms) := min_prec_scale c e in
  negb (ts <? ms) && negb (tp <? mp) && negb (tp - ts <? mp - ms).

(** apd's Context.Quantize to exponent [-ts] with precision [tp]: multiply the
    coefficient; fails if the result has too many digits.  Only called (153) after
    [validate_prec_scale], when the exponent never grows; the other case is an error
    here. *)
Definition quantize (c e tp ts : Z) : res Z :=
  let diff := - ts - e in
  if 0 <? diff then Err
  else
    let c' := c * 10 ^ (- diff) in
    if tp <? num_digits c' then Err else Ok c'.

(** 118-173 [modifyDecimalPrecisionAndScale].  [scale] is taken to be far from the
    int32 bounds (exponents are not wrapped here). *)
Definition modify_decimal (b : list Z) (scale tp ts : Z) : res (list Z * Z * Z) :=
  if 38 <? tp then Err
  else
    let neg := top_bit b in
    let v := rev b in
    let v := if neg then negate v else v in
    let '(c, e) := reduce (set_bytes v) (- scale) in
    if validate_prec_scale c e tp ts then
      let! c' := quantize c e tp ts in
      let bs := be_bytes c' in
      if 16 <? Z.of_nat (List.length bs) then Err
      else
        let r := pad16 bs in
        let r := if neg then negate r else r in
        Ok (rev r, tp, ts)
    else Err.

(** /repo/literal/utils.go 303-314 [NewDecimalFromTwosComplement]: which bytes,
    precision and scale it accepts *)
Definition new_decimal_from_twos_complement (b : list Z) (p s : Z) : res (list Z * Z * Z) :=
  if negb (Z.of_nat (List.length b) =? 16) then Err
  else if (p <? 1) || (38 <? p) then Err
  else if (s <? 0) || (p <? s) then Err
  else Ok (b, p, s).
