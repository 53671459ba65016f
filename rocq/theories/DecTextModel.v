(** Model of reading decimals from texts: /repo/expr/decimal_util.go 12-33 and
    /repo/literal/utils.go 317-324.  Definitions only; theorems are in DecTextProps.v. *)

From Coq Require Import ZArith String Ascii Bool List.
From Verif Require Import Base TypesModel DecimalModel LitModel TimeModel CalModel.
Import ListNotations.
Local Open Scope Z_scope.

(** an optional sign; true for a minus *)
Definition opt_sign (s : string) : bool * string :=
  match s with
  | String a r => if Ascii.eqb a "-" then (true, r) else if Ascii.eqb a "+" then (false, r) else (false, s)
  | EmptyString => (false, s)
  end.
(** an optional point with the digits behind it *)
Definition opt_point (s : string) : list Z * string :=
  match s with
  | String a r => if Ascii.eqb a "." then digit_run r else ([], s)
  | EmptyString => ([], s)
  end.
(** an optional exponent: the letter, a sign and digits, none of them needed by the pattern *)
Definition opt_power (s : string) : option (bool * list Z) * string :=
  match s with
  | String a r =>
      if Ascii.eqb a "e" || Ascii.eqb a "E"
      then let '(neg, r) := opt_sign r in let '(ds, r) := digit_run r in (Some (neg, ds), r)
      else (None, s)
  | EmptyString => (None, s)
  end.

Definition digits_number (ds : list Z) : Z := fold_left (fun v d => 10 * v + d) ds 0.

(** decimal_util.go 12, 23-31: the pattern (a sign, digits, a point with digits, an exponent with a sign and digits,
    each of them optional, and nothing else), then apd.NewFromString.  Of
    the texts that match, apd refuses those without a digit before the exponent and those
    with an empty exponent; it reports a condition (an error here too) if the exponent, the number of
    places or the exponent of the leading digit is beyond 100000 (apd.MaxExponent). *)
Definition parse_apd (s : string) : option apd :=
  let '(neg, r) := opt_sign s in
  let '(ds, r) := digit_run r in
  let '(fs, r) := opt_point r in
  let '(pw, r) := opt_power r in
  match r with
  | EmptyString =>
      match ds ++ fs with
      | [] => None
      | all =>
          let c := digits_number all in
          let places := Z.of_nat (List.length fs) in
          match (match pw with
                 | None => Some 0
                 | Some (_, []) => None
                 | Some (n, xs) => Some (if n then - digits_number xs else digits_number xs)
                 end) with
          | None => None
          | Some x =>
              let e := x - places in
              let adj := e + num_digits c - 1 in
              if (x <? -100000) || (100000 <? x) || (100000 <? places) || (adj <? -100000) || (100000 <? adj)
              then None
              else Some (Apd neg c e)
          end
      end
  | _ => None
  end.

(** decimal_util.go 19-33 [DecimalStringToBytes] *)
Definition decimal_string_to_bytes (s : string) : res (list Z * Z * Z) :=
  match parse_apd s with Some d => decimal_to_bytes d | None => Err end.

(** utils.go 318-324 [NewDecimalFromString] *)
Definition new_decimal_from_string (s : string) (nullable : bool) : res lit :=
  let! (b, p, sc) := decimal_string_to_bytes s in new_literal (ADecimal b p sc) nullable.
