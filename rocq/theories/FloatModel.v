(** Model of the floating point numbers of test cases: [strconv.ParseFloat(text, 64)] and
    the conversion to float32, as [getFloatLiteral] of testcases/parser/visitor.go 539-553
    uses them (TestCaseModel.v has both as parameters).

    [strconv.ParseFloat] of the Go library is modelled from the library's source
    (atof.go, functions [special], [readFloat], [underscoreOK], [atof64]).  The digits are
    read as the code reads them; the conversion of the decimal number is modelled by what
    its three algorithms compute, which is the nearest float64, ties to even. *)

From Coq Require Import ZArith Bool String Ascii List.
From Verif Require Import Base TimeModel TextModel IntervalModel.
Import ListNotations.
Local Open Scope Z_scope.

(** ** reading digits *)

(** the state of the loop of [readFloat]: the digits as a number, the number of them after
    the point, whether there was a point, a digit, an underscore *)
Record scanned := Scanned { sc_mant : Z; sc_frac : Z; sc_dot : bool; sc_some : bool; sc_under : bool }.

(** [readFloat], the loop over digits.  The code keeps 19 digits and reads the others again
    in another function; here all are kept. *)
Fixpoint scan (s : string) (x : scanned) : scanned * string :=
  match s with
  | EmptyString => (x, s)
  | String c s' =>
      if Ascii.eqb c "_" then scan s' (Scanned (sc_mant x) (sc_frac x) (sc_dot x) (sc_some x) true)
      else if Ascii.eqb c "." then
        if sc_dot x then (x, s) else scan s' (Scanned (sc_mant x) (sc_frac x) true (sc_some x) (sc_under x))
      else match digit_of c with
           | Some d => scan s' (Scanned (sc_mant x * 10 + d) (if sc_dot x then sc_frac x + 1 else sc_frac x) (sc_dot x) true (sc_under x))
           | None => (x, s)
           end
  end.

(** [readFloat], the digits of the exponent, of which no more count once they make 10000 *)
Fixpoint scan_exponent (s : string) (e : Z) (u : bool) : Z * bool * string :=
  match s with
  | EmptyString => (e, u, s)
  | String c s' =>
      if Ascii.eqb c "_" then scan_exponent s' e true
      else match digit_of c with
           | Some d => scan_exponent s' (if e <? 10000 then e * 10 + d else e) u
           | None => (e, u, s)
           end
  end.

(** a sign, if there is one; [true] is minus *)
Definition split_sign (s : string) : bool * string :=
  match s with
  | String c s' => if Ascii.eqb c "-" then (true, s') else if Ascii.eqb c "+" then (false, s') else (false, s)
  | EmptyString => (false, s)
  end.

(** [readFloat], the exponent, if there is one: its value, whether it has an underscore,
    and the rest; [None] is a syntax error *)
Definition exponent (s : string) : option (Z * bool * string) :=
  match s with
  | String c s' =>
      if Ascii.eqb (lower_char c) "e" then
        let '(neg, t) := split_sign s' in
        match t with
        | String d _ =>
            match digit_of d with
            | Some _ => let '(e, u, r) := scan_exponent t 0 false in Some (if neg then - e else e, u, r)
            | None => None
            end
        | EmptyString => None
        end
      else Some (0, false, s)
  | EmptyString => Some (0, false, s)
  end.

(** [underscoreOK]: what was seen last *)
Inductive saw := SawStart | SawDigit | SawUnderscore | SawOther.
(** of a text without sign and base prefix *)
Fixpoint underscores_ok (last : saw) (s : string) : bool :=
  match s with
  | EmptyString => match last with SawUnderscore => false | _ => true end
  | String c s' =>
      match digit_of c with
      | Some _ => underscores_ok SawDigit s'
      | None =>
          if Ascii.eqb c "_" then match last with SawDigit => underscores_ok SawUnderscore s' | _ => false end
          else match last with SawUnderscore => false | _ => underscores_ok SawOther s' end
      end
  end.

(** [readFloat] of a text without sign that is not hexadecimal, all of which must be read:
    [m] and [e] of [m * 10 ^ e] *)
Definition parse_decimal (s : string) : res (Z * Z) :=
  let '(x, r) := scan s (Scanned 0 0 false false false) in
  if sc_some x then
    match exponent r with
    | Some (e, u, r') =>
        match r' with
        | EmptyString => if (sc_under x || u) && negb (underscores_ok SawStart s) then Err else Ok (sc_mant x, e - sc_frac x)
        | _ => Err
        end
    | None => Err
    end
  else Err.

(** ** rounding *)

(** [n / d], not negative, rounded to [p] binary digits, ties to even *)
Definition round_bits (p n d : Z) : Z :=
  let k := Z.max 0 (Z.log2 (n / d) - (p - 1)) in div_nearest n (d * 2 ^ k) * 2 ^ k.
(** the bits of [x] times the least positive number of the format; [p] binary digits *)
Definition magnitude_bits (p x : Z) : Z :=
  let k := Z.max 0 (Z.log2 x - (p - 1)) in k * 2 ^ (p - 1) + x / 2 ^ k.
Definition with_sign (w : Z) (neg : bool) (b : Z) : Z := if neg then 2 ^ (w - 1) + b else b.

Definition inf64 : Z := 2047 * 2 ^ 52.
(** [math.NaN()] *)
Definition nan64 : Z := inf64 + 2 ^ 51 + 1.

(** ** strconv.ParseFloat *)

(** [special]: what must be the whole text *)
Definition special (s : string) : option Z :=
  if String.eqb (lower s) "nan" then Some nan64
  else
    let '(neg, t) := split_sign s in
    if String.eqb (lower t) "inf" || String.eqb (lower t) "infinity" then Some (with_sign 64 neg inf64) else None.

(** the prefix of a hexadecimal number *)
Definition hex_prefix (s : string) : bool :=
  match s with
  | String a (String b (String _ _)) => Ascii.eqb a "0" && Ascii.eqb (lower_char b) "x"
  | _ => false
  end.

Section Hex.
(** hexadecimal numbers are not modelled *)
Variable parse_hex : string -> res Z.

(** the bits of the float64; a number that is rounded beyond the largest is an error *)
Definition parse_float (s : string) : res Z :=
  match special s with
  | Some b => Ok b
  | None =>
      let '(neg, t) := split_sign s in
      if hex_prefix t then parse_hex s
      else
        let! (m, e) := parse_decimal t in
        let x := round_bits 53 (m * 10 ^ Z.max 0 e * 2 ^ 1074) (10 ^ Z.max 0 (- e)) in
        if x <? 2 ^ (1024 + 1074) then Ok (with_sign 64 neg (magnitude_bits 53 x)) else Err
  end.
End Hex.

(** ** float32(f) *)

(** the magnitude of a float64 that is a number, in units of 2^-1074 *)
Definition magnitude64 (b : Z) : Z :=
  let e := b / 2 ^ 52 mod 2 ^ 11 in let f := b mod 2 ^ 52 in
  if e =? 0 then f else (2 ^ 52 + f) * 2 ^ (e - 1).
(** A number too large becomes an infinity.  Of what is not a number the first bits of the
    fraction are kept, and the first of them is set, as on amd64. *)
Definition to_float32 (b : Z) : Z :=
  let neg := 2 ^ 63 <=? b in
  let e := b / 2 ^ 52 mod 2 ^ 11 in let f := b mod 2 ^ 52 in
  if e =? 2047 then
    with_sign 32 neg (255 * 2 ^ 23 + (if f =? 0 then 0 else Z.lor (2 ^ 22) (f / 2 ^ 29)))
  else
    let x := round_bits 24 (magnitude64 b) (2 ^ 925) in
    with_sign 32 neg (if x <? 2 ^ (128 + 149) then magnitude_bits 24 x else 255 * 2 ^ 23).
