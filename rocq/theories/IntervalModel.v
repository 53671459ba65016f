(** Model of the texts of day-time intervals: [NewIntervalDaysToSecondFromString] of
    literal/utils.go 192-264 and [IsoValueString] of expr/literals.go 569-585.

    The regular expression, [strconv.ParseFloat], float64 arithmetic and [Duration.String]
    of the Go library are modelled from the library's source. *)

From Coq Require Import ZArith Bool String Ascii List.
From Verif Require Import Base TimeModel CalModel.
Import ListNotations.
Local Open Scope Z_scope.

(** ** float64 *)

(** A float64 is a multiple of 2^-1074, and is represented by that multiple.  Values beyond
    the largest float64 stay as they are: [strconv.ParseFloat] refuses them, and a product
    is only converted to int64 here, which gives the same for all values out of range. *)
Definition f_one : Z := 2 ^ 1074.

(** division rounded to the nearest, ties to even *)
Definition div_nearest (a b : Z) : Z :=
  let q := a / b in let r := a mod b in
  if 2 * r <? b then q else if b <? 2 * r then q + 1 else if Z.even q then q else q + 1.

(** the float64 nearest to [num / den], which is not negative: 53 bits *)
Definition nearest (num den : Z) : Z :=
  let x := num * f_one in
  let k := Z.max 0 (Z.log2 (x / den) - 52) in
  div_nearest x (den * 2 ^ k) * 2 ^ k.
Definition fround (num den : Z) : Z := if num <? 0 then - nearest (- num) den else nearest num den.

Definition float_of_int (z : Z) : Z := fround z 1.
Definition fsub (a b : Z) : Z := fround (a - b) f_one.
Definition fmul (a b : Z) : Z := fround (a * b) (f_one * f_one).
(** int64(f): truncated; out of range it is what amd64 answers *)
Definition float_to_int (f : Z) : Z :=
  let z := Z.quot f f_one in if (- 2 ^ 63 <=? z) && (z <? 2 ^ 63) then z else - 2 ^ 63.

(** ** reading *)

(** the value of digits *)
Definition dec_value (ds : list Z) : Z := fold_left (fun v d => 10 * v + d) ds 0.

(** the groups of digits before D, H and M of the regular expression in 214; no digits means that the group
    did not take part.  The parts end with different letters, so there is one way to match. *)
Definition opt_digits (c : ascii) (s : string) : list Z * string :=
  match digit_run s with
  | (d :: ds, String a r) => if Ascii.eqb a c then (d :: ds, r) else ([], s)
  | _ => ([], s)
  end.
(** the group before S: whole and fractional digits *)
Definition opt_seconds (s : string) : list Z * list Z * string :=
  let '(ds, r) := digit_run s in
  let '(fs, r) :=
    match r with
    | String a r' =>
        if Ascii.eqb a "." then match digit_run r' with ([], _) => ([], r) | (fs, r'') => (fs, r'') end
        else ([], r)
    | EmptyString => ([], r)
    end in
  match r with
  | String a r' => if Ascii.eqb a "S" then (ds, fs, r') else ([], [], s)
  | EmptyString => ([], [], s)
  end.

(** the whole expression: digits of days, hours, minutes, seconds and fraction *)
Definition match_interval (s : string) : option (list Z * list Z * list Z * list Z * list Z) :=
  match s with
  | String a s =>
      if Ascii.eqb a "P" then
        let '(ds, s) := opt_digits "D" s in
        match s with
        | EmptyString => Some (ds, [], [], [], [])
        | String a s =>
            if Ascii.eqb a "T" then
              let '(hs, s) := opt_digits "H" s in
              let '(ms, s) := opt_digits "M" s in
              let '(ss, fs, s) := opt_seconds s in
              match s with EmptyString => Some (ds, hs, ms, ss, fs) | _ => None end
            else None
        end
      else None
  | EmptyString => None
  end.

(** strconv.Atoi of digits, if there are any (228-245) *)
Definition atoi_digits (ds : list Z) : res Z :=
  let v := dec_value ds in if v <? 2 ^ 63 then Ok v else Err.
(** strconv.ParseFloat of digits with a fraction, if there are any (246-251) *)
Definition parse_float_digits (ss fs : list Z) : res Z :=
  let f := fround (dec_value (ss ++ fs)) (10 ^ Z.of_nat (length fs)) in
  if 2 ^ 1024 * f_one <=? f then Err else Ok f.

(** 253-264: days, seconds, subseconds and precision; int is int64 *)
Definition split_interval (days hours minutes sec : Z) : Z * Z * Z * Z :=
  let seconds := float_to_int sec in
  let sec := fsub sec (float_of_int seconds) in
  let seconds := wrap 64 (seconds + wrap 64 (wrap 64 (hours * 3600) + wrap 64 (minutes * 60))) in
  let nanos := float_to_int (fmul sec (float_of_int 1000000000)) in
  let micros := float_to_int (fmul sec (float_of_int 1000000)) in
  if wrap 64 (micros * 1000) <? nanos
  then (wrap 32 days, wrap 32 seconds, nanos, 9)
  else (wrap 32 days, wrap 32 seconds, micros, 6).

(** 207-264 [parseIntervalDaysToSecond] *)
Definition parse_interval_days (s : string) : res (Z * Z * Z * Z) :=
  if Nat.ltb (String.length s) 3 then Err
  else
    match match_interval s with
    | None => Err
    | Some (ds, hs, ms, ss, fs) =>
        let! d := atoi_digits ds in
        let! h := atoi_digits hs in
        let! m := atoi_digits ms in
        let! f := parse_float_digits ss fs in
        Ok (split_interval d h m f)
    end.

(** ** printing *)

(** Duration.fmtFrac *)
Definition fmt_frac (k : nat) (u : Z) : string :=
  match cut_zeros (fixed k (u mod 10 ^ Z.of_nat k)) with EmptyString => EmptyString | s => String "." s end.
(** strings.ToUpper of Duration.String; the micro sign becomes a capital mu *)
Definition micro_mark : string := String "206" (String "156" "S").
Definition duration_upper (d : Z) : string :=
  let u := Z.abs d in
  let secs := u / 1000000000 in
  append (if d <? 0 then "-" else "")
   (if u =? 0 then "0S"
    else if u <? 1000 then append (string_of_Z u) "NS"
    else if u <? 1000000 then append (string_of_Z (u / 1000)) (append (fmt_frac 3 u) micro_mark)
    else if u <? 1000000000 then append (string_of_Z (u / 1000000)) (append (fmt_frac 6 u) "MS")
    else append (if 3600 <=? secs then append (string_of_Z (secs / 3600)) "H" else "")
        (append (if 60 <=? secs then append (string_of_Z (secs mod 3600 / 60)) "M" else "")
        (append (string_of_Z (secs mod 60)) (append (fmt_frac 9 u) "S")))).

(** literals.go 569-585; the fields of an interval_day literal and its precision *)
Definition interval_day_iso (days secs ss p : Z) : res string :=
  let head := append "P" (if 0 <? days then append (string_of_Z days) "D" else "") in
  if (0 <? secs) || (0 <? ss) then
    let! sub := subseconds_to_duration ss p in
    Ok (head ++ "T" ++ duration_upper (wrap 64 (wrap 64 (secs * 1000000000) + sub)))%string
  else Ok head.
