(** Model of the sub-second precision conversions (/repo/types/types.go 1825-1929,
    /repo/types/precison_timestamp_types.go 35-67, /repo/expr/literals.go 723-770) and of
    the time and interval constructors of /repo/literal/utils.go.

    int64 arithmetic wraps; Go's [/] and [%] truncate towards zero ([Z.quot],
    [Z.rem]).  Parsing and formatting of calendar strings is done by the Go library
    and not modelled. *)

From Coq Require Import List ZArith Bool String Ascii.
From Verif Require Import Base.
Import ListNotations.
Local Open Scope Z_scope.

(** ** the Go library's time.Time: Unix seconds (int64) and nanoseconds in [0,1e9) *)
Record time := Time { t_sec : Z; t_nsec : Z }.

(** time.Unix(sec, nsec) *)
Definition time_unix (sec nsec : Z) : time :=
  if (nsec <? 0) || (1000000000 <=? nsec) then
    let n := Z.quot nsec 1000000000 in
    let sec := wrap 64 (sec + n) in
    let nsec := nsec - n * 1000000000 in
    if nsec <? 0 then Time (wrap 64 (sec - 1)) (nsec + 1000000000) else Time sec nsec
  else Time sec nsec.

(** time.UnixMilli, time.UnixMicro *)
Definition time_unix_milli (ms : Z) : time := time_unix (Z.quot ms 1000) (Z.rem ms 1000 * 1000000).
Definition time_unix_micro (us : Z) : time := time_unix (Z.quot us 1000000) (Z.rem us 1000000 * 1000).

(** t.Unix(), t.UnixMilli(), t.UnixMicro(), t.UnixNano() *)
Definition unix (t : time) : Z := t_sec t.
Definition unix_milli (t : time) : Z := wrap 64 (t_sec t * 1000 + Z.quot (t_nsec t) 1000000).
Definition unix_micro (t : time) : Z := wrap 64 (t_sec t * 1000000 + Z.quot (t_nsec t) 1000).
Definition unix_nano (t : time) : Z := wrap 64 (t_sec t * 1000000000 + t_nsec t).

(** ** types.go 1825-1852 [timeFromPrecisionUnits] *)
Definition time_from_units (u p : Z) : res time :=
  if p =? 0 then Ok (time_unix u 0)
  else if p =? 1 then Ok (time_unix (Z.quot u 10) (Z.rem u 10 * 100000000))
  else if p =? 2 then Ok (time_unix (Z.quot u 100) (Z.rem u 100 * 10000000))
  else if p =? 3 then Ok (time_unix_milli u)
  else if p =? 4 then Ok (time_unix (Z.quot u 10000) (Z.rem u 10000 * 100000))
  else if p =? 5 then Ok (time_unix (Z.quot u 100000) (Z.rem u 100000 * 10000))
  else if p =? 6 then Ok (time_unix_micro u)
  else if p =? 7 then Ok (time_unix (Z.quot u 10000000) (Z.rem u 10000000 * 100))
  else if p =? 8 then Ok (time_unix (Z.quot u 100000000) (Z.rem u 100000000 * 10))
  else if p =? 9 then Ok (time_unix (Z.quot u 1000000000) (Z.rem u 1000000000))
  else Panic.

(** types.go 1904-1929 [GetTimeValueByPrecision] *)
Definition time_value (t : time) (p : Z) : res Z :=
  if p =? 0 then Ok (unix t)
  else if p =? 1 then Ok (Z.quot (unix_milli t) 100)
  else if p =? 2 then Ok (Z.quot (unix_milli t) 10)
  else if p =? 3 then Ok (unix_milli t)
  else if p =? 4 then Ok (Z.quot (unix_micro t) 100)
  else if p =? 5 then Ok (Z.quot (unix_micro t) 10)
  else if p =? 6 then Ok (unix_micro t)
  else if p =? 7 then Ok (Z.quot (unix_nano t) 100)
  else if p =? 8 then Ok (Z.quot (unix_nano t) 10)
  else if p =? 9 then Ok (unix_nano t)
  else Panic.

(** precison_timestamp_types.go 35-60 [SubSecondsToDuration]; products associate to
    the left and each wraps *)
Definition subseconds_to_duration (s p : Z) : res Z :=
  if p =? 0 then Ok (wrap 64 (s * 1000000000))
  else if p =? 1 then Ok (Z.quot (wrap 64 (s * 1000000000)) 10)
  else if p =? 2 then Ok (Z.quot (wrap 64 (s * 1000000000)) 100)
  else if p =? 3 then Ok (wrap 64 (s * 1000000))
  else if p =? 4 then Ok (wrap 64 (wrap 64 (s * 100) * 1000))
  else if p =? 5 then Ok (wrap 64 (wrap 64 (s * 10) * 1000))
  else if p =? 6 then Ok (wrap 64 (s * 1000))
  else if p =? 7 then Ok (wrap 64 (wrap 64 (s * 100) * 1))
  else if p =? 8 then Ok (wrap 64 (wrap 64 (s * 10) * 1))
  else if p =? 9 then Ok (wrap 64 (s * 1))
  else Panic.

(** precison_timestamp_types.go 62-67 [ProtoToTimePrecision] *)
Definition precision_of_proto (v : Z) : res Z := if (v <? 0) || (9 <? v) then Err else Ok v.

(** ** literals.go 723-745 [newPrecisionTimeWithType], [newPrecisionTimestampWithType],
    [newPrecisionTimestampTzWithType]: the value of the literal re-expressed at the
    precision of the target type *)
Definition change_precision (u p q : Z) : res Z :=
  let! t := time_from_units u p in time_value t q.

(** literals.go 747-770 [newIntervalDayWithType]: days, seconds and subseconds at the
    target precision.  Both precisions are 0..9 here (for larger differences
    [math.Pow10] leaves int64). *)
Definition interval_day_with_precision (days secs ss p q : Z) : Z * Z * Z * Z :=
  let diff := p - q in
  let ss' :=
    if diff =? 0 then ss
    else
      let factor := 10 ^ Z.abs diff in
      if 0 <? diff then Z.quot ss factor else wrap 64 (ss * factor) in
  (days, secs, ss', q).

(** ** literal/utils.go *)

(** 65-72 [NewTime]: hours, minutes, seconds, microseconds are int32 *)
Definition new_time (h m s us : Z) : res Z :=
  let d := wrap 64 (wrap 64 (wrap 64 (wrap 64 (h * 3600000000000) + wrap 64 (m * 60000000000))
             + wrap 64 (s * 1000000000)) + wrap 64 (us * 1000)) in
  let micros := Z.quot d 1000 in
  if (micros <? 0) || (86400000000 <=? micros) then Err else Ok micros.

(** 75-80 [NewTimeFromMicros] *)
Definition new_time_from_micros (us : Z) : res Z :=
  if (us <? 0) || (86400000000 <=? us) then Err else Ok us.

(** 82-90 [NewTimeFromString], after parsing: hour, minute, second, nanosecond of the
    parsed time *)
Definition new_time_of_clock (hh mm ss ns : Z) : res Z :=
  let seconds := hh * 3600 + mm * 60 + ss in
  new_time_from_micros (seconds * 1000000 + Z.quot ns 1000).

(** 343-347 [NewPrecisionTimeFromTime]: the time of day of an instant.  [Truncate]
    rounds down to a multiple of 24h since year 1, which is a whole number of days
    before the epoch, so the difference is the instant modulo a day. *)
Definition time_of_day (t : time) : time :=
  let ns := (t_sec t mod 86400) * 1000000000 + t_nsec t in
  Time (ns / 1000000000) (ns mod 1000000000).
Definition precision_time_from_time (p : Z) (t : time) : res Z := time_value (time_of_day t) p.

(** strconv.Atoi: optional sign, at least one digit, only digits, int64 *)
Definition digit_of (c : ascii) : option Z :=
  let n := Z.of_nat (nat_of_ascii c) in
  if (48 <=? n) && (n <=? 57) then Some (n - 48) else None.
Fixpoint digits_value (acc : Z) (s : string) : option Z :=
  match s with
  | EmptyString => Some acc
  | String c s' => match digit_of c with Some d => digits_value (acc * 10 + d) s' | None => None end
  end.
Definition unsigned_atoi (s : string) : option Z :=
  match s with EmptyString => None | _ => digits_value 0 s end.
Definition atoi (s : string) : res Z :=
  let v :=
    match s with
    | String c s' =>
        if Ascii.eqb c "-"%char then option_map Z.opp (unsigned_atoi s')
        else if Ascii.eqb c "+"%char then unsigned_atoi s'
        else unsigned_atoi s
    | EmptyString => None
    end in
  match v with
  | Some z => if (- 2 ^ 63 <=? z) && (z <? 2 ^ 63) then Ok z else Err
  | None => Err
  end.

(** the loop of 153-159: index of the last occurrence, -1 if there is none.  Go
    iterates over runes, but Y and M are ASCII, so bytes give the same indices. *)
Fixpoint last_index_from (i : Z) (c : ascii) (s : string) (acc : Z) : Z :=
  match s with
  | EmptyString => acc
  | String d s' => last_index_from (i + 1) c s' (if Ascii.eqb d c then i else acc)
  end.
Definition last_index (c : ascii) (s : string) : Z := last_index_from 0 c s (-1).

Fixpoint str_take (n : nat) (s : string) : string :=
  match n, s with S n', String c s' => String c (str_take n' s') | _, _ => EmptyString end.
Fixpoint str_drop (n : nat) (s : string) : string :=
  match n, s with S n', String _ s' => str_drop n' s' | _, _ => s end.

(** 145-182 [parseIntervalYearsToMonth] *)
Definition parse_interval_years_to_month (s : string) : res (Z * Z) :=
  if Nat.ltb (String.length s) 3 then Err
  else
    match s with
    | String c iv =>
        if negb (Ascii.eqb c "P"%char) then Err
        else
          let y := last_index "Y"%char iv in
          let m := last_index "M"%char iv in
          if (y =? -1) && (m =? -1) then Err
          else
            let! (years, iv, m) :=
              if y =? -1 then Ok (0, iv, m)
              else let! n := atoi (str_take (Z.to_nat y) iv) in
                   Ok (n, str_drop (Z.to_nat (y + 1)) iv, m - (y + 1)) in
            let! months := if 0 <? m then atoi (str_take (Z.to_nat m) iv) else Ok 0 in
            Ok (wrap 32 years, wrap 32 months)
    | EmptyString => Err
    end.

(** literals.go 565-568: ISO form of an interval_year literal *)
Definition print_interval_years_to_month (y m : Z) : string :=
  ("P" ++ string_of_Z y ++ "Y" ++ string_of_Z m ++ "M")%string.
