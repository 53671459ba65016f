(** Model of dates and of the texts of dates, times and timestamps: the constructors of
    literal/utils.go that read them, the printers of types/types.go 1819-1902 and of
    expr/literals.go 527-564.

    [time.Parse], [Time.Format] and the calendar of the Go library (and [civil.Date] of
    cloud.google.com/go) are modelled for the layouts the code uses, from the library's
    source.  A Go string is a sequence of bytes. *)

From Coq Require Import ZArith Bool String Ascii List.
From Verif Require Import Base TimeModel.
Import ListNotations.
Local Open Scope Z_scope.

(** ** the Go library's calendar *)

(** time.isLeap, time.daysIn *)
Definition is_leap (y : Z) : bool := (y mod 4 =? 0) && (negb (y mod 100 =? 0) || (y mod 400 =? 0)).
Definition days_in (y m : Z) : Z :=
  if m =? 2 then (if is_leap y then 29 else 28)
  else if (m =? 4) || (m =? 6) || (m =? 9) || (m =? 11) then 30 else 31.
(** time.daysBefore: days of a common year before month [m] *)
Definition days_before (m : Z) : Z :=
  if m =? 1 then 0 else if m =? 2 then 31 else if m =? 3 then 59 else if m =? 4 then 90
  else if m =? 5 then 120 else if m =? 6 then 151 else if m =? 7 then 181 else if m =? 8 then 212
  else if m =? 9 then 243 else if m =? 10 then 273 else if m =? 11 then 304 else 334.

(** time.Date, its day: the number of days since 1970-01-01 *)
Definition day_number (y m d : Z) : Z :=
  let y' := y - 1 in
  365 * y' + y' / 4 - y' / 100 + y' / 400 +
  days_before m + (if is_leap y && (2 <? m) then 1 else 0) + (d - 1) - 719162.

(** Time.date (absDate): cycles of 400, 100, 4 years and 1 year, then the month from an
    estimate of 31 days each.  (The library counts from the year -292277022399; instants
    before it, possible at the precision of seconds only, are not covered.) *)
Definition civil (n : Z) : Z * Z * Z :=
  let d := n + 719162 in
  let n400 := d / 146097 in let d := d - 146097 * n400 in
  let n100 := d / 36524 in let n100 := n100 - n100 / 4 in let d := d - 36524 * n100 in
  let n4 := d / 1461 in let d := d - 1461 * n4 in
  let n1 := d / 365 in let n1 := n1 - n1 / 4 in let yday := d - 365 * n1 in
  let y := 400 * n400 + 100 * n100 + 4 * n4 + n1 + 1 in
  if is_leap y && (yday =? 59) then (y, 2, 29)
  else
    let day := if is_leap y && (59 <? yday) then yday - 1 else yday in
    let m := day / 31 in
    let m := if (if m =? 11 then 365 else days_before (m + 2)) <=? day then m + 2 else m + 1 in
    (y, m, day - days_before m + 1).

(** ** printing *)

Definition digit_char (z : Z) : ascii := ascii_of_nat (Z.to_nat (48 + z)).
(** the last [k] digits *)
Fixpoint fixed (k : nat) (z : Z) : string :=
  match k with
  | O => ""
  | S k' => (fixed k' (z / 10) ++ String (digit_char (z mod 10)) "")%string
  end.
(** at least [k] digits, of a number that is not negative *)
Definition pad (k : nat) (z : Z) : string :=
  if z <? 10 ^ Z.of_nat k then fixed k z else string_of_Z z.
(** time.appendInt: the sign is not counted; fmt's %04d: it is *)
Definition append_int (k : nat) (z : Z) : string :=
  if z <? 0 then String "-" (pad k (- z)) else pad k z.
Definition sprintf_0d (k : nat) (z : Z) : string :=
  if z <? 0 then String "-" (pad (k - 1) (- z)) else pad k z.

(** types.go 1819-1823 [Date.ToTimeString]; civil.Date.String *)
Definition date_text (n : Z) : string :=
  let '(y, m, d) := civil n in
  (sprintf_0d 4 y ++ "-" ++ sprintf_0d 2 m ++ "-" ++ sprintf_0d 2 d)%string.

(** time.appendNano for ".999999999": trailing zeros are cut, and the point if nothing is
    left *)
Fixpoint cut_zeros (s : string) : string :=
  match s with
  | EmptyString => EmptyString
  | String c s' =>
      match cut_zeros s' with
      | EmptyString => if Ascii.eqb c "0" then EmptyString else String c EmptyString
      | t => String c t
      end
  end.
Definition frac9 (ns : Z) : string :=
  match cut_zeros (fixed 9 ns) with EmptyString => EmptyString | s => String "." s end.
(** ... for ".000" and ".000000" *)
Definition frac0 (k : nat) (ns : Z) : string := String "." (fixed k (ns / 10 ^ (9 - Z.of_nat k))).

(** Format with "15:04:05" and "2006-01-02", in UTC *)
Definition clock_of (t : time) : Z * Z * Z :=
  let s := t_sec t mod 86400 in (s / 3600, s mod 3600 / 60, s mod 60).
Definition format_clock (t : time) : string :=
  let '(h, m, s) := clock_of t in (append_int 2 h ++ ":" ++ append_int 2 m ++ ":" ++ append_int 2 s)%string.
Definition format_date (t : time) : string :=
  let '(y, m, d) := civil (t_sec t / 86400) in (append_int 4 y ++ "-" ++ append_int 2 m ++ "-" ++ append_int 2 d)%string.

(** types.go 1854-1862 [Time.ToTimeString], [Time.ToIsoTimeString] *)
Definition time_text (us : Z) : string := format_clock (time_unix_micro us).
Definition time_iso (us : Z) : string :=
  let t := time_unix_micro us in (format_clock t ++ frac0 6 (t_nsec t))%string.

(** 1876-1884 [Timestamp], and 1894-1902 [TimestampTz] *)
Definition timestamp_text (us : Z) : string :=
  let t := time_unix_micro us in (format_date t ++ " " ++ format_clock t ++ frac9 (t_nsec t))%string.
Definition timestamp_iso (us : Z) : string :=
  let t := time_unix_micro us in (format_date t ++ "T" ++ format_clock t ++ frac9 (t_nsec t))%string.
Definition timestamp_tz_text (us : Z) : string :=
  let t := time_unix_micro us in (format_date t ++ "T" ++ format_clock t ++ frac9 (t_nsec t) ++ "Z")%string.
Definition timestamp_tz_iso (us : Z) : string := timestamp_iso us.

(** literals.go 527-537 and 553-563: the values of precision time literals, by precision *)
Definition precision_time_text (p u : Z) : res string :=
  let! t := time_from_units u p in Ok (format_clock t ++ frac9 (t_nsec t))%string.
Definition precision_time_iso : Z -> Z -> res string := precision_time_text.
Definition precision_timestamp_text (p u : Z) : res string :=
  let! t := time_from_units u p in Ok (format_date t ++ " " ++ format_clock t ++ frac9 (t_nsec t))%string.
Definition precision_timestamp_iso (p u : Z) : res string :=
  let! t := time_from_units u p in Ok (format_date t ++ "T" ++ format_clock t ++ frac9 (t_nsec t))%string.
Definition precision_timestamp_tz_text (p u : Z) : res string :=
  let! t := time_from_units u p in Ok (format_date t ++ "T" ++ format_clock t ++ frac9 (t_nsec t) ++ "Z")%string.
Definition precision_timestamp_tz_iso (p u : Z) : res string :=
  let! t := time_from_units u p in Ok (format_date t ++ "T" ++ format_clock t ++ frac0 3 (t_nsec t) ++ "+00:00")%string.

(** ** reading: time.Parse *)

(** time.skip, for one character *)
Definition expect (c : ascii) (s : string) : option string :=
  match s with
  | String a r => if Ascii.eqb a c then Some r else None
  | EmptyString => None
  end.
(** time.getnum: two digits, or one if [fixed] is not set *)
Definition getnum (must : bool) (s : string) : option (Z * string) :=
  match s with
  | EmptyString => None
  | String a r =>
      match digit_of a with
      | None => None
      | Some x =>
          match r with
          | String b r' =>
              match digit_of b with
              | Some y => Some (10 * x + y, r')
              | None => if must then None else Some (x, r)
              end
          | EmptyString => if must then None else Some (x, r)
          end
      end
  end.
(** the year: four characters that time.atoi accepts, the first of them a digit *)
Definition getyear (s : string) : option (Z * string) :=
  match s with
  | String a (String b (String c (String d r))) =>
      match digit_of a, digit_of b, digit_of c, digit_of d with
      | Some x, Some y, Some z, Some w => Some (1000 * x + 100 * y + 10 * z + w, r)
      | _, _, _, _ => None
      end
  | _ => None
  end.
(** the digits at the front *)
Fixpoint digit_run (s : string) : list Z * string :=
  match s with
  | String a r =>
      match digit_of a with
      | Some x => let '(ds, r') := digit_run r in (x :: ds, r')
      | None => ([], s)
      end
  | EmptyString => ([], s)
  end.
(** time.parseNanoseconds: at most nine digits count *)
Definition nanoseconds (ds : list Z) : Z :=
  let ds := firstn 9 ds in
  fold_left (fun v d => 10 * v + d) ds 0 * 10 ^ (9 - Z.of_nat (length ds)).
(** a fraction after the seconds, whether the layout has one or not *)
Definition getfrac (s : string) : Z * string :=
  match s with
  | String a r =>
      if Ascii.eqb a "." || Ascii.eqb a ","
      then match digit_run r with
           | ([], _) => (0, s)
           | (ds, r') => (nanoseconds ds, r')
           end
      else (0, s)
  | EmptyString => (0, s)
  end.

Local Notation "'let?' p ':=' x 'in' k" := (match x with Some p => k | None => None end)
  (at level 200, p pattern, x at level 100, k at level 200).

(** the layouts "2006-01-02" and "15:04:05" *)
Definition parse_ymd (s : string) : option (Z * Z * Z * string) :=
  let? (y, s) := getyear s in
  let? s := expect "-" s in
  let? (m, s) := getnum true s in
  if (m <=? 0) || (12 <? m) then None
  else
    let? s := expect "-" s in
    let? (d, s) := getnum true s in
    if (d <? 1) || (days_in y m <? d) then None else Some (y, m, d, s).
Definition parse_hms (s : string) : option (Z * Z * Z * Z * string) :=
  let? (h, s) := getnum false s in
  if 24 <=? h then None
  else
    let? s := expect ":" s in
    let? (mi, s) := getnum true s in
    if 60 <=? mi then None
    else
      let? s := expect ":" s in
      let? (sec, s) := getnum true s in
      if 60 <=? sec then None
      else let '(ns, s) := getfrac s in Some (h, mi, sec, ns, s).
(** the layout "Z07:00" at the end: seconds east of UTC *)
Definition parse_zone (s : string) : option Z :=
  match s with
  | String a r =>
      if Ascii.eqb a "Z" then match r with EmptyString => Some 0 | _ => None end
      else
        let? (hr, r) := getnum true r in
        let? r := expect ":" r in
        let? (mm, r) := getnum true r in
        if (24 <? hr) || (60 <? mm) then None
        else match r with
             | EmptyString =>
                 if Ascii.eqb a "+" then Some ((hr * 60 + mm) * 60)
                 else if Ascii.eqb a "-" then Some (- ((hr * 60 + mm) * 60)) else None
             | _ => None
             end
  | EmptyString => None
  end.

(** what was read: date, clock, nanoseconds and offset *)
Record stamp := Stamp { st_y : Z; st_m : Z; st_d : Z; st_h : Z; st_mi : Z; st_s : Z; st_ns : Z; st_off : Z }.

(** time.RFC3339 *)
Definition parse_zoned (s : string) : option stamp :=
  let? (y, m, d, s) := parse_ymd s in
  let? s := expect "T" s in
  let? (h, mi, sec, ns, s) := parse_hms s in
  let? off := parse_zone s in
  Some (Stamp y m d h mi sec ns off).
Definition parse_local (s : string) : option stamp :=
  let? (y, m, d, s) := parse_ymd s in
  let? s := expect "T" s in
  let? (h, mi, sec, ns, s) := parse_hms s in
  match s with EmptyString => Some (Stamp y m d h mi sec ns 0) | _ => None end.
(** a time alone is in the year 0 *)
Definition parse_clock (s : string) : option stamp :=
  let? (h, mi, sec, ns, s) := parse_hms s in
  match s with EmptyString => Some (Stamp 0 1 1 h mi sec ns 0) | _ => None end.

(** utils.go 91-106 [parseTimeFromString]; the last two layouts differ in the number of
    nines only *)
Definition parse_stamp (s : string) : res stamp :=
  match parse_zoned s with
  | Some t => Ok t
  | None =>
      match parse_local s with
      | Some t => Ok t
      | None =>
          match parse_clock s with
          | Some t => Ok t
          | None => match parse_clock s with Some t => Ok t | None => Err end
          end
      end
  end.

(** time.Date less the offset: the instant *)
Definition stamp_time (t : stamp) : time :=
  Time (day_number (st_y t) (st_m t) (st_d t) * 86400 + st_h t * 3600 + st_mi t * 60 + st_s t - st_off t) (st_ns t).

(** utils.go 54-60 [NewDateFromString] *)
Definition new_date_from_string (s : string) : res Z :=
  match parse_ymd s with
  | Some (y, m, d, EmptyString) => Ok (wrap 32 (Z.quot (day_number y m d * 86400) 86400))
  | _ => Err
  end.
(** 81-89 [NewTimeFromString]: hour, minute and second of a [time.Time] are those of its own
    location, which are the ones in the text *)
Definition new_time_from_string (s : string) : res Z :=
  let! t := parse_stamp s in new_time_of_clock (st_h t) (st_mi t) (st_s t) (st_ns t).
(** 114-120, 132-138 *)
Definition new_timestamp_from_string (s : string) : res Z :=
  let! t := parse_stamp s in Ok (unix_micro (stamp_time t)).
Definition new_timestamp_tz_from_string (s : string) : res Z :=
  let! t := parse_stamp s in Ok (unix_micro (stamp_time t)).
(** 349-356, 372-378, 395-401 *)
Definition new_precision_time_from_string (p : Z) (s : string) : res Z :=
  let! t := parse_stamp s in precision_time_from_time p (stamp_time t).
Definition new_precision_timestamp_from_string (p : Z) (s : string) : res Z :=
  let! t := parse_stamp s in time_value (stamp_time t) p.
Definition new_precision_timestamp_tz_from_string (p : Z) (s : string) : res Z :=
  let! t := parse_stamp s in time_value (stamp_time t) p.
