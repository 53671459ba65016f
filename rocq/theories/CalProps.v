(** C60 and C61: dates, and the texts of dates and times. *)

From Coq Require Import ZArith Bool String Ascii List Lia.
From Verif Require Import Base TimeModel TimeSpec TimeProofs TimeProps CalModel CalSpec CalProofs CalTextProofs CalPrintProofs.
Import ListNotations.
Local Open Scope Z_scope.

(** ** C60 *)

(** Every day number has one date and every date that exists one day number. *)
Theorem C60_calendar : (forall n, exists x, calendar n x /\ valid_date x /\ forall x', calendar n x' -> x' = x) /\
  (forall x, valid_date x -> exists n, calendar n x /\ forall n', calendar n' x -> n' = n).
Proof.
  split.
  - intros n. exists (date_of n). destruct (date_of_right n) as [V N]. split; [apply calendar_iff; auto|]. split; auto.
    intros x' C. apply calendar_iff in C. destruct C as [V' N']. apply number_injective; auto. congruence.
  - intros x V. exists (number_of x). split; [apply calendar_iff; auto|]. intros n' C. apply calendar_iff in C. symmetry. tauto.
Qed.
Example C60_calendar_example : calendar 59 (Date 1970 3 1) /\ calendar 789 (Date 1972 2 29) /\ ~ valid_date (Date 1900 2 29).
Proof.
  split; [apply calendar_iff; split; [apply valid_iff; vm_compute; intuition discriminate|reflexivity]|].
  split; [apply calendar_iff; split; [apply valid_iff; vm_compute; intuition discriminate|reflexivity]|].
  intros V. apply valid_iff in V. vm_compute in V. intuition.
Qed.

(** A date value prints its day: year, month and day. *)
Theorem C60_date_text : forall n x, calendar n x -> prints_date 3 x (date_text n).
Proof.
  intros n x C. apply calendar_iff in C. destruct C as [V N]. destruct (date_of_right n) as [V' N'].
  rewrite (number_injective x (date_of n)) by (auto; congruence). apply date_text_prints.
Qed.
Example C60_date_text_example : date_text 19782 = "2024-02-29"%string /\ date_text (-1) = "1969-12-31"%string /\ date_text (-719529) = "-001-12-31"%string.
Proof. vm_compute. auto. Qed.

(** A text is read as a date exactly if it is one; the value is the number of its day. *)
Theorem C60_date_from_text : forall s n, new_date_from_string s = Ok n <-> exists x, says_date s x /\ calendar n x.
Proof.
  assert (R : forall s y m d, says_date s (Date y m d) -> new_date_from_string s = Ok (number_of (Date y m d))).
  { intros s y m d H. unfold new_date_from_string. assert (P := parse_ymd_back s y m d "" H). rewrite app_nil_s in P. rewrite P.
    rewrite Z.quot_mul by lia. destruct (says_date_valid _ _ H) as [V Y].
    assert (C : calendar (number_of (Date y m d)) (Date y m d)) by (apply calendar_iff; auto).
    pose proof (year_day_bounds _ _ C Y) as B. unfold number_of in *. cbn [d_year d_month d_day] in *. rewrite wrap_id; auto; [lia|].
    unfold in_int. change (2 ^ (32 - 1)) with 2147483648. lia. }
  intros s n. split.
  - intros H. unfold new_date_from_string in H. destruct (parse_ymd s) as [[[[y m] d] r]|] eqn:E; [|discriminate]. destruct r; [|discriminate].
    apply parse_ymd_spec in E. destruct E as (t & D & ->). rewrite app_nil_s in *. exists (Date y m d). split; auto.
    apply R in D as D'. unfold new_date_from_string in D'. assert (P := parse_ymd_back t y m d "" D). rewrite app_nil_s in P. rewrite P in D'. rewrite H in D'. injection D' as ->.
    apply calendar_iff. split; auto. apply says_date_valid in D. tauto.
  - intros ([y m d] & D & C). rewrite (R s y m d D). apply calendar_iff in C. destruct C as [_ <-]. reflexivity.
Qed.
Theorem C60_date_from_text_total : forall s, (exists n, new_date_from_string s = Ok n) \/ new_date_from_string s = Err.
Proof. intros s. unfold new_date_from_string. destruct (parse_ymd s) as [[[[y m] d] [|]]|]; eauto. Qed.
Example C60_date_from_text_example : new_date_from_string "2024-02-29" = Ok 19782 /\ new_date_from_string "2023-02-29" = Err /\ new_date_from_string "2024-2-29" = Err.
Proof. vm_compute. auto. Qed.

(** The text of a date is read back as the date exactly in the years 0 to 9999. *)
Theorem C60_date_round_trip : forall n x, calendar n x ->
  (0 <= d_year x <= 9999 -> new_date_from_string (date_text n) = Ok n) /\
  (~ (0 <= d_year x <= 9999) -> new_date_from_string (date_text n) = Err).
Proof.
  intros n x C. pose proof C as C0. apply calendar_iff in C0. destruct C0 as [V N]. destruct (date_of_right n) as [V' N'].
  assert (E : x = date_of n) by (apply number_injective; auto; congruence). subst x. split; intros Y.
  - apply C60_date_from_text. exists (date_of n). split; auto. apply date_text_says; auto.
  - unfold new_date_from_string, date_text, date_of in *. destruct (civil n) as [[y m] d]. cbn [d_year] in Y.
    destruct (bad_year y (sprintf_0d 4 y) ("-" ++ sprintf_0d 2 m ++ "-" ++ sprintf_0d 2 d)) as [E _]; [lia|auto|]. rewrite E. auto.
Qed.
Example C60_date_round_trip_example : date_text 2932897 = "10000-01-01"%string /\ new_date_from_string (date_text 2932897) = Err.
Proof. vm_compute. auto. Qed.

(** ** C61: printing *)

Theorem C61_moment : forall ns, (exists x c, moment ns x c) /\ forall x c x' c', moment ns x c -> moment ns x' c' -> x = x' /\ c = c'.
Proof. intros ns. split; [apply moment_exists|]. intros. eapply moment_unique; eauto. Qed.
Example C61_moment_example : moment 1709164800123456789 (Date 2024 2 29) (Clock 0 0 0 123456789).
Proof.
  exists 19782. split; [apply calendar_iff; split; [apply valid_iff; vm_compute; intuition discriminate|reflexivity]|].
  split; [unfold clock_ok; cbn; lia|reflexivity].
Qed.

(** Times of day print their clock, without or with six digits of the second. *)
Theorem C61_time_texts : forall us x c, in_int 64 us -> moment (us * 1000) x c ->
  prints_clock no_frac c (time_text us) /\ prints_clock (frac_of 6) c (time_iso us).
Proof.
  intros us x c H M. destruct (micro_time us H) as [T I]. rewrite <- I in M. apply moment_time in M; auto. destruct M as (-> & C & N).
  destruct c as [h m s n]. cbn [c_hour c_min c_sec c_nano] in *. subst n. split.
  - unfold time_text. rewrite <- (app_nil_s (format_clock _)). apply format_clock_prints; auto. constructor.
  - unfold time_iso. cbv zeta. apply format_clock_prints; auto. apply frac0_exact; [lia|]. apply T.
Qed.
Example C61_time_texts_example : time_text 3723000007 = "01:02:03"%string /\ time_iso 3723000007 = "01:02:03.000007"%string.
Proof. vm_compute. auto. Qed.

(** Timestamps print date and clock with as many digits as they need. *)
Lemma stamp_prints : forall sep (frac : Z -> string -> Prop) zone t fs h m s, frac (t_nsec t) fs -> clock_of t = (h, m, s) ->
  prints_stamp sep frac zone (date_of (t_sec t / 86400)) (Clock h m s (t_nsec t)) (format_date t ++ sep ++ format_clock t ++ fs ++ zone).
Proof.
  intros sep frac zone t fs h m s F C. rewrite <- (app_assoc_s (format_clock t)). constructor; [apply format_date_prints|].
  apply format_clock_prints; auto.
Qed.
Lemma stamp_prints_nil : forall sep (frac : Z -> string -> Prop) t fs h m s, frac (t_nsec t) fs -> clock_of t = (h, m, s) ->
  prints_stamp sep frac "" (date_of (t_sec t / 86400)) (Clock h m s (t_nsec t)) (format_date t ++ sep ++ format_clock t ++ fs).
Proof.
  intros sep frac t fs h m s F C. rewrite <- (app_nil_s fs). apply stamp_prints; auto.
Qed.
Theorem C61_timestamp_texts : forall us x c, in_int 64 us -> moment (us * 1000) x c ->
  prints_stamp " " shortest "" x c (timestamp_text us) /\ prints_stamp "T" shortest "" x c (timestamp_iso us) /\
  prints_stamp "T" shortest "Z" x c (timestamp_tz_text us) /\ prints_stamp "T" shortest "" x c (timestamp_tz_iso us).
Proof.
  intros us x c H M. destruct (micro_time us H) as [T I]. rewrite <- I in M. apply moment_time in M; auto. destruct M as (-> & C & N).
  destruct c as [h m s n]. cbn [c_hour c_min c_sec c_nano] in *. subst n.
  assert (F : shortest (t_nsec (time_unix_micro us)) (frac9 (t_nsec (time_unix_micro us)))) by (apply frac9_shortest; apply T).
  split; [apply stamp_prints_nil; auto|]. split; [apply stamp_prints_nil; auto|]. split; [apply stamp_prints; auto|apply stamp_prints_nil; auto].
Qed.
Example C61_timestamp_texts_example : timestamp_text 1709164800120000 = "2024-02-29 00:00:00.12"%string /\
  timestamp_tz_text (-1) = "1969-12-31T23:59:59.999999Z"%string.
Proof. vm_compute. auto. Qed.

(** The values of the precision types, counted in units of their precision. *)
Theorem C61_precision_texts : forall p u x c, in_int 64 u -> 0 <= p <= 9 -> moment (u * 10 ^ (9 - p)) x c ->
  (exists s, precision_time_text p u = Ok s /\ precision_time_iso p u = Ok s /\ prints_clock shortest c s) /\
  (exists s, precision_timestamp_text p u = Ok s /\ prints_stamp " " shortest "" x c s) /\
  (exists s, precision_timestamp_iso p u = Ok s /\ prints_stamp "T" shortest "" x c s) /\
  (exists s, precision_timestamp_tz_text p u = Ok s /\ prints_stamp "T" shortest "Z" x c s) /\
  (exists s, precision_timestamp_tz_iso p u = Ok s /\ prints_stamp "T" (frac_of 3) "+00:00" x c s).
Proof.
  intros p u x c H P M. destruct (from_units_spec u p H P) as (t & E & T & I). rewrite <- I in M. apply moment_time in M; auto. destruct M as (-> & C & N).
  destruct c as [h m s n]. cbn [c_hour c_min c_sec c_nano] in *. subst n.
  assert (F : shortest (t_nsec t) (frac9 (t_nsec t))) by (apply frac9_shortest; apply T).
  unfold precision_time_iso, precision_time_text, precision_timestamp_text, precision_timestamp_iso, precision_timestamp_tz_text, precision_timestamp_tz_iso. rewrite E. cbn [bind].
  split; [eexists; split; [reflexivity|split; [reflexivity|apply format_clock_prints; auto]]|].
  split; [eexists; split; [reflexivity|apply stamp_prints_nil; auto]|].
  split; [eexists; split; [reflexivity|apply stamp_prints_nil; auto]|].
  split; [eexists; split; [reflexivity|apply stamp_prints; auto]|].
  eexists. split; [reflexivity|]. apply stamp_prints; auto. apply frac0_exact; [lia|apply T].
Qed.
Theorem C61_precision_texts_panic : forall p u, ~ (0 <= p <= 9) ->
  precision_time_text p u = Panic /\ precision_time_iso p u = Panic /\ precision_timestamp_text p u = Panic /\ precision_timestamp_iso p u = Panic /\
  precision_timestamp_tz_text p u = Panic /\ precision_timestamp_tz_iso p u = Panic.
Proof.
  intros p u P. assert (E : time_from_units u p = Panic).
  { unfold time_from_units. repeat match goal with |- context [p =? ?k] => destruct (Z.eqb_spec p k); [exfalso; lia|] end. reflexivity. }
  unfold precision_time_iso, precision_time_text, precision_timestamp_text, precision_timestamp_iso, precision_timestamp_tz_text, precision_timestamp_tz_iso. rewrite E.
  cbn [bind]. repeat split.
Qed.
Example C61_precision_texts_example : precision_timestamp_iso 4 17091648001234 = Ok "2024-02-29T00:00:00.1234"%string /\
  precision_timestamp_tz_iso 9 1709164800123456789 = Ok "2024-02-29T00:00:00.123+00:00"%string /\ precision_time_text 0 3723 = Ok "01:02:03"%string.
Proof. vm_compute. auto. Qed.

(** ** C61: reading *)

(** A text says at most one date, clock and offset. *)
Theorem C61_texts_are_unambiguous : forall s x c off x' c' off', says_time s x c off -> says_time s x' c' off' -> x = x' /\ c = c' /\ off = off'.
Proof. intros. eapply says_unique; eauto. Qed.

(** Times: the clock in the text, in whole microseconds. *)
Theorem C61_time_from_text : forall s,
  (forall x c off, says_time s x c off -> new_time_from_string s = Ok ((c_hour c * 3600 + c_min c * 60 + c_sec c) * 10 ^ 6 + c_nano c / 1000)) /\
  ((forall x c off, ~ says_time s x c off) -> new_time_from_string s = Err).
Proof.
  intros s. split.
  - intros x c off H. destruct (says_instant _ _ _ _ H) as (st & day & E & C & T & I & K & D). unfold new_time_from_string. rewrite E. cbn [bind].
    pose proof (says_time_bounds _ _ _ _ H) as (_ & _ & (B1 & B2 & B3 & B4) & _). rewrite <- K in *. cbn [st_clock c_hour c_min c_sec c_nano] in *.
    unfold new_time_of_clock. cbv zeta. rewrite Z.quot_div_nonneg by lia. unfold new_time_from_micros. change (10 ^ 9) with 1000000000 in *. change (10 ^ 6) with 1000000.
    assert (0 <= st_ns st / 1000 < 1000000) by (Z.to_euclidean_division_equations; lia).
    match goal with |- context [?a <? 0] => destruct (Z.ltb_spec a 0); [lia|] end. match goal with |- context [?k <=? ?a] => destruct (Z.leb_spec k a); [lia|] end. reflexivity.
  - intros H. unfold new_time_from_string. rewrite says_unread by auto. reflexivity.
Qed.
Example C61_time_from_text_example : new_time_from_string "1:02:03.0000079" = Ok 3723000007 /\ new_time_from_string "24:00:00" = Err /\
  says_time "1:02:03.0000079" (Date 0 1 1) (Clock 1 2 3 7900) 0.
Proof.
  split; [vm_compute; reflexivity|]. split; [vm_compute; reflexivity|].
  apply (proj1 (parse_stamp_iff "1:02:03.0000079" (Stamp 0 1 1 1 2 3 7900 0))). vm_compute. reflexivity.
Qed.

(** Timestamps: the instant, in whole microseconds rounded down. *)
Theorem C61_timestamp_from_text : forall s,
  (forall x c off day, says_time s x c off -> calendar day x ->
     new_timestamp_from_string s = Ok (nanos day c off / 1000) /\ new_timestamp_tz_from_string s = Ok (nanos day c off / 1000)) /\
  ((forall x c off, ~ says_time s x c off) -> new_timestamp_from_string s = Err /\ new_timestamp_tz_from_string s = Err).
Proof.
  intros s. split.
  - intros x c off day H C. destruct (says_instant _ _ _ _ H) as (st & day' & E & C' & T & I & K & D). rewrite (calendar_unique _ _ _ C C') in *.
    unfold new_timestamp_from_string, new_timestamp_tz_from_string. rewrite E. cbn [bind]. rewrite <- I.
    assert (U : unix_micro (stamp_time st) = instant (stamp_time st) / 1000).
    { pose proof (says_time_bounds _ _ _ _ H) as (_ & _ & (B1 & B2 & B3 & B4) & B5). destruct T as [T1 T2]. unfold unix_micro. rewrite Z.quot_div_nonneg by lia.
      unfold instant, nanos in *. change (10 ^ 9) with 1000000000 in *.
      replace ((t_sec (stamp_time st) * 1000000000 + t_nsec (stamp_time st)) / 1000) with (t_sec (stamp_time st) * 1000000 + t_nsec (stamp_time st) / 1000) by (Z.to_euclidean_division_equations; lia).
      apply wrap_id; [lia|]. unfold in_int. change (2 ^ (64 - 1)) with 9223372036854775808. Z.to_euclidean_division_equations; lia. }
    rewrite U. auto.
  - intros H. unfold new_timestamp_from_string, new_timestamp_tz_from_string. rewrite says_unread by auto. auto.
Qed.
Example C61_timestamp_from_text_example : new_timestamp_from_string "2024-02-29T02:00:00.5+02:00" = Ok 1709164800500000 /\
  new_timestamp_tz_from_string "2024-02-30T00:00:00Z" = Err.
Proof. vm_compute. auto. Qed.

(** At a precision: the instant in whole units, as C14 says of every conversion; the time of
    day is that of the instant. *)
Theorem C61_precision_from_text : forall p s,
  (0 <= p <= 9 -> forall x c off day, says_time s x c off -> calendar day x ->
     new_precision_time_from_string p s = Ok (nanos day c off mod (24 * 3600 * 10 ^ 9) / 10 ^ (9 - p)) /\
     (in_int 64 (nanos day c off / 10 ^ (9 - clock_precision p)) -> exists u,
        new_precision_timestamp_from_string p s = Ok u /\ new_precision_timestamp_tz_from_string p s = Ok u /\
        (0 <= nanos day c off -> u = nanos day c off / 10 ^ (9 - p)) /\
        (nanos day c off < 0 -> u = - (- (nanos day c off / 10 ^ (9 - clock_precision p)) / 10 ^ (clock_precision p - p))))) /\
  ((forall x c off, ~ says_time s x c off) ->
     new_precision_time_from_string p s = Err /\ new_precision_timestamp_from_string p s = Err /\ new_precision_timestamp_tz_from_string p s = Err) /\
  (~ (0 <= p <= 9) -> forall x c off, says_time s x c off ->
     new_precision_time_from_string p s = Panic /\ new_precision_timestamp_from_string p s = Panic /\ new_precision_timestamp_tz_from_string p s = Panic).
Proof.
  intros p s. unfold new_precision_time_from_string, new_precision_timestamp_from_string, new_precision_timestamp_tz_from_string. split; [|split].
  - intros P x c off day H C. destruct (says_instant _ _ _ _ H) as (st & day' & E & C' & T & I & K & D). rewrite (calendar_unique _ _ _ C C') in *.
    rewrite E. cbn [bind]. rewrite <- I. split; [apply C41_precision_time_from_instant; auto|].
    intros F. destruct (C14_instant_to_units (stamp_time st) p T) as [R _]. destruct (R P F) as [R1 R2].
    destruct (Z_lt_le_dec (instant (stamp_time st)) 0) as [N|N].
    + eexists. split; [apply R2; auto|]. split; [apply R2; auto|]. split; [lia|auto].
    + eexists. split; [apply R1; auto|]. split; [apply R1; auto|]. split; [auto|lia].
  - intros H. rewrite says_unread by auto. auto.
  - intros P x c off H. destruct (says_instant _ _ _ _ H) as (st & day' & E & C' & T & I & K & D). rewrite E. cbn [bind].
    unfold precision_time_from_time.
    assert (Q : forall t, time_value t p = Panic).
    { intros t. unfold time_value. repeat match goal with |- context [p =? ?k] => destruct (Z.eqb_spec p k); [exfalso; lia|] end. reflexivity. }
    rewrite !Q. auto.
Qed.
Example C61_precision_from_text_example : new_precision_timestamp_from_string 4 "2024-02-29T00:00:00.12345" = Ok 17091648001234 /\
  new_precision_time_from_string 3 "2024-02-29T01:00:00.5-01:00" = Ok 7200500.
Proof. vm_compute. auto. Qed.

(** ** C61: reading what was printed *)

Theorem C61_time_round_trip : forall us, 0 <= us < 24 * 3600 * 10 ^ 6 -> new_time_from_string (time_iso us) = Ok us.
Proof.
  intros us H. change (24 * 3600 * 10 ^ 6) with 86400000000 in H.
  assert (H64 : in_int 64 us) by (unfold in_int; change (2 ^ (64 - 1)) with 9223372036854775808; lia). destruct (micro_time us H64) as [T I].
  destruct (moment_exists (us * 1000)) as (x & c & M). rewrite <- I in M. apply moment_time in M; auto. destruct M as (_ & C & N).
  destruct c as [h m s n]. cbn [c_hour c_min c_sec c_nano] in *.
  assert (S : says_time (time_iso us) (Date 0 1 1) (Clock h m s (t_nsec (time_unix_micro us) / 10 ^ 3 * 10 ^ 3)) 0).
  { apply Clock_only. unfold time_iso. cbv zeta. apply clock_says_of; auto. apply (frac0_says 6); [lia|apply T]. }
  destruct (C61_time_from_text (time_iso us)) as [R _]. rewrite (R _ _ _ S). cbn [c_hour c_min c_sec c_nano]. apply clock_of_bounds in C. destruct C as (B1 & B2 & B3 & B4).
  f_equal. destruct T as [T1 T2]. unfold instant in I. change (10 ^ 9) with 1000000000 in *. change (10 ^ 6) with 1000000. change (10 ^ 3) with 1000.
  Z.to_euclidean_division_equations; lia.
Qed.
Theorem C61_timestamp_round_trip : forall us x c, in_int 64 us -> moment (us * 1000) x c ->
  (0 <= d_year x <= 9999 -> new_timestamp_from_string (timestamp_iso us) = Ok us /\
     new_timestamp_tz_from_string (timestamp_tz_text us) = Ok us /\ new_timestamp_tz_from_string (timestamp_tz_iso us) = Ok us) /\
  (~ (0 <= d_year x <= 9999) -> new_timestamp_from_string (timestamp_iso us) = Err /\
     new_timestamp_tz_from_string (timestamp_tz_text us) = Err /\ new_timestamp_tz_from_string (timestamp_tz_iso us) = Err).
Proof.
  intros us x c H M. destruct (micro_time us H) as [T I]. rewrite <- I in M. split; intros Y.
  - assert (R1 := read_iso _ _ _ T M Y). assert (R2 := read_zulu _ _ _ T M Y). pose proof M as (day & C & B & E). rewrite I in E.
    assert (V : nanos day c 0 / 1000 = us) by (rewrite <- E; apply Z.div_mul; lia).
    destruct (proj1 (C61_timestamp_from_text _) _ _ _ _ R1 C) as [A1 A2]. destruct (proj1 (C61_timestamp_from_text _) _ _ _ _ R2 C) as [A3 A4].
    rewrite V in *. unfold timestamp_tz_iso, timestamp_iso, timestamp_tz_text. cbv zeta. auto.
  - unfold new_timestamp_from_string, new_timestamp_tz_from_string, timestamp_tz_iso, timestamp_iso, timestamp_tz_text. cbv zeta.
    rewrite !(fun r => far_year _ r T x c M Y). auto.
Qed.
Theorem C61_precision_round_trip : forall p u x c, in_int 64 u -> 0 <= p <= 9 -> moment (u * 10 ^ (9 - p)) x c ->
  (0 <= d_year x <= 9999 -> in_int 64 (u * 10 ^ (clock_precision p - p)) ->
     (let! s := precision_timestamp_iso p u in new_precision_timestamp_from_string p s) = Ok u /\
     (let! s := precision_timestamp_tz_text p u in new_precision_timestamp_tz_from_string p s) = Ok u /\
     (p <= 3 -> (let! s := precision_timestamp_tz_iso p u in new_precision_timestamp_tz_from_string p s) = Ok u)) /\
  (~ (0 <= d_year x <= 9999) ->
     (let! s := precision_timestamp_iso p u in new_precision_timestamp_from_string p s) = Err /\
     (let! s := precision_timestamp_tz_text p u in new_precision_timestamp_tz_from_string p s) = Err /\
     (let! s := precision_timestamp_tz_iso p u in new_precision_timestamp_tz_from_string p s) = Err) /\
  (0 <= u * 10 ^ (9 - p) < 24 * 3600 * 10 ^ 9 ->
     (let! s := precision_time_iso p u in new_precision_time_from_string p s) = Ok u).
Proof.
  intros p u x c H P M. destruct (from_units_spec u p H P) as (t & E & T & I). rewrite <- I in M.
  unfold precision_time_iso, precision_time_text, precision_timestamp_iso, precision_timestamp_tz_text, precision_timestamp_tz_iso. rewrite E. cbn [bind].
  pose proof (clock_bounds p P) as CB.
  assert (PP : 0 < 10 ^ (9 - p)) by (apply Z.pow_pos_nonneg; lia).
  split; [|split].
  - intros Y F. pose proof M as (day & C & B & N).
    assert (V : forall s c', says_time s x c' 0 -> nanos day c' 0 = u * 10 ^ (9 - p) -> new_precision_timestamp_from_string p s = Ok u /\ new_precision_timestamp_tz_from_string p s = Ok u).
    { intros s c' SY NN. destruct (C61_precision_from_text p s) as [R _]. destruct (R P _ _ _ _ SY C) as [_ R']. rewrite NN in R'.
      assert (Q : u * 10 ^ (9 - p) / 10 ^ (9 - clock_precision p) = u * 10 ^ (clock_precision p - p)).
      { replace (9 - p) with ((clock_precision p - p) + (9 - clock_precision p)) by lia. rewrite Z.pow_add_r, Z.mul_assoc by lia. apply Z.div_mul. apply Z.pow_nonzero; lia. }
      rewrite Q in R'. destruct (R' F) as (u' & E1 & E2 & E3 & E4). rewrite E1, E2. assert (u' = u); [|subst; auto].
      destruct (Z_lt_le_dec (u * 10 ^ (9 - p)) 0) as [L|L].
      - rewrite (E4 L). rewrite <- Z.mul_opp_l, Z.div_mul by (apply Z.pow_nonzero; lia). lia.
      - rewrite (E3 L). apply Z.div_mul. lia. }
    rewrite I in N. split; [apply (V _ c); [apply read_iso; auto|auto]|]. split; [apply (V _ c); [apply read_zulu; auto|auto]|].
    intros P3. eapply V; [apply read_milli; eauto|]. rewrite N.
    destruct c as [h m s n]. unfold nanos in *. cbn [c_hour c_min c_sec c_nano] in *. f_equal.
    assert (D : (10 ^ 6 | u * 10 ^ (9 - p))).
    { exists (u * 10 ^ (3 - p)). rewrite <- Z.mul_assoc, <- Z.pow_add_r by lia. do 2 f_equal. lia. }
    rewrite N in D. destruct D as [q D]. change (10 ^ 9) with 1000000000 in *. change (10 ^ 6) with 1000000 in *. Z.to_euclidean_division_equations; lia.
  - intros Y. unfold new_precision_timestamp_from_string, new_precision_timestamp_tz_from_string. rewrite !(fun r => far_year _ r T x c M Y). auto.
  - intros B. apply moment_time in M; auto. destruct M as (_ & C & N). destruct c as [h m s n]. cbn [c_hour c_min c_sec c_nano] in *. subst n.
    assert (S : says_time (format_clock t ++ frac9 (t_nsec t)) (Date 0 1 1) (Clock h m s (t_nsec t)) 0).
    { apply Clock_only. apply clock_says_of; auto. apply frac9_says. apply T. }
    assert (C0 : calendar (-719528) (Date 0 1 1)) by (apply calendar_iff; split; [apply valid_iff; vm_compute; intuition discriminate|reflexivity]).
    destruct (C61_precision_from_text p (format_clock t ++ frac9 (t_nsec t))) as [R _]. destruct (R P _ _ _ _ S C0) as [-> _]. f_equal.
    assert (NN : nanos (-719528) (Clock h m s (t_nsec t)) 0 mod (24 * 3600 * 10 ^ 9) = u * 10 ^ (9 - p)).
    { rewrite <- I. apply clock_of_bounds in C. destruct C as (B1 & B2 & B3 & B4). unfold unit_ns in I. rewrite <- I in B. destruct T as [T1 T2]. unfold nanos, instant in *. cbn [c_hour c_min c_sec c_nano].
      change (24 * 3600 * 10 ^ 9) with 86400000000000 in *. change (10 ^ 9) with 1000000000 in *. Z.to_euclidean_division_equations; lia. }
    rewrite NN. apply Z.div_mul. lia.
Qed.
Example C61_round_trip_example : timestamp_iso (-62167219200000000) = "0000-01-01T00:00:00"%string /\
  new_timestamp_from_string (timestamp_iso (-62167219200000000)) = Ok (-62167219200000000) /\
  new_timestamp_from_string (timestamp_iso (-62167219200000001)) = Err.
Proof. vm_compute. auto. Qed.

(** The text with a blank that [ValueString] prints for timestamps is never read. *)
Theorem C61_value_text_is_not_read : forall us p u s,
  new_timestamp_from_string (timestamp_text us) = Err /\
  (precision_timestamp_text p u = Ok s -> new_precision_timestamp_from_string p s = Err).
Proof.
  intros us p u s. split.
  - unfold new_timestamp_from_string, timestamp_text. cbv zeta. rewrite blank_unread. reflexivity.
  - unfold precision_timestamp_text. destruct (time_from_units u p) as [t| |]; [|discriminate|discriminate]. cbn [bind]. intros [= <-].
    unfold new_precision_timestamp_from_string. pose proof (blank_unread t (format_clock t ++ frac9 (t_nsec t))) as B. cbn [append] in B. rewrite B. reflexivity.
Qed.

(** Printed texts that do not determine the value, and texts read as something else. *)
Theorem C61_texts_refuted :
  time_text 0 = time_text 500000 /\
  precision_timestamp_tz_iso 6 0 = precision_timestamp_tz_iso 6 1 /\
  new_time_from_string "2024-02-29T01:00:00+02:00" = Ok 3600000000 /\ new_precision_time_from_string 6 "2024-02-29T01:00:00+02:00" = Ok 82800000000 /\
  new_timestamp_from_string "01:00:00" = Ok (-62167215600000000) /\
  new_precision_timestamp_from_string 9 "2300-01-01T00:00:00" = Ok (-8032952073709551616).
Proof. vm_compute. auto 10. Qed.

Print Assumptions C60_calendar.
Print Assumptions C60_date_text.
Print Assumptions C60_date_from_text.
Print Assumptions C60_date_from_text_total.
Print Assumptions C60_date_round_trip.
Print Assumptions C61_moment.
Print Assumptions C61_time_texts.
Print Assumptions C61_timestamp_texts.
Print Assumptions C61_precision_texts.
Print Assumptions C61_precision_texts_panic.
Print Assumptions C61_texts_are_unambiguous.
Print Assumptions C61_time_from_text.
Print Assumptions C61_timestamp_from_text.
Print Assumptions C61_precision_from_text.
Print Assumptions C61_time_round_trip.
Print Assumptions C61_timestamp_round_trip.
Print Assumptions C61_precision_round_trip.
Print Assumptions C61_value_text_is_not_read.
Print Assumptions C61_texts_refuted.
