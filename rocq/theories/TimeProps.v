(** C14: sub-second precision conversions.  C41: time and interval constructors. *)

From Coq Require Import List ZArith Bool Lia String Ascii.
From Coq Require Import DecimalString DecimalZ DecimalFacts.
From Verif Require Import Base TimeModel TimeSpec TimeProofs.
Import ListNotations.
Local Open Scope Z_scope.

Lemma clock_bounds : forall p, precision_ok p ->
  p <= clock_precision p <= p + 2 /\ clock_precision p <= 9.
Proof.
  intros p [H1 H2]. unfold clock_precision.
  pose proof (Z_div_mod_eq_full (p + 2) 3). pose proof (Z.mod_pos_bound (p + 2) 3 ltac:(lia)). lia.
Qed.

(** ** C14 *)

(** A count of units names exactly the instant it says; other precisions panic. *)
Theorem C14_units_name_their_instant : forall u p, in_int 64 u ->
  (precision_ok p -> exists t, time_from_units u p = Ok t /\ time_ok t /\ instant t = u * unit_ns p) /\
  (~ precision_ok p -> time_from_units u p = Panic).
Proof.
  intros u p Hu. split.
  - apply from_units_spec; auto.
  - intros Hp. unfold time_from_units, precision_ok in *.
    repeat match goal with |- context [p =? ?k] => destruct (Z.eqb_spec p k); [exfalso; lia|] end. reflexivity.
Qed.

(** The count of units of an instant: rounded down for instants from the epoch on.
    Before the epoch it is rounded down to the precision the clock offers (0, 3, 6 or 9
    digits) and then towards zero. *)
Theorem C14_instant_to_units : forall t p, time_ok t ->
  (precision_ok p -> in_int 64 (instant t / unit_ns (clock_precision p)) ->
    (0 <= instant t -> time_value t p = Ok (instant t / unit_ns p)) /\
    (instant t < 0 -> time_value t p =
       Ok (- (- (instant t / unit_ns (clock_precision p)) / 10 ^ (clock_precision p - p))))) /\
  (~ precision_ok p -> time_value t p = Panic).
Proof.
  intros t p Ht. split.
  - intros Hp Hf. pose proof (clock_bounds p Hp) as B. rewrite time_value_spec by auto. fold (unit_ns (clock_precision p)).
    rewrite wrap_id by (auto; lia). unfold precision_ok in Hp.
    assert (P1 : 0 < unit_ns (clock_precision p)) by (apply Z.pow_pos_nonneg; lia).
    assert (P2 : 0 < 10 ^ (clock_precision p - p)) by (apply Z.pow_pos_nonneg; lia).
    split; intros H; f_equal.
    + rewrite Z.quot_div_nonneg; [|apply Z.div_pos; lia|lia].
      rewrite Z.div_div by lia. f_equal. unfold unit_ns. rewrite <- Z.pow_add_r by lia. f_equal. lia.
    + assert (instant t / unit_ns (clock_precision p) < 0) by (apply Z.div_lt_upper_bound; lia).
      rewrite <- (Z.opp_involutive (instant t / _)) at 1. rewrite Z.quot_opp_l by lia.
      rewrite Z.quot_div_nonneg by lia. reflexivity.
  - intros Hp. unfold time_value, precision_ok in *.
    repeat match goal with |- context [p =? ?k] => destruct (Z.eqb_spec p k); [exfalso; lia|] end. reflexivity.
Qed.

Example C14_instant_nonvacuous :
  time_value (Time 5 678900000) 1 = Ok 56 /\ time_value (Time 5 678900000) 7 = Ok 56789000 /\
  time_value (Time (-6) 321100000) 0 = Ok (-6) /\ time_value (Time (-6) 321100000) 1 = Ok (-56).
Proof. vm_compute. auto. Qed.

(** Round trip at one precision: exact condition.  Precisions other than 0, 3, 6, 9 go
    through the next finer clock precision, which must fit int64. *)
Theorem C14_round_trip_iff : forall u p, in_int 64 u -> precision_ok p ->
  (in_int 64 (u * 10 ^ (clock_precision p - p)) <-> change_precision u p p = Ok u).
Proof.
  intros u p Hu Hp. pose proof (clock_bounds p Hp) as B. pose proof Hp as Hp'. unfold precision_ok in Hp.
  destruct (from_units_spec u p Hu Hp) as (t & E & Ht & Hi). unfold change_precision. rewrite E. cbn [bind].
  rewrite time_value_spec by auto. rewrite Hi.
  replace (9 - p) with ((clock_precision p - p) + (9 - clock_precision p)) by lia.
  rewrite Z.pow_add_r, Z.mul_assoc, Z.div_mul by (try (apply Z.pow_nonzero); lia).
  set (k := 10 ^ (clock_precision p - p)) in *. assert (0 < k) by (apply Z.pow_pos_nonneg; lia).
  split; intros H1.
  - rewrite wrap_id by (auto; lia). rewrite Z.quot_mul by lia. reflexivity.
  - inversion H1 as [H2]. rewrite H2.
    (* u * k and the wrapped value agree up to a remainder smaller than k *)
    pose proof (wrap_range 64 (u * k) ltac:(lia)) as W. destruct (wrap_cong 64 (u * k) ltac:(lia)) as [j Hj].
    pose proof (Z.quot_rem' (wrap 64 (u * k)) k) as Q. rewrite H2 in Q.
    pose proof (Z.rem_bound_abs (wrap 64 (u * k)) k ltac:(lia)) as R.
    assert (k <= 100). { unfold k. change 100 with (10 ^ 2). apply Z.pow_le_mono_r; lia. }
    assert (j = 0). { change (2 ^ 64) with 18446744073709551616 in Hj.
      assert (Z.abs (j * 18446744073709551616) < 100) by lia. lia. }
    subst j. replace (u * k) with (wrap 64 (u * k)) by lia. auto.
Qed.

Example C14_round_trip_nonvacuous :
  change_precision 1234567 4 4 = Ok 1234567 /\ change_precision (-1234567) 8 8 = Ok (-1234567) /\
  change_precision 9223372036854775807 9 9 = Ok 9223372036854775807 /\
  change_precision 9223372036854775807 8 8 <> Ok 9223372036854775807.
Proof. repeat split; vm_compute; auto; discriminate. Qed.

(** To a finer precision the value is exact. *)
Theorem C14_finer_is_exact : forall u p q, in_int 64 u -> precision_ok p -> precision_ok q -> p <= q ->
  in_int 64 (u * 10 ^ (clock_precision q - p)) ->
  change_precision u p q = Ok (u * 10 ^ (q - p)).
Proof.
  intros u p q Hu Hp Hq Hpq Hf. pose proof (clock_bounds q Hq) as B. unfold precision_ok in *.
  destruct (from_units_spec u p Hu Hp) as (t & E & Ht & Hi). unfold change_precision. rewrite E. cbn [bind].
  rewrite time_value_spec by auto. rewrite Hi.
  replace (9 - p) with ((clock_precision q - p) + (9 - clock_precision q)) by lia.
  rewrite Z.pow_add_r, Z.mul_assoc, Z.div_mul by (try (apply Z.pow_nonzero); lia).
  rewrite wrap_id by (auto; lia). f_equal.
  replace (clock_precision q - p) with ((q - p) + (clock_precision q - q)) by lia.
  rewrite Z.pow_add_r, Z.mul_assoc by lia. apply Z.quot_mul. apply Z.pow_nonzero; lia.
Qed.

(** To a coarser precision it is rounded down, from the epoch on. *)
Theorem C14_coarser_rounds_down : forall u p q, 0 <= u -> in_int 64 (u * 10 ^ 2) -> precision_ok p -> precision_ok q -> q <= p ->
  change_precision u p q = Ok (u / 10 ^ (p - q)).
Proof.
  intros u p q Hu0 Hu Hp Hq Hpq. pose proof (clock_bounds q Hq) as B. unfold precision_ok in *.
  assert (Hu' : in_int 64 u) by (rewrite in_int64 in *; change (10 ^ 2) with 100 in *; lia).
  destruct (C14_units_name_their_instant u p Hu') as [H1 _]. destruct (H1 Hp) as (t & E & Ht & Hi).
  unfold change_precision. rewrite E. cbn [bind].
  assert (P : 0 < unit_ns p) by (apply Z.pow_pos_nonneg; lia).
  assert (Hi0 : 0 <= instant t) by nia.
  destruct (C14_instant_to_units t q Ht) as [H2 _].
  destruct (H2 Hq) as [H3 _].
  - rewrite Hi. unfold unit_ns. rewrite in_int64 in *.
    assert (0 < 10 ^ (9 - clock_precision q)) by (apply Z.pow_pos_nonneg; lia).
    assert (HU : u * 10 ^ (9 - p) <= u * 10 ^ 2 * 10 ^ (9 - clock_precision q)).
    { rewrite <- Z.mul_assoc. apply Z.mul_le_mono_nonneg_l; auto.
      rewrite <- Z.pow_add_r by lia. apply Z.pow_le_mono_r; lia. }
    split.
    + assert (0 <= u * 10 ^ (9 - p) / 10 ^ (9 - clock_precision q)) by (apply Z.div_pos; [apply Z.mul_nonneg_nonneg; auto; apply Z.pow_nonneg; lia|lia]). lia.
    + apply Z.le_lt_trans with (u * 10 ^ 2); [|lia]. apply Z.div_le_upper_bound; lia.
  - rewrite H3 by auto. f_equal. rewrite Hi. unfold unit_ns.
    replace (9 - q) with ((p - q) + (9 - p)) by lia. rewrite Z.pow_add_r by lia.
    apply Z.div_mul_cancel_r; apply Z.pow_nonzero; lia.
Qed.

(** ... so converting in two steps is the same as converting directly. *)
Theorem C14_coarser_consistent : forall u p q r, 0 <= u -> in_int 64 (u * 10 ^ 2) ->
  precision_ok p -> precision_ok r -> r <= q <= p ->
  (let! v := change_precision u p q in change_precision v q r) = change_precision u p r.
Proof.
  intros u p q r Hu0 Hu Hp Hr H. assert (Hq : precision_ok q) by (unfold precision_ok in *; lia).
  unfold precision_ok in *.
  rewrite !C14_coarser_rounds_down by (auto; unfold precision_ok; lia). cbn [bind].
  assert (P : 0 < 10 ^ (p - q)) by (apply Z.pow_pos_nonneg; lia).
  assert (0 <= u / 10 ^ (p - q) <= u).
  { split; [apply Z.div_pos; lia|]. apply Z.div_le_upper_bound; [lia|nia]. }
  rewrite C14_coarser_rounds_down by (auto; unfold precision_ok; try lia; rewrite in_int64 in *; change (10 ^ 2) with 100 in *; lia).
  f_equal. rewrite Z.div_div by (try apply Z.pow_pos_nonneg; lia).
  rewrite <- Z.pow_add_r by lia. do 2 f_equal. lia.
Qed.

(** Finding: before the epoch it is not consistent. *)
Theorem C14_coarser_before_epoch_refuted : exists u p q r, r <= q <= p /\
  precision_ok p /\ precision_ok r /\ in_int 64 (u * 10 ^ 2) /\
  (let! v := change_precision u p q in change_precision v q r) = Ok 0 /\ change_precision u p r = Ok (-1).
Proof.
  exists (-5), 2, 1, 0. unfold precision_ok, in_int. repeat split; try lia; vm_compute; auto; discriminate.
Qed.

(** Durations: exact while the product stays in int64. *)
Theorem C14_duration_exact : forall s p, precision_ok p ->
  in_int 64 (s * (if p <=? 2 then 10 ^ 9 else unit_ns p)) ->
  subseconds_to_duration s p = Ok (s * unit_ns p).
Proof.
  intros s p Hp Hf. unfold subseconds_to_duration.
  destruct (p_cases p Hp) as [->|[->|[->|[->|[->|[->|[->|[->|[->| ->]]]]]]]]]; cbn [Z.eqb Pos.eqb Z.leb Z.compare Pos.compare Pos.compare_cont] in *;
  match goal with |- context [unit_ns ?x] => let k := eval vm_compute in (unit_ns x) in change (unit_ns x) with k in * end;
  try change (10 ^ 9) with 1000000000 in *; rewrite ?wrap_mul_l by lia; f_equal.
  - apply wrap_id; auto; lia.
  - rewrite wrap_id by (auto; lia). replace (s * 1000000000) with (s * 100000000 * 10) by ring. apply Z.quot_mul. lia.
  - rewrite wrap_id by (auto; lia). replace (s * 1000000000) with (s * 10000000 * 100) by ring. apply Z.quot_mul. lia.
  - apply wrap_id; auto; lia.
  - replace (s * 100 * 1000) with (s * 100000) by ring. apply wrap_id; auto; lia.
  - replace (s * 10 * 1000) with (s * 10000) by ring. apply wrap_id; auto; lia.
  - apply wrap_id; auto; lia.
  - replace (s * 100 * 1) with (s * 100) by ring. apply wrap_id; auto; lia.
  - replace (s * 10 * 1) with (s * 10) by ring. apply wrap_id; auto; lia.
  - apply wrap_id; auto; lia.
Qed.

(** Finding: for tenths and hundredths of a second the product overflows although the
    duration itself fits. *)
Theorem C14_duration_refuted : exists s p, precision_ok p /\ in_int 64 (s * unit_ns p) /\
  subseconds_to_duration s p <> Ok (s * unit_ns p).
Proof.
  exists 10000000000, 1. split; [unfold precision_ok; lia|]. split; [unfold in_int; vm_compute; split; [discriminate|reflexivity]|].
  vm_compute. discriminate.
Qed.

(** Re-expressing an interval's sub-seconds: exact to a finer precision, truncated
    towards zero to a coarser one; days and seconds are kept. *)
Theorem C14_interval_precision : forall d s ss p q, precision_ok p -> precision_ok q ->
  (p <= q -> in_int 64 (ss * 10 ^ (q - p)) -> interval_day_with_precision d s ss p q = (d, s, ss * 10 ^ (q - p), q)) /\
  (q < p -> exists v, interval_day_with_precision d s ss p q = (d, s, v, q) /\
     Z.abs v * 10 ^ (p - q) <= Z.abs ss < (Z.abs v + 1) * 10 ^ (p - q) /\ 0 <= v * ss).
Proof.
  intros d s ss p q Hp Hq. unfold precision_ok in *. unfold interval_day_with_precision. split.
  - intros H Hf. destruct (Z.eqb_spec (p - q) 0).
    + replace (q - p) with 0 by lia. change (10 ^ 0) with 1. rewrite Z.mul_1_r. reflexivity.
    + destruct (Z.ltb_spec 0 (p - q)); [lia|]. replace (Z.abs (p - q)) with (q - p) by lia.
      rewrite wrap_id by (auto; lia). reflexivity.
  - intros H. destruct (Z.eqb_spec (p - q) 0); [lia|]. destruct (Z.ltb_spec 0 (p - q)); [|lia].
    replace (Z.abs (p - q)) with (p - q) by lia. eexists. split; [reflexivity|].
    set (k := 10 ^ (p - q)). assert (P : 0 < k) by (apply Z.pow_pos_nonneg; lia).
    pose proof (Z.quot_abs ss k ltac:(lia)) as QA. rewrite (Z.abs_eq k) in QA by lia.
    rewrite Z.quot_div_nonneg in QA by lia. rewrite <- QA.
    pose proof (Z_div_mod_eq_full (Z.abs ss) k). pose proof (Z.mod_pos_bound (Z.abs ss) k P).
    split; [nia|].
    pose proof (Z.quot_rem' ss k). destruct (Z_le_gt_dec 0 ss).
    + pose proof (Z.quot_pos ss k ltac:(lia) ltac:(lia)). nia.
    + pose proof (Z.quot_opp_l ss k ltac:(lia)). pose proof (Z.quot_pos (- ss) k ltac:(lia) ltac:(lia)). nia.
Qed.

Example C14_interval_nonvacuous :
  interval_day_with_precision 3 4 (-56789) 4 2 = (3, 4, -567, 2) /\
  interval_day_with_precision 3 4 567 3 6 = (3, 4, 567000, 6).
Proof. vm_compute. auto. Qed.

(** Precisions are accepted from a message exactly in 0..9. *)
Theorem C14_precision_accepted_iff : forall v,
  (precision_ok v -> precision_of_proto v = Ok v) /\ (~ precision_ok v -> precision_of_proto v = Err).
Proof.
  intros v. unfold precision_of_proto, precision_ok.
  destruct (Z.ltb_spec v 0); cbn [orb]; [split; auto; lia|]. destruct (Z.ltb_spec 9 v); split; auto; lia.
Qed.

(** ** C41 *)

Lemma wrap_sum4 : forall a b c d,
  wrap 64 (wrap 64 (wrap 64 (wrap 64 a + wrap 64 b) + wrap 64 c) + wrap 64 d) = wrap 64 (a + b + c + d).
Proof.
  intros. rewrite wrap_add_l, wrap_add_r by lia.
  replace (wrap 64 (wrap 64 a + wrap 64 b) + wrap 64 c + d) with (wrap 64 (wrap 64 a + wrap 64 b) + (wrap 64 c + d)) by ring.
  rewrite wrap_add_l by lia.
  replace (wrap 64 a + wrap 64 b + (wrap 64 c + d)) with (wrap 64 a + (wrap 64 b + (wrap 64 c + d))) by ring.
  rewrite wrap_add_l by lia.
  replace (a + (wrap 64 b + (wrap 64 c + d))) with (wrap 64 b + (wrap 64 c + (a + d))) by ring.
  rewrite wrap_add_l by lia.
  replace (b + (wrap 64 c + (a + d))) with (wrap 64 c + (a + b + d)) by ring.
  rewrite wrap_add_l by lia. f_equal. ring.
Qed.

(** NewTime accepts exactly the times of day, and stores their microseconds, whenever
    the given amount of time fits the 64-bit nanosecond duration. *)
Theorem C41_new_time : forall h m s us,
  let total := h * 3600 * 10 ^ 6 + m * 60 * 10 ^ 6 + s * 10 ^ 6 + us in
  in_int 64 (total * 1000) ->
  (0 <= total < 24 * 3600 * 10 ^ 6 -> new_time h m s us = Ok total) /\
  (~ (0 <= total < 24 * 3600 * 10 ^ 6) -> new_time h m s us = Err).
Proof.
  intros h m s us total Hf. unfold new_time.
  rewrite wrap_sum4. replace (h * 3600000000000 + m * 60000000000 + s * 1000000000 + us * 1000) with (total * 1000)
    by (unfold total; ring).
  rewrite wrap_id by (auto; lia). cbv zeta. rewrite Z.quot_mul by lia.
  change (24 * 3600 * 10 ^ 6) with 86400000000.
  destruct (Z.ltb_spec total 0); cbn [orb]; [split; auto; lia|].
  destruct (Z.leb_spec 86400000000 total); split; auto; lia.
Qed.

Example C41_new_time_nonvacuous :
  new_time 23 59 59 999999 = Ok 86399999999 /\ new_time 24 0 0 0 = Err /\ new_time 0 0 0 (-1) = Err /\
  new_time 1 (-60) 5 7 = Ok 5000007.
Proof. vm_compute. auto. Qed.

(** Finding: hours beyond the range of the duration wrap around and are accepted. *)
Theorem C41_new_time_overflow_refuted : exists h v, in_int 32 h /\ 24 < h /\ new_time h 0 0 0 = Ok v.
Proof.
  exists 5124096, 1526290448. split; [unfold in_int; vm_compute; split; [discriminate|reflexivity]|].
  split; [lia|vm_compute; reflexivity].
Qed.

Theorem C41_new_time_from_micros : forall us,
  (0 <= us < 24 * 3600 * 10 ^ 6 -> new_time_from_micros us = Ok us) /\
  (~ (0 <= us < 24 * 3600 * 10 ^ 6) -> new_time_from_micros us = Err).
Proof.
  intros us. unfold new_time_from_micros. change (24 * 3600 * 10 ^ 6) with 86400000000.
  destruct (Z.ltb_spec us 0); cbn [orb]; [split; auto; lia|].
  destruct (Z.leb_spec 86400000000 us); split; auto; lia.
Qed.

(** A parsed clock reading is always a valid time; nanoseconds are cut to microseconds. *)
Theorem C41_new_time_of_clock : forall hh mm ss ns,
  0 <= hh < 24 -> 0 <= mm < 60 -> 0 <= ss < 60 -> 0 <= ns < 10 ^ 9 ->
  exists us, new_time_of_clock hh mm ss ns = Ok us /\
    us * 1000 <= (hh * 3600 + mm * 60 + ss) * 10 ^ 9 + ns < (us + 1) * 1000.
Proof.
  intros hh mm ss ns H1 H2 H3 H4. unfold new_time_of_clock. change (10 ^ 9) with 1000000000 in *.
  rewrite Z.quot_div_nonneg by lia.
  pose proof (Z_div_mod_eq_full ns 1000). pose proof (Z.mod_pos_bound ns 1000 ltac:(lia)).
  pose proof (proj1 (C41_new_time_from_micros ((hh * 3600 + mm * 60 + ss) * 1000000 + ns / 1000))) as C.
  eexists. split; [apply C; change (24 * 3600 * 10 ^ 6) with 86400000000; lia|]. lia.
Qed.

(** A precision time made from an instant is its time of day (UTC), rounded down. *)
Theorem C41_precision_time_from_instant : forall p t, time_ok t -> precision_ok p ->
  precision_time_from_time p t = Ok ((instant t mod (24 * 3600 * 10 ^ 9)) / unit_ns p).
Proof.
  intros p t [Hs Hn] Hp. unfold precision_time_from_time.
  assert (E : instant (time_of_day t) = instant t mod (24 * 3600 * 10 ^ 9)).
  { unfold time_of_day, instant. cbn [t_sec t_nsec].
    change (24 * 3600 * 10 ^ 9) with (86400 * 1000000000). change (10 ^ 9) with 1000000000 in *.
    set (ns := t_sec t mod 86400 * 1000000000 + t_nsec t).
    pose proof (Z_div_mod_eq_full ns 1000000000). 
    transitivity ns; [lia|]. unfold ns.
    pose proof (Z_div_mod_eq_full (t_sec t) 86400). pose proof (Z.mod_pos_bound (t_sec t) 86400 ltac:(lia)).
    apply Z.mod_unique with (t_sec t / 86400); lia. }
  pose proof (Z.mod_pos_bound (instant t) (24 * 3600 * 10 ^ 9) ltac:(reflexivity)) as B.
  assert (Ht : time_ok (time_of_day t)).
  { unfold time_ok. rewrite in_int64. unfold time_of_day. cbn [t_sec t_nsec].
    change (10 ^ 9) with 1000000000 in *.
    pose proof (Z.mod_pos_bound (t_sec t) 86400 ltac:(lia)).
    pose proof (Z.mod_pos_bound (t_sec t mod 86400 * 1000000000 + t_nsec t) 1000000000 ltac:(lia)).
    assert (0 <= (t_sec t mod 86400 * 1000000000 + t_nsec t) / 1000000000 < 86400).
    { split; [apply Z.div_pos; lia|apply Z.div_lt_upper_bound; lia]. }
    lia. }
  rewrite <- E. destruct (C14_instant_to_units _ p Ht) as [H1 _].
  pose proof (clock_bounds p Hp) as CB.
  assert (P : 0 < unit_ns (clock_precision p)) by (apply Z.pow_pos_nonneg; unfold precision_ok in *; lia).
  apply H1; auto; [|lia].
  rewrite E, in_int64. set (x := instant t mod (24 * 3600 * 10 ^ 9)) in *.
  change (24 * 3600 * 10 ^ 9) with 86400000000000 in B.
  assert (0 <= x / unit_ns (clock_precision p)) by (apply Z.div_pos; lia).
  assert (x / unit_ns (clock_precision p) <= x) by (apply Z.div_le_upper_bound; nia). lia.
Qed.

(** *** intervals of years and months as strings *)
Fixpoint no_char (c : ascii) (s : string) : Prop :=
  match s with EmptyString => True | String d s' => d <> c /\ no_char c s' end.

Lemma last_index_app : forall c a b i acc, no_char c a ->
  last_index_from i c (a ++ b) acc = last_index_from (i + Z.of_nat (String.length a)) c b acc.
Proof.
  induction a as [|d a IH]; intros b i acc H; simpl append.
  - cbn [String.length]. f_equal. lia.
  - destruct H as [H1 H2]. cbn [last_index_from String.length].
    destruct (Ascii.eqb_spec d c); [contradiction|]. rewrite IH by auto. f_equal. lia.
Qed.

Lemma take_app : forall a b, str_take (String.length a) (a ++ b) = a.
Proof. induction a; intros; simpl; [reflexivity|f_equal; auto]. Qed.
Lemma drop_app : forall a b, str_drop (String.length a) (a ++ b) = b.
Proof. induction a; intros; simpl; auto. Qed.

Lemma digits_value_acc : forall d acc,
  digits_value (Zpos acc) (NilEmpty.string_of_uint d) = Some (Zpos (Pos.of_uint_acc d acc)).
Proof.
  induction d; intros acc; try reflexivity; cbn [NilEmpty.string_of_uint digits_value Pos.of_uint_acc];
  match goal with |- context [digit_of ?c] => let v := eval vm_compute in (digit_of c) in change (digit_of c) with v end; cbv iota beta;
  rewrite <- IHd; f_equal; lia.
Qed.
Lemma digits_value_uint : forall d, digits_value 0 (NilEmpty.string_of_uint d) = Some (Z.of_uint d).
Proof.
  induction d; try reflexivity; cbn [NilEmpty.string_of_uint digits_value];
  match goal with |- context [digit_of ?c] => let v := eval vm_compute in (digit_of c) in change (digit_of c) with v end; cbv iota beta.
  - change (0 * 10 + 0) with 0. rewrite IHd. reflexivity.
  - apply digits_value_acc.
  - apply digits_value_acc.
  - apply digits_value_acc.
  - apply digits_value_acc.
  - apply digits_value_acc.
  - apply digits_value_acc.
  - apply digits_value_acc.
  - apply digits_value_acc.
  - apply digits_value_acc.
Qed.

Lemma unsigned_atoi_uint : forall d, unsigned_atoi (NilZero.string_of_uint d) = Some (Z.of_uint d).
Proof.
  intros d. destruct d; try reflexivity;
  match goal with |- unsigned_atoi (NilZero.string_of_uint ?x) = _ => exact (digits_value_uint x) end.
Qed.

Lemma digit_first : forall d, exists c s, NilZero.string_of_uint d = String c s /\ c <> "-"%char /\ c <> "+"%char.
Proof. destruct d; cbn; eexists _, _; (split; [reflexivity|split; discriminate]). Qed.

Lemma atoi_string_of_Z : forall z, in_int 64 z -> atoi (string_of_Z z) = Ok z.
Proof.
  intros z Hz. pose proof (of_to z) as E. unfold string_of_Z.
  assert (R : (- 2 ^ 63 <=? z) && (z <? 2 ^ 63) = true).
  { unfold in_int in Hz. change (2 ^ (64 - 1)) with (2 ^ 63) in Hz. rewrite andb_true_iff, Z.leb_le, Z.ltb_lt. lia. }
  destruct (Z.to_int z) as [d|d].
  - change (NilZero.string_of_int (Decimal.Pos d)) with (NilZero.string_of_uint d).
    unfold atoi. destruct (digit_first d) as (c & s & Hs & H1 & H2).
    pose proof (unsigned_atoi_uint d) as U. rewrite Hs in *.
    destruct (Ascii.eqb_spec c "-"%char); [contradiction|]. destruct (Ascii.eqb_spec c "+"%char); [contradiction|].
    cbv zeta. rewrite U. change (Z.of_uint d) with (Z.of_int (Decimal.Pos d)). rewrite E, R. reflexivity.
  - change (NilZero.string_of_int (Decimal.Neg d)) with (String "-"%char (NilZero.string_of_uint d)).
    unfold atoi. change (Ascii.eqb "-"%char "-"%char) with true. cbv iota zeta. rewrite unsigned_atoi_uint.
    cbn [option_map]. change (- Z.of_uint d) with (Z.of_int (Decimal.Neg d)). rewrite E, R. reflexivity.
Qed.

Lemma no_char_uint : forall c d, digit_of c = None -> no_char c (NilZero.string_of_uint d).
Proof.
  intros c d Hc.
  assert (G : forall d, no_char c (NilEmpty.string_of_uint d)).
  { clear d. induction d; cbn; auto; (split; [intros <-; discriminate Hc|auto]). }
  destruct d; try (exact (G _)). cbn. split; auto. intros <-; discriminate Hc.
Qed.
Lemma no_char_Z : forall c z, digit_of c = None -> c <> "-"%char -> no_char c (string_of_Z z).
Proof.
  intros c z Hc Hm. unfold string_of_Z. destruct (Z.to_int z); cbn [NilZero.string_of_int].
  - apply no_char_uint; auto.
  - cbn. split; auto. apply no_char_uint; auto.
Qed.
Lemma string_of_Z_nonempty : forall z, (1 <= String.length (string_of_Z z))%nat.
Proof.
  intros z. unfold string_of_Z. destruct (Z.to_int z) as [d|d]; cbn [NilZero.string_of_int].
  - destruct (digit_first d) as (c & s & -> & _). cbn. lia.
  - cbn. lia.
Qed.

Lemma app_length_string : forall a b, String.length (a ++ b) = (String.length a + String.length b)%nat.
Proof. induction a; intros; cbn; auto. Qed.

(** The printed form of a years-and-months interval reads back as itself. *)
Theorem C41_interval_years_months_round_trip : forall y m, in_int 32 y -> in_int 32 m ->
  parse_interval_years_to_month (print_interval_years_to_month y m) = Ok (y, m).
Proof.
  intros y m Hy Hm.
  assert (Hy64 : in_int 64 y) by (unfold in_int in *; change (2 ^ (32 - 1)) with 2147483648 in *; change (2 ^ (64 - 1)) with 9223372036854775808; lia).
  assert (Hm64 : in_int 64 m) by (unfold in_int in *; change (2 ^ (32 - 1)) with 2147483648 in *; change (2 ^ (64 - 1)) with 9223372036854775808; lia).
  unfold parse_interval_years_to_month, print_interval_years_to_month.
  pose proof (string_of_Z_nonempty y) as Ly. pose proof (string_of_Z_nonempty m) as Lm.
  pose proof (atoi_string_of_Z y Hy64) as Ay. pose proof (atoi_string_of_Z m Hm64) as Am.
  pose proof (no_char_Z "Y"%char y eq_refl ltac:(discriminate)) as YY. pose proof (no_char_Z "Y"%char m eq_refl ltac:(discriminate)) as YM.
  pose proof (no_char_Z "M"%char y eq_refl ltac:(discriminate)) as MY. pose proof (no_char_Z "M"%char m eq_refl ltac:(discriminate)) as MM.
  generalize dependent (string_of_Z y). generalize dependent (string_of_Z m). intros sm Lm Am YM MM sy Ly Ay YY MY.
  change ("P" ++ sy ++ "Y" ++ sm ++ "M")%string with (String "P"%char (sy ++ String "Y"%char (sm ++ String "M"%char EmptyString))%string).
  cbn [String.length]. rewrite !app_length_string. cbn [String.length]. rewrite app_length_string. cbn [String.length].
  destruct (Nat.ltb_spec (S (String.length sy + S (String.length sm + 1))) 3); [lia|].
  change (negb (Ascii.eqb "P"%char "P"%char)) with false. cbv iota.
  assert (IY : last_index "Y"%char (sy ++ String "Y"%char (sm ++ String "M"%char EmptyString)) = Z.of_nat (String.length sy)).
  { unfold last_index. rewrite last_index_app by auto. cbn [last_index_from].
    change (Ascii.eqb "Y"%char "Y"%char) with true. cbv iota. rewrite last_index_app by auto. cbn [last_index_from]. reflexivity. }
  assert (IM : last_index "M"%char (sy ++ String "Y"%char (sm ++ String "M"%char EmptyString)) =
      Z.of_nat (String.length sy) + 1 + Z.of_nat (String.length sm)).
  { unfold last_index. rewrite last_index_app by auto. cbn [last_index_from].
    change (Ascii.eqb "Y"%char "M"%char) with false. cbv iota. rewrite last_index_app by auto. cbn [last_index_from].
    change (Ascii.eqb "M"%char "M"%char) with true. cbv iota. reflexivity. }
  rewrite IY, IM. cbv zeta.
  destruct (Z.eqb_spec (Z.of_nat (String.length sy)) (-1)); [lia|]. cbn [andb].
  rewrite Nat2Z.id, take_app, Ay. cbn [bind].
  replace (Z.to_nat (Z.of_nat (String.length sy) + 1)) with (String.length (sy ++ "Y")%string) by
    (rewrite app_length_string; cbn [String.length]; lia).
  replace (sy ++ String "Y"%char (sm ++ String "M"%char EmptyString))%string with ((sy ++ "Y") ++ (sm ++ "M"))%string.
  2:{ clear. induction sy; cbn; [reflexivity|]. f_equal. auto. }
  rewrite drop_app.
  replace (Z.of_nat (String.length sy) + 1 + Z.of_nat (String.length sm) - (Z.of_nat (String.length sy) + 1)) with (Z.of_nat (String.length sm)) by lia.
  destruct (Z.ltb_spec 0 (Z.of_nat (String.length sm))); [|lia].
  rewrite Nat2Z.id, take_app, Am. cbn [bind]. rewrite !wrap_id by (auto; lia). reflexivity.
Qed.

(** It never panics, and everything it returns is an int32 pair. *)
Theorem C41_interval_parse_total : forall s,
  parse_interval_years_to_month s = Err \/
  exists y m, parse_interval_years_to_month s = Ok (y, m) /\ in_int 32 y /\ in_int 32 m.
Proof.
  intros s. unfold parse_interval_years_to_month.
  destruct (Nat.ltb _ _); auto. destruct s as [|c iv]; auto. destruct (negb _); auto. cbv zeta.
  destruct (_ && _); auto.
  assert (A : forall s, atoi s = Err \/ exists z, atoi s = Ok z).
  { clear. intros s. unfold atoi. cbv zeta. destruct (match s with EmptyString => _ | _ => _ end); auto.
    destruct (_ && _); eauto. }
  assert (B : forall (x y : Z), in_int 32 (wrap 32 x) /\ in_int 32 (wrap 32 y)) by (intros; split; apply wrap_range; lia).
  destruct (last_index "Y"%char iv =? -1).
  - cbn [bind]. destruct (0 <? _).
    + destruct (A (str_take (Z.to_nat (last_index "M"%char iv)) iv)) as [->|[z ->]]; cbn [bind]; auto.
      right. eexists _, _. split; [reflexivity|auto].
    + right. eexists _, _. split; [reflexivity|auto].
  - destruct (A (str_take (Z.to_nat (last_index "Y"%char iv)) iv)) as [->|[z ->]]; cbn [bind]; auto.
    destruct (0 <? _).
    + match goal with |- context [bind (atoi ?x)] => destruct (A x) as [->|[w ->]] end; cbn [bind]; auto.
      right. eexists _, _. split; [reflexivity|auto].
    + right. eexists _, _. split; [reflexivity|auto].
Qed.

(** Findings: counts beyond int32 are cut off silently; text after the last unit is
    ignored; a missing count of months reads as zero. *)
Theorem C41_interval_parse_refuted :
  parse_interval_years_to_month "P4294967297Y" = Ok (1, 0) /\
  parse_interval_years_to_month "P1Yjunk" = Ok (1, 0) /\
  parse_interval_years_to_month "P1YM" = Ok (1, 0) /\
  parse_interval_years_to_month "P3M2Y" = Err.
Proof. vm_compute. auto. Qed.

Print Assumptions C14_units_name_their_instant.
Print Assumptions C14_instant_to_units.
Print Assumptions C14_round_trip_iff.
Print Assumptions C14_finer_is_exact.
Print Assumptions C14_coarser_rounds_down.
Print Assumptions C14_coarser_consistent.
Print Assumptions C14_coarser_before_epoch_refuted.
Print Assumptions C14_duration_exact.
Print Assumptions C14_duration_refuted.
Print Assumptions C14_interval_precision.
Print Assumptions C14_precision_accepted_iff.
Print Assumptions C41_new_time.
Print Assumptions C41_new_time_overflow_refuted.
Print Assumptions C41_new_time_from_micros.
Print Assumptions C41_new_time_of_clock.
Print Assumptions C41_precision_time_from_instant.
Print Assumptions C41_interval_years_months_round_trip.
Print Assumptions C41_interval_parse_total.
Print Assumptions C41_interval_parse_refuted.
