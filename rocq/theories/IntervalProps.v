(** C62: the texts of day-time intervals. *)

From Coq Require Import ZArith Lia Bool String Ascii List.
From Verif Require Import Base TimeModel TimeSpec TimeProofs TimeProps CalModel CalSpec CalTextProofs IntervalModel IntervalSpec IntervalProofs IntervalTextProofs.
Import ListNotations.
Local Open Scope Z_scope.

(** ** which texts are read *)

Theorem C62_accepted : forall text,
  ((exists y, parse_interval_days text = Ok y) <->
   (3 <= String.length text)%nat /\ exists x, says_interval text x /\ in_bounds x) /\
  ((exists y, parse_interval_days text = Ok y) \/ parse_interval_days text = Err).
Proof. intros text. split; [apply parse_iff|apply parse_total]. Qed.
Print Assumptions C62_accepted.

Theorem C62_unambiguous : forall text x y, says_interval text x -> says_interval text y -> x = y.
Proof.
  intros text x y X Y. destruct (match_interval_back _ _ X) as (a & b & c & d & e & E & ->).
  destruct (match_interval_back _ _ Y) as (a' & b' & c' & d' & e' & E' & ->). rewrite E in E'. injection E' as <- <- <- <- <-. reflexivity.
Qed.
Print Assumptions C62_unambiguous.

Example says_example : says_interval "P3DT4H5M6.789S" (Span 3 4 5 6789 3).
Proof.
  change "P3DT4H5M6.789S"%string with ("P" ++ ("3" ++ "D") ++ "T" ++ ("4" ++ "H") ++ ("5" ++ "M") ++ ("6" ++ "." ++ "789" ++ "S"))%string.
  assert (forall ds, Forall dig ds -> number (length ds) (val ds) (str ds)) as NU by (intros ds F; apply number_iff; exists ds; auto).
  assert (Forall dig [3] /\ Forall dig [4] /\ Forall dig [5] /\ Forall dig [6] /\ Forall dig [7; 8; 9]) as (F3 & F4 & F5 & F6 & F789).
  { repeat split; repeat (constructor; [unfold dig; lia|]); constructor. }
  apply (Days_and_time 3 4 5 6789 3).
  - exact (Present "D" 0 3 "3" (NU [3] F3)).
  - exact (Present "H" 0 4 "4" (NU [4] F4)).
  - exact (Present "M" 0 5 "5" (NU [5] F5)).
  - exact (Fraction_seconds 1 2 6 789 "6" "789" (NU [6] F6) (NU [7; 8; 9] F789)).
Qed.
Example accepted_example : exists y, parse_interval_days "P3DT4H5M6.789S" = Ok y.
Proof.
  apply C62_accepted. split; [cbn; lia|]. exists (Span 3 4 5 6789 3). split; [exact says_example|].
  unfold in_bounds. cbn [sp_days sp_hours sp_minutes sp_num sp_digits]. repeat split; reflexivity.
Qed.
Example refused_examples : parse_interval_days "PT" = Err /\ parse_interval_days "P1H" = Err /\ parse_interval_days "PT1.S" = Err /\
  parse_interval_days "PT5M4H" = Err /\ parse_interval_days "P-1D" = Err.
Proof. repeat split. Qed.

(** ** what is read *)

Lemma wrap_cut : forall z, cut_to_int32 z (wrap 32 z).
Proof.
  intros z. split; [apply wrap_range; lia|]. destruct (wrap_cong 32 z ltac:(lia)) as [k ->]. exists (- k). ring.
Qed.
Lemma cut_small : forall z z', cut_to_int32 z z' -> in_int 32 z -> z' = z.
Proof. intros z z' [A [k K]] B. unfold in_int in *. change (2 ^ (32 - 1)) with 2147483648 in *. change (2 ^ 32) with 4294967296 in K. lia. Qed.

(** Whole seconds, minutes, hours and days are read as written, cut to 32 bits. *)
Theorem C62_whole : forall text d h m v, says_interval text (Span d h m v 0) -> (3 <= String.length text)%nat ->
  d < 2 ^ 63 -> h < 2 ^ 63 -> m < 2 ^ 63 -> v < 2 ^ 53 ->
  exists d' s', parse_interval_days text = Ok (d', s', 0, 6) /\ cut_to_int32 d d' /\ cut_to_int32 (h * 3600 + m * 60 + v) s'.
Proof.
  intros text d h m v X L D H M V. pose proof (digits_forall _ _ X) as (_ & _ & _ & V0). cbn [sp_num] in V0.
  rewrite (parse_back _ _ X).
  - unfold parsed. cbn [sp_days sp_hours sp_minutes sp_num sp_digits]. change (10 ^ Z.of_nat 0) with 1.
    rewrite split_whole by lia. do 2 eexists. split; [reflexivity|]. split; apply wrap_cut.
  - unfold in_bounds. cbn [sp_days sp_hours sp_minutes sp_num sp_digits]. do 3 (split; [assumption|]).
    assert (2 ^ 53 < 2 ^ 1024 - 2 ^ 970) by reflexivity. change (10 ^ Z.of_nat 0) with 1. lia.
  - assumption.
Qed.
Print Assumptions C62_whole.
Corollary C62_whole_in_range : forall text d h m v, says_interval text (Span d h m v 0) -> (3 <= String.length text)%nat ->
  in_int 32 d -> in_int 32 (h * 3600 + m * 60 + v) -> parse_interval_days text = Ok (d, h * 3600 + m * 60 + v, 0, 6).
Proof.
  intros text d h m v X L D H. pose proof (digits_forall _ _ X) as (D0 & H0 & M0 & V0). cbn [sp_days sp_hours sp_minutes sp_num] in *.
  destruct (C62_whole _ _ _ _ _ X L) as (d' & s' & P & CD & CS); try (unfold in_int in *; change (2 ^ (32 - 1)) with 2147483648 in *; lia).
  rewrite P, (cut_small _ _ CD D), (cut_small _ _ CS H). reflexivity.
Qed.
Print Assumptions C62_whole_in_range.

(** Seconds with a fraction, below 2^22 of them: at most half a nanosecond more and less than
    one and a half nanoseconds less than written. *)
Theorem C62_fraction : forall text d h m v k, says_interval text (Span d h m v k) -> (3 <= String.length text)%nat ->
  d < 2 ^ 63 -> h < 2 ^ 63 -> m < 2 ^ 63 -> v < 2 ^ 22 * 10 ^ Z.of_nat k ->
  exists w x, parse_interval_days text = Ok (sv_days x, sv_secs x, sv_sub x, sv_prec x) /\
    cut_to_int32 d (sv_days x) /\ cut_to_int32 (h * 3600 + m * 60 + w) (sv_secs x) /\
    (sv_prec x = 6 \/ sv_prec x = 9) /\ 0 <= sv_sub x < 10 ^ sv_prec x /\ 0 <= w /\
    2 * v * 10 ^ 9 - 3 * 10 ^ Z.of_nat k < 2 * 10 ^ Z.of_nat k * (w * 10 ^ 9 + sub_nanos x) <= 2 * v * 10 ^ 9 + 10 ^ Z.of_nat k.
Proof.
  intros text d h m v k X L D H M V. pose proof (digits_forall _ _ X) as (_ & _ & _ & V0). cbn [sp_num] in V0. pose proof (ten_pos k) as T.
  rewrite (parse_back _ _ X).
  - unfold parsed. cbn [sp_days sp_hours sp_minutes sp_num sp_digits].
    destruct (split_small v (10 ^ Z.of_nat k) d h m V0 T V) as (w & ss & p & -> & P & S1 & W & B).
    exists w, (Stored (wrap 32 d) (wrap 32 (h * 3600 + m * 60 + w)) ss p). unfold sub_nanos. cbn [sv_days sv_secs sv_sub sv_prec].
    split; [reflexivity|]. split; [apply wrap_cut|]. split; [apply wrap_cut|]. auto.
  - unfold in_bounds. cbn [sp_days sp_hours sp_minutes sp_num sp_digits]. do 3 (split; [assumption|]).
    assert (2 ^ 22 < 2 ^ 1024 - 2 ^ 970) by reflexivity. nia.
  - assumption.
Qed.
Print Assumptions C62_fraction.
(** Up to nine digits: the time as written or one nanosecond less. *)
Corollary C62_nine_digits : forall text d h m v k, says_interval text (Span d h m v k) -> (3 <= String.length text)%nat ->
  in_int 32 d -> in_int 32 (h * 3600 + m * 60 + 2 ^ 22) -> v < 2 ^ 22 * 10 ^ Z.of_nat k -> (k <= 9)%nat ->
  exists x, parse_interval_days text = Ok (d, sv_secs x, sv_sub x, sv_prec x) /\ (sv_prec x = 6 \/ sv_prec x = 9) /\ 0 <= sv_sub x < 10 ^ sv_prec x /\
    let written := (h * 3600 + m * 60) * 10 ^ 9 + v * 10 ^ (9 - Z.of_nat k) in
    time_nanos x = written \/ time_nanos x = written - 1.
Proof.
  intros text d h m v k X L D H V K. pose proof (digits_forall _ _ X) as (D0 & H0 & M0 & V0). cbn [sp_days sp_hours sp_minutes sp_num] in *.
  pose proof (ten_pos k) as T.
  destruct (C62_fraction _ _ _ _ _ _ X L) as (w & x & P & CD & CS & PX & SX & W & B1 & B2);
    try (unfold in_int in *; change (2 ^ (32 - 1)) with 2147483648 in *; lia).
  assert (10 ^ 9 = 10 ^ (9 - Z.of_nat k) * 10 ^ Z.of_nat k) as E by (rewrite <- Z.pow_add_r by lia; f_equal; lia).
  set (t := 10 ^ Z.of_nat k) in *. set (u := 10 ^ (9 - Z.of_nat k)) in *.
  assert (0 < u) as U by (apply Z.pow_pos_nonneg; lia).
  assert (2 * (v * u) - 3 < 2 * (w * 10 ^ 9 + sub_nanos x) <= 2 * (v * u) + 1) as [B1' B2'].
  { replace (2 * v * 10 ^ 9) with (2 * (v * u) * t) in * by (rewrite E; ring).
    split; [apply (Z.mul_lt_mono_pos_r t); lia|apply (Z.mul_le_mono_pos_r _ _ t); lia]. }
  assert (w <= 2 ^ 22) as W22.
  { assert (v * u < 2 ^ 22 * 10 ^ 9) as VU by (rewrite E; clear -V U T; nia).
    assert (0 <= sub_nanos x) as SN by (unfold sub_nanos; apply Z.mul_nonneg_nonneg; [lia|apply Z.pow_nonneg; lia]).
    change (10 ^ 9) with 1000000000 in *. lia. }
  exists x. rewrite P, (cut_small _ _ CD D). split; [reflexivity|]. split; [assumption|]. split; [assumption|].
  rewrite (cut_small _ _ CS) in *. 2: { unfold in_int in *. change (2 ^ (32 - 1)) with 2147483648 in *. lia. }
  cbv zeta. unfold time_nanos. rewrite (cut_small _ _ CS). 2: { unfold in_int in *. change (2 ^ (32 - 1)) with 2147483648 in *. lia. }
  change (10 ^ 9) with 1000000000 in *. lia.
Qed.
Print Assumptions C62_nine_digits.

(** Multiples of 1/512 second are read exactly, in microseconds if they are whole ones. *)
Theorem C62_binary_fractions : forall text d h m v k z, says_interval text (Span d h m v k) -> (3 <= String.length text)%nat ->
  d < 2 ^ 63 -> h < 2 ^ 63 -> m < 2 ^ 63 -> v * 512 = z * 10 ^ Z.of_nat k -> z < 2 ^ 31 ->
  exists d' s' ns, cut_to_int32 d d' /\ cut_to_int32 (h * 3600 + m * 60 + z / 512) s' /\
    (z / 512 * 10 ^ 9 + ns) * 512 = z * 10 ^ 9 /\ 0 <= ns < 10 ^ 9 /\
    ((1000 | ns) -> parse_interval_days text = Ok (d', s', ns / 1000, 6)) /\
    (~ (1000 | ns) -> parse_interval_days text = Ok (d', s', ns, 9)).
Proof.
  intros text d h m v k z X L D H M E Z31. pose proof (digits_forall _ _ X) as (_ & _ & _ & V0). cbn [sp_num] in V0. pose proof (ten_pos k) as T.
  assert (0 <= z) as Z0 by nia.
  exists (wrap 32 d), (wrap 32 (h * 3600 + m * 60 + z / 512)), (z mod 512 * 5 ^ 9).
  split; [apply wrap_cut|]. split; [apply wrap_cut|].
  pose proof (Z.div_mod z 512 ltac:(lia)) as DM. pose proof (Z.mod_pos_bound z 512 ltac:(lia)) as MB.
  split; [change (10 ^ 9) with 1000000000; change (5 ^ 9) with 1953125; lia|].
  split; [change (10 ^ 9) with 1000000000; change (5 ^ 9) with 1953125; lia|].
  assert (in_bounds (Span d h m v k)) as IB.
  { unfold in_bounds. cbn [sp_days sp_hours sp_minutes sp_num sp_digits]. do 3 (split; [assumption|]).
    assert (2 ^ 31 < 2 ^ 1024 - 2 ^ 970) by reflexivity. nia. }
  rewrite (parse_back _ _ X IB L). unfold parsed. cbn [sp_days sp_hours sp_minutes sp_num sp_digits].
  rewrite (split_dyadic v (10 ^ Z.of_nat k) z d h m T ltac:(lia) E). change (2 ^ 9) with 512.
  split; intros DV.
  - apply Z.mod_divide in DV; [|lia]. rewrite DV. reflexivity.
  - destruct (Z.eqb_spec ((z mod 512 * 5 ^ 9) mod 1000) 0) as [Q|]; [|reflexivity]. apply Z.mod_divide in Q; [contradiction|lia].
Qed.
Print Assumptions C62_binary_fractions.
Example binary_example : parse_interval_days "PT1.5S" = Ok (0, 1, 500000, 6) /\ parse_interval_days "PT.001953125S" = Ok (0, 0, 1953125, 9).
Proof. split; vm_compute; reflexivity. Qed.

(** Findings: one nanosecond gets lost; counts beyond 32 bits are cut silently. *)
Theorem C62_last_digit_refuted : exists text d h m v k x, says_interval text (Span d h m v k) /\
  parse_interval_days text = Ok (d, sv_secs x, sv_sub x, sv_prec x) /\
  time_nanos x = (h * 3600 + m * 60) * 10 ^ 9 + v * 10 ^ (9 - Z.of_nat k) - 1.
Proof.
  exists "P3DT4H5M6.789S"%string, 3, 4, 5, 6789, 3%nat, (Stored 3 14706 788999999 9). split; [exact says_example|]. split; vm_compute; reflexivity.
Qed.
Theorem C62_cut_refuted : parse_interval_days "P4294967297D" = Ok (1, 0, 0, 6) /\ parse_interval_days "PT2147483648S" = Ok (0, - 2147483648, 0, 6).
Proof. split; vm_compute; reflexivity. Qed.
Print Assumptions C62_cut_refuted.

(** ** printing *)

Lemma head_part : forall d, exists a, part "D" (Z.max 0 d) a /\ append "P" (if 0 <? d then append (string_of_Z d) "D" else "") = ("P" ++ a)%string.
Proof.
  intros d. destruct (Z.ltb_spec 0 d).
  - exists (string_of_Z d ++ "D")%string. rewrite Z.max_r by lia. split; [apply decimal_part; lia|reflexivity].
  - exists ""%string. rewrite Z.max_l by lia. split; [constructor|reflexivity].
Qed.
Lemma duration_nanos : forall x, storable x -> exists sub, subseconds_to_duration (sv_sub x) (sv_prec x) = Ok sub /\
  wrap 64 (wrap 64 (sv_secs x * 1000000000) + sub) = time_nanos x.
Proof.
  intros [d s ss p] (P & _ & S1 & B). cbn [sv_days sv_secs sv_sub sv_prec] in *. exists (ss * unit_ns p).
  assert (10 ^ (9 - p) <= 10 ^ 9) as PU by (apply Z.pow_le_mono_r; lia).
  assert (0 < 10 ^ (9 - p)) as PP by (apply Z.pow_pos_nonneg; lia).
  assert (Z.abs (ss * 10 ^ (9 - p)) <= 2 ^ 32 * 10 ^ 9) as AB by (rewrite Z.abs_mul, (Z.abs_eq (10 ^ (9 - p))) by lia; nia).
  change (2 ^ 32 * 10 ^ 9) with 4294967296000000000 in AB.
  split.
  - apply C14_duration_exact; [exact P|]. unfold unit_ns, in_int. change (2 ^ (64 - 1)) with 9223372036854775808.
    destruct (p <=? 2); [change (10 ^ 9) with 1000000000; change (2 ^ 32) with 4294967296 in B; lia|lia].
  - unfold time_nanos, sub_nanos, unit_ns. cbn [sv_days sv_secs sv_sub sv_prec]. change (10 ^ 9) with 1000000000.
    unfold in_int in *. change (2 ^ (32 - 1)) with 2147483648 in *.
    rewrite wrap_add_l by lia. apply wrap_id; [lia|]. unfold in_int. change (2 ^ (64 - 1)) with 9223372036854775808. lia.
Qed.
Lemma iso_positive : forall x, storable x -> 0 < sv_secs x \/ 0 < sv_sub x -> exists a, part "D" (Z.max 0 (sv_days x)) a /\
  interval_day_iso (sv_days x) (sv_secs x) (sv_sub x) (sv_prec x) = Ok ("P" ++ a ++ "T" ++ duration_upper (time_nanos x))%string.
Proof.
  intros x S1 B. destruct (duration_nanos x S1) as (sub & E & W). destruct (head_part (sv_days x)) as (a & PA & HE).
  exists a. split; [assumption|]. unfold interval_day_iso. rewrite HE.
  assert ((0 <? sv_secs x) || (0 <? sv_sub x) = true) as ->.
  { apply orb_true_iff. rewrite !Z.ltb_lt. exact B. }
  rewrite E. cbn [bind]. rewrite W. rewrite app_assoc_s. reflexivity.
Qed.
Lemma positive_parts : forall x, 0 <= sv_prec x <= 9 -> 0 < time_nanos x -> 0 < sv_secs x \/ 0 < sv_sub x.
Proof.
  intros [d s ss p] P T. unfold time_nanos, sub_nanos in T. cbn [sv_days sv_secs sv_sub sv_prec] in *.
  assert (0 < 10 ^ (9 - p)) by (apply Z.pow_pos_nonneg; lia). nia.
Qed.

(** From one second on the text says the time that is stored; negative days are left out. *)
Theorem C62_text_says : forall x, storable x -> 10 ^ 9 <= time_nanos x -> exists text h m v k,
  interval_day_iso (sv_days x) (sv_secs x) (sv_sub x) (sv_prec x) = Ok text /\ (3 <= String.length text)%nat /\
  says_interval text (Span (Z.max 0 (sv_days x)) h m v k) /\
  (h * 3600 + m * 60) * 10 ^ 9 * 10 ^ Z.of_nat k + v * 10 ^ 9 = time_nanos x * 10 ^ Z.of_nat k.
Proof.
  intros x S1 T. destruct (iso_positive x S1) as (a & PA & E).
  { apply positive_parts; [apply S1|]. assert (0 < 10 ^ 9) by reflexivity. lia. }
  destruct (long_says a _ _ PA T) as (h & m & v & k & SA & _ & _ & _ & _ & EQ & _).
  do 5 eexists. split; [exact E|]. split; [|split; [exact SA|exact EQ]].
  unfold duration_upper. change (10 ^ 9) with 1000000000 in T.
  rewrite (Z.abs_eq (time_nanos x)) by lia. destruct (Z.ltb_spec (time_nanos x) 0); [lia|]. destruct (Z.eqb_spec (time_nanos x) 0); [lia|].
  destruct (Z.ltb_spec (time_nanos x) 1000); [lia|]. destruct (Z.ltb_spec (time_nanos x) 1000000); [lia|].
  destruct (Z.ltb_spec (time_nanos x) 1000000000); [lia|].
  assert (forall s t : string, String.length (s ++ t) = (String.length s + String.length t)%nat) as LA.
  { induction s as [|c s IH]; intros t; cbn; [reflexivity|]. rewrite IH. reflexivity. }
  rewrite !LA. cbn [String.length]. lia.
Qed.
Print Assumptions C62_text_says.

Lemma small_bounds : forall d h m v k, d < 2 ^ 63 -> h < 2 ^ 63 -> m < 2 ^ 63 -> v < 60 * 10 ^ Z.of_nat k -> in_bounds (Span d h m v k).
Proof.
  intros d h m v k D H M V. unfold in_bounds. cbn [sp_days sp_hours sp_minutes sp_num sp_digits]. do 3 (split; [assumption|]).
  pose proof (ten_pos k). assert (60 < 2 ^ 1024 - 2 ^ 970) by reflexivity. nia.
Qed.

(** ... and is read back as that time or one nanosecond less. *)
Theorem C62_round_trip : forall x, storable x -> 0 <= sv_days x -> 10 ^ 9 <= time_nanos x < 2 ^ 31 * 10 ^ 9 -> exists text y,
  interval_day_iso (sv_days x) (sv_secs x) (sv_sub x) (sv_prec x) = Ok text /\
  parse_interval_days text = Ok (sv_days x, sv_secs y, sv_sub y, sv_prec y) /\
  (time_nanos y = time_nanos x \/ time_nanos y = time_nanos x - 1) /\
  ((10 ^ 9 | time_nanos x) -> time_nanos y = time_nanos x /\ sv_sub y = 0).
Proof.
  intros x S1 D T. destruct (C62_text_says x S1 ltac:(lia)) as (text & _ & _ & _ & _ & E & L & _ & _).
  destruct (iso_positive x S1) as (a & PA & E').
  { apply positive_parts; [apply S1|]. assert (0 < 10 ^ 9) by reflexivity. lia. }
  rewrite E in E'. injection E' as ->.
  destruct (long_says a _ _ PA (proj1 T)) as (h & m & v & k & SA & K & H0 & M0 & V0 & EQ & VB).
  rewrite Z.max_r in * by lia. pose proof (ten_pos k) as TP.
  assert (10 ^ 9 = 10 ^ (9 - Z.of_nat k) * 10 ^ Z.of_nat k) as TE by (rewrite <- Z.pow_add_r by lia; f_equal; lia).
  assert ((h * 3600 + m * 60) * 10 ^ 9 + v * 10 ^ (9 - Z.of_nat k) = time_nanos x) as WR.
  { apply (Z.mul_reg_r _ _ (10 ^ Z.of_nat k)); [lia|]. rewrite <- EQ. rewrite Z.mul_add_distr_r. f_equal. rewrite TE. ring. }
  assert (in_int 32 (sv_days x)) as DI by apply S1.
  assert (0 <= v * 10 ^ (9 - Z.of_nat k)) as V9 by (apply Z.mul_nonneg_nonneg; [lia|apply Z.pow_nonneg; lia]).
  assert (v * 10 ^ (9 - Z.of_nat k) < 60 * 10 ^ 9) as V60.
  { rewrite TE. assert (0 < 10 ^ (9 - Z.of_nat k)) by (apply Z.pow_pos_nonneg; lia). nia. }
  change (10 ^ 9) with 1000000000 in *.
  assert (0 <= h * 3600 + m * 60 < 2 ^ 31) as HM by (change (2 ^ 31) with 2147483648 in *; lia).
  assert (in_bounds (Span (sv_days x) h m v k)) as IB.
  { apply small_bounds; try assumption; unfold in_int in DI; change (2 ^ (32 - 1)) with 2147483648 in DI; change (2 ^ 31) with 2147483648 in *; lia. }
  pose proof (parse_back _ _ SA IB L) as P. unfold parsed in P. cbn [sp_days sp_hours sp_minutes sp_num sp_digits] in P.
  destruct (split_small v (10 ^ Z.of_nat k) (sv_days x) h m V0 TP ltac:(lia)) as (w & ss & p & E2 & PX & SX & W & B1 & B2).
  rewrite E2 in P. change (10 ^ 9) with 1000000000 in *.
  set (t := 10 ^ Z.of_nat k) in *. set (u := 10 ^ (9 - Z.of_nat k)) in *.
  assert (2 * (v * u) - 3 < 2 * (w * 1000000000 + ss * 10 ^ (9 - p)) <= 2 * (v * u) + 1) as [B1' B2'].
  { replace (2 * v * 1000000000) with (2 * (v * u) * t) in * by (rewrite TE; ring).
    split; [apply (Z.mul_lt_mono_pos_r t); lia|apply (Z.mul_le_mono_pos_r _ _ t); lia]. }
  assert (0 <= ss * 10 ^ (9 - p)) as SN by (apply Z.mul_nonneg_nonneg; [lia|apply Z.pow_nonneg; lia]).
  rewrite (wrap_id 32 (sv_days x)) in P by (try lia; assumption).
  rewrite (wrap_id 32 (h * 3600 + m * 60 + w)) in P.
  2: lia. 2: { unfold in_int. change (2 ^ (32 - 1)) with 2147483648. change (2 ^ 31) with 2147483648 in *. lia. }
  exists ("P" ++ a ++ "T" ++ duration_upper (time_nanos x))%string, (Stored (sv_days x) (h * 3600 + m * 60 + w) ss p).
  split; [exact E|]. cbn [sv_days sv_secs sv_sub sv_prec]. split; [exact P|].
  assert (time_nanos (Stored (sv_days x) (h * 3600 + m * 60 + w) ss p) = (h * 3600 + m * 60 + w) * 1000000000 + ss * 10 ^ (9 - p)) as TN by reflexivity.
  rewrite TN. clear TN.
  split; [lia|]. intros [q Q].
  (* whole seconds *)
  assert (exists j, v = j * t /\ 0 <= j < 60) as (j & -> & J).
  { exists (q - (h * 3600 + m * 60)). assert (v * u = (q - (h * 3600 + m * 60)) * (u * t)) as VE by (rewrite <- TE; lia).
    assert (0 < u) as U0 by (apply Z.pow_pos_nonneg; lia).
    split; [apply (Z.mul_reg_r _ _ u); lia|]. rewrite TE in V60. split; nia. }
  assert (nearest (j * t) t = nearest j 1) as NE.
  { unfold nearest. replace (j * t * f_one) with (j * f_one * t) by ring. rewrite Z.div_mul, Z.div_1_r by lia. rewrite Z.mul_1_l.
    set (e := 2 ^ Z.max 0 (Z.log2 (j * f_one) - 52)). assert (0 < e) as E0 by (apply pow_pos; lia). f_equal.
    unfold div_nearest. rewrite (Z.mul_comm t e). rewrite Z.div_mul_cancel_r by lia. rewrite Z.mul_mod_distr_r by lia.
    replace (2 * ((j * f_one) mod e * t)) with (2 * ((j * f_one) mod e) * t) by ring.
    assert (forall a b, (a * t <? b * t) = (a <? b)) as LT.
    { intros a0 b0. destruct (Z.ltb_spec (a0 * t) (b0 * t)); destruct (Z.ltb_spec a0 b0); try reflexivity; nia. }
    rewrite !LT. reflexivity. }
  rewrite NE, split_whole in E2 by lia. injection E2 as E3 E4 E5. subst ss p. split; [|reflexivity].
  rewrite (wrap_id 32) in E3. 2: lia. 2: { unfold in_int. change (2 ^ (32 - 1)) with 2147483648. change (2 ^ 31) with 2147483648 in *.
    assert (j * t * u = j * 1000000000) by (rewrite TE; ring). lia. }
  rewrite (wrap_id 32) in E3. 2: lia. 2: { unfold in_int. change (2 ^ (32 - 1)) with 2147483648. change (2 ^ 31) with 2147483648 in *. lia. }
  assert (j * t * u = j * 1000000000) by (rewrite TE; ring). lia.
Qed.
Print Assumptions C62_round_trip.

Example round_trip_example : interval_day_iso 2 93784 25 2 = Ok "P2DT26H3M4.25S"%string /\ parse_interval_days "P2DT26H3M4.25S" = Ok (2, 93784, 250000, 6).
Proof. split; vm_compute; reflexivity. Qed.

(** Seconds and subseconds that cancel out. *)
Theorem C62_cancelled : forall x, storable x -> 0 <= sv_days x -> 0 < sv_secs x \/ 0 < sv_sub x -> time_nanos x = 0 -> exists text,
  interval_day_iso (sv_days x) (sv_secs x) (sv_sub x) (sv_prec x) = Ok text /\ parse_interval_days text = Ok (sv_days x, 0, 0, 6).
Proof.
  intros x S1 D P T. destruct (iso_positive x S1 P) as (a & PA & E). rewrite Z.max_r in PA by lia.
  eexists. split; [exact E|]. rewrite T. change (duration_upper 0) with "0S"%string.
  assert (says_interval ("P" ++ a ++ "T" ++ "0S") (Span (sv_days x) 0 0 0 0)) as SA.
  { apply (Days_and_time (sv_days x) 0 0 0 0 a "" "" "0S" PA (Absent _) (Absent _)).
    exact (Whole_seconds 1 0 "0" (One_more 0 0 "" 0 No_digit ltac:(lia))). }
  rewrite (C62_whole_in_range _ _ _ _ _ SA); [reflexivity| |apply S1|unfold in_int; cbn; lia].
  assert (forall s t : string, String.length (s ++ t) = (String.length s + String.length t)%nat) as LA.
  { induction s as [|c s IH]; intros t; cbn; [reflexivity|]. rewrite IH. reflexivity. }
  rewrite !LA. cbn [String.length]. lia.
Qed.
Example cancelled_example : interval_day_iso 1 (-1) 1000 3 = Ok "P1DT0S"%string.
Proof. reflexivity. Qed.

(** Days alone. *)
Theorem C62_days_round_trip : forall d p, 0 < d -> in_int 32 d ->
  exists text, interval_day_iso d 0 0 p = Ok text /\ parse_interval_days text = Ok (d, 0, 0, 6).
Proof.
  intros d p D I. destruct (head_part d) as (a & PA & HE). rewrite Z.max_r in PA by lia.
  exists ("P" ++ a)%string. split; [unfold interval_day_iso; rewrite HE; reflexivity|].
  rewrite (C62_whole_in_range _ d 0 0 0); [reflexivity|constructor; assumption| |assumption|unfold in_int; cbn; lia].
  inversion PA as [|k z ds N EZ ES]; [lia|]. subst. inversion N; subst.
  assert (forall s t : string, String.length (s ++ t) = (String.length s + String.length t)%nat) as LA.
  { induction s0 as [|c s0 IH]; intros t; cbn; [reflexivity|]. rewrite IH. reflexivity. }
  cbn [append String.length]. rewrite !LA. cbn [String.length]. lia.
Qed.
Print Assumptions C62_days_round_trip.

(** ** Findings: below one second the text is not an ISO 8601 duration *)

(** Milliseconds are read back as minutes. *)
Theorem C62_milliseconds_refuted : forall x n, storable x -> 0 <= sv_days x -> 1 <= n < 1000 -> time_nanos x = n * 10 ^ 6 -> exists text,
  interval_day_iso (sv_days x) (sv_secs x) (sv_sub x) (sv_prec x) = Ok text /\ parse_interval_days text = Ok (sv_days x, n * 60, 0, 6).
Proof.
  intros x n S1 D B T. assert (0 < time_nanos x) as TP by (rewrite T; change (10 ^ 6) with 1000000; lia).
  destruct (iso_positive x S1 (positive_parts x (proj1 S1) TP)) as (a & PA & E). rewrite Z.max_r in PA by lia.
  eexists. split; [exact E|]. rewrite T, milli_text by assumption.
  assert (says_interval ("P" ++ a ++ "T" ++ string_of_Z n ++ "MS") (Span (sv_days x) 0 n 0 0)) as SA.
  { change "MS"%string with ("M" ++ "S")%string. rewrite <- (app_assoc_s (string_of_Z n)).
    apply (Days_and_time (sv_days x) 0 n 0 0 a "" (string_of_Z n ++ "M") "S" PA (Absent _)); [apply decimal_part; lia|].
    exact (Whole_seconds 0 0 "" No_digit). }
  rewrite (C62_whole_in_range _ _ _ _ _ SA); [f_equal; f_equal; f_equal; f_equal; lia| |apply S1|unfold in_int; cbn; lia].
  assert (forall s t : string, String.length (s ++ t) = (String.length s + String.length t)%nat) as LA.
  { induction s as [|c s IH]; intros t; cbn; [reflexivity|]. rewrite IH. reflexivity. }
  rewrite !LA. cbn [String.length]. lia.
Qed.
Print Assumptions C62_milliseconds_refuted.
Example milliseconds_example : interval_day_iso 0 0 500 3 = Ok "PT500MS"%string /\ parse_interval_days "PT500MS" = Ok (0, 30000, 0, 6).
Proof. split; vm_compute; reflexivity. Qed.

(** Anything finer is not read at all; nor are negative times, zero, or negative days alone. *)
Theorem C62_short_refuted : forall x, storable x -> (0 < sv_secs x \/ 0 < sv_sub x) ->
  time_nanos x < 0 \/ (0 < time_nanos x < 10 ^ 9 /\ ~ (10 ^ 6 | time_nanos x)) -> exists text,
  interval_day_iso (sv_days x) (sv_secs x) (sv_sub x) (sv_prec x) = Ok text /\ parse_interval_days text = Err.
Proof.
  intros x S1 P T. destruct (iso_positive x S1 P) as (a & PA & E). eexists. split; [exact E|].
  assert (match_interval ("P" ++ a ++ "T" ++ duration_upper (time_nanos x)) = None) as M.
  { destruct T as [N|[B ND]].
    - unfold duration_upper. destruct (Z.ltb_spec (time_nanos x) 0); [|lia]. apply (minus_unread a _ _ PA).
    - destruct (short_text _ B ND) as (ds & fs & c & r & F & NE & SF & C & C1 & C2 & C3 & C4 & ->).
      apply (unread_tail ds fs c r F SF C C1 C2 C3 C4 NE a _ PA). }
  unfold parse_interval_days. rewrite M. destruct (Nat.ltb _ 3); reflexivity.
Qed.
Theorem C62_nothing_refuted : forall d s ss p, d <= 0 -> s <= 0 -> ss <= 0 ->
  interval_day_iso d s ss p = Ok "P"%string /\ parse_interval_days "P" = Err.
Proof.
  intros d s ss p D S1 SS. split; [|reflexivity]. unfold interval_day_iso.
  destruct (Z.ltb_spec 0 d); [lia|]. destruct (Z.ltb_spec 0 s); [lia|]. destruct (Z.ltb_spec 0 ss); [lia|]. reflexivity.
Qed.
(** Negative seconds are left out beside days. *)
Theorem C62_negative_refuted : forall d s ss p, 0 < d -> s <= 0 -> ss <= 0 -> interval_day_iso d s ss p = interval_day_iso d 0 0 p.
Proof.
  intros d s ss p D S1 SS. unfold interval_day_iso. destruct (Z.ltb_spec 0 s); [lia|]. destruct (Z.ltb_spec 0 ss); [lia|]. reflexivity.
Qed.
Print Assumptions C62_short_refuted.
Example short_example : interval_day_iso 0 0 1500 6 = Ok "PT1.5MS"%string /\ parse_interval_days "PT1.5MS" = Err.
Proof. split; vm_compute; reflexivity. Qed.
