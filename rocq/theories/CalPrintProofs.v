(** Proofs about the texts of dates and times, second part: what is printed, to the letter,
    and its reading. *)

From Coq Require Import ZArith Bool String Ascii List Lia.
From Coq Require Decimal DecimalFacts DecimalZ DecimalString.
From Verif Require Import Base TimeModel TimeSpec TimeProofs CalModel CalSpec CalProofs CalTextProofs.
Import ListNotations.
Local Open Scope Z_scope.

(** ** printing to the letter *)
Lemma no_leading_zero : forall z, 0 < z -> exists c r, string_of_Z z = String c r /\ c <> "0"%char.
Proof.
  intros z H. unfold string_of_Z. assert (E : Z.of_int (Z.to_int z) = z) by apply DecimalZ.of_to.
  pose proof (DecimalZ.to_of (Z.to_int z)) as N. rewrite E in N.
  destruct (Z.to_int z) as [d|d] eqn:I; [|destruct z; discriminate].
  cbn [DecimalString.NilZero.string_of_int Decimal.norm] in *. injection N as N.
  destruct d as [|d|d|d|d|d|d|d|d|d|d]; cbn [DecimalString.NilZero.string_of_uint];
    try (match goal with |- exists c r, DecimalString.NilEmpty.string_of_uint _ = _ /\ _ => do 2 eexists; split; [reflexivity|discriminate] end).
  - cbn in E. lia.
  - exfalso. unfold Decimal.unorm in N. cbn [Decimal.nzhead] in N. destruct (Decimal.nzhead d) eqn:Z0; try discriminate.
    + injection N as ->. cbn in E. lia.
    + symmetry in N. exact (DecimalFacts.nzhead_nonzero d _ Z0).
Qed.
Lemma pad_padded : forall k z, (1 <= k)%nat -> 0 <= z -> padded k z (pad k z).
Proof.
  intros k z K H. unfold pad. destruct (Z.ltb_spec z (10 ^ Z.of_nat k)) as [L|L]; [left; apply fixed_number; lia|].
  assert (Z0 : 0 < z) by (pose proof (Z.pow_pos_nonneg 10 (Z.of_nat k)); lia).
  destruct (no_leading_zero z Z0) as (c & r & C & NZ).
  destruct (string_of_Z_digits z H) as (ds & E & F & V). rewrite E in *. pose proof (val_bound _ F) as B. rewrite V in B.
  assert (LB : 10 ^ (Z.of_nat (length ds) - 1) <= z).
  { destruct ds as [|a ds]; [discriminate|]. cbn [str] in C. injection C as <- <-. inversion F as [|? ? A F']; subst.
    assert (a <> 0) by (intros ->; apply NZ; reflexivity). unfold dig in A.
    change (a :: ds) with ([a] ++ ds). rewrite val_app. change (val [a]) with (10 * 0 + a). cbn [app length].
    replace (Z.of_nat (S (length ds)) - 1) with (Z.of_nat (length ds)) by lia. pose proof (val_bound _ F').
    pose proof (Z.pow_pos_nonneg 10 (Z.of_nat (length ds))). nia. }
  right with (length ds); auto.
  - assert (10 ^ Z.of_nat k < 10 ^ Z.of_nat (length ds)) as P by lia. apply Z.pow_lt_mono_r_iff in P; lia.
  - apply number_iff. exists ds. auto.
Qed.
Lemma append_int_year : forall y, prints_year 4 y (append_int 4 y).
Proof.
  intros y. unfold append_int. destruct (Z.ltb_spec y 0).
  - replace y with (- - y) at 1 by lia. apply (Before 4 (- y)); [lia|]. apply pad_padded; lia.
  - left. apply pad_padded; lia.
Qed.
Lemma sprintf_year : forall y, prints_year 3 y (sprintf_0d 4 y).
Proof.
  intros y. unfold sprintf_0d. destruct (Z.ltb_spec y 0).
  - replace y with (- - y) at 1 by lia. apply (Before 3 (- y)); [lia|]. apply pad_padded; lia.
  - left. apply pad_padded; lia.
Qed.
Lemma valid_bounds : forall y m d, valid_date (Date y m d) -> 1 <= m <= 12 /\ 1 <= d <= 31.
Proof.
  intros y m d V. apply valid_iff in V.
  assert (days_in y m <= 31) by (unfold days_in; repeat match goal with |- context [if ?b then _ else _] => destruct b end; lia). lia.
Qed.
Lemma format_date_prints : forall t, prints_date 4 (date_of (t_sec t / 86400)) (format_date t).
Proof.
  intros t. destruct (date_of_right (t_sec t / 86400)) as [V _]. unfold format_date. unfold date_of in *. destruct (civil (t_sec t / 86400)) as [[y m] d].
  apply valid_bounds in V. constructor; [apply append_int_year|..]; apply append_int_number; cbn; lia.
Qed.
Lemma date_text_prints : forall n, prints_date 3 (date_of n) (date_text n).
Proof.
  intros n. destruct (date_of_right n) as [V _]. unfold date_text. unfold date_of in *. destruct (civil n) as [[y m] d].
  apply valid_bounds in V. constructor; [apply sprintf_year|..]; apply sprintf_number; cbn; lia.
Qed.

Lemma cut_zeros_shortest : forall k z s, number k z s ->
  (cut_zeros s = ""%string /\ z = 0) \/
  exists j v, number j v (cut_zeros s) /\ (1 <= j <= k)%nat /\ ~ (10 | v) /\ z = v * 10 ^ (Z.of_nat k - Z.of_nat j).
Proof.
  intros k z s H. induction H as [|k z s d H IH B]; [left; auto|].
  rewrite cut_zeros_snoc. destruct (Ascii.eqb_spec (digit d) "0").
  - assert (d = 0) by (digits B; auto; discriminate). subst d. destruct IH as [[E1 E2]|(j & v & N & L & D & E)]; [left; split; auto; lia|].
    right. exists j, v. split; auto. split; [lia|]. split; auto. rewrite E.
    replace (Z.of_nat (S k) - Z.of_nat j) with (1 + (Z.of_nat k - Z.of_nat j)) by lia. rewrite Z.pow_add_r by lia. lia.
  - right. exists (S k), (10 * z + d). split; [constructor; auto|]. split; [lia|]. rewrite Z.sub_diag. split; [|lia].
    intros [q Q]. assert (d = 0) by lia. subst d. apply n. reflexivity.
Qed.
Lemma frac9_shortest : forall ns, 0 <= ns < 10 ^ 9 -> shortest ns (frac9 ns).
Proof.
  intros ns H. unfold frac9. destruct (cut_zeros_shortest 9 ns (fixed 9 ns)) as [[-> ->]|(j & v & N & L & D & E)]; [apply fixed_number; auto|constructor|].
  destruct (cut_zeros (fixed 9 ns)) as [|a s] eqn:C.
  - apply number_iff in N. destruct N as (ds & <- & _ & S0 & _). destruct ds; [cbn in L; lia|discriminate].
  - rewrite E. change (Z.of_nat 9) with 9. apply (Needed j v (String a s)); auto. lia.
Qed.
Lemma frac0_exact : forall k ns, (k <= 9)%nat -> 0 <= ns < 10 ^ 9 -> frac_of k ns (frac0 k ns).
Proof.
  intros k ns K H. unfold frac0. apply (Frac_of k ns (fixed k (ns / 10 ^ (9 - Z.of_nat k)))). apply fixed_number.
  assert (P : 0 < 10 ^ (9 - Z.of_nat k)) by (apply Z.pow_pos_nonneg; lia).
  split; [apply Z.div_pos; lia|]. apply Z.div_lt_upper_bound; auto. rewrite <- Z.pow_add_r by lia. replace (9 - Z.of_nat k + Z.of_nat k) with 9 by lia. lia.
Qed.
Lemma format_clock_prints : forall (frac : Z -> string -> Prop) t ns fs h m s, frac ns fs -> clock_of t = (h, m, s) ->
  prints_clock frac (Clock h m s ns) (format_clock t ++ fs).
Proof.
  intros frac t ns fs h m s F E. unfold format_clock. rewrite E. apply clock_of_bounds in E. destruct E as (B1 & B2 & B3 & _).
  rewrite ?app_assoc_s. cbn [append]. rewrite ?app_assoc_s. cbn [append]. constructor; auto; apply append_int_number; cbn; lia.
Qed.

(** ** instants *)
Lemma nanos_split : forall day c, clock_ok c ->
  nanos day c 0 / (86400 * 10 ^ 9) = day /\ nanos day c 0 mod 10 ^ 9 = c_nano c /\
  nanos day c 0 / 10 ^ 9 mod 86400 = c_hour c * 3600 + c_min c * 60 + c_sec c.
Proof.
  intros day [h m s n] (B1 & B2 & B3 & B4). unfold nanos. cbn [c_hour c_min c_sec c_nano] in *.
  change (10 ^ 9) with 1000000000 in *. Z.to_euclidean_division_equations; lia.
Qed.
Lemma moment_time : forall t x c, time_ok t -> (moment (instant t) x c <->
  x = date_of (t_sec t / 86400) /\ clock_of t = (c_hour c, c_min c, c_sec c) /\ c_nano c = t_nsec t).
Proof.
  intros t x c [T1 T2]. change (10 ^ 9) with 1000000000 in *. split.
  - intros (day & C & B & E). destruct (nanos_split day c B) as (S1 & S2 & S3). rewrite <- E in *. unfold instant in *. change (10 ^ 9) with 1000000000 in *.
    apply calendar_iff in C. destruct C as [V N]. destruct (date_of_right (t_sec t / 86400)) as [V' N'].
    assert (t_sec t / 86400 = day) by (Z.to_euclidean_division_equations; lia).
    assert (c_nano c = t_nsec t) by (Z.to_euclidean_division_equations; lia).
    split; [apply number_injective; auto; congruence|]. split; auto.
    assert (P : (t_sec t * 1000000000 + t_nsec t) / 1000000000 = t_sec t) by (Z.to_euclidean_division_equations; lia). rewrite P in S3.
    unfold clock_of. cbv zeta. rewrite S3. destruct B as (B1 & B2 & B3 & B4). destruct c as [h m s n]. cbn [c_hour c_min c_sec c_nano] in *. repeat f_equal; Z.to_euclidean_division_equations; lia.
  - intros (-> & E & N). exists (t_sec t / 86400). split; [apply calendar_iff; apply date_of_right|].
    apply clock_of_bounds in E. destruct E as (B1 & B2 & B3 & B4). split; [unfold clock_ok; rewrite N; change (10 ^ 9) with 1000000000; auto|].
    unfold instant, nanos. change (10 ^ 9) with 1000000000. rewrite N. Z.to_euclidean_division_equations; lia.
Qed.
Lemma moment_exists : forall ns, exists x c, moment ns x c.
Proof.
  intros ns. set (t := Time (ns / 10 ^ 9) (ns mod 10 ^ 9)). destruct (clock_of t) as [[h m] s] eqn:E.
  exists (date_of (t_sec t / 86400)), (Clock h m s (t_nsec t)). exists (t_sec t / 86400). split; [apply calendar_iff; apply date_of_right|].
  apply clock_of_bounds in E. destruct E as (B1 & B2 & B3 & B4).
  pose proof (Z.mod_pos_bound ns (10 ^ 9) ltac:(lia)). split; [unfold clock_ok; cbn [c_hour c_min c_sec c_nano t t_nsec]; auto|].
  unfold nanos. cbn [c_hour c_min c_sec c_nano]. unfold t in *. cbn [t_sec t_nsec] in *. change (10 ^ 9) with 1000000000 in *. Z.to_euclidean_division_equations; lia.
Qed.
Lemma moment_unique : forall ns x c x' c', moment ns x c -> moment ns x' c' -> x = x' /\ c = c'.
Proof.
  intros ns x c x' c' (d & C & B & ->) (d' & C' & B' & E). destruct (nanos_split d c B) as (S1 & S2 & S3). destruct (nanos_split d' c' B') as (S1' & S2' & S3').
  rewrite <- E in *. assert (d = d') by congruence. subst d'. apply calendar_iff in C, C'. destruct C as [V N], C' as [V' N'].
  split; [apply number_injective; auto; congruence|]. destruct B as (B1 & B2 & B3 & B4), B' as (B1' & B2' & B3' & B4'). destruct c as [h m s n], c' as [h' m' s' n']. cbn [c_hour c_min c_sec c_nano] in *. f_equal; lia.
Qed.
Lemma micro_time : forall us, in_int 64 us -> time_ok (time_unix_micro us) /\ instant (time_unix_micro us) = us * 1000.
Proof.
  intros us H. destruct (from_units_spec us 6 H) as (t & E & T & I); [unfold precision_ok; lia|]. injection E as <-. auto.
Qed.

(** reading what is printed *)
Lemma stamp_instant : forall y m d h mi s ns off, valid_date (Date y m d) ->
  forall day, calendar day (Date y m d) -> instant (stamp_time (Stamp y m d h mi s ns off)) = nanos day (Clock h mi s ns) off.
Proof.
  intros y m d h mi s ns off V day C. apply calendar_iff in C. destruct C as [_ <-]. unfold stamp_time, instant, nanos, number_of. cbn [st_y st_m st_d st_h st_mi st_s st_ns st_off t_sec t_nsec c_hour c_min c_sec c_nano d_year d_month d_day]. lia.
Qed.
Lemma year_day_bounds : forall x day, calendar day x -> 0 <= d_year x <= 9999 -> - 4000000 <= day <= 4000000.
Proof.
  intros [y m d] day C B. apply calendar_iff in C. destruct C as [V <-]. apply valid_bounds in V. cbn [d_year] in B.
  unfold number_of, day_number. cbn [d_year d_month d_day]. cbv zeta.
  assert (0 <= days_before m <= 334) by (unfold days_before; repeat match goal with |- context [if ?b then _ else _] => destruct b end; lia).
  assert (0 <= (if is_leap y && (2 <? m) then 1 else 0) <= 1) by (destruct (_ && _); lia).
  Z.to_euclidean_division_equations; lia.
Qed.
Lemma says_instant : forall s x c off, says_time s x c off -> exists st day, parse_stamp s = Ok st /\ calendar day x /\
  time_ok (stamp_time st) /\ instant (stamp_time st) = nanos day c off /\ st_clock st = c /\ - 4000000 <= day <= 4000000.
Proof.
  intros s x c off H. pose proof (says_time_bounds _ _ _ _ H) as (V & Y & (B1 & B2 & B3 & B4) & O).
  destruct x as [y m d], c as [h mi sec ns]. cbn [c_hour c_min c_sec c_nano] in *.
  exists (Stamp y m d h mi sec ns off), (number_of (Date y m d)).
  assert (C : calendar (number_of (Date y m d)) (Date y m d)) by (apply calendar_iff; auto).
  pose proof (year_day_bounds _ _ C Y) as D. split; [apply parse_stamp_iff; exact H|]. split; auto.
  assert (I := stamp_instant y m d h mi sec ns off V _ C). split; [|split; [exact I|split; [reflexivity|auto]]].
  unfold time_ok, stamp_time, in_int. cbn [st_y st_m st_d st_h st_mi st_s st_ns st_off t_sec t_nsec]. split; auto.
  unfold number_of in D. cbn [d_year d_month d_day] in D. change (2 ^ (64 - 1)) with 9223372036854775808. lia.
Qed.
Lemma says_unread : forall s, (forall x c off, ~ says_time s x c off) -> parse_stamp s = Err.
Proof.
  intros s H. destruct (parse_stamp_total s) as [[st E]|E]; auto. apply parse_stamp_iff in E. exfalso. eapply H; eauto.
Qed.
Lemma says_unique : forall s x c off x' c' off', says_time s x c off -> says_time s x' c' off' -> x = x' /\ c = c' /\ off = off'.
Proof.
  intros s x c off x' c' off' H H'. destruct x as [y m d], c as [h mi sec ns], x' as [y' m' d'], c' as [h' mi' sec' ns'].
  assert (E : parse_stamp s = Ok (Stamp y m d h mi sec ns off)) by (apply parse_stamp_iff; exact H).
  assert (E' : parse_stamp s = Ok (Stamp y' m' d' h' mi' sec' ns' off')) by (apply parse_stamp_iff; exact H').
  rewrite E in E'. injection E' as <- <- <- <- <- <- <- <-. auto.
Qed.
Lemma calendar_unique : forall n n' x, calendar n x -> calendar n' x -> n = n'.
Proof. intros n n' x H H'. apply calendar_iff in H, H'. destruct H, H'. congruence. Qed.

(** texts of instants *)
Lemma clock_says_of : forall t fs ns h m s, says_fraction fs ns -> clock_of t = (h, m, s) -> says_clock (format_clock t ++ fs) (Clock h m s ns).
Proof.
  intros t fs ns h m s F E. unfold format_clock. rewrite E. apply clock_of_bounds in E. destruct E as (B1 & B2 & B3 & _).
  rewrite ?app_assoc_s. cbn [append]. rewrite ?app_assoc_s. cbn [append].
  apply (Says_clock 2); auto; try (apply append_int_number; cbn; lia); lia.
Qed.
Lemma read_iso : forall t x c, time_ok t -> moment (instant t) x c -> 0 <= d_year x <= 9999 ->
  says_time (format_date t ++ "T" ++ format_clock t ++ frac9 (t_nsec t)) x c 0.
Proof.
  intros t x c T M Y. apply moment_time in M; auto. destruct M as (-> & C & N). destruct c as [h m s n]. cbn [c_hour c_min c_sec c_nano] in *. subst n.
  apply Unzoned; [apply format_date_says; auto|]. apply clock_says_of; auto. apply frac9_says. apply T.
Qed.
Lemma read_zulu : forall t x c, time_ok t -> moment (instant t) x c -> 0 <= d_year x <= 9999 ->
  says_time (format_date t ++ "T" ++ format_clock t ++ frac9 (t_nsec t) ++ "Z") x c 0.
Proof.
  intros t x c T M Y. apply moment_time in M; auto. destruct M as (-> & C & N). destruct c as [h m s n]. cbn [c_hour c_min c_sec c_nano] in *. subst n.
  rewrite <- (app_assoc_s (format_clock t)). apply Zoned; [apply format_date_says; auto| |constructor]. apply clock_says_of; auto. apply frac9_says. apply T.
Qed.
Lemma read_milli : forall t x c, time_ok t -> moment (instant t) x c -> 0 <= d_year x <= 9999 ->
  says_time (format_date t ++ "T" ++ format_clock t ++ frac0 3 (t_nsec t) ++ "+00:00") x (Clock (c_hour c) (c_min c) (c_sec c) (c_nano c / 10 ^ 6 * 10 ^ 6)) 0.
Proof.
  intros t x c T M Y. apply moment_time in M; auto. destruct M as (-> & C & N). destruct c as [h m s n]. cbn [c_hour c_min c_sec c_nano] in *. subst n.
  rewrite <- (app_assoc_s (format_clock t)). apply Zoned; [apply format_date_says; auto| |].
  - apply clock_says_of; auto. apply (frac0_says 3); [lia|]. apply T.
  - change 0 with (0 * 3600 + 0 * 60). apply (East "00" "00" 0 0); try lia; apply number2; exists 0, 0; unfold dig; repeat split; lia.
Qed.
Lemma far_year : forall t r, time_ok t -> forall x c, moment (instant t) x c -> ~ (0 <= d_year x <= 9999) -> parse_stamp (format_date t ++ r) = Err.
Proof.
  intros t r T x c M Y. apply moment_time in M; auto. destruct M as (-> & _ & _). unfold format_date, date_of in *. destruct (civil (t_sec t / 86400)) as [[y m] d]. cbn [d_year] in Y.
  rewrite ?app_assoc_s. apply (bad_year_stamp y); auto. lia.
Qed.
Lemma blank_unread : forall t r, parse_stamp (format_date t ++ " " ++ r) = Err.
Proof.
  intros t r. destruct (date_of_right (t_sec t / 86400)) as [V _]. unfold format_date. unfold date_of in V. destruct (civil (t_sec t / 86400)) as [[y m] d].
  destruct (Z_lt_le_dec y 0); [rewrite ?app_assoc_s; apply (bad_year_stamp y); auto; lia|].
  destruct (Z_lt_le_dec 9999 y); [rewrite ?app_assoc_s; apply (bad_year_stamp y); auto; lia|].
  apply (blank_stamp _ (Date y m d)). pose proof V as V'. apply valid_bounds in V'. constructor; auto; apply append_int_number; cbn; lia.
Qed.
