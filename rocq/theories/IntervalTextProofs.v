(** Reading and printing the texts of day-time intervals (C62). *)

From Coq Require Import ZArith Lia Bool String Ascii List.
From Verif Require Import Base TimeModel TimeSpec TimeProofs CalModel CalSpec CalTextProofs CalPrintProofs IntervalModel IntervalSpec IntervalProofs.
Import ListNotations.
Local Open Scope Z_scope.

Lemma dec_val : forall ds, dec_value ds = val ds.
Proof. reflexivity. Qed.

(** ** the regular expression *)
Lemma digits_part : forall c ds, Forall dig ds -> ds <> [] -> part (String c "") (val ds) (str ds ++ String c "").
Proof.
  intros c ds F NE. destruct ds as [|d ds]; [congruence|]. apply (Present _ (length ds)). apply number_iff. exists (d :: ds). auto.
Qed.
Lemma part_digits : forall c z a, part (String c "") z a ->
  (a = ""%string /\ z = 0) \/ exists ds, Forall dig ds /\ ds <> [] /\ a = (str ds ++ String c "")%string /\ z = val ds.
Proof.
  intros c z a [|k z' ds N]; [auto|]. right. apply number_iff in N. destruct N as (l & L & F & -> & ->). exists l.
  split; auto. split; [destruct l; discriminate|auto].
Qed.

Lemma opt_digits_spec : forall c s ds r, opt_digits c s = (ds, r) -> exists a, part (String c "") (val ds) a /\ s = (a ++ r)%string.
Proof.
  intros c s ds r. unfold opt_digits. destruct (digit_run s) as [l t] eqn:R. apply digit_run_spec in R. destruct R as (F & -> & _).
  assert (forall x, ([], x) = (ds, r) -> exists a, part (String c "") (val ds) a /\ x = (a ++ r)%string) as NO.
  { intros x [= <- <-]. exists ""%string. split; [constructor|reflexivity]. }
  destruct l as [|d l]; [apply NO|]. destruct t as [|a t]; [apply NO|].
  destruct (Ascii.eqb_spec a c) as [->|]; [|apply NO]. intros [= <- <-].
  exists (str (d :: l) ++ String c "")%string. split; [apply digits_part; auto; discriminate|]. rewrite app_assoc_s. reflexivity.
Qed.
Lemma no_digit_char : forall c r, digit_of c = None -> no_digit (String c r).
Proof. auto. Qed.
Lemma opt_digits_present : forall c ds r, digit_of c = None -> Forall dig ds -> ds <> [] ->
  opt_digits c ((str ds ++ String c "") ++ r) = (ds, r).
Proof.
  intros c ds r C F NE. unfold opt_digits. rewrite app_assoc_s. cbn [append].
  rewrite digit_run_back by auto. destruct ds; [congruence|]. rewrite Ascii.eqb_refl. reflexivity.
Qed.
(** what follows the digits is not the letter *)
Definition not_letter (c : ascii) (s : string) : Prop :=
  exists ds r, Forall dig ds /\ s = (str ds ++ r)%string /\ no_digit r /\ match r with String a _ => a <> c | EmptyString => True end.
Lemma opt_digits_absent : forall c s, not_letter c s -> opt_digits c s = ([], s).
Proof.
  intros c s (ds & r & F & -> & ND & NL). unfold opt_digits. rewrite digit_run_back by auto.
  destruct ds; [reflexivity|]. destruct r; [reflexivity|]. destruct (Ascii.eqb_spec a c); [congruence|reflexivity].
Qed.
Lemma opt_digits_back : forall c z a r, digit_of c = None -> part (String c "") z a -> not_letter c r ->
  exists ds, opt_digits c (a ++ r) = (ds, r) /\ val ds = z.
Proof.
  intros c z a r C P NL. destruct (part_digits _ _ _ P) as [[-> ->]|(ds & F & NE & -> & ->)].
  - exists []. split; [apply opt_digits_absent; assumption|reflexivity].
  - exists ds. split; [apply opt_digits_present; auto|reflexivity].
Qed.

Lemma opt_seconds_spec : forall s ss fs r, opt_seconds s = (ss, fs, r) ->
  exists e, says_seconds e (val (ss ++ fs)) (length fs) /\ s = (e ++ r)%string.
Proof.
  intros s ss fs r. unfold opt_seconds. destruct (digit_run s) as [l t] eqn:R. apply digit_run_spec in R. destruct R as (F & -> & ND).
  assert (forall x, ([], [], x) = (ss, fs, r) -> exists e, says_seconds e (val (ss ++ fs)) (length fs) /\ x = (e ++ r)%string) as NO.
  { intros x [= <- <- <-]. exists ""%string. split; [constructor|reflexivity]. }
  assert (exists k, number k (val l) (str l)) as [k NL] by (exists (length l); apply number_iff; eauto).
  assert (forall x, match x with String a r' => if Ascii.eqb a "S" then (l, [], r') else ([], [], (str l ++ t)%string) | EmptyString => ([], [], (str l ++ t)%string) end = (ss, fs, r) ->
    x = t -> exists e, says_seconds e (val (ss ++ fs)) (length fs) /\ (str l ++ t)%string = (e ++ r)%string) as WH.
  { intros [|a x] H <-; [apply NO; exact H|]. destruct (Ascii.eqb_spec a "S") as [->|]; [|apply NO; exact H]. injection H as <- <- <-.
    exists (str l ++ "S")%string. rewrite app_nil_r. split; [econstructor; exact NL|]. rewrite app_assoc_s. reflexivity. }
  destruct t as [|a t]; [apply NO|].
  destruct (Ascii.eqb_spec a ".") as [->|NP]; [|intros H; apply (WH (String a t)); [exact H|reflexivity]].
  destruct (digit_run t) as [m u] eqn:R. apply digit_run_spec in R. destruct R as (F2 & -> & ND2).
  destruct m as [|d m]; [intros H; apply (WH (String "." (str [] ++ u))); [exact H|reflexivity]|].
  destruct u as [|b u]; [apply NO|].
  destruct (Ascii.eqb_spec b "S") as [->|]; [|apply NO]. intros [= <- <- <-].
  exists (str l ++ "." ++ str (d :: m) ++ "S")%string. split.
  - rewrite val_app. change (length (d :: m)) with (S (length m)). econstructor; [exact NL|]. apply number_iff. exists (d :: m). auto.
  - rewrite app_assoc_s. cbn [append]. do 2 f_equal. cbn [str append]. f_equal. rewrite app_assoc_s. reflexivity.
Qed.
Lemma opt_seconds_back : forall e v k, says_seconds e v k -> exists ss fs, opt_seconds e = (ss, fs, ""%string) /\ v = val (ss ++ fs) /\ k = length fs.
Proof.
  intros e v k [|n v' ds N|n j v' w ds fs N N2].
  - exists [], []. auto.
  - apply number_iff in N. destruct N as (l & L & F & -> & ->). exists l, []. rewrite app_nil_r. split; [|auto].
    unfold opt_seconds. rewrite digit_run_back by (cbn; auto). reflexivity.
  - apply number_iff in N. destruct N as (l & L & F & -> & ->). apply number_iff in N2. destruct N2 as (m & L2 & F2 & -> & ->).
    exists l, m. rewrite val_app, L2. split; [|auto].
    unfold opt_seconds. cbn [append]. rewrite digit_run_back by (cbn; auto). cbn [Ascii.eqb Bool.eqb].
    rewrite digit_run_back by (cbn; auto). destruct m; [discriminate|]. reflexivity.
Qed.

Lemma match_interval_spec : forall s ds hs ms ss fs, match_interval s = Some (ds, hs, ms, ss, fs) ->
  says_interval s (Span (val ds) (val hs) (val ms) (val (ss ++ fs)) (length fs)).
Proof.
  intros s ds hs ms ss fs. unfold match_interval. destruct s as [|a s]; [discriminate|].
  destruct (Ascii.eqb_spec a "P") as [->|]; [|discriminate].
  destruct (opt_digits "D" s) as [l t] eqn:D. apply opt_digits_spec in D. destruct D as (da & PD & ->).
  destruct t as [|b t].
  - intros [= <- <- <- <- <-]. rewrite app_nil_s. apply (Days_only _ _ PD).
  - destruct (Ascii.eqb_spec b "T") as [->|]; [|discriminate].
    destruct (opt_digits "H" t) as [l1 t1] eqn:H1. apply opt_digits_spec in H1. destruct H1 as (ha & PH & ->).
    destruct (opt_digits "M" t1) as [l2 t2] eqn:H2. apply opt_digits_spec in H2. destruct H2 as (ma & PM & ->).
    destruct (opt_seconds t2) as [[l3 l4] t3] eqn:H3. apply opt_seconds_spec in H3. destruct H3 as (ea & PE & ->).
    destruct t3; [|discriminate]. intros [= <- <- <- <- <-]. rewrite app_nil_s.
    apply (Days_and_time _ _ _ _ _ _ _ _ _ PD PH PM PE).
Qed.

Lemma seconds_not_letter : forall c e v k, c <> "."%char -> c <> "S"%char -> says_seconds e v k -> not_letter c e.
Proof.
  intros c e v k C1 C2 [|n v' ds N|n j v' w ds fs N N2].
  - exists [], ""%string. split; [constructor|]. split; [reflexivity|]. split; exact I.
  - apply number_iff in N. destruct N as (l & L & F & -> & ->). exists l, "S"%string. split; [assumption|]. split; [reflexivity|]. split; [reflexivity|]. cbn. congruence.
  - apply number_iff in N. destruct N as (l & L & F & -> & ->). exists l, ("." ++ fs ++ "S")%string. split; [assumption|]. split; [reflexivity|]. split; [reflexivity|]. cbn. congruence.
Qed.
Lemma minutes_not_letter : forall m b e, part "M" m b -> not_letter "H" e -> not_letter "H" (b ++ e).
Proof.
  intros m b e P N. destruct (part_digits _ _ _ P) as [[-> _]|(ds & F & NE & -> & _)]; [exact N|].
  exists ds, ("M" ++ e)%string. rewrite app_assoc_s. repeat split; auto. discriminate.
Qed.
Lemma match_interval_back : forall s x, says_interval s x -> exists ds hs ms ss fs,
  match_interval s = Some (ds, hs, ms, ss, fs) /\ x = Span (val ds) (val hs) (val ms) (val (ss ++ fs)) (length fs).
Proof.
  intros s x [d a PD|d h m v k a b c e PD PH PM PE].
  - destruct (opt_digits_back "D" d a "" eq_refl PD) as (ds & E & <-).
    { exists [], ""%string. repeat split; auto. }
    rewrite app_nil_s in E. exists ds, [], [], [], []. cbn [match_interval append]. cbn [Ascii.eqb Bool.eqb]. rewrite E. auto.
  - destruct (opt_seconds_back e v k PE) as (ss & fs & E4 & -> & ->).
    pose proof (seconds_not_letter "M" _ _ _ ltac:(discriminate) ltac:(discriminate) PE) as NM.
    pose proof (seconds_not_letter "H" _ _ _ ltac:(discriminate) ltac:(discriminate) PE) as NH.
    destruct (opt_digits_back "M" m c e eq_refl PM NM) as (ms & E3 & <-).
    destruct (opt_digits_back "H" h b (c ++ e) eq_refl PH (minutes_not_letter _ _ _ PM NH)) as (hs & E2 & <-).
    destruct (opt_digits_back "D" d a ("T" ++ b ++ c ++ e) eq_refl PD) as (ds & E1 & <-).
    { exists [], ("T" ++ b ++ c ++ e)%string. repeat split; auto. discriminate. }
    exists ds, hs, ms, ss, fs. split; [|reflexivity]. cbn [match_interval append]. cbn [Ascii.eqb Bool.eqb].
    cbn [append] in E1. rewrite E1. cbn [Ascii.eqb Bool.eqb]. rewrite E2, E3, E4. reflexivity.
Qed.

Lemma digits_forall : forall s x, says_interval s x -> 0 <= sp_days x /\ 0 <= sp_hours x /\ 0 <= sp_minutes x /\ 0 <= sp_num x.
Proof.
  assert (forall c z a, part c z a -> 0 <= z) as PP.
  { intros c z a [|k z' ds N]; [lia|]. apply number_bound in N. lia. }
  intros s x [d a PD|d h m v k a b c e PD PH PM PE]; cbn [sp_days sp_hours sp_minutes sp_num].
  - pose proof (PP _ _ _ PD). lia.
  - pose proof (PP _ _ _ PD). pose proof (PP _ _ _ PH). pose proof (PP _ _ _ PM). do 3 (split; [assumption|]).
    destruct PE as [|n v' ds N|n j v' w ds fs N N2]; [lia| |]; apply number_bound in N; [lia|]. apply number_bound in N2.
    pose proof (Z.pow_nonneg 10 (Z.of_nat (S j)) ltac:(lia)). nia.
Qed.

Lemma atoi_digits_ok : forall ds, atoi_digits ds = (if val ds <? 2 ^ 63 then Ok (val ds) else Err).
Proof. reflexivity. Qed.

Definition parsed (x : span) : Z * Z * Z * Z :=
  split_interval (sp_days x) (sp_hours x) (sp_minutes x) (nearest (sp_num x) (10 ^ Z.of_nat (sp_digits x))).

Lemma parse_says : forall s x, says_interval s x ->
  parse_interval_days s = if Nat.ltb (String.length s) 3 then Err
    else if (sp_days x <? 2 ^ 63) && (sp_hours x <? 2 ^ 63) && (sp_minutes x <? 2 ^ 63) &&
            negb (2 ^ 1024 * f_one <=? nearest (sp_num x) (10 ^ Z.of_nat (sp_digits x))) then Ok (parsed x) else Err.
Proof.
  intros s x H. pose proof (digits_forall s x H) as (_ & _ & _ & NN).
  destruct (match_interval_back s x H) as (ds & hs & ms & ss & fs & M & ->). cbn [sp_days sp_hours sp_minutes sp_num sp_digits] in *.
  unfold parse_interval_days, parsed. destruct (Nat.ltb (String.length s) 3); [reflexivity|]. rewrite M.
  cbn [sp_days sp_hours sp_minutes sp_num sp_digits].
  rewrite !atoi_digits_ok. unfold parse_float_digits. change dec_value with val. rewrite fround_nonneg by assumption.
  destruct (val ds <? 2 ^ 63); [|reflexivity]. destruct (val hs <? 2 ^ 63); [|reflexivity]. destruct (val ms <? 2 ^ 63); [|reflexivity].
  cbn [bind andb]. destruct (2 ^ 1024 * f_one <=? nearest (val (ss ++ fs)) (10 ^ Z.of_nat (length fs))); reflexivity.
Qed.
Lemma ten_pos : forall k, 0 < 10 ^ Z.of_nat k.
Proof. intros. apply Z.pow_pos_nonneg; lia. Qed.
Lemma parse_back : forall s x, says_interval s x -> in_bounds x -> (3 <= String.length s)%nat -> parse_interval_days s = Ok (parsed x).
Proof.
  intros s x H (B1 & B2 & B3 & B4) L. pose proof (digits_forall s x H) as (_ & _ & _ & NN).
  rewrite (parse_says s x H). destruct (Nat.ltb_spec (String.length s) 3); [lia|].
  apply Z.ltb_lt in B1, B2, B3. rewrite B1, B2, B3. apply (overflow_iff _ _ NN (ten_pos _)) in B4. rewrite B4. reflexivity.
Qed.
Lemma parse_iff : forall s, (exists y, parse_interval_days s = Ok y) <->
  (3 <= String.length s)%nat /\ exists x, says_interval s x /\ in_bounds x.
Proof.
  intros s. split.
  - intros [y P]. assert (exists x, says_interval s x) as [x H].
    { unfold parse_interval_days in P. destruct (Nat.ltb (String.length s) 3); [discriminate|].
      destruct (match_interval s) as [[[[[ds hs] ms] ss] fs]|] eqn:M; [|discriminate]. eexists. apply match_interval_spec. exact M. }
    pose proof (digits_forall s x H) as (_ & _ & _ & NN).
    rewrite (parse_says s x H) in P. destruct (Nat.ltb_spec (String.length s) 3); [discriminate|]. split; [lia|]. exists x. split; [assumption|].
    unfold in_bounds. rewrite <- (overflow_iff _ _ NN (ten_pos _)).
    destruct (Z.ltb_spec (sp_days x) (2 ^ 63)); [|discriminate]. destruct (Z.ltb_spec (sp_hours x) (2 ^ 63)); [|discriminate].
    destruct (Z.ltb_spec (sp_minutes x) (2 ^ 63)); [|discriminate].
    destruct (2 ^ 1024 * f_one <=? nearest (sp_num x) (10 ^ Z.of_nat (sp_digits x))); [discriminate|]. auto.
  - intros [L (x & H & B)]. exists (parsed x). apply parse_back; assumption.
Qed.
Lemma parse_total : forall s, (exists y, parse_interval_days s = Ok y) \/ parse_interval_days s = Err.
Proof.
  intros s. unfold parse_interval_days. destruct (Nat.ltb (String.length s) 3); [auto|].
  destruct (match_interval s) as [[[[[ds hs] ms] ss] fs]|]; [|auto].
  unfold atoi_digits, parse_float_digits.
  repeat match goal with |- context [if ?b then _ else _] => destruct b end; cbn [bind]; eauto.
Qed.

(** ** printing *)
Lemma decimal_number : forall z, 0 <= z -> exists k, number (S k) z (string_of_Z z).
Proof.
  intros z H. destruct (string_of_Z_digits z H) as (ds & E & F & V).
  destruct ds as [|d ds].
  - exfalso. destruct (Z.eq_dec z 0) as [->|]; [discriminate|]. destruct (no_leading_zero z ltac:(lia)) as (c & r & X & _). rewrite X in E. discriminate.
  - exists (length ds). apply number_iff. exists (d :: ds). auto.
Qed.
Lemma decimal_part : forall c z, 0 <= z -> part c z (string_of_Z z ++ c).
Proof. intros c z H. destruct (decimal_number z H) as [k N]. econstructor. exact N. Qed.

Lemma fmt_frac_number : forall k u, exists j z, fmt_frac k u = (match j with O => "" | S _ => "." end ++ cut_zeros (fixed k (u mod 10 ^ Z.of_nat k)))%string /\
  number j z (cut_zeros (fixed k (u mod 10 ^ Z.of_nat k))) /\ (j <= k)%nat /\ u mod 10 ^ Z.of_nat k = z * 10 ^ (Z.of_nat k - Z.of_nat j).
Proof.
  intros k u. pose proof (ten_pos k) as P. pose proof (Z.mod_pos_bound u _ P) as B.
  destruct (cut_zeros_number _ _ _ (fixed_number k _ B)) as (j & z & N & L & E). exists j, z. split; [|auto].
  unfold fmt_frac. inversion N; subst.
  - reflexivity.
  - destruct s; reflexivity.
Qed.
Lemma seconds_says : forall s u, 0 <= s -> exists v j, says_seconds (string_of_Z s ++ fmt_frac 9 u ++ "S") v j /\ (j <= 9)%nat /\
  v * 10 ^ 9 = (s * 10 ^ 9 + u mod 10 ^ 9) * 10 ^ Z.of_nat j.
Proof.
  intros s u H. destruct (decimal_number s H) as [k N]. destruct (fmt_frac_number 9 u) as (j & z & -> & N2 & L & E).
  change (10 ^ Z.of_nat 9) with (10 ^ 9) in *. set (t := cut_zeros (fixed 9 (u mod 10 ^ 9))) in *. clearbody t. rewrite E. destruct j as [|j].
  - inversion N2 as [A B C|]; subst. exists s, 0%nat. split; [cbn [append]; econstructor; exact N|]. split; [lia|].
    cbn. lia.
  - exists (s * 10 ^ Z.of_nat (S j) + z), (S j). split; [exact (Fraction_seconds _ _ _ _ _ _ N N2)|]. split; [assumption|].
    assert (10 ^ 9 = 10 ^ (Z.of_nat 9 - Z.of_nat (S j)) * 10 ^ Z.of_nat (S j)) as X by (rewrite <- Z.pow_add_r by lia; f_equal; lia).
    rewrite X. ring.
Qed.

(** one second or more *)
Lemma long_says : forall a d u, part "D" d a -> 10 ^ 9 <= u -> exists h m v k,
  says_interval ("P" ++ a ++ "T" ++ duration_upper u) (Span d h m v k) /\ (k <= 9)%nat /\ 0 <= h /\ 0 <= m /\ 0 <= v /\
  (h * 3600 + m * 60) * 10 ^ 9 * 10 ^ Z.of_nat k + v * 10 ^ 9 = u * 10 ^ Z.of_nat k /\ v < 60 * 10 ^ Z.of_nat k.
Proof.
  intros a d u PD U. unfold duration_upper. change (10 ^ 9) with 1000000000 in *.
  rewrite (Z.abs_eq u) by lia. destruct (Z.ltb_spec u 0); [lia|]. destruct (Z.eqb_spec u 0); [lia|].
  destruct (Z.ltb_spec u 1000); [lia|]. destruct (Z.ltb_spec u 1000000); [lia|]. destruct (Z.ltb_spec u 1000000000); [lia|].
  set (secs := u / 1000000000). assert (0 <= secs) as S0 by (apply Z.div_pos; lia).
  pose proof (Z.mod_pos_bound secs 60 ltac:(lia)) as M60. pose proof (Z.mod_pos_bound secs 3600 ltac:(lia)) as M3600.
  destruct (seconds_says (secs mod 60) u ltac:(lia)) as (v & k & SV & K & E). change (10 ^ 9) with 1000000000 in *.
  pose proof (ten_pos k) as T. pose proof (Z.mod_pos_bound u 1000000000 ltac:(lia)) as MU.
  pose proof (Z.div_mod u 1000000000 ltac:(lia)) as DU. fold secs in DU.
  assert (0 <= v /\ v < 60 * 10 ^ Z.of_nat k) as [V0 V1] by nia.
  exists (if 3600 <=? secs then secs / 3600 else 0), (if 60 <=? secs then secs mod 3600 / 60 else 0), v, k.
  split.
  - cbn [append]. apply (Days_and_time _ _ _ _ _ a); [exact PD| | |exact SV].
    + destruct (3600 <=? secs); [|constructor]. apply decimal_part. apply Z.div_pos; lia.
    + destruct (60 <=? secs); [|constructor]. apply decimal_part. apply Z.div_pos; lia.
  - split; [assumption|]. split. { destruct (3600 <=? secs); [apply Z.div_pos; lia|lia]. }
    split. { destruct (60 <=? secs); [apply Z.div_pos; lia|lia]. }
    split; [assumption|]. split; [|assumption]. rewrite E.
    assert ((if 3600 <=? secs then secs / 3600 else 0) * 3600 + (if 60 <=? secs then secs mod 3600 / 60 else 0) * 60 + secs mod 60 = secs) as SE.
    { destruct (Z.leb_spec 3600 secs); destruct (Z.leb_spec 60 secs); Z.to_euclidean_division_equations; lia. }
    nia.
Qed.

Lemma zeros_frac : forall k u, u mod 10 ^ Z.of_nat k = 0 -> fmt_frac k u = ""%string.
Proof.
  intros k u E. unfold fmt_frac. rewrite E. assert (forall n, cut_zeros (fixed n 0) = ""%string) as X; [|rewrite X; reflexivity].
  induction n as [|n IH]; [reflexivity|]. cbn [fixed]. change (0 / 10) with 0. rewrite cut_zeros_snoc. change (digit_char (0 mod 10)) with "0"%char.
  rewrite Ascii.eqb_refl. exact IH.
Qed.
Lemma frac_shape : forall k u, fmt_frac k u = ""%string \/ exists ds, Forall dig ds /\ ds <> [] /\ fmt_frac k u = String "." (str ds).
Proof.
  intros k u. destruct (fmt_frac_number k u) as (j & z & E & N & _ & _). apply number_iff in N. destruct N as (ds & L & F & C & _).
  rewrite C in E. destruct ds as [|d ds]; cbn in L; subst j.
  - left. exact E.
  - right. exists (d :: ds). split; [assumption|]. split; [discriminate|exact E].
Qed.

(** digits with a fraction or not, followed by letters that end no part *)
Lemma unread_tail : forall ds fs c r, Forall dig ds -> fs = ""%string \/ (exists l, Forall dig l /\ l <> [] /\ fs = String "." (str l)) ->
  digit_of c = None -> c <> "."%char -> c <> "S"%char -> c <> "H"%char -> (c = "M"%char -> fs <> ""%string) -> ds <> [] ->
  forall a d, part "D" d a -> match_interval ("P" ++ a ++ "T" ++ str ds ++ fs ++ String c r) = None.
Proof.
  intros ds fs c r F SF C C1 C2 C3 C4 NE a d PD.
  destruct (opt_digits_back "D" d a ("T" ++ str ds ++ fs ++ String c r) eq_refl PD) as (l & E1 & _).
  { exists [], ("T" ++ str ds ++ fs ++ String c r)%string. repeat split; auto. discriminate. }
  cbn [match_interval append]. cbn [Ascii.eqb Bool.eqb]. cbn [append] in E1. rewrite E1. cbn [Ascii.eqb Bool.eqb].
  assert (no_digit (fs ++ String c r)) as ND by (destruct SF as [->|(m & _ & _ & ->)]; [exact C|reflexivity]).
  assert (forall x, x <> "."%char -> x <> c \/ fs <> ""%string -> opt_digits x (str ds ++ fs ++ String c r) = ([], (str ds ++ fs ++ String c r)%string)) as NO.
  { intros x X1 X2. apply opt_digits_absent. exists ds, (fs ++ String c r)%string. repeat split; auto.
    destruct SF as [->|(m & _ & _ & ->)]; cbn [append]; [destruct X2; congruence|congruence]. }
  rewrite (NO "H"%char) by (try discriminate; left; congruence).
  rewrite (NO "M"%char). 2: discriminate. 2: { destruct (ascii_dec c "M"); [right; auto|left; congruence]. }
  assert (opt_seconds (str ds ++ fs ++ String c r) = ([], [], (str ds ++ fs ++ String c r)%string)) as ->.
  { unfold opt_seconds. rewrite digit_run_back by auto. destruct SF as [->|(m & Fm & Nm & ->)]; cbn [append].
    - destruct (Ascii.eqb_spec c "."); [congruence|]. destruct (Ascii.eqb_spec c "S"); [congruence|reflexivity].
    - cbn [Ascii.eqb Bool.eqb]. rewrite digit_run_back by auto. destruct m; [congruence|].
      destruct (Ascii.eqb_spec c "S"); [congruence|reflexivity]. }
  destruct ds; [congruence|reflexivity].
Qed.
Lemma minus_unread : forall a d r, part "D" d a -> match_interval ("P" ++ a ++ "T" ++ "-" ++ r) = None.
Proof.
  intros a d r PD. destruct (opt_digits_back "D" d a ("T" ++ "-" ++ r) eq_refl PD) as (l & E1 & _).
  { exists [], ("T" ++ "-" ++ r)%string. repeat split; auto. discriminate. }
  cbn [match_interval append]. cbn [Ascii.eqb Bool.eqb]. cbn [append] in E1. rewrite E1. reflexivity.
Qed.

(** less than a second *)
Lemma short_text : forall u, 0 < u < 10 ^ 9 -> ~ (10 ^ 6 | u) -> exists ds fs c r, Forall dig ds /\ ds <> [] /\
  (fs = ""%string \/ (exists l, Forall dig l /\ l <> [] /\ fs = String "." (str l))) /\
  digit_of c = None /\ c <> "."%char /\ c <> "S"%char /\ c <> "H"%char /\ (c = "M"%char -> fs <> ""%string) /\
  duration_upper u = (str ds ++ fs ++ String c r)%string.
Proof.
  intros u U ND. unfold duration_upper. change (10 ^ 9) with 1000000000 in U. change (10 ^ 6) with 1000000 in ND.
  rewrite (Z.abs_eq u) by lia. destruct (Z.ltb_spec u 0); [lia|]. destruct (Z.eqb_spec u 0); [lia|]. cbn [append].
  assert (forall z, 0 <= z -> exists ds, Forall dig ds /\ ds <> [] /\ string_of_Z z = str ds) as DS.
  { intros z Hz. destruct (decimal_number z Hz) as [k N]. apply number_iff in N. destruct N as (l & L & F & E & _). exists l.
    split; [assumption|]. split; [destruct l; discriminate|assumption]. }
  destruct (Z.ltb_spec u 1000).
  { destruct (DS u ltac:(lia)) as (l & F & NE & ->). exists l, ""%string, "N"%char, "S"%string. repeat split; auto; discriminate. }
  destruct (Z.ltb_spec u 1000000).
  { destruct (DS (u / 1000) ltac:(apply Z.div_pos; lia)) as (l & F & NE & ->).
    exists l, (fmt_frac 3 u), "206"%char, (String "156" "S"). repeat split; auto; try discriminate. apply frac_shape. }
  destruct (Z.ltb_spec u 1000000000); [|lia].
  destruct (DS (u / 1000000) ltac:(apply Z.div_pos; lia)) as (l & F & NE & ->).
  exists l, (fmt_frac 6 u), "M"%char, "S"%string. repeat split; auto; try discriminate; [apply frac_shape|].
  intros _ E. apply ND. destruct (fmt_frac_number 6 u) as (j & z & E2 & N & _ & V). rewrite E in E2.
  destruct j; [|destruct (cut_zeros (fixed 6 (u mod 10 ^ Z.of_nat 6))); discriminate].
  inversion N; subst. cbn [Z.mul] in V. apply Z.mod_divide in V; [exact V|discriminate].
Qed.
Lemma milli_text : forall n, 1 <= n < 1000 -> duration_upper (n * 10 ^ 6) = (string_of_Z n ++ "MS")%string.
Proof.
  intros n B. unfold duration_upper. change (10 ^ 6) with 1000000.
  rewrite (Z.abs_eq (n * 1000000)) by lia. destruct (Z.ltb_spec (n * 1000000) 0); [lia|]. destruct (Z.eqb_spec (n * 1000000) 0); [lia|].
  destruct (Z.ltb_spec (n * 1000000) 1000); [lia|]. destruct (Z.ltb_spec (n * 1000000) 1000000); [lia|].
  destruct (Z.ltb_spec (n * 1000000) 1000000000); [|lia].
  rewrite zeros_frac by (apply Z.mod_mul; lia). rewrite Z.div_mul by lia. reflexivity.
Qed.
