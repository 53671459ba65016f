(** Proofs about the texts of dates and times: what is read is what the text says, and what
    is printed says the value. *)

From Coq Require Import ZArith Bool String Ascii List Lia.
From Verif Require Import Base TimeModel TimeSpec CalModel CalSpec CalProofs.
From Verif Require FuncTypeProofs.
Import ListNotations.
Local Open Scope Z_scope.

Lemma app_assoc_s : forall a b c : string, ((a ++ b) ++ c = a ++ b ++ c)%string.
Proof. induction a; intros; cbn; auto. rewrite IHa. auto. Qed.
Lemma app_nil_s : forall a : string, (a ++ "" = a)%string.
Proof. induction a; cbn; auto. rewrite IHa. auto. Qed.

(** ** digits *)
Lemma digit_cases : forall d, 0 <= d <= 9 -> d = 0 \/ d = 1 \/ d = 2 \/ d = 3 \/ d = 4 \/ d = 5 \/ d = 6 \/ d = 7 \/ d = 8 \/ d = 9.
Proof. lia. Qed.
Ltac digits H := destruct (digit_cases _ H) as [->|[->|[->|[->|[->|[->|[->|[->|[->| ->]]]]]]]]].

Lemma digit_of_digit : forall d, 0 <= d <= 9 -> digit_of (digit d) = Some d.
Proof. intros d H. digits H; reflexivity. Qed.
Lemma digit_of_iff : forall a d, digit_of a = Some d <-> 0 <= d <= 9 /\ a = digit d.
Proof.
  intros a d. split; [|intros [H ->]; apply digit_of_digit; auto].
  unfold digit_of. cbv zeta. destruct ((48 <=? Z.of_nat (nat_of_ascii a)) && (Z.of_nat (nat_of_ascii a) <=? 57)) eqn:E; [|discriminate].
  rewrite andb_true_iff, !Z.leb_le in E. intros [= H]. split; [lia|].
  rewrite <- (ascii_nat_embedding a). unfold digit. rewrite <- H. clear H. remember (nat_of_ascii a) as n. clear Heqn.
  assert (C : (n = 48 \/ n = 49 \/ n = 50 \/ n = 51 \/ n = 52 \/ n = 53 \/ n = 54 \/ n = 55 \/ n = 56 \/ n = 57)%nat) by lia.
  destruct C as [->|[->|[->|[->|[->|[->|[->|[->|[->| ->]]]]]]]]]; reflexivity.
Qed.
Lemma digit_char_digit : forall d, 0 <= d <= 9 -> digit_char d = digit d.
Proof. intros d H. digits H; reflexivity. Qed.

(** a number as the list of its digits *)
Fixpoint str (ds : list Z) : string := match ds with [] => "" | d :: r => String (digit d) (str r) end.
Definition val (ds : list Z) : Z := fold_left (fun v d => 10 * v + d) ds 0.
Definition dig (d : Z) : Prop := 0 <= d <= 9.

Lemma str_app : forall a b, str (a ++ b) = (str a ++ str b)%string.
Proof. induction a; intros; cbn; auto. rewrite IHa. auto. Qed.
Lemma fold_val : forall ds v, fold_left (fun v d => 10 * v + d) ds v = v * 10 ^ Z.of_nat (length ds) + val ds.
Proof.
  unfold val. induction ds as [|d ds IH]; intros v; cbn [fold_left length]; [lia|].
  rewrite IH. rewrite (IH (10 * 0 + d)). rewrite Nat2Z.inj_succ, Z.pow_succ_r by lia. lia.
Qed.
Lemma val_app : forall a b, val (a ++ b) = val a * 10 ^ Z.of_nat (length b) + val b.
Proof. intros. unfold val. rewrite fold_left_app, fold_val. reflexivity. Qed.
Lemma val_bound : forall ds, Forall dig ds -> 0 <= val ds < 10 ^ Z.of_nat (length ds).
Proof.
  induction ds as [|d ds IH] using rev_ind; intros H; [cbn; lia|].
  apply Forall_app in H. destruct H as [H1 H2]. inversion H2; subst. rewrite val_app, app_length. cbn [length].
  rewrite Nat2Z.inj_add, Z.pow_add_r by lia. change (Z.of_nat 1) with 1. change (val [d]) with (10 * 0 + d). unfold dig in *. specialize (IH H1). lia.
Qed.
Lemma number_iff : forall k z s, number k z s <-> exists ds, length ds = k /\ Forall dig ds /\ s = str ds /\ z = val ds.
Proof.
  split.
  - intros H. induction H as [|k z s d H (ds & L & F & -> & ->) B].
    + exists []. auto.
    + exists (ds ++ [d]). rewrite app_length, str_app, val_app. cbn [length str]. split; [lia|]. split; [|split; auto].
      * apply Forall_app. split; auto.
      * change (val [d]) with (10 * 0 + d). change (Z.of_nat 1) with 1. lia.
  - intros (ds & <- & F & -> & ->). induction ds as [|d ds IH] using rev_ind; [constructor|].
    apply Forall_app in F. destruct F as [F1 F2]. inversion F2; subst. rewrite app_length, str_app, val_app. cbn [length].
    rewrite Nat.add_1_r. replace (val ds * 10 ^ Z.of_nat 1 + val [d]) with (10 * val ds + d); [constructor; auto|].
    change (val [d]) with (10 * 0 + d). change (Z.of_nat 1) with 1. lia.
Qed.
Lemma number_bound : forall k z s, number k z s -> 0 <= z < 10 ^ Z.of_nat k.
Proof. intros k z s H. apply number_iff in H. destruct H as (ds & <- & F & _ & ->). apply val_bound; auto. Qed.
Lemma number2 : forall z s, number 2 z s <-> exists x y, dig x /\ dig y /\ z = 10 * x + y /\ s = String (digit x) (String (digit y) "").
Proof.
  intros z s. rewrite number_iff. split.
  - intros (ds & L & F & -> & ->). destruct ds as [|x [|y [|]]]; try discriminate. inversion F as [|? ? F1 F2]; subst. inversion F2; subst.
    exists x, y. repeat (split; auto).
  - intros (x & y & Hx & Hy & -> & ->). exists [x; y]. split; auto.
Qed.
Lemma number1 : forall z s, number 1 z s <-> dig z /\ s = String (digit z) "".
Proof.
  intros z s. rewrite number_iff. split.
  - intros (ds & L & F & -> & ->). destruct ds as [|x [|]]; try discriminate. inversion F; subst. cbn [val fold_left]. rewrite Z.mul_0_r, Z.add_0_l. auto.
  - intros [H ->]. exists [z]. split; auto.
Qed.
Lemma number4 : forall z s, number 4 z s <-> exists a b c d, dig a /\ dig b /\ dig c /\ dig d /\
  z = 1000 * a + 100 * b + 10 * c + d /\ s = String (digit a) (String (digit b) (String (digit c) (String (digit d) ""))).
Proof.
  intros z s. rewrite number_iff. split.
  - intros (ds & L & F & -> & ->). destruct ds as [|a [|b [|c [|d [|]]]]]; try discriminate.
    repeat match goal with H : Forall dig (_ :: _) |- _ => inversion H; clear H; subst end.
    exists a, b, c, d. unfold val, fold_left. do 4 (split; auto). split; auto. lia.
  - intros (a & b & c & d & Ha & Hb & Hc & Hd & -> & ->). exists [a; b; c; d]. unfold val, fold_left. split; auto. split; auto. split; auto. lia.
Qed.

Lemma fixed_number : forall k z, 0 <= z < 10 ^ Z.of_nat k -> number k z (fixed k z).
Proof.
  induction k; intros z H; cbn [fixed].
  - change (10 ^ Z.of_nat 0) with 1 in H. replace z with 0 by lia. constructor.
  - rewrite Nat2Z.inj_succ, Z.pow_succ_r in H by lia.
    assert (B : 0 <= z mod 10 <= 9) by (pose proof (Z.mod_pos_bound z 10); lia).
    rewrite digit_char_digit by auto. rewrite (Z.div_mod z 10) at 1 by lia. constructor; auto. apply IHk.
    split; [apply Z.div_pos; lia|]. apply Z.div_lt_upper_bound; lia.
Qed.
Lemma pad_number : forall k z, 0 <= z < 10 ^ Z.of_nat k -> number k z (pad k z).
Proof. intros. unfold pad. destruct (Z.ltb_spec z (10 ^ Z.of_nat k)); [|lia]. apply fixed_number; auto. Qed.
Lemma append_int_number : forall k z, 0 <= z < 10 ^ Z.of_nat k -> number k z (append_int k z).
Proof. intros. unfold append_int. destruct (Z.ltb_spec z 0); [lia|]. apply pad_number; auto. Qed.
Lemma sprintf_number : forall k z, 0 <= z < 10 ^ Z.of_nat k -> number k z (sprintf_0d k z).
Proof. intros. unfold sprintf_0d. destruct (Z.ltb_spec z 0); [lia|]. apply pad_number; auto. Qed.

(** ** reading the pieces *)
Lemma expect_iff : forall c s r, expect c s = Some r <-> s = String c r.
Proof.
  intros c s r. unfold expect. destruct s as [|a s]; [split; discriminate|]. destruct (Ascii.eqb_spec a c); split; intros H; try discriminate.
  - congruence.
  - congruence.
  - injection H as -> ->. contradiction.
Qed.
Lemma getnum_fixed : forall s z r, getnum true s = Some (z, r) <-> exists t, number 2 z t /\ s = (t ++ r)%string.
Proof.
  intros s z r. unfold getnum. split.
  - destruct s as [|a s]; [discriminate|]. destruct (digit_of a) eqn:A; [|discriminate]. destruct s as [|b s]; [discriminate|].
    destruct (digit_of b) eqn:B; [|discriminate]. intros [= <- <-]. apply digit_of_iff in A, B. destruct A as [A ->], B as [B ->].
    eexists. split; [apply number2; eauto 8|]. reflexivity.
  - intros (t & H & ->). apply number2 in H. destruct H as (x & y & Hx & Hy & -> & ->). cbn [append]. rewrite !digit_of_digit by auto. reflexivity.
Qed.
Lemma getnum_fixed_back : forall t z r, number 2 z t -> getnum true (t ++ r) = Some (z, r).
Proof. intros. apply getnum_fixed. eauto. Qed.
Definition no_digit (s : string) : Prop := match s with String a _ => digit_of a = None | EmptyString => True end.
Lemma getnum_free : forall s z r, getnum false s = Some (z, r) ->
  exists k t, (k = 1%nat \/ k = 2%nat) /\ number k z t /\ s = (t ++ r)%string.
Proof.
  intros s z r. unfold getnum. destruct s as [|a s]; [discriminate|]. destruct (digit_of a) eqn:A; [|discriminate].
  apply digit_of_iff in A. destruct A as [A ->]. destruct s as [|b s].
  - intros [= <- <-]. exists 1%nat, (String (digit z0) ""). split; auto. split; [apply number1; auto|reflexivity].
  - destruct (digit_of b) eqn:B; intros [= <- <-].
    + apply digit_of_iff in B. destruct B as [B ->]. exists 2%nat. eexists. split; auto. split; [apply number2; eauto 8|reflexivity].
    + exists 1%nat, (String (digit z0) ""). split; auto. split; [apply number1; auto|reflexivity].
Qed.
Lemma getnum_free_back : forall k z t r, (k = 1%nat \/ k = 2%nat) -> number k z t -> no_digit r -> getnum false (t ++ r) = Some (z, r).
Proof.
  intros k z t r [-> | ->] H N.
  - apply number1 in H. destruct H as [H ->]. cbn [append]. unfold getnum. rewrite digit_of_digit by auto.
    destruct r as [|b r]; auto. cbn in N. rewrite N. auto.
  - apply number2 in H. destruct H as (x & y & Hx & Hy & -> & ->). cbn [append]. unfold getnum. rewrite !digit_of_digit by auto. auto.
Qed.
Lemma getyear_iff : forall s z r, getyear s = Some (z, r) <-> exists t, number 4 z t /\ s = (t ++ r)%string.
Proof.
  intros s z r. unfold getyear. split.
  - destruct s as [|a [|b [|c [|d s]]]]; try discriminate.
    destruct (digit_of a) eqn:A; [|discriminate]. destruct (digit_of b) eqn:B; [|discriminate].
    destruct (digit_of c) eqn:C; [|discriminate]. destruct (digit_of d) eqn:D; [|discriminate].
    apply digit_of_iff in A, B, C, D. destruct A as [A ->], B as [B ->], C as [C ->], D as [D ->]. intros [= <- <-].
    eexists. split; [apply number4; do 4 eexists; eauto 9|]. reflexivity.
  - intros (t & H & ->). apply number4 in H. destruct H as (a & b & c & d & Ha & Hb & Hc & Hd & -> & ->). cbn [append].
    rewrite !digit_of_digit by auto. reflexivity.
Qed.

Lemma digit_run_spec : forall s ds r, digit_run s = (ds, r) -> Forall dig ds /\ s = (str ds ++ r)%string /\ no_digit r.
Proof.
  induction s as [|a s IH]; intros ds r; cbn [digit_run]; [intros [= <- <-]; cbn; auto|].
  destruct (digit_of a) eqn:A; [|intros [= <- <-]; cbn; auto].
  destruct (digit_run s) as [ds' r'] eqn:E. destruct (IH _ _ eq_refl) as (F & -> & N). intros [= <- <-].
  apply digit_of_iff in A. destruct A as [A ->]. cbn. auto.
Qed.
Lemma digit_run_back : forall ds r, Forall dig ds -> no_digit r -> digit_run (str ds ++ r) = (ds, r).
Proof.
  induction ds as [|d ds IH]; intros r F N; cbn [str append].
  - destruct r as [|a r]; auto. cbn in N. cbn [digit_run]. rewrite N. auto.
  - inversion F; subst. cbn [digit_run]. rewrite digit_of_digit by auto. rewrite IH by auto. auto.
Qed.
Lemma nanoseconds_spec : forall ds, Forall dig ds -> nanoseconds ds = val ds * 10 ^ 9 / 10 ^ Z.of_nat (length ds).
Proof.
  intros ds F. unfold nanoseconds. cbv zeta. fold (val (firstn 9 ds)). destruct (Nat.le_gt_cases (length ds) 9) as [H|H].
  - rewrite firstn_all2 by auto. replace (val ds * 10 ^ 9) with (val ds * 10 ^ (9 - Z.of_nat (length ds)) * 10 ^ Z.of_nat (length ds)).
    + rewrite Z.div_mul; auto. apply Z.pow_nonzero; lia.
    + rewrite <- Z.mul_assoc, <- Z.pow_add_r by lia. do 2 f_equal. lia.
  - rewrite firstn_length_le by lia. change (10 ^ (9 - Z.of_nat 9)) with 1. rewrite Z.mul_1_r.
    rewrite <- (firstn_skipn 9 ds) at 2 3. rewrite val_app, app_length, firstn_length_le by lia.
    assert (F' : Forall dig (skipn 9 ds)) by (rewrite <- (firstn_skipn 9 ds) in F; apply Forall_app in F; tauto).
    pose proof (val_bound _ F') as B. set (n := Z.of_nat (length (skipn 9 ds))) in *. rewrite Nat2Z.inj_add. fold n. change (Z.of_nat 9) with 9.
    rewrite Z.pow_add_r by (unfold n; lia). rewrite Z.mul_comm, Z.div_mul_cancel_l by (apply Z.pow_nonzero; unfold n; lia).
    rewrite Z.div_add_l by (apply Z.pow_nonzero; unfold n; lia). rewrite Z.div_small by lia. lia.
Qed.

(** what may follow a fraction without being part of it *)
Definition stops (r : string) : Prop :=
  match r with String a _ => digit_of a = None /\ a <> "."%char /\ a <> ","%char | EmptyString => True end.
Lemma getfrac_spec : forall s ns r, getfrac s = (ns, r) -> exists t, says_fraction t ns /\ s = (t ++ r)%string.
Proof.
  intros s ns r. unfold getfrac. destruct s as [|a s]; [intros [= <- <-]; exists ""%string; split; [constructor|auto]|].
  assert (N : (0, String a s) = (ns, r) -> exists t, says_fraction t ns /\ String a s = (t ++ r)%string).
  { intros [= <- <-]. exists ""%string. split; [constructor|auto]. }
  destruct (Ascii.eqb a "." || Ascii.eqb a ",") eqn:SP; auto.
  destruct (digit_run s) as [ds r'] eqn:E. apply digit_run_spec in E. destruct E as (F & -> & _).
  destruct ds as [|d ds]; auto. intros [= <- <-]. rewrite nanoseconds_spec by auto.
  exists (String a "" ++ str (d :: ds))%string. split; [|cbn; auto].
  change (length (d :: ds)) with (S (length ds)). constructor; [|apply number_iff; exists (d :: ds); auto].
  apply orb_true_iff in SP. destruct SP as [SP|SP]; apply Ascii.eqb_eq in SP; subst; auto.
Qed.
Lemma getfrac_back : forall t ns r, says_fraction t ns -> stops r -> getfrac (t ++ r) = (ns, r).
Proof.
  intros t ns r H S. destruct H as [|sep k v ds H N].
  - cbn [append]. destruct r as [|a r]; auto. cbn in S. destruct S as (S1 & S2 & S3). unfold getfrac.
    destruct (Ascii.eqb_spec a "."); [contradiction|]. destruct (Ascii.eqb_spec a ","); [contradiction|]. auto.
  - assert (R : no_digit r) by (destruct r; cbn in *; tauto).
    apply number_iff in N. destruct N as (l & L & F & -> & ->). rewrite <- L, <- nanoseconds_spec by auto.
    destruct H as [-> | ->]; cbn [append getfrac]; cbn [Ascii.eqb Bool.eqb orb]; rewrite digit_run_back by auto; destruct l; try discriminate; reflexivity.
Qed.

(** ** dates and clocks *)
Lemma parse_ymd_spec : forall s y m d r, parse_ymd s = Some (y, m, d, r) -> exists t, says_date t (Date y m d) /\ s = (t ++ r)%string.
Proof.
  intros s y m d r. unfold parse_ymd. destruct (getyear s) as [[y0 s0]|] eqn:E0; [|discriminate].
  destruct (expect "-" s0) as [s1|] eqn:E1; [|discriminate]. destruct (getnum true s1) as [[m0 s2]|] eqn:E2; [|discriminate].
  destruct ((m0 <=? 0) || (12 <? m0)) eqn:M; [discriminate|]. destruct (expect "-" s2) as [s3|] eqn:E3; [|discriminate].
  destruct (getnum true s3) as [[d0 s4]|] eqn:E4; [|discriminate]. destruct ((d0 <? 1) || (days_in y0 m0 <? d0)) eqn:D; [discriminate|].
  intros [= <- <- <- <-]. apply getyear_iff in E0. destruct E0 as (ys & N0 & ->). apply expect_iff in E1. subst s0.
  apply getnum_fixed in E2. destruct E2 as (ms & N2 & ->). apply expect_iff in E3. subst s2. apply getnum_fixed in E4. destruct E4 as (ds & N4 & ->).
  apply orb_false_iff in M, D. rewrite Z.leb_gt, Z.ltb_ge in M. rewrite !Z.ltb_ge in D.
  eexists. split; [constructor; eauto; apply valid_iff; lia|]. rewrite ?app_assoc_s. cbn [append]. rewrite ?app_assoc_s. reflexivity.
Qed.
Lemma parse_ymd_back : forall t y m d r, says_date t (Date y m d) -> parse_ymd (t ++ r) = Some (y, m, d, r).
Proof.
  intros t y m d r H. inversion H as [ys ms ds y' m' d' N1 N2 N3 V E1 E2]; subst. unfold parse_ymd. rewrite ?app_assoc_s. cbn [append]. rewrite ?app_assoc_s. cbn [append].
  rewrite (proj2 (getyear_iff _ y _)) by eauto. cbn [expect Ascii.eqb Bool.eqb]. rewrite getnum_fixed_back with (1 := N2).
  apply valid_iff in V. destruct (Z.leb_spec m 0); [lia|]. destruct (Z.ltb_spec 12 m); [lia|]. cbn [orb expect Ascii.eqb Bool.eqb].
  rewrite getnum_fixed_back with (1 := N3). destruct (Z.ltb_spec d 1); [lia|]. destruct (Z.ltb_spec (days_in y m) d); [lia|]. reflexivity.
Qed.
Lemma parse_hms_spec : forall s h mi sec ns r, parse_hms s = Some (h, mi, sec, ns, r) ->
  exists t, says_clock t (Clock h mi sec ns) /\ s = (t ++ r)%string.
Proof.
  intros s h mi sec ns r. unfold parse_hms. destruct (getnum false s) as [[h0 s0]|] eqn:E0; [|discriminate].
  destruct (Z.leb_spec 24 h0); [discriminate|]. destruct (expect ":" s0) as [s1|] eqn:E1; [|discriminate].
  destruct (getnum true s1) as [[m0 s2]|] eqn:E2; [|discriminate]. destruct (Z.leb_spec 60 m0); [discriminate|].
  destruct (expect ":" s2) as [s3|] eqn:E3; [|discriminate]. destruct (getnum true s3) as [[c0 s4]|] eqn:E4; [|discriminate].
  destruct (Z.leb_spec 60 c0); [discriminate|]. destruct (getfrac s4) as [n0 s5] eqn:E5. intros [= <- <- <- <- <-].
  apply getnum_free in E0. destruct E0 as (k & hs & K & N0 & ->). apply expect_iff in E1. subst s0.
  apply getnum_fixed in E2. destruct E2 as (ms & N2 & ->). apply expect_iff in E3. subst s2. apply getnum_fixed in E4. destruct E4 as (ss & N4 & ->).
  apply getfrac_spec in E5. destruct E5 as (fs & N5 & ->).
  eexists. split; [econstructor; eauto|]. rewrite ?app_assoc_s. cbn [append]. rewrite ?app_assoc_s. cbn [append]. rewrite ?app_assoc_s. reflexivity.
Qed.
Lemma parse_hms_back : forall t h mi sec ns r, says_clock t (Clock h mi sec ns) -> stops r ->
  parse_hms (t ++ r) = Some (h, mi, sec, ns, r).
Proof.
  intros t h mi sec ns r H S. inversion H as [k hs ms ss fs h' m' s' ns' K N1 N2 N3 N4 L1 L2 L3 E1 E2]; subst.
  unfold parse_hms. rewrite ?app_assoc_s. cbn [append]. rewrite ?app_assoc_s. cbn [append]. rewrite ?app_assoc_s.
  rewrite (getnum_free_back k h hs) by (auto; reflexivity). destruct (Z.leb_spec 24 h); [lia|]. cbn [expect Ascii.eqb Bool.eqb].
  rewrite getnum_fixed_back with (1 := N2). destruct (Z.leb_spec 60 mi); [lia|]. cbn [expect Ascii.eqb Bool.eqb].
  rewrite getnum_fixed_back with (1 := N3). destruct (Z.leb_spec 60 sec); [lia|]. rewrite getfrac_back with (1 := N4) by auto. reflexivity.
Qed.
Lemma parse_zone_iff : forall s off, parse_zone s = Some off <-> says_zone s off.
Proof.
  intros s off. split.
  - unfold parse_zone. destruct s as [|a s]; [discriminate|]. destruct (Ascii.eqb_spec a "Z") as [->|A].
    + destruct s; [|discriminate]. intros [= <-]. constructor.
    + destruct (getnum true s) as [[hr s1]|] eqn:E1; [|discriminate]. destruct (expect ":" s1) as [s2|] eqn:E2; [|discriminate].
      destruct (getnum true s2) as [[mm s3]|] eqn:E3; [|discriminate]. destruct ((24 <? hr) || (60 <? mm)) eqn:B; [discriminate|].
      destruct s3; [|discriminate]. apply orb_false_iff in B. rewrite !Z.ltb_ge in B.
      apply getnum_fixed in E1. destruct E1 as (hs & N1 & ->). apply expect_iff in E2. subst s1. apply getnum_fixed in E3. destruct E3 as (ms & N3 & ->).
      rewrite app_nil_s. destruct (Ascii.eqb_spec a "+") as [->|A1].
      * intros [= <-]. replace ((hr * 60 + mm) * 60) with (hr * 3600 + mm * 60) by lia. apply (East hs ms); auto; lia.
      * destruct (Ascii.eqb_spec a "-") as [->|]; [|discriminate]. intros [= <-].
        replace (- ((hr * 60 + mm) * 60)) with (- (hr * 3600 + mm * 60)) by lia. apply (West hs ms); auto; lia.
  - intros H. destruct H as [|hs ms h m N1 N2 L1 L2|hs ms h m N1 N2 L1 L2]; [reflexivity| |].
    + cbn [append parse_zone Ascii.eqb Bool.eqb]. rewrite getnum_fixed_back with (1 := N1). cbn [expect append Ascii.eqb Bool.eqb].
      rewrite (proj2 (getnum_fixed ms m "")) by (exists ms; rewrite app_nil_s; auto). destruct (Z.ltb_spec 24 h); [lia|]. destruct (Z.ltb_spec 60 m); [lia|].
      cbn [orb]. f_equal. lia.
    + cbn [append parse_zone Ascii.eqb Bool.eqb]. rewrite getnum_fixed_back with (1 := N1). cbn [expect append Ascii.eqb Bool.eqb].
      rewrite (proj2 (getnum_fixed ms m "")) by (exists ms; rewrite app_nil_s; auto). destruct (Z.ltb_spec 24 h); [lia|]. destruct (Z.ltb_spec 60 m); [lia|].
      cbn [orb]. f_equal. lia.
Qed.
Lemma zone_stops : forall s off, says_zone s off -> stops s.
Proof. intros s off H. destruct H; cbn; repeat split; auto; discriminate. Qed.

(** ** stamps *)
Definition st_date (t : stamp) : date := Date (st_y t) (st_m t) (st_d t).
Definition st_clock (t : stamp) : clock := Clock (st_h t) (st_mi t) (st_s t) (st_ns t).

Lemma clock_no_year : forall s c, says_clock s c -> parse_ymd s = None.
Proof.
  intros s c H. destruct H as [k hs ms ss fs h m sec ns [-> | ->] N1 N2 N3 N4 L1 L2 L3].
  - apply number1 in N1. destruct N1 as [D ->]. unfold parse_ymd, getyear. cbn [append].
    apply number2 in N2. destruct N2 as (x & y & Hx & Hy & -> & ->). cbn [append]. rewrite digit_of_digit by auto. reflexivity.
  - apply number2 in N1. destruct N1 as (x & y & Hx & Hy & -> & ->). unfold parse_ymd, getyear. cbn [append].
    apply number2 in N2. destruct N2 as (x' & y' & Hx' & Hy' & -> & ->). cbn [append]. rewrite !digit_of_digit by auto. reflexivity.
Qed.
Lemma parse_stamp_iff : forall s st, parse_stamp s = Ok st <-> says_time s (st_date st) (st_clock st) (st_off st).
Proof.
  intros s st. split.
  - unfold parse_stamp. destruct (parse_zoned s) eqn:Z1.
    { intros [= <-]. unfold parse_zoned in Z1. destruct (parse_ymd s) as [[[[y m] d] s1]|] eqn:E1; [|discriminate].
      destruct (expect "T" s1) as [s2|] eqn:E2; [|discriminate]. destruct (parse_hms s2) as [[[[[h mi] sec] ns] s3]|] eqn:E3; [|discriminate].
      destruct (parse_zone s3) eqn:E4; [|discriminate]. injection Z1 as <-. apply parse_ymd_spec in E1. destruct E1 as (ds & N1 & ->).
      apply expect_iff in E2. subst s1. apply parse_hms_spec in E3. destruct E3 as (cs & N3 & ->). apply parse_zone_iff in E4. constructor; auto. }
    destruct (parse_local s) eqn:Z2.
    { intros [= <-]. unfold parse_local in Z2. destruct (parse_ymd s) as [[[[y m] d] s1]|] eqn:E1; [|discriminate].
      destruct (expect "T" s1) as [s2|] eqn:E2; [|discriminate]. destruct (parse_hms s2) as [[[[[h mi] sec] ns] s3]|] eqn:E3; [|discriminate].
      destruct s3; [|discriminate]. injection Z2 as <-. apply parse_ymd_spec in E1. destruct E1 as (ds & N1 & ->).
      apply expect_iff in E2. subst s1. apply parse_hms_spec in E3. destruct E3 as (cs & N3 & ->). rewrite app_nil_s. constructor; auto. }
    destruct (parse_clock s) eqn:Z3; [|discriminate].
    intros [= <-]. unfold parse_clock in Z3. destruct (parse_hms s) as [[[[[h mi] sec] ns] s3]|] eqn:E3; [|discriminate].
    destruct s3; [|discriminate]. injection Z3 as <-. apply parse_hms_spec in E3. destruct E3 as (cs & N3 & ->). rewrite app_nil_s. constructor; auto.
  - destruct st as [y m d h mi sec ns off]. unfold st_date, st_clock. cbn [st_y st_m st_d st_h st_mi st_s st_ns st_off]. intros H.
    inversion H as [ds cs zs x c o N1 N2 N3 E1 E2 E3 E4|ds cs x c N1 N2 E1 E2 E3 E4|cs c N E1 E2 E3 E4]; subst; unfold parse_stamp.
    + unfold parse_zoned. rewrite parse_ymd_back with (1 := N1). cbn [append expect Ascii.eqb Bool.eqb].
      rewrite parse_hms_back with (1 := N2) by (eapply zone_stops; eauto). rewrite (proj2 (parse_zone_iff _ _) N3). reflexivity.
    + assert (P : parse_hms cs = Some (h, mi, sec, ns, ""%string)) by (rewrite <- (app_nil_s cs); apply parse_hms_back; auto; exact I).
      unfold parse_zoned, parse_local. rewrite parse_ymd_back with (1 := N1). cbn [append expect Ascii.eqb Bool.eqb]. rewrite P. reflexivity.
    + assert (P : parse_hms s = Some (h, mi, sec, ns, ""%string)) by (rewrite <- (app_nil_s s); apply parse_hms_back; auto; exact I).
      unfold parse_zoned, parse_local, parse_clock. rewrite clock_no_year with (1 := N). rewrite P. reflexivity.
Qed.
Lemma parse_stamp_total : forall s, (exists st, parse_stamp s = Ok st) \/ parse_stamp s = Err.
Proof.
  intros s. unfold parse_stamp. destruct (parse_zoned s); eauto. destruct (parse_local s); eauto. destruct (parse_clock s); eauto.
Qed.
Lemma says_date_valid : forall s x, says_date s x -> valid_date x /\ 0 <= d_year x <= 9999.
Proof. intros s x H. destruct H as [ys ms ds y m d N1 N2 N3 V]. split; auto. apply number_bound in N1. cbn in *. lia. Qed.
Lemma says_clock_bounds : forall s c, says_clock s c ->
  0 <= c_hour c < 24 /\ 0 <= c_min c < 60 /\ 0 <= c_sec c < 60 /\ 0 <= c_nano c < 10 ^ 9.
Proof.
  intros s c H. destruct H as [k hs ms ss fs h m sec ns K N1 N2 N3 N4 L1 L2 L3]. cbn [c_hour c_min c_sec c_nano].
  apply number_bound in N1, N2, N3. split; [lia|]. split; [lia|]. split; [lia|].
  destruct N4 as [|sep j v ds SP N]; [lia|]. apply number_bound in N. set (q := 10 ^ Z.of_nat (S j)) in *. assert (0 < q) by (unfold q; apply Z.pow_pos_nonneg; lia).
  split; [apply Z.div_pos; lia|]. apply Z.div_lt_upper_bound; lia.
Qed.
Lemma says_time_bounds : forall s x c off, says_time s x c off ->
  valid_date x /\ 0 <= d_year x <= 9999 /\ (0 <= c_hour c < 24 /\ 0 <= c_min c < 60 /\ 0 <= c_sec c < 60 /\ 0 <= c_nano c < 10 ^ 9) /\ - 90000 <= off <= 90000.
Proof.
  intros s x c off H. destruct H as [ds cs zs x c off H1 H2 H3|ds cs x c H1 H2|cs c H1].
  - apply says_date_valid in H1. apply says_clock_bounds in H2. split; [tauto|]. split; [tauto|]. split; [auto|].
    destruct H3 as [|? ? ? ? N1 N2|? ? ? ? N1 N2]; try lia; apply number_bound in N1, N2; cbn in *; lia.
  - apply says_date_valid in H1. apply says_clock_bounds in H2. split; [tauto|]. split; [tauto|]. split; [auto|]. lia.
  - apply says_clock_bounds in H1. split; [apply valid_iff; cbn; lia|]. cbn [d_year]. split; [lia|]. split; auto. lia.
Qed.

(** ** printing *)
Lemma cut_zeros_snoc : forall s c, cut_zeros (s ++ String c "") = if Ascii.eqb c "0" then cut_zeros s else (s ++ String c "")%string.
Proof.
  induction s as [|a s IH]; intros c; cbn [append cut_zeros].
  - destruct (Ascii.eqb c "0"); auto.
  - rewrite IH. destruct (Ascii.eqb c "0"); auto. destruct s; reflexivity.
Qed.
Lemma cut_zeros_number : forall k z s, number k z s -> exists j z', number j z' (cut_zeros s) /\ (j <= k)%nat /\ z = z' * 10 ^ (Z.of_nat k - Z.of_nat j).
Proof.
  intros k z s H. induction H as [|k z s d H (j & z' & N & L & E) B].
  - exists 0%nat, 0. split; [constructor|]. cbn. lia.
  - rewrite cut_zeros_snoc. destruct (Ascii.eqb_spec (digit d) "0").
    + assert (d = 0) by (digits B; auto; discriminate). subst d. exists j, z'. split; auto. split; [lia|].
      rewrite E, Nat2Z.inj_succ, <- Z.add_1_r. replace (Z.of_nat k + 1 - Z.of_nat j) with (1 + (Z.of_nat k - Z.of_nat j)) by lia.
      rewrite Z.pow_add_r by lia. lia.
    + exists (S k), (10 * z + d). split; [constructor; auto|]. split; auto. rewrite Z.sub_diag. cbn. lia.
Qed.
Lemma frac9_says : forall ns, 0 <= ns < 10 ^ 9 -> says_fraction (frac9 ns) ns.
Proof.
  intros ns H. unfold frac9. destruct (cut_zeros_number 9 ns (fixed 9 ns)) as (j & z & N & L & E); [apply fixed_number; auto|].
  destruct (cut_zeros (fixed 9 ns)) as [|a s] eqn:C.
  - inversion N; subst; [constructor|]. destruct s; discriminate.
  - destruct j as [|j]; [inversion N|].
    replace ns with (z * 10 ^ 9 / 10 ^ Z.of_nat (S j)).
    + apply (Fraction "." j z (String a s)); auto.
    + rewrite E. change (Z.of_nat 9) with 9. replace (z * 10 ^ 9) with (z * 10 ^ (9 - Z.of_nat (S j)) * 10 ^ Z.of_nat (S j)).
      * apply Z.div_mul. apply Z.pow_nonzero; lia.
      * rewrite <- Z.mul_assoc, <- Z.pow_add_r by lia. do 2 f_equal. lia.
Qed.
Lemma frac0_says : forall k ns, (1 <= k <= 9)%nat -> 0 <= ns < 10 ^ 9 ->
  says_fraction (frac0 k ns) (ns / 10 ^ (9 - Z.of_nat k) * 10 ^ (9 - Z.of_nat k)).
Proof.
  intros k ns K H. unfold frac0. set (v := ns / 10 ^ (9 - Z.of_nat k)).
  assert (P : 0 < 10 ^ (9 - Z.of_nat k)) by (apply Z.pow_pos_nonneg; lia).
  assert (Q : 10 ^ 9 = 10 ^ (9 - Z.of_nat k) * 10 ^ Z.of_nat k) by (rewrite <- Z.pow_add_r by lia; f_equal; lia).
  assert (V : 0 <= v < 10 ^ Z.of_nat k).
  { unfold v. split; [apply Z.div_pos; lia|]. apply Z.div_lt_upper_bound; auto. rewrite <- Q. lia. }
  destruct k as [|j]; [lia|].
  replace (v * 10 ^ (9 - Z.of_nat (S j))) with (v * 10 ^ 9 / 10 ^ Z.of_nat (S j)).
  - apply (Fraction "." j v); auto. apply fixed_number; auto.
  - rewrite Q, Z.mul_assoc. apply Z.div_mul. apply Z.pow_nonzero; lia.
Qed.

Lemma clock_of_bounds : forall t h m s, clock_of t = (h, m, s) ->
  0 <= h < 24 /\ 0 <= m < 60 /\ 0 <= s < 60 /\ h * 3600 + m * 60 + s = t_sec t mod 86400.
Proof.
  intros t h m s E. unfold clock_of in E. cbv zeta in E. injection E as <- <- <-. pose proof (Z.mod_pos_bound (t_sec t) 86400 ltac:(lia)) as B.
  generalize dependent (t_sec t mod 86400). intros z B. clear t. Z.to_euclidean_division_equations; lia.
Qed.
Lemma format_clock_says : forall t fs ns, says_fraction fs ns ->
  exists h m s, says_clock (format_clock t ++ fs) (Clock h m s ns) /\ h * 3600 + m * 60 + s = t_sec t mod 86400 /\
    0 <= h < 24 /\ 0 <= m < 60 /\ 0 <= s < 60.
Proof.
  intros t fs ns H. unfold format_clock. destruct (clock_of t) as [[h m] s] eqn:E. apply clock_of_bounds in E. destruct E as (B1 & B2 & B3 & B4).
  exists h, m, s. split; [|auto]. rewrite ?app_assoc_s. cbn [append]. rewrite ?app_assoc_s. cbn [append].
  apply (Says_clock 2); auto; try (apply append_int_number; cbn; lia); lia.
Qed.
Lemma format_date_says : forall t, 0 <= d_year (date_of (t_sec t / 86400)) <= 9999 ->
  says_date (format_date t) (date_of (t_sec t / 86400)).
Proof.
  intros t. destruct (date_of_right (t_sec t / 86400)) as [V _]. unfold format_date. unfold date_of in *. destruct (civil (t_sec t / 86400)) as [[y m] d].
  cbn [d_year]. intros H. pose proof V as V'. apply valid_iff in V'. destruct V' as [V1 V2].
  assert (days_in y m <= 31) by (unfold days_in; repeat match goal with |- context [if ?b then _ else _] => destruct b end; lia).
  constructor; auto; apply append_int_number; cbn; lia.
Qed.
Lemma date_text_says : forall n, 0 <= d_year (date_of n) <= 9999 -> says_date (date_text n) (date_of n).
Proof.
  intros n. destruct (date_of_right n) as [V _]. unfold date_text. unfold date_of in *. destruct (civil n) as [[y m] d].
  cbn [d_year]. intros H. pose proof V as V'. apply valid_iff in V'. destruct V' as [V1 V2].
  assert (days_in y m <= 31) by (unfold days_in; repeat match goal with |- context [if ?b then _ else _] => destruct b end; lia).
  constructor; auto; apply sprintf_number; cbn; lia.
Qed.

(** years that do not have four digits are not read *)
Lemma digits_value_str : forall s a v, digits_value a s = Some v -> exists ds, s = str ds /\ Forall dig ds /\ v = a * 10 ^ Z.of_nat (length ds) + val ds.
Proof.
  induction s as [|c s IH]; intros a v; cbn [digits_value].
  - intros [= <-]. exists []. cbn. split; auto. split; auto. lia.
  - destruct (digit_of c) eqn:C; [|discriminate]. intros H. apply IH in H. destruct H as (ds & -> & F & ->). apply digit_of_iff in C. destruct C as [C ->].
    exists (z :: ds). split; auto. split; auto. change (z :: ds) with ([z] ++ ds). rewrite val_app. change (val [z]) with (10 * 0 + z).
    cbn [length app]. rewrite Nat2Z.inj_succ, Z.pow_succ_r by lia. lia.
Qed.

Lemma string_of_Z_digits : forall z, 0 <= z -> exists ds, string_of_Z z = str ds /\ Forall dig ds /\ val ds = z.
Proof.
  intros z H. unfold string_of_Z. assert (Z.of_int (Z.to_int z) = z) as E by apply DecimalZ.of_to.
  destruct (Z.to_int z) as [d|d] eqn:I.
  - cbn [DecimalString.NilZero.string_of_int]. cbn [Z.of_int] in E. destruct d as [|d|d|d|d|d|d|d|d|d|d];
      [exists [0]; cbn in *; subst; split; auto; split; [repeat constructor; unfold dig; lia|auto]|..];
      (match goal with |- context [DecimalString.NilZero.string_of_uint ?u] =>
        change (DecimalString.NilZero.string_of_uint u) with (DecimalString.NilEmpty.string_of_uint u);
        destruct (digits_value_str _ _ _ (FuncTypeProofs.digits_value_uint u 0)) as (ds & S1 & S2 & S3); exists ds; rewrite S1; split; auto; split; auto;
        rewrite FuncTypeProofs.uval_zero, E in S3; lia end).
  - destruct z as [|p|p]; try discriminate; lia.
Qed.
Lemma long_year : forall y, 10000 <= y -> exists a b c d e r, string_of_Z y = String (digit a) (String (digit b) (String (digit c) (String (digit d) (String (digit e) r)))) /\ Forall dig [a; b; c; d; e].
Proof.
  intros y H. destruct (string_of_Z_digits y) as (ds & E & F & V); [lia|]. pose proof (val_bound _ F) as B. rewrite V in B.
  destruct ds as [|a [|b [|c [|d [|e ds]]]]]; cbn [length Z.of_nat] in B; try (cbn in B; lia).
  exists a, b, c, d, e, (str ds). split; auto.
  repeat match goal with H : Forall dig (_ :: _) |- _ => inversion H; clear H; subst end. repeat (constructor; auto).
Qed.
(** a year of at least five digits, or of a sign *)
Lemma bad_year : forall y ys r, y < 0 \/ 9999 < y -> (ys = append_int 4 y \/ ys = sprintf_0d 4 y) ->
  parse_ymd (ys ++ r) = None /\ parse_hms (ys ++ r) = None.
Proof.
  intros y ys r [H|H] Y.
  - assert (exists s, ys = String "-" s) as (s & ->).
    { unfold append_int, sprintf_0d in Y. destruct (Z.ltb_spec y 0); [|lia]. destruct Y as [-> | ->]; eauto. }
    cbn [append]. split; [|reflexivity]. unfold parse_ymd. cbn [getyear]. destruct (s ++ r)%string as [|b [|c [|d s']]]; reflexivity.
  - assert (ys = string_of_Z y) as ->.
    { unfold append_int, sprintf_0d, pad in Y. destruct (Z.ltb_spec y 0); [lia|]. change (10 ^ Z.of_nat 4) with 10000 in Y. destruct (Z.ltb_spec y 10000); [lia|]. tauto. }
    destruct (long_year y) as (a & b & c & d & e & r' & -> & F); [lia|].
    repeat match goal with H : Forall dig (_ :: _) |- _ => inversion H; clear H; subst end. cbn [append].
    unfold parse_ymd, parse_hms. cbn [getyear getnum]. rewrite !digit_of_digit by auto. cbn [expect].
    assert (X : forall x k, 0 <= x <= 9 -> (k = "-"%char \/ k = ":"%char) -> Ascii.eqb (digit x) k = false).
    { intros x k Hx [-> | ->]; digits Hx; reflexivity. }
    rewrite !X by auto. split; auto. destruct (24 <=? _); auto.
Qed.
Lemma bad_year_stamp : forall y ys r, y < 0 \/ 9999 < y -> ys = append_int 4 y -> parse_stamp (ys ++ r) = Err.
Proof.
  intros y ys r H Y. destruct (bad_year y ys r H (or_introl Y)) as [E1 E2].
  unfold parse_stamp, parse_zoned, parse_local, parse_clock. rewrite E1, E2. auto.
Qed.
(** a blank between date and time is not read *)
Lemma blank_stamp : forall ds x r, says_date ds x -> parse_stamp (ds ++ String " " r) = Err.
Proof.
  intros ds x r H. destruct x as [y m d]. unfold parse_stamp, parse_zoned, parse_local, parse_clock.
  rewrite parse_ymd_back with (1 := H). cbn [expect Ascii.eqb Bool.eqb].
  assert (parse_hms (ds ++ String " " r) = None) as ->; auto.
  inversion H as [ys ms ds' y' m' d' N1 N2 N3 V E1 E2]; subst. apply number4 in N1. destruct N1 as (a & b & c & e & Ha & Hb & Hc & He & _ & ->).
  cbn [append]. unfold parse_hms. cbn [getnum]. rewrite !digit_of_digit by auto. destruct (24 <=? _); auto. cbn [expect].
  assert (Ascii.eqb (digit c) ":" = false) as -> by (digits Hc; reflexivity). auto.
Qed.
