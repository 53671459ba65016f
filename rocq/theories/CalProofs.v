(** Proofs about the calendar: day numbers and dates. *)

From Coq Require Import ZArith Bool String Ascii List Lia.
From Verif Require Import Base TimeModel CalModel CalSpec.
Import ListNotations.
Local Open Scope Z_scope.

Lemma is_leap_iff : forall y, is_leap y = true <-> leap y.
Proof.
  intros y. unfold is_leap, leap. rewrite andb_true_iff, orb_true_iff, negb_true_iff, Z.eqb_eq, Z.eqb_neq, Z.eqb_eq.
  rewrite !Z.mod_divide by lia. tauto.
Qed.
Lemma month_has_iff : forall y m k, month_has y m k <-> 1 <= m <= 12 /\ k = days_in y m.
Proof.
  intros y m k. split.
  - intros H. destruct H as [y m H|y m H|y H|y H].
    + cbn in H. intuition (subst; cbn; auto; lia).
    + cbn in H. intuition (subst; cbn; auto; lia).
    + split; [lia|]. unfold days_in. cbn. apply is_leap_iff in H. rewrite H. auto.
    + split; [lia|]. unfold days_in. cbn. destruct (is_leap y) eqn:E; auto. apply is_leap_iff in E. contradiction.
  - intros [H ->].
    assert (C : In m [1; 3; 5; 7; 8; 10; 12] \/ In m [4; 6; 9; 11] \/ m = 2) by (cbn; lia).
    destruct C as [C|[C| ->]].
    + replace (days_in y m) with 31; [constructor; auto|]. cbn in C. intuition (subst; reflexivity).
    + replace (days_in y m) with 30; [constructor; auto|]. cbn in C. intuition (subst; reflexivity).
    + unfold days_in. cbn. destruct (is_leap y) eqn:E; constructor; [apply is_leap_iff; auto|]. intros H1. apply is_leap_iff in H1. congruence.
Qed.
Lemma valid_iff : forall y m d, valid_date (Date y m d) <-> 1 <= m <= 12 /\ 1 <= d <= days_in y m.
Proof.
  intros. unfold valid_date. cbn [d_year d_month d_day]. split.
  - intros (k & H & H1). apply month_has_iff in H. destruct H as [H ->]. auto.
  - intros [H H1]. exists (days_in y m). split; auto. apply month_has_iff. auto.
Qed.

Definition number_of (x : date) : Z := day_number (d_year x) (d_month x) (d_day x).

Lemma months_step : forall y m, 1 <= m < 12 ->
  days_before (m + 1) + (if is_leap y && (2 <? m + 1) then 1 else 0) =
  days_before m + (if is_leap y && (2 <? m) then 1 else 0) + days_in y m.
Proof.
  intros y m H.
  assert (C : m = 1 \/ m = 2 \/ m = 3 \/ m = 4 \/ m = 5 \/ m = 6 \/ m = 7 \/ m = 8 \/ m = 9 \/ m = 10 \/ m = 11) by lia.
  destruct C as [->|[->|[->|[->|[->|[->|[->|[->|[->|[->| ->]]]]]]]]]]; unfold days_in; destruct (is_leap y); reflexivity.
Qed.
Lemma years_step : forall y,
  365 * y + y / 4 - y / 100 + y / 400 = 365 * (y - 1) + (y - 1) / 4 - (y - 1) / 100 + (y - 1) / 400 + 365 + (if is_leap y then 1 else 0).
Proof.
  intros y. unfold is_leap.
  destruct (Z.eqb_spec (y mod 4) 0), (Z.eqb_spec (y mod 100) 0), (Z.eqb_spec (y mod 400) 0); cbn [andb orb negb]; Z.to_euclidean_division_equations; lia.
Qed.

Lemma tomorrow_number : forall x y, tomorrow x y -> number_of y = number_of x + 1.
Proof.
  intros x y H. destruct H as [y m d k Hk Hd|y m k Hk Hm|y]; unfold number_of; cbn [d_year d_month d_day]; unfold day_number.
  - lia.
  - apply month_has_iff in Hk. destruct Hk as [Hk ->]. assert (S := months_step y m ltac:(lia)). lia.
  - assert (S := years_step y). replace (y + 1 - 1) with y by lia.
    change (days_before 1) with 0. change (days_before 12) with 334. change (2 <? 1) with false. change (2 <? 12) with true.
    rewrite andb_false_r, andb_true_r. lia.
Qed.
Lemma tomorrow_valid : forall x y, tomorrow x y -> valid_date x /\ valid_date y.
Proof.
  intros x y H. destruct H as [y m d k Hk Hd|y m k Hk Hm|y].
  - apply month_has_iff in Hk. destruct Hk as [Hk ->]. rewrite !valid_iff. lia.
  - apply month_has_iff in Hk. destruct Hk as [Hk ->]. rewrite !valid_iff. split; [|split; [lia|]]; unfold days_in;
    repeat match goal with |- context [if ?b then _ else _] => destruct b end; lia.
  - rewrite !valid_iff. unfold days_in. cbn. lia.
Qed.

(** ** civil *)

Definition before (y : Z) : Z := 365 * (y - 1) + (y - 1) / 4 - (y - 1) / 100 + (y - 1) / 400.

(** the month of a day of the year, checked for the 366 days *)
Definition month_day (l : bool) (yday : Z) : Z * Z :=
  if l && (yday =? 59) then (2, 29)
  else
    let day := if l && (59 <? yday) then yday - 1 else yday in
    let m := day / 31 in
    let m := if (if m =? 11 then 365 else days_before (m + 2)) <=? day then m + 2 else m + 1 in
    (m, day - days_before m + 1).
Definition len (l : bool) (m : Z) : Z :=
  if m =? 2 then (if l then 29 else 28) else if (m =? 4) || (m =? 6) || (m =? 9) || (m =? 11) then 30 else 31.
Definition good_day (l : bool) (yday : Z) : bool :=
  let '(m, d) := month_day l yday in
  (1 <=? m) && (m <=? 12) && (1 <=? d) && (d <=? len l m) &&
  (days_before m + (if l && (2 <? m) then 1 else 0) + (d - 1) =? yday).
Lemma good_days : forall (l : bool) (yday : Z), 0 <= yday < (if l then 366 else 365) -> good_day l yday = true.
Proof.
  intros l yday H.
  assert (F : forallb (fun n : nat => good_day true (Z.of_nat n)) (seq 0 366) = true) by (vm_compute; reflexivity).
  assert (G : forallb (fun n : nat => good_day false (Z.of_nat n)) (seq 0 365) = true) by (vm_compute; reflexivity).
  rewrite forallb_forall in F, G. rewrite <- (Z2Nat.id yday) by lia. destruct l; [apply F|apply G]; apply in_seq; lia.
Qed.

Lemma civil_split : forall n, exists y yday, civil n = (y, fst (month_day (is_leap y) yday), snd (month_day (is_leap y) yday)) /\
  0 <= yday < (if is_leap y then 366 else 365) /\ before y + yday = n + 719162.
Proof.
  intros n. unfold civil. cbv zeta. set (d := n + 719162). set (n400 := d / 146097). set (d1 := d - 146097 * n400).
  set (n100 := d1 / 36524 - d1 / 36524 / 4). set (d2 := d1 - 36524 * n100). set (n4 := d2 / 1461). set (d3 := d2 - 1461 * n4).
  set (n1 := d3 / 365 - d3 / 365 / 4). set (y := 400 * n400 + 100 * n100 + 4 * n4 + n1 + 1).
  exists y, (d3 - 365 * n1). split.
  { unfold month_day. destruct (is_leap y && (d3 - 365 * n1 =? 59)); reflexivity. }
  assert (B1 : 0 <= d1 < 146097) by (unfold d1, n400; Z.to_euclidean_division_equations; lia).
  assert (B2 : 0 <= n100 <= 3 /\ 0 <= d2 /\ (n100 < 3 -> d2 < 36524) /\ d2 < 36525).
  { unfold d2, n100. clearbody d1. clear - B1. Z.to_euclidean_division_equations; lia. }
  assert (B3 : 0 <= n4 <= 24 /\ 0 <= d3 < 1461 /\ (n4 = 24 -> n100 < 3 -> d3 < 1460)).
  { unfold d3, n4. clearbody d2. clear - B2. Z.to_euclidean_division_equations; lia. }
  assert (B4 : 0 <= n1 <= 3 /\ 0 <= d3 - 365 * n1 /\ (n1 < 3 -> d3 - 365 * n1 < 365) /\ d3 - 365 * n1 < 366 /\
               (n1 = 3 -> d3 < 1460 -> d3 - 365 * n1 < 365)).
  { unfold n1. clearbody d3. clear - B3. Z.to_euclidean_division_equations; lia. }
  assert (Q : before y = 146097 * n400 + 36524 * n100 + 1461 * n4 + 365 * n1).
  { unfold before. replace (y - 1) with (400 * n400 + 100 * n100 + 4 * n4 + n1) by (unfold y; lia).
    clearbody n400 n100 n4 n1. clear - B2 B3 B4. Z.to_euclidean_division_equations; lia. }
  assert (D : d = 146097 * n400 + 36524 * n100 + 1461 * n4 + d3) by (unfold d3, d2, d1; lia).
  split; [|lia].
  assert (L : is_leap y = true <-> n1 = 3 /\ (n4 = 24 -> n100 = 3)).
  { unfold is_leap. rewrite andb_true_iff, orb_true_iff, negb_true_iff, Z.eqb_eq, Z.eqb_neq, Z.eqb_eq. unfold y.
    clearbody n400 n100 n4 n1. clear - B2 B3 B4. Z.to_euclidean_division_equations; lia. }
  destruct (is_leap y).
  - split; lia.
  - split; [lia|]. destruct (Z.eq_dec n1 3); [|lia]. assert (n4 = 24 /\ n100 < 3) by (clear - L e B2 B3; intuition lia). lia.
Qed.

Lemma civil_right : forall n y m d, civil n = (y, m, d) -> valid_date (Date y m d) /\ day_number y m d = n.
Proof.
  intros n y m d E. destruct (civil_split n) as (y' & yd & E1 & H & B). rewrite E1 in E. injection E as <- <- <-.
  assert (G := good_days _ _ H). unfold good_day in G. destruct (month_day (is_leap y') yd) as [m d]. cbn [fst snd].
  rewrite !andb_true_iff, !Z.leb_le, Z.eqb_eq in G. rewrite valid_iff. unfold days_in, len in *. split; [lia|].
  unfold day_number. unfold before in B. cbv zeta. lia.
Qed.

Lemma number_in_year : forall y m d, valid_date (Date y m d) ->
  exists yday, day_number y m d + 719162 = before y + yday /\ 0 <= yday < (if is_leap y then 366 else 365) /\
    yday = days_before m + (if is_leap y && (2 <? m) then 1 else 0) + (d - 1).
Proof.
  intros y m d V. apply valid_iff in V. destruct V as [Hm Hd]. eexists. split; [|split; [|reflexivity]].
  - unfold day_number, before. cbv zeta. lia.
  - assert (C : m = 1 \/ m = 2 \/ m = 3 \/ m = 4 \/ m = 5 \/ m = 6 \/ m = 7 \/ m = 8 \/ m = 9 \/ m = 10 \/ m = 11 \/ m = 12) by lia.
    unfold days_in in Hd.
    destruct C as [->|[->|[->|[->|[->|[->|[->|[->|[->|[->|[->| ->]]]]]]]]]]]; destruct (is_leap y);
    cbv [days_before Z.eqb Pos.eqb Z.ltb Z.compare Pos.compare Pos.compare_cont andb orb] in *; lia.
Qed.

Lemma before_step : forall y, before (y + 1) = before y + (if is_leap y then 366 else 365).
Proof. intros y. unfold before. replace (y + 1 - 1) with y by lia. rewrite years_step. destruct (is_leap y); lia. Qed.
Lemma before_mono : forall y y', y < y' -> before y + (if is_leap y then 366 else 365) <= before y'.
Proof.
  intros y y' H. rewrite <- before_step. assert (y + 1 <= y') by lia. clear H. unfold before.
  generalize dependent (y + 1). intros z H. Z.to_euclidean_division_equations. lia.
Qed.
Lemma months_differ : forall y m d m' d', valid_date (Date y m d) -> valid_date (Date y m' d') -> m < m' ->
  days_before m + (if is_leap y && (2 <? m) then 1 else 0) + (d - 1) <
  days_before m' + (if is_leap y && (2 <? m') then 1 else 0) + (d' - 1).
Proof.
  intros y m d m' d' V V' H. apply valid_iff in V, V'.
  assert (M : forall k, 0 <= k -> m + 1 + k <= 12 -> days_before (m + 1) + (if is_leap y && (2 <? m + 1) then 1 else 0) <=
     days_before (m + 1 + k) + (if is_leap y && (2 <? m + 1 + k) then 1 else 0)).
  { intros k Hk. pattern k. apply natlike_ind; auto; [intros _; rewrite Z.add_0_r; lia|]. intros x Hx IH Hb.
    assert (IH1 := IH ltac:(lia)). assert (S := months_step y (m + 1 + x) ltac:(lia)). unfold Z.succ. rewrite Z.add_assoc, S.
    assert (0 <= days_in y (m + 1 + x)) by (unfold days_in; repeat match goal with |- context [if ?b then _ else _] => destruct b end; lia). lia. }
  specialize (M (m' - m - 1) ltac:(lia) ltac:(lia)). replace (m + 1 + (m' - m - 1)) with m' in M by lia.
  assert (S := months_step y m ltac:(lia)). lia.
Qed.
Lemma number_injective : forall x x', valid_date x -> valid_date x' -> number_of x = number_of x' -> x = x'.
Proof.
  intros [y m d] [y' m' d'] V V' E. unfold number_of in E. cbn [d_year d_month d_day] in E.
  destruct (number_in_year _ _ _ V) as (yd & E1 & B1 & Q1). destruct (number_in_year _ _ _ V') as (yd' & E2 & B2 & Q2).
  destruct (Z.lt_total y y') as [L|[L|L]].
  - assert (M := before_mono _ _ L). lia.
  - subst y'. assert (yd = yd') by lia. subst yd'.
    destruct (Z.lt_total m m') as [L|[L|L]].
    + assert (D := months_differ _ _ _ _ _ V V' L). lia.
    + subst m'. f_equal. lia.
    + assert (D := months_differ _ _ _ _ _ V' V L). lia.
  - assert (M := before_mono _ _ L). lia.
Qed.
Lemma civil_number : forall y m d, valid_date (Date y m d) -> civil (day_number y m d) = (y, m, d).
Proof.
  intros y m d V. destruct (civil (day_number y m d)) as [[y' m'] d'] eqn:E. apply civil_right in E. destruct E as [V' E].
  assert (Date y' m' d' = Date y m d) by (apply number_injective; auto). congruence.
Qed.

(** ** the calendar *)
Lemma tomorrow_exists : forall x, valid_date x -> exists y, tomorrow x y.
Proof.
  intros [y m d] V. apply valid_iff in V. destruct V as [Hm Hd].
  assert (M : month_has y m (days_in y m)) by (apply month_has_iff; auto).
  destruct (Z.eq_dec d (days_in y m)) as [->|N].
  - destruct (Z.eq_dec m 12) as [->|N]; [|exists (Date y (m + 1) 1); constructor; auto; lia].
    exists (Date (y + 1) 1 1). unfold days_in. cbn. constructor.
  - exists (Date y m (d + 1)). econstructor; eauto. lia.
Qed.
Definition date_of (n : Z) : date := let '(y, m, d) := civil n in Date y m d.
Lemma date_of_right : forall n, valid_date (date_of n) /\ number_of (date_of n) = n.
Proof. intros n. unfold date_of. destruct (civil n) as [[y m] d] eqn:E. apply civil_right in E. exact E. Qed.
Lemma date_step : forall n, tomorrow (date_of n) (date_of (n + 1)).
Proof.
  intros n. destruct (date_of_right n) as [V E]. destruct (tomorrow_exists _ V) as [y T].
  replace (date_of (n + 1)) with y; auto. assert (E1 := tomorrow_number _ _ T). apply tomorrow_valid in T. destruct (date_of_right (n + 1)) as [V1 E2].
  apply number_injective; [tauto|auto|lia].
Qed.
Lemma calendar_date_of : forall n, calendar n (date_of n).
Proof.
  assert (Up : forall k, 0 <= k -> calendar k (date_of k)).
  { apply natlike_ind; [exact Epoch|]. intros x Hx IH. unfold Z.succ. eapply Later; eauto. apply date_step. }
  assert (Down : forall k, 0 <= k -> calendar (- k) (date_of (- k))).
  { apply natlike_ind; [exact Epoch|]. intros x Hx IH. replace (- Z.succ x) with (- x - 1) by lia.
    eapply Earlier; [|apply date_step]. replace (- x - 1 + 1) with (- x) by lia. auto. }
  intros n. destruct (Z_le_dec 0 n); [apply Up; auto|]. replace n with (- (- n)) by lia. apply Down. lia.
Qed.
Lemma calendar_iff : forall n x, calendar n x <-> valid_date x /\ number_of x = n.
Proof.
  intros n x. split.
  - intros H. induction H as [|n x y H [V IH] T|n x y H [V IH] T].
    + split; [apply valid_iff; cbn; lia|reflexivity].
    + assert (E := tomorrow_number _ _ T). apply tomorrow_valid in T. split; [tauto|lia].
    + assert (E := tomorrow_number _ _ T). apply tomorrow_valid in T. split; [tauto|lia].
  - intros [V E]. replace x with (date_of n); [apply calendar_date_of|]. destruct (date_of_right n). apply number_injective; auto. congruence.
Qed.
