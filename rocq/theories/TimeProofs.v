From Coq Require Import List ZArith Bool Lia String Ascii.
From Verif Require Import Base TimeModel TimeSpec.
Import ListNotations.
Local Open Scope Z_scope.

Lemma wrap_id : forall bits z, 0 < bits -> in_int bits z -> wrap bits z = z.
Proof.
  intros bits z Hb [H1 H2]. unfold wrap. 
  replace (2 ^ bits) with (2 * 2 ^ (bits - 1)).
  - rewrite Z.mod_small; lia.
  - rewrite <- Z.pow_succ_r by lia. f_equal. lia.
Qed.

Lemma wrap_range : forall bits z, 0 < bits -> in_int bits (wrap bits z).
Proof.
  intros bits z Hb. unfold wrap, in_int.
  assert (E : 2 ^ bits = 2 * 2 ^ (bits - 1)) by (rewrite <- Z.pow_succ_r by lia; f_equal; lia).
  assert (0 < 2 ^ (bits - 1)) by (apply Z.pow_pos_nonneg; lia).
  pose proof (Z.mod_pos_bound (z + 2 ^ (bits - 1)) (2 ^ bits) ltac:(lia)). lia.
Qed.

Lemma wrap_cong : forall bits z, 0 < bits -> exists k, wrap bits z = z + k * 2 ^ bits.
Proof.
  intros bits z Hb. unfold wrap.
  assert (0 < 2 ^ bits) by (apply Z.pow_pos_nonneg; lia).
  exists (- ((z + 2 ^ (bits - 1)) / 2 ^ bits)).
  pose proof (Z_div_mod_eq_full (z + 2 ^ (bits - 1)) (2 ^ bits)). lia.
Qed.

Lemma wrap_eq : forall bits a k, 0 < bits -> wrap bits (a + k * 2 ^ bits) = wrap bits a.
Proof.
  intros bits a k Hb. unfold wrap. f_equal.
  replace (a + k * 2 ^ bits + 2 ^ (bits - 1)) with ((a + 2 ^ (bits - 1)) + k * 2 ^ bits) by lia.
  apply Z_mod_plus_full.
Qed.

Lemma wrap_add_l : forall bits a b, 0 < bits -> wrap bits (wrap bits a + b) = wrap bits (a + b).
Proof.
  intros bits a b Hb. destruct (wrap_cong bits a Hb) as [k ->].
  replace (a + k * 2 ^ bits + b) with ((a + b) + k * 2 ^ bits) by lia. apply wrap_eq; auto.
Qed.
Lemma wrap_add_r : forall bits a b, 0 < bits -> wrap bits (a + wrap bits b) = wrap bits (a + b).
Proof. intros. rewrite Z.add_comm, wrap_add_l by auto. f_equal. lia. Qed.
Lemma wrap_mul_l : forall bits a b, 0 < bits -> wrap bits (wrap bits a * b) = wrap bits (a * b).
Proof.
  intros bits a b Hb. destruct (wrap_cong bits a Hb) as [k ->].
  replace ((a + k * 2 ^ bits) * b) with (a * b + (k * b) * 2 ^ bits) by ring. apply wrap_eq; auto.
Qed.

Lemma in_int64 : forall z, in_int 64 z <-> -9223372036854775808 <= z < 9223372036854775808.
Proof. intros z. unfold in_int. change (2 ^ (64 - 1)) with 9223372036854775808. tauto. Qed.

Lemma p_cases : forall p, 0 <= p <= 9 ->
  p = 0 \/ p = 1 \/ p = 2 \/ p = 3 \/ p = 4 \/ p = 5 \/ p = 6 \/ p = 7 \/ p = 8 \/ p = 9.
Proof. intros. lia. Qed.

(** [time_unix] with a small nanosecond argument *)
Lemma time_unix_spec : forall s n, - 10 ^ 9 < n < 10 ^ 9 ->
  - 2 ^ 63 < s < 2 ^ 63 \/ in_int 64 s /\ 0 <= n ->
  time_ok (time_unix s n) /\ instant (time_unix s n) = s * 10 ^ 9 + n.
Proof.
  intros s n Hn Hs. change (10 ^ 9) with 1000000000 in *. change (2 ^ 63) with 9223372036854775808 in *.
  unfold time_unix.
  destruct ((n <? 0) || (1000000000 <=? n)) eqn:E.
  - assert (n < 0) by (apply orb_true_iff in E; rewrite Z.ltb_lt, Z.leb_le in E; lia).
    cbv zeta.
    assert (Q : Z.quot n 1000000000 = 0) by (apply Z.quot_small_iff; lia).
    rewrite Q. replace (n - 0 * 1000000000) with n by lia.
    destruct (n <? 0) eqn:E2; [|apply Z.ltb_ge in E2; lia].
    rewrite Z.add_0_r. rewrite (wrap_id 64 s) by (try apply in_int64; lia).
    rewrite wrap_id by (try apply in_int64; lia).
    unfold time_ok, instant. cbn [t_sec t_nsec]. rewrite in_int64. change (10 ^ 9) with 1000000000. lia.
  - apply orb_false_iff in E. rewrite Z.ltb_ge, Z.leb_gt in E.
    unfold time_ok, instant. cbn [t_sec t_nsec]. change (10 ^ 9) with 1000000000.
    rewrite in_int64 in *. lia.
Qed.

Lemma quot_rem_small : forall u k, in_int 64 u -> 1 < k ->
  - 2 ^ 63 < Z.quot u k < 2 ^ 63 /\ - k < Z.rem u k < k /\ Z.quot u k * k + Z.rem u k = u.
Proof.
  intros u k Hu Hk. rewrite in_int64 in Hu. change (2 ^ 63) with 9223372036854775808.
  pose proof (Z.quot_rem' u k). pose proof (Z.rem_bound_abs u k ltac:(lia)).
  split; [|lia].
  assert (HQ : (0 <= u -> 0 <= Z.quot u k) /\ (u <= 0 -> Z.quot u k <= 0)).
  { split; intros. apply Z.quot_pos; lia.
    pose proof (Z.quot_opp_l u k ltac:(lia)). pose proof (Z.quot_pos (- u) k ltac:(lia) ltac:(lia)). lia. }
  set (q := Z.quot u k) in *. set (r := Z.rem u k) in *.
  assert (Hq : k * q = u - r) by lia. clearbody q.
  assert (HR : (0 <= u -> 0 <= r) /\ (u <= 0 -> r <= 0)) by
    (split; intros; [apply Z.rem_nonneg|apply Z.rem_nonpos]; lia).
  clearbody r. split.
  - apply Z.nle_gt. intros C. assert (k * q <= 2 * q) by (apply Z.mul_le_mono_nonpos_r; lia).
    destruct HQ as [HQ1 HQ2], HR as [HR1 HR2]. destruct (Z_le_gt_dec 0 u) as [G|G]; [specialize (HQ1 G); lia|].
    specialize (HR2 ltac:(lia)). lia.
  - apply Z.nle_gt. intros C. assert (2 * q <= k * q) by (apply Z.mul_le_mono_nonneg_r; lia).
    destruct HQ as [HQ1 HQ2], HR as [HR1 HR2]. destruct (Z_le_gt_dec u 0) as [G|G]; [specialize (HQ2 G); lia|].
    specialize (HR1 ltac:(lia)). lia.
Qed.

Lemma from_units_spec : forall u p, in_int 64 u -> 0 <= p <= 9 ->
  exists t, time_from_units u p = Ok t /\ time_ok t /\ instant t = u * 10 ^ (9 - p).
Proof.
  intros u p Hu Hp.
  assert (G : forall k f, 1 < k -> k * f = 10 ^ 9 ->
     time_ok (time_unix (Z.quot u k) (Z.rem u k * f)) /\ instant (time_unix (Z.quot u k) (Z.rem u k * f)) = u * f).
  { intros k f Hk Hf. destruct (quot_rem_small u k Hu Hk) as (H1 & H2 & H3).
    assert (0 < f) by nia.
    destruct (time_unix_spec (Z.quot u k) (Z.rem u k * f)) as [A B]; [nia|left; auto|].
    split; auto. rewrite B, <- Hf.
    transitivity ((Z.quot u k * k + Z.rem u k) * f); [ring|rewrite H3; reflexivity]. }
  unfold time_from_units, time_unix_milli, time_unix_micro.
  destruct (p_cases p Hp) as [->|[->|[->|[->|[->|[->|[->|[->|[->| ->]]]]]]]]]; cbn [Z.eqb Pos.eqb];
    eexists; (split; [reflexivity|]);
    try (apply G; [lia|reflexivity]).
  - destruct (time_unix_spec u 0) as [A B]; [cbn; lia|right; split; auto; lia|].
    split; auto. rewrite B. change (9 - 0) with 9. lia.
  - change (10 ^ (9 - 9)) with 1. rewrite <- (Z.mul_1_r (Z.rem u 1000000000)). apply G; [lia|reflexivity].
Qed.

Lemma div_split : forall s n k m, 0 <= n < 10 ^ 9 -> 0 < k -> k * m = 10 ^ 9 ->
  (s * 10 ^ 9 + n) / k = s * m + n / k.
Proof.
  intros s n k m Hn Hk Hm. rewrite <- Hm.
  replace (s * (k * m) + n) with (s * m * k + n) by ring. rewrite Z.div_add_l by lia. reflexivity.
Qed.

Lemma time_value_spec : forall t p, time_ok t -> precision_ok p ->
  time_value t p = Ok (Z.quot (wrap 64 (instant t / 10 ^ (9 - clock_precision p)))
                              (10 ^ (clock_precision p - p))).
Proof.
  intros [s n] p [Hs Hn] Hp. cbn [t_sec t_nsec] in *. unfold time_value, unix, unix_milli, unix_micro, unix_nano, instant.
  cbn [t_sec t_nsec].
  destruct (p_cases p Hp) as [->|[->|[->|[->|[->|[->|[->|[->|[->| ->]]]]]]]]]; cbn [Z.eqb Pos.eqb]; f_equal;
  match goal with |- context [clock_precision ?x] =>
    let c := eval vm_compute in (clock_precision x) in change (clock_precision x) with c end;
  match goal with |- context [10 ^ (9 - ?c)] =>
    let k := eval vm_compute in (10 ^ (9 - c)) in change (10 ^ (9 - c)) with k end;
  try match goal with |- context [Z.quot (wrap _ _) (10 ^ (?c - ?d))] =>
    let k := eval vm_compute in (10 ^ (c - d)) in change (10 ^ (c - d)) with k end;
  rewrite ?Z.quot_1_r; try rewrite (Z.quot_div_nonneg n) by lia.
  - rewrite (div_split _ _ _ 1) by (auto; lia). rewrite Z.div_small by (change (10 ^ 9) with 1000000000 in Hn; lia).
    rewrite wrap_id; try lia. replace (s * 1 + 0) with s by lia. auto.
  - rewrite (div_split _ _ _ 1000) by (auto; lia). auto.
  - rewrite (div_split _ _ _ 1000) by (auto; lia). auto.
  - rewrite (div_split _ _ _ 1000) by (auto; lia). auto.
  - rewrite (div_split _ _ _ 1000000) by (auto; lia). auto.
  - rewrite (div_split _ _ _ 1000000) by (auto; lia). auto.
  - rewrite (div_split _ _ _ 1000000) by (auto; lia). auto.
  - rewrite Z.div_1_r. reflexivity.
  - rewrite Z.div_1_r. reflexivity.
  - rewrite Z.div_1_r. reflexivity.
Qed.
