(** Rounding, bits and the texts of floating point numbers. *)

From Coq Require Import ZArith Lia Bool String Ascii List.
From Verif Require Import Base TimeModel TextModel CalSpec CalTextProofs IntervalModel IntervalProofs IntervalFloatProps FloatModel FloatSpec.
Import ListNotations.
Local Open Scope Z_scope.

(** ** rounding *)

Lemma round_facts : forall p n d, 1 <= p -> 0 <= n -> 0 < d ->
  let k := Z.max 0 (Z.log2 (n / d) - (p - 1)) in let q := div_nearest n (d * 2 ^ k) in
  0 <= k /\ 0 < 2 ^ k /\ 0 < d * 2 ^ k /\ 0 <= q <= 2 ^ p /\ (0 < k -> 2 ^ (p - 1) * 2 ^ k * d <= n).
Proof.
  intros p n d P N D k q. assert (K0 : 0 <= k) by lia. pose proof (pow_pos k K0) as KP. assert (B : 0 < d * 2 ^ k) by nia.
  assert (V : 0 <= n / d) by (apply Z.div_pos; lia).
  assert (TOP : n < 2 ^ p * (d * 2 ^ k)).
  { pose proof (Z.mul_succ_div_gt n d D) as G. assert (L : n / d < 2 ^ (p + k)).
    { destruct (Z.eq_dec (n / d) 0) as [E|E]; [rewrite E; apply pow_pos; lia|]. pose proof (Z.log2_spec (n / d) ltac:(lia)) as [_ U].
      eapply Z.lt_le_trans; [exact U|]. apply Z.pow_le_mono_r; lia. }
    rewrite Z.pow_add_r in L by lia. nia. }
  repeat match goal with |- _ /\ _ => split end; try assumption.
  - unfold q, div_nearest. cbv zeta. pose proof (Z.div_pos n (d * 2 ^ k) N B). repeat match goal with |- context [if ?b then _ else _] => destruct b end; lia.
  - pose proof (dn_bound n (d * 2 ^ k) B) as [U L]. fold q in U, L. nia.
  - intros KP'. unfold k in KP' |- *. destruct (Z.max_spec 0 (Z.log2 (n / d) - (p - 1))) as [[A ->]|[A EQ]]; [|rewrite EQ in KP'; lia].
    rewrite <- Z.pow_add_r by lia. replace (p - 1 + (Z.log2 (n / d) - (p - 1))) with (Z.log2 (n / d)) by lia.
    assert (0 < n / d). { destruct (Z_lt_le_dec 0 (n / d)) as [|H]; [assumption|]. rewrite (Z.log2_nonpos _ H) in A. lia. }
    pose proof (Z.log2_spec _ H) as [S _]. pose proof (Z.mul_div_le n d D). nia.
Qed.

Lemma round_nearest : forall p n d, 1 <= p -> 0 <= n -> 0 < d -> nearest_binary p n d (round_bits p n d).
Proof.
  intros p n d P N D. destruct (round_facts p n d P N D) as (K0 & KP & B & [Q0 Q1] & V).
  assert (XE : round_bits p n d = div_nearest n (d * 2 ^ Z.max 0 (Z.log2 (n / d) - (p - 1))) * 2 ^ Z.max 0 (Z.log2 (n / d) - (p - 1))) by reflexivity.
  set (k := Z.max 0 (Z.log2 (n / d) - (p - 1))) in *. set (q := div_nearest n (d * 2 ^ k)) in *.
  assert (DIST : forall j, Z.abs (j * 2 ^ k * d - n) = Z.abs (j * (d * 2 ^ k) - n)) by (intros j; f_equal; ring).
  assert (FAR : forall y, binary p y -> (2 ^ k | y) \/ Z.abs (2 ^ (p - 1) * 2 ^ k * d - n) < Z.abs (y * d - n)).
  { intros y (m & e & E0 & M & ->). destruct (Z_le_gt_dec k e) as [L|L].
    - left. exists (m * 2 ^ (e - k)). rewrite <- Z.mul_assoc, <- Z.pow_add_r by lia. do 2 f_equal. lia.
    - right. specialize (V ltac:(lia)).
      assert (M2 : m * 2 ^ e < 2 ^ (p - 1) * 2 ^ k).
      { assert (2 ^ (p - 1) * 2 ^ k = 2 ^ p * 2 ^ (k - 1 - e) * 2 ^ e) as ->. { rewrite <- !Z.pow_add_r by lia. f_equal. lia. }
        pose proof (pow_pos e E0). pose proof (pow_pos (k - 1 - e) ltac:(lia)). apply Z.mul_lt_mono_pos_r; [assumption|]. set (w := 2 ^ (k - 1 - e)) in *. set (u := 2 ^ p) in *. clearbody w u. nia. }
      set (T := 2 ^ (p - 1) * 2 ^ k) in *. set (y := m * 2 ^ e) in *. clearbody T y. nia. }
  split.
  - destruct (Z.eq_dec q (2 ^ p)) as [E|NE].
    + exists (2 ^ (p - 1)), (k + 1). split; [lia|]. split; [rewrite Z.abs_eq by (pose proof (pow_pos (p - 1)); lia); apply Z.pow_lt_mono_r; lia|].
      rewrite XE, E, Z.pow_add_r by lia. replace p with (p - 1 + 1) at 1 by lia. rewrite (Z.pow_add_r 2 (p - 1) 1) by lia. ring.
    + exists q, k. split; [lia|]. split; [lia|]. exact XE.
  - intros y F. rewrite XE. destruct (FAR y F) as [[j ->]|L].
    + rewrite !DIST. split; [apply dn_best; exact B|]. intros NE E. assert (NJ : j <> q) by (intros ->; apply NE; reflexivity). destruct (dn_tie n (d * 2 ^ k) j B NJ E) as [W O].
      fold q in W, O. apply Z.even_spec in W. destruct W as [h W]. assert (q - j = 1 \/ q - j = -1) as [A|A] by lia.
      * exists h. replace (2 * (q * 2 ^ k - j * 2 ^ k)) with (2 * (q - j) * 2 ^ k) by ring. rewrite A, W. ring.
      * exists (- h). replace (2 * (q * 2 ^ k - j * 2 ^ k)) with (2 * (q - j) * 2 ^ k) by ring. rewrite A, W. ring.
    + assert (Z.abs (q * 2 ^ k * d - n) < Z.abs (y * d - n)) by (eapply Z.le_lt_trans; [|exact L]; rewrite !DIST; apply dn_best; exact B). split; lia.
Qed.
Lemma nearest_one : forall p n d x y, nearest_binary p n d x -> nearest_binary p n d y -> x = y.
Proof.
  intros p n d x y [F H] [FY HY]. destruct (Z.eq_dec y x) as [E|NE]; [congruence|].
  exfalso. destruct (H y FY) as [H1 H2]. destruct (HY _ F) as [H3 H4]. assert (E : Z.abs (x * d - n) = Z.abs (y * d - n)) by lia.
  destruct (H2 NE E) as [a A]. destruct (H4 ltac:(congruence) ltac:(congruence)) as [b C]. assert (x - y = 2 * (x - y) * (a + b)) by lia. assert (x - y <> 0) by lia. assert (2 * (a + b) = 1); [|lia].
  apply (Z.mul_reg_l _ _ (x - y)); lia.
Qed.
Lemma round_iff : forall p n d x, 1 <= p -> 0 <= n -> 0 < d -> round_bits p n d = x <-> nearest_binary p n d x.
Proof. intros p n d x P N D. split; [intros <-; apply round_nearest; assumption|]. intros H. eapply nearest_one; [apply round_nearest; assumption|exact H]. Qed.
Lemma round_nonneg : forall p n d, 1 <= p -> 0 <= n -> 0 < d -> 0 <= round_bits p n d.
Proof. intros p n d P N D. destruct (round_facts p n d P N D) as (K0 & KP & B & [Q0 Q1] & V). unfold round_bits. cbv zeta. nia. Qed.

(** ** bits *)

Lemma magnitude_bits_of : forall p x, 1 <= p -> 0 <= x -> binary p x -> bits_of p x (magnitude_bits p x).
Proof.
  intros p x P X (m & e & E0 & M & E). unfold magnitude_bits. cbv zeta. pose proof (pow_pos (p - 1) ltac:(lia)) as PP. destruct (Z_lt_le_dec x (2 ^ (p - 1))) as [L|L].
  - assert (K : Z.log2 x - (p - 1) <= 0). { destruct (Z.eq_dec x 0) as [->|NX]; [cbn; lia|]. pose proof (Z.log2_lt_pow2 x (p - 1) ltac:(lia)). lia. }
    rewrite Z.max_l by lia. exists 0, x. rewrite Z.pow_0_r, Z.div_1_r. split; [lia|]. split; [lia|]. split; [ring|reflexivity].
  - assert (XP : 0 < x) by lia. assert (K : p - 1 <= Z.log2 x) by (apply Z.log2_le_pow2; lia). rewrite Z.max_r by lia. set (k := Z.log2 x - (p - 1)).
    pose proof (Z.log2_spec x XP) as [S1 S2]. assert (KP := pow_pos k ltac:(unfold k; lia)).
    assert (D1 : 2 ^ (p - 1) * 2 ^ k <= x). { rewrite <- Z.pow_add_r by (unfold k; lia). replace (p - 1 + k) with (Z.log2 x) by (unfold k; lia). exact S1. }
    assert (D2 : x < 2 ^ p * 2 ^ k). { rewrite <- Z.pow_add_r by (unfold k; lia). replace (p + k) with (Z.succ (Z.log2 x)) by (unfold k; lia). exact S2. }
    assert (P2 : 2 ^ p = 2 * 2 ^ (p - 1)). { replace p with (1 + (p - 1)) at 1 by lia. rewrite Z.pow_add_r by lia. reflexivity. }
    assert (DV : (2 ^ k | x)).
    { destruct (Z_le_gt_dec k e) as [KE|KE].
      - exists (m * 2 ^ (e - k)). rewrite E, <- Z.mul_assoc, <- Z.pow_add_r by (unfold k in *; lia). do 2 f_equal. lia.
      - exfalso. assert (x < 2 ^ (p - 1) * 2 ^ k); [|lia]. rewrite E. assert (2 ^ (p - 1) * 2 ^ k = 2 ^ p * 2 ^ (k - 1 - e) * 2 ^ e) as -> by (rewrite <- !Z.pow_add_r by lia; f_equal; lia).
        pose proof (pow_pos e E0). pose proof (pow_pos (k - 1 - e) ltac:(lia)). apply Z.mul_lt_mono_pos_r; [assumption|]. set (w := 2 ^ (k - 1 - e)) in *. set (u := 2 ^ p) in *. clearbody w u. nia. }
    destruct DV as [y DV]. rewrite DV, Z.div_mul by lia. exists (k + 1), (y - 2 ^ (p - 1)). split; [unfold k; lia|]. split; [nia|]. split; [ring|].
    replace (k + 1 =? 0) with false by (symmetry; apply Z.eqb_neq; unfold k; lia). replace (k + 1 - 1) with k by ring. ring.
Qed.
Lemma bits_one : forall p x b b', 1 <= p -> bits_of p x b -> bits_of p x b' -> b = b'.
Proof.
  intros p x b b' P (e & f & E0 & F & -> & X) (e' & f' & E0' & F' & -> & X'). pose proof (pow_pos (p - 1) ltac:(lia)) as PP. set (T := 2 ^ (p - 1)) in *. clearbody T.
  destruct (Z.eqb_spec e 0) as [->|N]; destruct (Z.eqb_spec e' 0) as [->|N'].
  - lia.
  - exfalso. pose proof (pow_pos (e' - 1) ltac:(lia)). nia.
  - exfalso. pose proof (pow_pos (e - 1) ltac:(lia)). nia.
  - pose proof (pow_pos (e - 1) ltac:(lia)). pose proof (pow_pos (e' - 1) ltac:(lia)).
    destruct (Z.lt_trichotomy e e') as [L|[->|L]].
    + exfalso. assert (A : 2 ^ (e' - 1) = 2 ^ (e' - 1 - e) * 2 * 2 ^ (e - 1)) by (rewrite <- Z.mul_assoc, <- Z.pow_succ_r, <- Z.pow_add_r by lia; f_equal; lia). pose proof (pow_pos (e' - 1 - e) ltac:(lia)). nia.
    + f_equal. nia.
    + exfalso. assert (A : 2 ^ (e - 1) = 2 ^ (e - 1 - e') * 2 * 2 ^ (e' - 1)) by (rewrite <- Z.mul_assoc, <- Z.pow_succ_r, <- Z.pow_add_r by lia; f_equal; lia). pose proof (pow_pos (e - 1 - e') ltac:(lia)). nia.
Qed.
Lemma bits_value_one : forall p x y b, 1 <= p -> bits_of p x b -> bits_of p y b -> x = y.
Proof.
  intros p x y b P (e & f & E0 & F & B & X) (e' & f' & E0' & F' & B' & X'). pose proof (pow_pos (p - 1) ltac:(lia)) as PP. set (T := 2 ^ (p - 1)) in *. clearbody T.
  assert (e = e') by nia. subst e'. assert (f = f') by nia. subst f'. congruence.
Qed.
Lemma bits_binary : forall p x b, 1 <= p -> bits_of p x b -> 0 <= x /\ binary p x.
Proof.
  intros p x b P (e & f & E0 & F & B & X). pose proof (pow_pos (p - 1) ltac:(lia)) as PP.
  assert (P2 : 2 ^ p = 2 * 2 ^ (p - 1)). { replace p with (1 + (p - 1)) at 1 by lia. rewrite Z.pow_add_r by lia. reflexivity. }
  destruct (Z.eqb_spec e 0) as [->|N]; subst x.
  - split; [lia|]. exists f, 0. rewrite Z.pow_0_r. lia.
  - pose proof (pow_pos (e - 1) ltac:(lia)). split; [nia|]. exists (2 ^ (p - 1) + f), (e - 1). lia.
Qed.
Lemma magnitude_iff : forall p x b, 1 <= p -> 0 <= x -> binary p x -> magnitude_bits p x = b <-> bits_of p x b.
Proof.
  intros p x b P X B. split; [intros <-; apply magnitude_bits_of; assumption|]. intros H. eapply bits_one; [exact P|apply magnitude_bits_of; assumption|exact H].
Qed.
(** below the largest the exponent is below its largest *)
Lemma bits_range : forall p x b n, 1 <= p -> 1 <= n -> bits_of p x b -> x < 2 ^ (p - 1) * 2 ^ n <-> b < (n + 1) * 2 ^ (p - 1).
Proof.
  intros p x b n P N (e & f & E0 & F & -> & X). pose proof (pow_pos (p - 1) ltac:(lia)) as PP. pose proof (pow_pos n ltac:(lia)) as NP. set (T := 2 ^ (p - 1)) in *. clearbody T.
  destruct (Z.eqb_spec e 0) as [->|NE]; subst x; [nia|]. pose proof (pow_pos (e - 1) ltac:(lia)) as EP. split; intros H.
  - assert (e - 1 < n); [|nia]. apply (Z.pow_lt_mono_r_iff 2); [lia|lia|]. nia.
  - assert (L : e <= n) by nia. assert (A : 2 ^ n = 2 ^ (n - e) * 2 * 2 ^ (e - 1)) by (rewrite <- Z.mul_assoc, <- Z.pow_succ_r, <- Z.pow_add_r by lia; f_equal; lia). pose proof (pow_pos (n - e) ltac:(lia)). nia.
Qed.
