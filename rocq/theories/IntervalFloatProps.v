(** C62: what is read, exactly. *)

From Coq Require Import ZArith Lia Bool String List.
From Verif Require Import Base TimeModel TimeProofs CalModel CalSpec CalTextProofs IntervalModel IntervalSpec IntervalFloatSpec IntervalProofs IntervalTextProofs IntervalProps.
Import ListNotations.
Local Open Scope Z_scope.

Lemma dn_tie : forall a b j, 0 < b -> j <> div_nearest a b -> Z.abs (div_nearest a b * b - a) = Z.abs (j * b - a) -> Z.even (div_nearest a b) = true /\ Z.abs (div_nearest a b - j) = 1.
Proof.
  intros a b j B N E. unfold div_nearest in *. pose proof (Z.div_mod a b ltac:(lia)) as D. pose proof (Z.mod_pos_bound a b B) as M.
  set (q := a / b) in *. set (r := a mod b) in *. rewrite D in E. clearbody q r. clear D.
  destruct (Z.ltb_spec (2 * r) b) as [X|X].
  - exfalso. replace (q * b - (b * q + r)) with (- r) in E by ring. replace (j * b - (b * q + r)) with ((j - q) * b - r) in E by ring. nia.
  - destruct (Z.ltb_spec b (2 * r)) as [Y|Y].
    + exfalso. replace ((q + 1) * b - (b * q + r)) with (b - r) in E by ring. replace (j * b - (b * q + r)) with ((j - q) * b - r) in E by ring. nia.
    + assert (R : 2 * r = b) by lia. destruct (Z.even q) eqn:V.
      * split; [exact V|]. replace (q * b - (b * q + r)) with (- r) in E by ring. replace (j * b - (b * q + r)) with ((j - q) * b - r) in E by ring. nia.
      * split; [rewrite Z.even_add, V; reflexivity|]. replace ((q + 1) * b - (b * q + r)) with (b - r) in E by ring. replace (j * b - (b * q + r)) with ((j - q) * b - r) in E by ring. nia.
Qed.
Lemma dn_best : forall a b j, 0 < b -> Z.abs (div_nearest a b * b - a) <= Z.abs (j * b - a).
Proof.
  intros a b j B. destruct (dn_bound a b B) as [U L]. destruct (Z.eq_dec j (div_nearest a b)) as [->|N]; [lia|].
  replace (j * b - a) with ((j - div_nearest a b) * b + (div_nearest a b * b - a)) by ring. set (q := div_nearest a b) in *. nia.
Qed.

Lemma near_rounds : forall n d, 0 <= n -> 0 < d -> rounds n d (nearest n d).
Proof.
  intros n d N D. pose proof (scale_nonneg n d) as K0. pose proof (pow_pos _ K0) as P. pose proof (nearest_nonneg n d N D) as X0. pose proof (nearest_top n d N D) as XT.
  assert (XE : nearest n d = div_nearest (n * f_one) (d * 2 ^ scale n d) * 2 ^ scale n d) by reflexivity.
  set (k := scale n d) in *. set (q := div_nearest (n * f_one) (d * 2 ^ k)) in *. assert (B : 0 < d * 2 ^ k) by nia.
  assert (Q0 : 0 <= q) by nia. assert (Q1 : q <= 2 ^ 53) by (rewrite Z.pow_add_r in XT by lia; nia).
  assert (DIST : forall j, distance n d (j * 2 ^ k) = Z.abs (j * (d * 2 ^ k) - n * f_one)) by (intros j; unfold distance, f_one; f_equal; ring).
  assert (FAR : forall y, is_float y -> (2 ^ k | y) \/ distance n d (2 ^ 52 * 2 ^ k) < distance n d y).
  { intros y (m & e & E0 & M & ->). destruct (Z_le_gt_dec k e) as [L|L].
    - left. exists (m * 2 ^ (e - k)). rewrite <- Z.mul_assoc, <- Z.pow_add_r by lia. do 2 f_equal. lia.
    - right. assert (V : 2 ^ (52 + k) * d <= n * f_one).
      { unfold k, scale in L |- *. destruct (Z.max_spec 0 (Z.log2 (n * f_one / d) - 52)) as [[A ->]|[A EQ]]; [|rewrite EQ in L; lia].
        replace (52 + (Z.log2 (n * f_one / d) - 52)) with (Z.log2 (n * f_one / d)) by lia.
        assert (Z.log2 (n * f_one / d) <> 0) by lia. assert (0 < n * f_one / d). { destruct (Z_lt_le_dec 0 (n * f_one / d)); [assumption|]. rewrite Z.log2_nonpos in H by assumption. lia. }
        pose proof (Z.log2_spec _ H0) as [S _]. pose proof (Z.mul_div_le (n * f_one) d D). nia. }
      assert (M2 : m * 2 ^ e < 2 ^ (52 + k)).
      { assert (2 ^ (52 + k) = 2 ^ 53 * 2 ^ (k - 1 - e) * 2 ^ e) as ->. { rewrite <- !Z.pow_add_r by lia. f_equal. lia. }
        pose proof (pow_pos e E0). pose proof (pow_pos (k - 1 - e) ltac:(lia)). nia. }
      unfold distance. rewrite <- Z.pow_add_r by lia. change (2 ^ 1074) with f_one. nia. }
  split.
  - destruct (Z.eq_dec q (2 ^ 53)) as [E|NE].
    + exists (2 ^ 52), (k + 1). split; [lia|]. split; [reflexivity|]. rewrite XE, E. rewrite Z.pow_add_r by lia. change (2 ^ 53) with (2 ^ 52 * 2 ^ 1). ring.
    + exists q, k. split; [lia|]. split; [lia|]. exact XE.
  - intros y F. rewrite XE. destruct (FAR y F) as [[j ->]|L].
    + rewrite !DIST. split; [apply dn_best; exact B|]. intros NE E. assert (NJ : j <> q) by (intros ->; apply NE; reflexivity). destruct (dn_tie (n * f_one) (d * 2 ^ k) j B NJ E) as [V O].
      fold q in V, O. apply Z.even_spec in V. destruct V as [h V]. fold q. assert (q - j = 1 \/ q - j = -1) as [A|A] by lia.
      * exists h. replace (2 * (q * 2 ^ k - j * 2 ^ k)) with (2 * (q - j) * 2 ^ k) by ring. rewrite A, V. ring.
      * exists (- h). replace (2 * (q * 2 ^ k - j * 2 ^ k)) with (2 * (q - j) * 2 ^ k) by ring. rewrite A, V. ring.
    + assert (distance n d (q * 2 ^ k) < distance n d y) by (eapply Z.le_lt_trans; [|exact L]; rewrite !DIST; apply dn_best; exact B). split; lia.
Qed.
Lemma rounds_opp : forall n d x, rounds n d x -> rounds (- n) d (- x).
Proof.
  assert (FO : forall y, is_float y -> is_float (- y)) by (intros y (m & e & E & M & ->); exists (- m), e; split; [exact E|]; split; [rewrite Z.abs_opp; exact M|ring]).
  assert (DO : forall n d x, distance (- n) d (- x) = distance n d x) by (intros; unfold distance; rewrite <- Z.abs_opp; f_equal; ring).
  intros n d x [F H]. split; [apply FO; exact F|]. intros y FY. rewrite DO. destruct (H (- y) (FO _ FY)) as [H1 H2]. rewrite <- (Z.opp_involutive y) at 1. rewrite DO. split; [exact H1|].
  intros NE E. rewrite <- (Z.opp_involutive y) in E. rewrite DO in E. destruct (H2 ltac:(lia) E) as [c C]. exists c. rewrite <- (Z.opp_involutive y). replace (2 * (- x - - - y)) with (- (2 * (x - - y))) by ring. lia.
Qed.

(** Rounding gives the nearest float64, ties to even. *)
Theorem C62_rounding : forall n d x, 0 < d -> fround n d = x <-> rounds n d x.
Proof.
  assert (R : forall n d, 0 < d -> rounds n d (fround n d)).
  { intros n d D. unfold fround. destruct (Z.ltb_spec n 0); [|apply near_rounds; lia]. rewrite <- (Z.opp_involutive n) at 1. apply rounds_opp. apply near_rounds; lia. }
  intros n d x D. split; [intros <-; apply R; exact D|]. intros X. destruct (R n d D) as [F H]. destruct X as [FX HX]. destruct (Z.eq_dec x (fround n d)) as [E|NE]; [congruence|].
  exfalso. destruct (H x FX) as [H1 H2]. destruct (HX _ F) as [H3 H4]. assert (E : distance n d (fround n d) = distance n d x) by lia.
  destruct (H2 NE E) as [a A]. destruct (H4 ltac:(congruence) ltac:(congruence)) as [b C]. set (u := fround n d) in *. assert (u - x = 2 * (u - x) * (a + b)) by lia. assert (u - x <> 0) by lia. assert (2 * (a + b) = 1); [|lia]. apply (Z.mul_reg_l _ _ (u - x)); lia.
Qed.
Lemma rounds_scale : forall n d c x, 0 < c -> rounds (n * c) (d * c) x <-> rounds n d x.
Proof.
  intros n d c x C. assert (E : forall y, distance (n * c) (d * c) y = distance n d y * c) by (intros y; unfold distance; rewrite <- (Z.abs_eq c) at 3 by lia; rewrite <- Z.abs_mul; f_equal; ring).
  unfold rounds. split; intros [F H]; (split; [exact F|]); intros y FY; destruct (H y FY) as [H1 H2]; rewrite !E in *; split; try nia; intros NE EQ; apply H2; auto; nia.
Qed.
Lemma whole_iff : forall x w, float_to_int x = w <-> whole x w.
Proof.
  intros x w. unfold float_to_int, whole, f_one, in_int. cbv zeta. change (64 - 1) with 63. set (z := Z.quot x (2 ^ 1074)). clearbody z. change (2 ^ 63) with 9223372036854775808 in *.
  destruct (Z.leb_spec (Z.opp 9223372036854775808) z); destruct (Z.ltb_spec z 9223372036854775808); cbn [andb]; split; intros; try lia; (left; lia) || (right; lia).
Qed.
Lemma one_million : forall r k, 0 <= k <= 9 -> fmul r (float_of_int (10 ^ k)) = fround (r * 10 ^ k) f_one.
Proof.
  intros r k K. assert (E : float_of_int (10 ^ k) = 10 ^ k * f_one).
  { assert (k = 0 \/ k = 1 \/ k = 2 \/ k = 3 \/ k = 4 \/ k = 5 \/ k = 6 \/ k = 7 \/ k = 8 \/ k = 9) as C by lia. decompose [or] C; subst; vm_compute; reflexivity. }
  unfold fmul. rewrite E. apply C62_rounding; [pose proof f_one_pos; nia|]. replace (r * (10 ^ k * f_one)) with (r * 10 ^ k * f_one) by ring.
  apply rounds_scale; [apply f_one_pos|]. apply C62_rounding; [apply f_one_pos|reflexivity].
Qed.

(** A text is read as exactly the interval that float64 arithmetic gives. *)
Theorem C62_exactly : forall text x y, says_interval text x -> in_bounds x -> (3 <= String.length text)%nat ->
  parse_interval_days text = Ok (sv_days y, sv_secs y, sv_sub y, sv_prec y) <-> reads_span x y.
Proof.
  intros text x y S B L. rewrite (parse_back _ _ S B L). unfold parsed. pose proof (digits_forall _ _ S) as (_ & _ & _ & NN).
  assert (D0 : 0 < 10 ^ Z.of_nat (sp_digits x)) by (apply Z.pow_pos_nonneg; lia).
  assert (FN : nearest (sp_num x) (10 ^ Z.of_nat (sp_digits x)) = fround (sp_num x) (10 ^ Z.of_nat (sp_digits x))) by (unfold fround; destruct (Z.ltb_spec (sp_num x) 0); [lia|reflexivity]).
  rewrite FN. set (f := fround (sp_num x) (10 ^ Z.of_nat (sp_digits x))). unfold split_interval. cbv zeta. set (w := float_to_int f). set (r := fsub f (float_of_int w)).
  change 1000000000 with (10 ^ 9). change (float_of_int 1000000) with (float_of_int (10 ^ 6)). rewrite !one_million by lia. rewrite seconds_wrap.
  set (n := float_to_int (fround (r * 10 ^ 9) f_one)). set (u := float_to_int (fround (r * 10 ^ 6) f_one)).
  assert (RW : rounds (sp_num x) (10 ^ Z.of_nat (sp_digits x)) f /\ whole f w /\ rounds w 1 (float_of_int w) /\ rounds (f - float_of_int w) (2 ^ 1074) r /\
    rounds (r * 10 ^ 9) (2 ^ 1074) (fround (r * 10 ^ 9) f_one) /\ whole (fround (r * 10 ^ 9) f_one) n /\ rounds (r * 10 ^ 6) (2 ^ 1074) (fround (r * 10 ^ 6) f_one) /\ whole (fround (r * 10 ^ 6) f_one) u).
  { repeat match goal with |- _ /\ _ => split end; try (apply whole_iff; reflexivity); apply C62_rounding; try reflexivity; try lia; exact f_one_pos. }
  destruct RW as (R1 & R2 & R3 & R4 & R5 & R6 & R7 & R8). split.
  - intros E. destruct y as [d s ss p]. cbn [sv_days sv_secs sv_sub sv_prec] in E.
    econstructor; [exact R1|exact R2|exact R3|exact R4|exact R5|exact R6|exact R7|exact R8| | |].
    + destruct (_ <? _) in E; injection E as <- _ _ _; apply wrap_cut.
    + destruct (_ <? _) in E; injection E as _ <- _ _; apply wrap_cut.
    + destruct (_ <? _) in E |- *; injection E as _ _ <- <-; reflexivity.
  - intros H. inversion H as [f' w' fw r' n' n0 u' u0 d s ss p Q1 Q2 Q3 Q4 Q5 Q6 Q7 Q8 Q9 Q10 Q11]; subst y. cbn [sv_days sv_secs sv_sub sv_prec].
    apply C62_rounding in Q1; [|exact D0]. change (f = f') in Q1. subst f'. apply whole_iff in Q2. change (w = w') in Q2. subst w'. apply C62_rounding in Q3; [|lia]. change (float_of_int w = fw) in Q3. subst fw.
    apply C62_rounding in Q4; [|exact f_one_pos]. change (r = r') in Q4. subst r'. apply C62_rounding in Q5; [|exact f_one_pos]. subst n'. apply whole_iff in Q6. change (n = n0) in Q6. subst n0.
    apply C62_rounding in Q7; [|exact f_one_pos]. subst u'. apply whole_iff in Q8. change (u = u0) in Q8. subst u0.
    assert (CU : forall z z', cut_to_int32 z z' -> z' = wrap 32 z).
    { intros z z' [I C]. destruct (wrap_cut z) as [I' C']. unfold in_int in I, I'. change (2 ^ (32 - 1)) with 2147483648 in *. destruct C as [c C]. destruct C' as [c' C']. change (2 ^ 32) with 4294967296 in *. lia. }
    rewrite (CU _ _ Q9), (CU _ _ Q10). destruct (_ <? _) in Q11 |- *; injection Q11 as -> ->; reflexivity.
Qed.
Example C62_exactly_example : parse_interval_days "PT9007199254740993S" = Ok (0, 0, 0, 6) /\ parse_interval_days "PT9007199254740995S" = Ok (0, 4, 0, 6).
Proof. split; vm_compute; reflexivity. Qed.
Print Assumptions C62_rounding.
Print Assumptions C62_exactly.
