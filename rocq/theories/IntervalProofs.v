(** The float64 arithmetic of the day-time interval parser (C62). *)

From Coq Require Import ZArith Lia Bool String Ascii List.
From Verif Require Import Base TimeModel CalModel IntervalModel.
Import ListNotations.
Local Open Scope Z_scope.

Lemma dn_bound : forall a b, 0 < b -> 2 * (div_nearest a b * b) <= 2 * a + b /\ 2 * a - b <= 2 * (div_nearest a b * b).
Proof.
  intros a b B. unfold div_nearest. pose proof (Z.div_mod a b ltac:(lia)) as E. pose proof (Z.mod_pos_bound a b B) as M.
  set (q := a / b) in *. set (r := a mod b) in *.
  destruct (2 * r <? b) eqn:X; [apply Z.ltb_lt in X; nia|]. apply Z.ltb_ge in X.
  destruct (b <? 2 * r) eqn:Y; [apply Z.ltb_lt in Y; nia|]. apply Z.ltb_ge in Y.
  destruct (Z.even q); nia.
Qed.
Lemma dn_exact : forall z b, 0 < b -> div_nearest (z * b) b = z.
Proof.
  intros z b B. unfold div_nearest. rewrite Z.div_mul, Z.mod_mul by lia.
  destruct (2 * 0 <? b) eqn:X; [reflexivity|apply Z.ltb_ge in X; lia].
Qed.
(** at least half above an odd number goes up *)
Lemma dn_up : forall a b q, 0 < b -> Z.odd q = true -> 2 * q * b + b <= 2 * a -> q + 1 <= div_nearest a b.
Proof.
  intros a b q B O L. unfold div_nearest. pose proof (Z.div_mod a b ltac:(lia)) as E. pose proof (Z.mod_pos_bound a b B) as M.
  set (p := a / b) in *. set (r := a mod b) in *.
  assert (q <= p) as Q by nia.
  destruct (2 * r <? b) eqn:X. { apply Z.ltb_lt in X. nia. } apply Z.ltb_ge in X.
  destruct (b <? 2 * r) eqn:Y; [lia|]. apply Z.ltb_ge in Y.
  destruct (Z.even p) eqn:V; [|lia].
  destruct (Z.eq_dec q p) as [->|]; [|lia]. rewrite <- Z.negb_odd, O in V. discriminate.
Qed.
Lemma dn_down : forall a b q, 0 < b -> 2 * a < 2 * q * b + b -> div_nearest a b <= q.
Proof.
  intros a b q B L. unfold div_nearest. pose proof (Z.div_mod a b ltac:(lia)) as E. pose proof (Z.mod_pos_bound a b B) as M.
  set (p := a / b) in *. set (r := a mod b) in *.
  assert (p <= q) as Q by nia.
  destruct (2 * r <? b) eqn:X; [lia|]. apply Z.ltb_ge in X.
  assert (p < q) by nia.
  destruct (b <? 2 * r); [lia|]. destruct (Z.even p); lia.
Qed.

Lemma pow_pos : forall k, 0 <= k -> 0 < 2 ^ k.
Proof. intros. apply Z.pow_pos_nonneg; lia. Qed.
Lemma f_one_pos : 0 < f_one.
Proof. unfold f_one. apply pow_pos. lia. Qed.

(** the exponent chosen for a value below a power of two *)
Definition scale (num den : Z) : Z := Z.max 0 (Z.log2 (num * f_one / den) - 52).
Lemma scale_bound : forall num den e, 0 <= num -> 0 < den -> 52 <= e -> num * f_one < den * 2 ^ (e + 1) -> 0 <= scale num den <= e - 52.
Proof.
  intros num den e N D E L. unfold scale. split; [lia|].
  assert (num * f_one / den < 2 ^ (e + 1)) as X by (apply Z.div_lt_upper_bound; lia).
  destruct (Z.eq_dec (num * f_one / den) 0) as [->|Z0]. { change (Z.log2 0) with 0. lia. }
  pose proof f_one_pos.
  assert (0 < num * f_one / den) as P. { pose proof (Z.div_pos (num * f_one) den ltac:(nia) D). lia. }
  apply Z.log2_lt_pow2 in X; lia.
Qed.
Lemma scale_top : forall num den, 0 <= num -> 0 < den -> num * f_one < den * 2 ^ (scale num den + 53).
Proof.
  intros num den N D. pose proof f_one_pos as F.
  pose proof (Z.div_pos (num * f_one) den ltac:(nia) D) as P.
  assert (num * f_one / den < 2 ^ (scale num den + 53)) as X.
  { destruct (Z.eq_dec (num * f_one / den) 0) as [->|Z0]. { apply pow_pos. unfold scale. lia. }
    apply Z.log2_lt_pow2; [lia|]. unfold scale. lia. }
  pose proof (Z.div_mod (num * f_one) den ltac:(lia)). pose proof (Z.mod_pos_bound (num * f_one) den D). nia.
Qed.

Lemma nearest_unfold : forall num den, nearest num den = div_nearest (num * f_one) (den * 2 ^ scale num den) * 2 ^ scale num den.
Proof. reflexivity. Qed.
Lemma scale_nonneg : forall num den, 0 <= scale num den.
Proof. intros. unfold scale. lia. Qed.

Lemma nearest_bound : forall num den, 0 < den ->
  2 * (nearest num den * den) <= 2 * (num * f_one) + den * 2 ^ scale num den /\
  2 * (num * f_one) - den * 2 ^ scale num den <= 2 * (nearest num den * den).
Proof.
  intros num den D. rewrite nearest_unfold. pose proof (pow_pos _ (scale_nonneg num den)) as P.
  destruct (dn_bound (num * f_one) (den * 2 ^ scale num den) ltac:(nia)). nia.
Qed.
Lemma nearest_divide : forall num den, (2 ^ scale num den | nearest num den).
Proof. intros. rewrite nearest_unfold. apply Z.divide_factor_r. Qed.
Lemma nearest_exact : forall num den z, 0 < den -> num * f_one = z * den -> (2 ^ scale num den | z) -> nearest num den = z.
Proof.
  intros num den z D E [j ->]. rewrite nearest_unfold, E. pose proof (pow_pos _ (scale_nonneg num den)) as P.
  replace (j * 2 ^ scale num den * den) with (j * (den * 2 ^ scale num den)) by ring. rewrite dn_exact by nia. reflexivity.
Qed.
Lemma nearest_top : forall num den, 0 <= num -> 0 < den -> nearest num den <= 2 ^ (scale num den + 53).
Proof.
  intros num den N D. rewrite nearest_unfold. pose proof (pow_pos _ (scale_nonneg num den)) as P.
  pose proof (scale_top num den N D) as T. rewrite Z.pow_add_r in * by (try lia; apply scale_nonneg).
  assert (div_nearest (num * f_one) (den * 2 ^ scale num den) <= 2 ^ 53); [|nia].
  apply dn_down; [nia|]. nia.
Qed.
Lemma nearest_nonneg : forall num den, 0 <= num -> 0 < den -> 0 <= nearest num den.
Proof.
  intros num den N D. rewrite nearest_unfold. pose proof (pow_pos _ (scale_nonneg num den)) as P. pose proof f_one_pos as F.
  apply Z.mul_nonneg_nonneg; [|lia]. unfold div_nearest.
  pose proof (Z.div_pos (num * f_one) (den * 2 ^ scale num den) ltac:(nia) ltac:(nia)).
  repeat match goal with |- context [if ?b then _ else _] => destruct b end; lia.
Qed.
Lemma pow_divide : forall a b, 0 <= a <= b -> (2 ^ a | 2 ^ b).
Proof. intros a b H. exists (2 ^ (b - a)). rewrite <- Z.pow_add_r by lia. f_equal. lia. Qed.

(** finite *)
Lemma overflow_iff : forall num den, 0 <= num -> 0 < den ->
  (2 ^ 1024 * f_one <=? nearest num den) = false <-> num < (2 ^ 1024 - 2 ^ 970) * den.
Proof.
  intros num den N D. rewrite Z.leb_gt. pose proof f_one_pos as F0.
  set (U := 2 ^ 2044). assert (0 < U) as U0 by (apply pow_pos; lia).
  assert (2 ^ 1024 * f_one = 2 ^ 54 * U) as F1 by (unfold f_one, U; rewrite <- !Z.pow_add_r by lia; reflexivity).
  assert (2 ^ 970 * f_one = U) as F2 by (unfold f_one, U; rewrite <- !Z.pow_add_r by lia; reflexivity).
  assert (num < (2 ^ 1024 - 2 ^ 970) * den <-> num * f_one < (2 ^ 54 * U - U) * den) as ->.
  { rewrite <- F1, <- F2. split; intros; nia. }
  rewrite F1. clear F1 F2. pose proof (scale_top num den N D) as T. pose proof (scale_nonneg num den) as S0.
  split.
  - intros L. destruct (Z.lt_ge_cases (num * f_one) ((2 ^ 54 * U - U) * den)) as [|G]; [assumption|exfalso].
    assert (2045 <= scale num den) as SC.
    { destruct (Z.le_gt_cases 2045 (scale num den)); [assumption|exfalso].
      assert (2 ^ (scale num den + 53) <= 2 ^ 2097) by (apply Z.pow_le_mono_r; lia).
      assert (2 ^ 2097 = 2 ^ 53 * U) by (unfold U; rewrite <- Z.pow_add_r by lia; reflexivity). nia. }
    destruct (Z.eq_dec (scale num den) 2045) as [E|E].
    + rewrite nearest_unfold, E in L. assert (2 ^ 2045 = 2 * U) as V by (unfold U; rewrite <- (Z.pow_add_r 2 1) by lia; reflexivity).
      rewrite V in L.
      pose proof (dn_up (num * f_one) (den * (2 * U)) (2 ^ 53 - 1) ltac:(nia) eq_refl) as X. nia.
    + assert (2046 <= scale num den) as SC' by lia. unfold scale in SC'.
      assert (2098 <= Z.log2 (num * f_one / den)) as LG by lia.
      assert (0 < num * f_one / den) as P. { destruct (Z.le_gt_cases (num * f_one / den) 0) as [X|]; [|assumption]. apply Z.log2_nonpos in X. lia. }
      apply Z.log2_le_pow2 in LG; [|assumption].
      pose proof (Z.log2_spec (num * f_one / den) P) as [LO HI].
      assert (scale num den = Z.log2 (num * f_one / den) - 52) as SE by (unfold scale; lia).
      pose proof (nearest_bound num den D) as [_ B].
      assert (den * 2 ^ Z.log2 (num * f_one / den) <= num * f_one) as DV.
      { pose proof (Z.div_mod (num * f_one) den ltac:(lia)). pose proof (Z.mod_pos_bound (num * f_one) den D). nia. }
      assert (2 ^ Z.log2 (num * f_one / den) = 2 ^ 52 * 2 ^ scale num den) as PW.
      { rewrite <- Z.pow_add_r by lia. f_equal. lia. }
      assert (2 ^ 2098 = 2 ^ 54 * U) as PU by (unfold U; rewrite <- Z.pow_add_r by lia; reflexivity).
      assert (2 ^ 2046 <= 2 ^ scale num den) as PM by (apply Z.pow_le_mono_r; lia).
      assert (2 ^ 2046 = 2 ^ 2 * U) as PV by (unfold U; rewrite <- Z.pow_add_r by lia; reflexivity).
      rewrite nearest_unfold in *. set (q := div_nearest _ _) in *.
      (* q is at least 2^52 *)
      assert (2 ^ 52 <= q); [|nia].
      unfold q. clear q B L. destruct (Z.le_gt_cases (2 ^ 52) (div_nearest (num * f_one) (den * 2 ^ scale num den))) as [|Q]; [assumption|exfalso].
      pose proof (dn_bound (num * f_one) (den * 2 ^ scale num den) ltac:(nia)) as [_ B]. nia.
  - intros L. destruct (Z.le_gt_cases (scale num den) 2044) as [S1|S1].
    + pose proof (nearest_top num den N D) as TT.
      assert (2 ^ (scale num den + 53) <= 2 ^ 2097) by (apply Z.pow_le_mono_r; lia).
      assert (2 ^ 2097 = 2 ^ 53 * U) by (unfold U; rewrite <- Z.pow_add_r by lia; reflexivity). nia.
    + assert (scale num den <= 2045) as S2.
      { apply (scale_bound num den 2097); [lia|lia|lia|]. assert (2 ^ (2097 + 1) = 2 ^ 54 * U) as -> by (unfold U; rewrite <- Z.pow_add_r by lia; reflexivity). nia. }
      rewrite nearest_unfold. replace (scale num den) with 2045 by lia.
      assert (2 ^ 2045 = 2 * U) as -> by (unfold U; rewrite <- (Z.pow_add_r 2 1) by lia; reflexivity).
      assert (div_nearest (num * f_one) (den * (2 * U)) <= 2 ^ 53 - 1); [apply dn_down; nia|nia].
Qed.

(** ** the steps of the parser *)

Lemma fround_nonneg : forall num den, 0 <= num -> fround num den = nearest num den.
Proof. intros num den N. unfold fround. destruct (num <? 0) eqn:X; [apply Z.ltb_lt in X; lia|reflexivity]. Qed.

Lemma f_one_divide : forall k, 0 <= k <= 1074 -> (2 ^ k | f_one).
Proof. intros. unfold f_one. apply pow_divide. lia. Qed.

Lemma float_of_int_exact : forall z, 0 <= z < 2 ^ 53 -> float_of_int z = z * f_one.
Proof.
  intros z Hz. unfold float_of_int. rewrite fround_nonneg by lia. apply nearest_exact; [lia|ring|].
  apply Z.divide_mul_r, f_one_divide. pose proof f_one_pos.
  assert (z * f_one < 1 * 2 ^ (1126 + 1)) as L.
  { replace (1 * 2 ^ (1126 + 1)) with (2 ^ 53 * f_one) by (unfold f_one; rewrite <- Z.pow_add_r by lia; reflexivity). nia. }
  pose proof (scale_bound z 1 1126 ltac:(lia) ltac:(lia) ltac:(lia) L). lia.
Qed.
Lemma float_to_int_floor : forall f, 0 <= f < 2 ^ 63 * f_one -> float_to_int f = f / f_one.
Proof.
  intros f Hf. pose proof f_one_pos as F. unfold float_to_int. rewrite Z.quot_div_nonneg by lia.
  pose proof (Z.div_pos f f_one ltac:(lia) F). assert (f / f_one < 2 ^ 63) by (apply Z.div_lt_upper_bound; lia).
  destruct ((- 2 ^ 63 <=? f / f_one) && (f / f_one <? 2 ^ 63)) eqn:X; [reflexivity|].
  apply andb_false_iff in X. rewrite Z.leb_gt, Z.ltb_ge in X. lia.
Qed.

(** what is left of a float64 below 2^53 when its whole part is subtracted *)
Lemma fraction_exact : forall num den, 0 <= num -> 0 < den -> num * f_one < den * 2 ^ (1126 + 1) ->
  let f := nearest num den in
  0 <= f <= 2 ^ 53 * f_one /\ (f < 2 ^ 53 * f_one -> fsub f (float_of_int (f / f_one)) = f mod f_one).
Proof.
  intros num den N D L f. pose proof f_one_pos as F.
  pose proof (scale_bound num den 1126 N D ltac:(lia) L) as S0.
  pose proof (nearest_top num den N D) as T. pose proof (nearest_nonneg num den N D) as P. fold f in T, P.
  split.
  - split; [assumption|]. replace (2 ^ 53 * f_one) with (2 ^ (1074 + 53)) by (unfold f_one; rewrite <- Z.pow_add_r by lia; reflexivity).
    etransitivity; [exact T|]. apply Z.pow_le_mono_r; lia.
  - intros B. pose proof (Z.div_pos f f_one P F). assert (f / f_one < 2 ^ 53) by (apply Z.div_lt_upper_bound; lia).
    rewrite float_of_int_exact by lia. unfold fsub.
    pose proof (Z.div_mod f f_one ltac:(lia)) as E. pose proof (Z.mod_pos_bound f f_one F) as M.
    replace (f - f / f_one * f_one) with (f mod f_one) by lia. rewrite fround_nonneg by lia.
    apply nearest_exact; [lia|ring|].
    set (g := f mod f_one) in *.
    assert (2 ^ scale num den | g) as DG.
    { unfold g. rewrite Z.mod_eq by lia. apply Z.divide_sub_r; [apply nearest_divide|]. apply Z.divide_mul_l, f_one_divide. lia. }
    assert (g <= f) as GF by nia.
    assert (scale g f_one = Z.max 0 (Z.log2 g - 52)) as SG by (unfold scale; rewrite Z.div_mul by lia; reflexivity).
    destruct (Z.eq_dec g 0) as [->|G0]; [apply Z.divide_0_r|].
    destruct (Z.eq_dec g (2 ^ (scale num den + 53))) as [GE|GE].
    + rewrite SG, GE, Z.log2_pow2 by lia. apply pow_divide. lia.
    + assert (g < 2 ^ (scale num den + 53)) as GL by lia. apply Z.log2_lt_pow2 in GL; [|lia].
      etransitivity; [|exact DG]. apply pow_divide. rewrite SG. lia.
Qed.

Lemma U_pos : 0 < 2 ^ 1020.
Proof. apply pow_pos. lia. Qed.
Lemma f_one_U : f_one = 2 ^ 54 * 2 ^ 1020.
Proof. unfold f_one. rewrite <- Z.pow_add_r by lia. reflexivity. Qed.

(** ** what becomes of [num / den] seconds below 2^22 *)
Section Seconds.
Variables num den : Z.
Hypothesis N : 0 <= num.
Hypothesis D : 0 < den.
Hypothesis L : num < 2 ^ 22 * den.
Let f := nearest num den.
Let w := f / f_one.
Let g := f mod f_one.
Let nanos := float_to_int (fmul (fsub f (float_of_int (float_to_int f))) (float_of_int 1000000000)).
Let micros := float_to_int (fmul (fsub f (float_of_int (float_to_int f))) (float_of_int 1000000)).
Let U : Z := 2 ^ 1020.

Lemma scale_num : 0 <= scale num den <= 1043.
Proof.
  apply (scale_bound num den 1095); [assumption|assumption|lia|].
  replace (2 ^ (1095 + 1)) with (2 ^ 22 * f_one) by (unfold f_one; rewrite <- Z.pow_add_r by lia; reflexivity).
  pose proof f_one_pos. nia.
Qed.
(** the text is read with an error below a quarter of a nanosecond *)
Lemma f_bound : 2 * (f * den) <= 2 * (num * f_one) + den * (2 ^ 23 * U) /\ 2 * (num * f_one) - den * (2 ^ 23 * U) <= 2 * (f * den).
Proof.
  pose proof (nearest_bound num den D) as [A B]. fold f in A, B.
  assert (2 ^ scale num den <= 2 ^ 23 * U) as X.
  { replace (2 ^ 23 * U) with (2 ^ 1043) by (unfold U; rewrite <- Z.pow_add_r by lia; reflexivity). apply Z.pow_le_mono_r; [lia|]. apply scale_num. }
  nia.
Qed.
Lemma f_range : 0 <= f < 2 ^ 23 * f_one.
Proof.
  split; [apply nearest_nonneg; assumption|]. pose proof f_bound as [A _]. rewrite f_one_U in *. pose proof U_pos. unfold U in *. set (X := 2 ^ 1020) in *. nia.
Qed.
Lemma w_int : float_to_int f = w.
Proof. apply float_to_int_floor. pose proof f_range. pose proof f_one_pos. nia. Qed.
Lemma g_sub : fsub f (float_of_int (float_to_int f)) = g.
Proof.
  rewrite w_int. pose proof f_range. pose proof f_one_pos.
  refine (proj2 (fraction_exact num den N D _) _); [|fold f; nia].
  replace (2 ^ (1126 + 1)) with (2 ^ 53 * f_one) by (unfold f_one; rewrite <- Z.pow_add_r by lia; reflexivity). nia.
Qed.
Lemma g_range : 0 <= g < f_one.
Proof. apply Z.mod_pos_bound, f_one_pos. Qed.
Lemma f_split : f = w * f_one + g.
Proof. unfold w, g. pose proof (Z.div_mod f f_one). pose proof f_one_pos. lia. Qed.
Lemma w_range : 0 <= w < 2 ^ 23.
Proof. pose proof f_range. pose proof f_one_pos. unfold w. split; [apply Z.div_pos; lia|apply Z.div_lt_upper_bound; lia]. Qed.
(** below 1 there are 53 bits *)
Lemma g_top : g <= f_one - 2 * U.
Proof.
  pose proof U_pos as UP. fold U in UP. pose proof f_one_U as FU. fold U in FU. destruct (Z.le_gt_cases g (2 ^ 53 * U)) as [|G]; [lia|].
  assert (2 * U | g) as [j J].
  { replace (2 * U) with (2 ^ 1021) by (unfold U; rewrite <- (Z.pow_add_r 2 1) by lia; reflexivity).
    unfold g. rewrite Z.mod_eq by (pose proof f_one_pos; lia). apply Z.divide_sub_r; [|apply Z.divide_mul_l, f_one_divide; lia].
    etransitivity; [|apply nearest_divide]. apply pow_divide. split; [lia|].
    assert (2 ^ 1073 <= num * f_one / den) as LB.
    { replace (2 ^ 1073) with (2 ^ 53 * U) by (unfold U; rewrite <- Z.pow_add_r by lia; reflexivity).
      destruct (Z.le_gt_cases (2 ^ 53 * U) (num * f_one / den)) as [|X]; [assumption|exfalso].
      assert (num * f_one < den * (2 ^ 53 * U)) as X'.
      { pose proof (Z.div_mod (num * f_one) den ltac:(lia)). pose proof (Z.mod_pos_bound (num * f_one) den D). nia. }
      assert (num * f_one < den * 2 ^ (1072 + 1)) as X2.
      { replace (2 ^ (1072 + 1)) with (2 ^ 53 * U) by (unfold U; rewrite <- Z.pow_add_r by lia; reflexivity). assumption. }
      pose proof (scale_bound num den 1072 N D ltac:(lia) X2) as SB. pose proof (nearest_top num den N D) as T. fold f in T.
      assert (2 ^ (scale num den + 53) <= 2 ^ 1073) as PM by (apply Z.pow_le_mono_r; lia).
      replace (2 ^ 1073) with (2 ^ 53 * U) in PM by (unfold U; rewrite <- Z.pow_add_r by lia; reflexivity).
      pose proof f_split. pose proof w_range. nia. }
    apply Z.log2_le_pow2 in LB; [unfold scale; lia|].
    pose proof (pow_pos 1073). lia. }
  pose proof g_range. nia.
Qed.

Lemma product : forall c e, 0 < c < 2 ^ 53 -> 0 <= e -> c * 2 ^ 54 < 2 ^ (e + 1) -> let p := fmul g (float_of_int c) in
  2 * p <= 2 * (g * c) + 2 ^ Z.max 0 (e + 1020 - 52) /\ 2 * (g * c) - 2 ^ Z.max 0 (e + 1020 - 52) <= 2 * p /\ 0 <= p /\ (Z.divide (2 ^ (Z.max 0 (e + 1020 - 52))) (g * c) -> p = g * c).
Proof.
  intros c e C E CE p. pose proof f_one_pos as F. pose proof g_range as G.
  assert (p = nearest (g * c * f_one) (f_one * f_one)) as ->.
  { unfold p, fmul. rewrite float_of_int_exact by lia. rewrite fround_nonneg by nia. f_equal. ring. }
  set (q := nearest (g * c * f_one) (f_one * f_one)).
  assert (0 <= scale (g * c * f_one) (f_one * f_one) <= Z.max 0 (e + 1020 - 52)) as S0.
  { assert (scale (g * c * f_one) (f_one * f_one) = Z.max 0 (Z.log2 (g * c) - 52)) as ->.
    { unfold scale. do 2 f_equal. f_equal. replace (g * c * f_one * f_one) with (g * c * (f_one * f_one)) by ring. apply Z.div_mul. nia. }
    split; [lia|]. destruct (Z.eq_dec (g * c) 0) as [->|Z0]; [change (Z.log2 0) with 0; lia|].
    assert (g * c < 2 ^ (e + 1020 + 1)) as LT.
    { replace (e + 1020 + 1) with (e + 1 + 1020) by lia. rewrite Z.pow_add_r by lia. fold U. rewrite f_one_U in G. pose proof U_pos. unfold U in *. set (X := 2 ^ 1020) in *. nia. }
    apply Z.log2_lt_pow2 in LT; [|nia]. lia. }
  pose proof (nearest_bound (g * c * f_one) (f_one * f_one) ltac:(nia)) as [A B]. fold q in A, B.
  assert (2 ^ scale (g * c * f_one) (f_one * f_one) <= 2 ^ Z.max 0 (e + 1020 - 52)) as PM by (apply Z.pow_le_mono_r; lia).
  assert (2 * q <= 2 * (g * c) + 2 ^ scale (g * c * f_one) (f_one * f_one)) as A'.
  { apply (Z.mul_le_mono_pos_r _ _ (f_one * f_one)); nia. }
  assert (2 * (g * c) - 2 ^ scale (g * c * f_one) (f_one * f_one) <= 2 * q) as B'.
  { apply (Z.mul_le_mono_pos_r _ _ (f_one * f_one)); nia. }
  split; [lia|]. split; [lia|]. split. { apply nearest_nonneg; nia. }
  intros DV. apply nearest_exact; [nia|ring|]. etransitivity; [|exact DV]. apply pow_divide. lia.
Qed.

Lemma nanos_bounds : 0 <= nanos < 10 ^ 9 /\ 2 * (nanos * f_one) <= 2 * (g * 10 ^ 9) + 2 ^ 31 * U /\ 2 * (g * 10 ^ 9) - 2 ^ 31 * U < 2 * ((nanos + 1) * f_one).
Proof.
  pose proof U_pos as UP. fold U in UP. pose proof f_one_pos as F. pose proof f_one_U as FU. fold U in FU. pose proof g_top as GT. pose proof g_range as GR.
  destruct (product 1000000000 83 ltac:(lia) ltac:(lia) ltac:(reflexivity)) as (A & B & P & _).
  change (Z.max 0 (83 + 1020 - 52)) with 1051 in *.
  replace (2 ^ 1051) with (2 ^ 31 * U) in * by (unfold U; rewrite <- Z.pow_add_r by lia; reflexivity).
  unfold nanos. rewrite g_sub. set (p := fmul g (float_of_int 1000000000)) in *.
  change (10 ^ 9) with 1000000000.
  assert (p < 1000000000 * f_one) as PT by nia.
  rewrite float_to_int_floor by nia.
  pose proof (Z.div_mod p f_one ltac:(lia)). pose proof (Z.mod_pos_bound p f_one F).
  pose proof (Z.div_pos p f_one P F). assert (p / f_one < 1000000000) by (apply Z.div_lt_upper_bound; lia).
  nia.
Qed.
Lemma micros_bounds : 0 <= micros < 10 ^ 6 /\ 2 * (micros * f_one) <= 2 * (g * 10 ^ 6) + 2 ^ 21 * U.
Proof.
  pose proof U_pos as UP. fold U in UP. pose proof f_one_pos as F. pose proof f_one_U as FU. fold U in FU. pose proof g_top as GT. pose proof g_range as GR.
  destruct (product 1000000 73 ltac:(lia) ltac:(lia) ltac:(reflexivity)) as (A & B & P & _).
  change (Z.max 0 (73 + 1020 - 52)) with 1041 in *.
  replace (2 ^ 1041) with (2 ^ 21 * U) in * by (unfold U; rewrite <- Z.pow_add_r by lia; reflexivity).
  unfold micros. rewrite g_sub. set (p := fmul g (float_of_int 1000000)) in *.
  change (10 ^ 6) with 1000000.
  assert (p < 1000000 * f_one) as PT by nia.
  rewrite float_to_int_floor by nia.
  pose proof (Z.div_mod p f_one ltac:(lia)). pose proof (Z.mod_pos_bound p f_one F).
  pose proof (Z.div_pos p f_one P F). assert (p / f_one < 1000000) by (apply Z.div_lt_upper_bound; lia).
  nia.
Qed.
End Seconds.

From Verif Require Import TimeProofs.

Lemma seconds_wrap : forall w h m, wrap 32 (wrap 64 (w + wrap 64 (wrap 64 (h * 3600) + wrap 64 (m * 60)))) = wrap 32 (h * 3600 + m * 60 + w).
Proof.
  intros. rewrite wrap_add_r by lia. replace (w + (wrap 64 (h * 3600) + wrap 64 (m * 60))) with (wrap 64 (h * 3600) + (w + wrap 64 (m * 60))) by ring.
  rewrite wrap_add_l by lia.
  replace (h * 3600 + (w + wrap 64 (m * 60))) with ((w + h * 3600) + wrap 64 (m * 60)) by ring. rewrite wrap_add_r by lia.
  destruct (wrap_cong 64 (w + h * 3600 + m * 60) ltac:(lia)) as [k ->].
  replace (w + h * 3600 + m * 60 + k * 2 ^ 64) with (h * 3600 + m * 60 + w + (k * 2 ^ 32) * 2 ^ 32) by ring.
  apply wrap_eq. lia.
Qed.

Lemma split_small : forall num den d h m, 0 <= num -> 0 < den -> num < 2 ^ 22 * den -> exists w ss p,
  split_interval d h m (nearest num den) = (wrap 32 d, wrap 32 (h * 3600 + m * 60 + w), ss, p) /\ (p = 6 \/ p = 9) /\
  0 <= ss < 10 ^ p /\ 0 <= w /\
  2 * num * 10 ^ 9 - 3 * den < 2 * den * (w * 10 ^ 9 + ss * 10 ^ (9 - p)) <= 2 * num * 10 ^ 9 + den.
Proof.
  intros num den d h m N D L. pose proof (f_bound num den N D L) as FB.
  pose proof (w_int num den N D L) as W. pose proof (w_range num den N D L) as WR.
  pose proof (nanos_bounds num den N D L) as (NR & NU & NL). pose proof (micros_bounds num den N D L) as (MR & MU).
  pose proof (f_split num den) as FS.
  unfold split_interval. rewrite seconds_wrap, W.
  set (f := nearest num den) in *. rewrite W in *. set (w := f / f_one) in *. set (g := f mod f_one) in *.
  set (nanos := float_to_int (fmul (fsub f (float_of_int w)) (float_of_int 1000000000))) in *.
  set (micros := float_to_int (fmul (fsub f (float_of_int w)) (float_of_int 1000000))) in *.
  change (10 ^ 9) with 1000000000 in *. change (10 ^ 6) with 1000000 in *.
  rewrite (wrap_id 64 (micros * 1000)) by (unfold in_int; lia).
  rewrite f_one_U in *. pose proof U_pos as UP. set (U := 2 ^ 1020) in *. clearbody U.
  destruct FB as [FU FL].
  assert (2 * (den * (w * 1000000000 + nanos)) <= 2 * num * 1000000000 + den /\
          2 * num * 1000000000 - 3 * den < 2 * (den * (w * 1000000000 + nanos))) as [A1 A2].
  { split; [apply (Z.mul_le_mono_pos_r _ _ (2 ^ 54 * U)); [lia|]|apply (Z.mul_lt_mono_pos_r (2 ^ 54 * U)); [lia|]]; nia. }
  destruct (micros * 1000 <? nanos) eqn:C.
  - exists w, nanos, 9. change (10 ^ (9 - 9)) with 1. change (10 ^ 9) with 1000000000.
    split; [reflexivity|]. split; [auto|]. split; [lia|]. split; [lia|]. split; lia.
  - apply Z.ltb_ge in C. exists w, micros, 6. change (10 ^ (9 - 6)) with 1000.
    assert (2 * (den * (w * 1000000000 + micros * 1000)) <= 2 * num * 1000000000 + den) as A3.
    { apply (Z.mul_le_mono_pos_r _ _ (2 ^ 54 * U)); [lia|]. nia. }
    split; [reflexivity|]. split; [auto|]. split; [lia|]. split; [lia|]. split; [nia|lia].
Qed.

(** whole seconds are exact *)
Lemma split_whole : forall v d h m, 0 <= v < 2 ^ 53 ->
  split_interval d h m (nearest v 1) = (wrap 32 d, wrap 32 (h * 3600 + m * 60 + v), 0, 6).
Proof.
  intros v d h m V. pose proof f_one_pos as F. unfold split_interval. rewrite seconds_wrap.
  pose proof (float_of_int_exact v V) as E. unfold float_of_int in E. rewrite fround_nonneg in E by lia. rewrite E.
  rewrite (float_to_int_floor (v * f_one)). 2: { split; [apply Z.mul_nonneg_nonneg; lia|]. apply Z.mul_lt_mono_pos_r; lia. }
  rewrite Z.div_mul by lia. rewrite float_of_int_exact by assumption.
  assert (fsub (v * f_one) (v * f_one) = 0) as ->.
  { unfold fsub. rewrite Z.sub_diag, fround_nonneg by lia. apply nearest_exact; [lia|reflexivity|apply Z.divide_0_r]. }
  assert (forall c, fmul 0 c = 0) as FM.
  { intros c. unfold fmul. rewrite Z.mul_0_l, fround_nonneg by lia. apply nearest_exact; [apply Z.mul_pos_pos; lia|reflexivity|apply Z.divide_0_r]. }
  rewrite !FM. rewrite (float_to_int_floor 0) by lia. rewrite Z.div_0_l by lia. reflexivity.
Qed.

(** multiples of 2^-9 seconds are exact *)
Lemma split_dyadic : forall num den z d h m, 0 < den -> 0 <= z < 2 ^ 31 -> num * 2 ^ 9 = z * den ->
  let ns := z mod 2 ^ 9 * 5 ^ 9 in
  split_interval d h m (nearest num den) =
    (wrap 32 d, wrap 32 (h * 3600 + m * 60 + z / 2 ^ 9),
     if ns mod 1000 =? 0 then ns / 1000 else ns, if ns mod 1000 =? 0 then 6 else 9).
Proof.
  intros num den z d h m D Hz E ns.
  assert (0 <= num) as N by nia. assert (num < 2 ^ 22 * den) as L by nia.
  pose proof f_one_pos as F.
  assert (f_one = 2 ^ 9 * 2 ^ 1065) as F9 by (unfold f_one; rewrite <- Z.pow_add_r by lia; reflexivity).
  assert (0 < 2 ^ 1065) as P by (apply pow_pos; lia).
  assert (nearest num den = z * 2 ^ 1065) as FE.
  { apply nearest_exact; [assumption|rewrite F9; nia|]. apply Z.divide_mul_r, pow_divide. pose proof (scale_num num den N D L). lia. }
  pose proof (w_int num den N D L) as W. pose proof (g_sub num den N D L) as G.
  pose proof (product num den 1000000000 83 ltac:(lia) ltac:(lia) ltac:(reflexivity)) as (_ & _ & _ & P9).
  pose proof (product num den 1000000 73 ltac:(lia) ltac:(lia) ltac:(reflexivity)) as (_ & _ & _ & P6).
  rewrite FE in *.
  assert (z * 2 ^ 1065 / f_one = z / 2 ^ 9) as WE by (rewrite F9; apply Z.div_mul_cancel_r; lia).
  assert (z * 2 ^ 1065 mod f_one = z mod 2 ^ 9 * 2 ^ 1065) as GE by (rewrite F9; apply Z.mul_mod_distr_r; lia).
  rewrite WE in W. rewrite GE in *.
  unfold split_interval. rewrite seconds_wrap, W, <- W, G, W.
  rewrite P9, P6.
  2: { apply Z.divide_mul_l, Z.divide_mul_r, pow_divide. lia. }
  2: { apply Z.divide_mul_l, Z.divide_mul_r, pow_divide. lia. }
  set (j := z mod 2 ^ 9) in *. assert (0 <= j < 2 ^ 9) as J by (apply Z.mod_pos_bound; lia).
  assert (ns = j * 1953125) as NS by reflexivity.
  rewrite !float_to_int_floor by nia.
  assert (j * 2 ^ 1065 * 1000000000 / f_one = ns) as ->.
  { replace (j * 2 ^ 1065 * 1000000000) with (ns * f_one) by (rewrite F9, NS; ring). apply Z.div_mul. lia. }
  assert (j * 2 ^ 1065 * 1000000 / f_one = ns / 1000) as ->.
  { rewrite NS. replace (j * 2 ^ 1065 * 1000000) with (j * 15625 * (2 ^ 6 * 2 ^ 1065)) by ring.
    replace f_one with (8 * (2 ^ 6 * 2 ^ 1065)) by (rewrite F9; ring). rewrite Z.div_mul_cancel_r by lia.
    replace (j * 1953125) with (j * 15625 * 125) by ring. change 1000 with (8 * 125). rewrite Z.div_mul_cancel_r by lia. reflexivity. }
  clearbody j. pose proof (Z.div_mod ns 1000 ltac:(lia)) as DM. pose proof (Z.mod_pos_bound ns 1000 ltac:(lia)) as MB.
  rewrite (wrap_id 64) by (unfold in_int; lia).
  destruct (ns mod 1000 =? 0) eqn:Q; [apply Z.eqb_eq in Q|apply Z.eqb_neq in Q];
    (destruct (ns / 1000 * 1000 <? ns) eqn:C; [apply Z.ltb_lt in C|apply Z.ltb_ge in C]); try reflexivity; lia.
Qed.
