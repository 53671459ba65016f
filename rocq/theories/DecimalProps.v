(** C11-C13: decimal encoding, two's complement, changing precision and scale. *)

From Coq Require Import List ZArith Bool Lia.
From Verif Require Import Base DecimalModel DecimalSpec DecimalProofs.
Import ListNotations.
Local Open Scope Z_scope.

(** ** C12 *)

(** Negating big-endian bytes negates their value modulo 256^length. *)
Theorem C12_negate_is_arithmetic_negation : forall l, Forall is_byte l ->
  be_value (negate l) = (- be_value l) mod 256 ^ Z.of_nat (List.length l) /\
  List.length (negate l) = List.length l /\ Forall is_byte (negate l).
Proof. exact negate_spec. Qed.

(** ... and so is its own inverse. *)
Theorem C12_negate_involutive : forall l, Forall is_byte l -> negate (negate l) = l.
Proof.
  intros l H. destruct (negate_spec l H) as (N1 & N2 & N3).
  destruct (negate_spec _ N3) as (M1 & M2 & M3).
  assert (E : rev (negate (negate l)) = rev l).
  2:{ apply (f_equal (@rev Z)) in E. rewrite !rev_involutive in E. auto. }
  apply le_value_inj.
  - rewrite !rev_length. congruence.
  - apply Forall_rev'; auto.
  - apply Forall_rev'; auto.
  - change (be_value (negate (negate l)) = be_value l). rewrite M1, N1, N2.
    assert (0 < 256 ^ Z.of_nat (List.length l)) by (apply Z.pow_pos_nonneg; lia).
    rewrite <- (Z.sub_0_l (_ mod _)), Zminus_mod_idemp_r, Z.sub_0_l, Z.opp_involutive.
    unfold be_value. apply Z.mod_small. pose proof (le_value_bound (rev l) (Forall_rev' _ _ _ H)) as B.
    rewrite rev_length in B. auto.
Qed.

Example C12_negate_nonvacuous :
  negate [255; 255; 255; 0; 0] = [0; 0; 1; 0; 0] /\ negate [128; 0] = [128; 0].
Proof. vm_compute. auto. Qed.

(** Reading 16 bytes yields exactly their two's complement value. *)
Theorem C12_decode_is_twos_complement : forall b scale, bytes 16 b -> in_int 32 scale -> scale <> - 2 ^ 31 ->
  apd_int (decimal_of_bytes b scale) = signed128 b /\ 0 <= a_coeff (decimal_of_bytes b scale) /\
  a_exp (decimal_of_bytes b scale) = - scale.
Proof.
  intros b scale Hb Hs Hs2. unfold decimal_of_bytes, apd_int. cbv zeta. cbn [a_neg a_coeff a_exp].
  destruct (abs_of_bytes b Hb) as [A1 A2].
  assert (E : (if top_bit b then - set_bytes (if top_bit b then negate (rev b) else rev b)
                else set_bytes (if top_bit b then negate (rev b) else rev b)) = signed128 b).
  { rewrite A1. destruct (top_bit b).
    - pose proof (proj1 A2 eq_refl). lia.
    - destruct (Z_lt_ge_dec (signed128 b) 0) as [L|G]; [apply A2 in L; discriminate|lia]. }
  rewrite E. split.
  - destruct (signed128 b <? 0) eqn:C; [apply Z.ltb_lt in C|apply Z.ltb_ge in C]; lia.
  - split; [lia|]. apply wrap_small. unfold in_int in Hs. change (2 ^ (32 - 1)) with (2 ^ 31) in Hs. lia.
Qed.

(** ** C11 *)

(** the digits a number needs: all of them, and one before the point *)
Definition digits_needed (nd e : Z) : Z := if 0 <? e then nd + e else Z.max nd (- e + 1).

(** Encoding: refused exactly when the number needs more than 38 digits; otherwise 16
    bytes whose two's complement value, at the reported scale, is the number, with the
    reported precision being the digits needed. *)
Theorem C11_encode_exact : forall d nd, apd_ok d -> has_digits (a_coeff d) nd ->
  (38 < digits_needed nd (a_exp d) -> decimal_to_bytes d = Err) /\
  (digits_needed nd (a_exp d) <= 38 ->
   exists b p s, decimal_to_bytes d = Ok (b, p, s) /\ bytes 16 b /\
     p = digits_needed nd (a_exp d) /\ s = Z.max 0 (- a_exp d) /\
     same_number (signed128 b) (- s) (apd_int d) (a_exp d) /\
     Z.abs (signed128 b) < 10 ^ p).
Proof.
  intros d nd (Hc & (nd' & Hd' & Hn) & He) Hd.
  assert (nd' = nd) by (eapply has_digits_unique; eauto). subst nd'. clear Hd'.
  assert (Hnd : num_digits (a_coeff d) = nd) by
    (eapply has_digits_unique; eauto; apply num_digits_spec; auto).
  pose proof Hd as (Hd1 & Hd2 & Hd3).
  unfold decimal_to_bytes, digits_needed. cbv zeta. rewrite Hnd in *.
  rewrite (wrap_small nd) by lia.
  destruct (0 <? a_exp d) eqn:E.
  - apply Z.ltb_lt in E. rewrite wrap_small by lia.
    destruct (38 <? nd + a_exp d) eqn:F.
    { apply Z.ltb_lt in F. split; auto. lia. }
    apply Z.ltb_ge in F. split; [lia|]. intros _.
    assert (P10 : 0 < 10 ^ a_exp d) by (apply Z.pow_pos_nonneg; lia).
    assert (Hlt : a_coeff d * 10 ^ a_exp d < 10 ^ (nd + a_exp d)).
    { rewrite Z.pow_add_r by lia. apply Z.mul_lt_mono_pos_r; auto. }
    assert (H38 : 10 ^ (nd + a_exp d) <= 10 ^ 38) by (apply Z.pow_le_mono_r; lia).
    assert (H127 : 10 ^ 38 < 2 ^ 127) by reflexivity.
    assert (H0 : 0 <= a_coeff d * 10 ^ a_exp d) by (apply Z.mul_nonneg_nonneg; lia).
    assert (H128 : a_coeff d * 10 ^ a_exp d < 256 ^ 16).
    { rewrite pow256_16. change (2 ^ 128) with (2 * 2 ^ 127). lia. }
    destruct (be_bytes_spec _ H0) as (_ & _ & BL).
    assert (HL := proj2 BL H128).
    destruct (16 <? Z.of_nat (List.length (be_bytes (a_coeff d * 10 ^ a_exp d)))) eqn:G;
      [apply Z.ltb_lt in G; lia|].
    eexists _, _, _. split; [reflexivity|].
    destruct (signed_bytes_spec (a_neg d) _ (conj H0 H128)) as [S1 S2].
    fold (signed_bytes (a_neg d) (a_coeff d * 10 ^ a_exp d)).
    split; auto. split; auto. split; [lia|].
    assert (SV : signed128 (signed_bytes (a_neg d) (a_coeff d * 10 ^ a_exp d)) = apd_int d * 10 ^ a_exp d).
    { unfold apd_int. etransitivity; [apply signed128_of_mod; [exact S2|]|].
      - remember (a_coeff d * 10 ^ a_exp d) as x. destruct (a_neg d); lia.
      - destruct (a_neg d); [rewrite Z.mul_opp_l|]; reflexivity. }
    rewrite SV. split.
    + apply (same_number_iff _ _ _ _ 0); [lia|lia|]. rewrite !Z.sub_0_r. change (10 ^ (- 0)) with 1. rewrite Z.mul_1_r. reflexivity.
    + unfold apd_int. destruct (a_neg d); [rewrite Z.mul_opp_l, Z.abs_opp|]; rewrite Z.abs_eq; lia.
  - apply Z.ltb_ge in E. rewrite (wrap_small (- a_exp d)) by lia. rewrite wrap_small by lia.
    destruct (38 <? Z.max nd (- a_exp d + 1)) eqn:F.
    { apply Z.ltb_lt in F. split; auto. lia. }
    apply Z.ltb_ge in F. split; [lia|]. intros _.
    assert (H38 : 10 ^ Z.max nd (- a_exp d + 1) <= 10 ^ 38) by (apply Z.pow_le_mono_r; lia).
    assert (Hp : 10 ^ nd <= 10 ^ Z.max nd (- a_exp d + 1)) by (apply Z.pow_le_mono_r; lia).
    assert (H127 : 10 ^ 38 < 2 ^ 127) by reflexivity.
    assert (H128 : a_coeff d < 256 ^ 16).
    { rewrite pow256_16. change (2 ^ 128) with (2 * 2 ^ 127). lia. }
    destruct (be_bytes_spec _ Hc) as (_ & _ & BL).
    assert (HL := proj2 BL H128).
    destruct (16 <? Z.of_nat (List.length (be_bytes (a_coeff d)))) eqn:G;
      [apply Z.ltb_lt in G; lia|].
    eexists _, _, _. split; [reflexivity|].
    destruct (signed_bytes_spec (a_neg d) _ (conj Hc H128)) as [S1 S2].
    fold (signed_bytes (a_neg d) (a_coeff d)).
    split; auto. split; auto. split; [lia|].
    assert (SV : signed128 (signed_bytes (a_neg d) (a_coeff d)) = apd_int d).
    { unfold apd_int. etransitivity; [apply signed128_of_mod; [exact S2|]|]; destruct (a_neg d); lia. }
    rewrite SV. split.
    + rewrite Z.opp_involutive. apply same_number_refl.
    + unfold apd_int. destruct (a_neg d); [rewrite Z.abs_opp|]; rewrite Z.abs_eq; lia.
Qed.

Example C11_encode_nonvacuous :
  decimal_to_bytes (Apd true 12345 (-2)) = Ok ([199; 207] ++ repeat 255 14, 5, 2) /\
  decimal_to_bytes (Apd false 5 3) = Ok ([136; 19] ++ repeat 0 14, 4, 0) /\
  decimal_to_bytes (Apd false 1 (-38)) = Err /\ decimal_to_bytes (Apd false 1 38) = Err.
Proof. vm_compute. auto. Qed.

(** Encoding then decoding at the reported scale gives the same number, and the
    reported precision and scale are legal. *)
Theorem C11_roundtrip : forall d b p s, apd_ok d -> decimal_to_bytes d = Ok (b, p, s) ->
  0 <= s < p /\ p <= 38 /\ bytes 16 b /\
  same_number (apd_int (decimal_of_bytes b s)) (a_exp (decimal_of_bytes b s)) (apd_int d) (a_exp d).
Proof.
  intros d b p s Hok E. pose proof Hok as (Hc & _).
  pose proof (num_digits_spec _ Hc) as Hd.
  destruct (C11_encode_exact d _ Hok Hd) as [H1 H2].
  destruct (Z_le_gt_dec (digits_needed (num_digits (a_coeff d)) (a_exp d)) 38) as [L|G].
  - destruct (H2 L) as (b' & p' & s' & E' & Hb & Hp & Hs & Hv & _). rewrite E in E'.
    assert (b' = b /\ p' = p /\ s' = s) as (-> & -> & ->) by (inversion E'; auto). clear E'.
    assert (Hsp : 0 <= s < p).
    { rewrite Hp, Hs. unfold digits_needed. destruct Hd as (Hd1 & _). destruct (0 <? a_exp d) eqn:F.
      - apply Z.ltb_lt in F. lia.
      - apply Z.ltb_ge in F. lia. }
    split; [exact Hsp|]. split; [lia|]. split; auto.
    destruct (C12_decode_is_twos_complement b s Hb) as (D1 & _ & D3).
    + unfold in_int. change (2 ^ (32 - 1)) with 2147483648. lia.
    + change (2 ^ 31) with 2147483648. lia.
    + rewrite D1, D3. auto.
  - rewrite H1 in E by lia. discriminate.
Qed.

(** Finding: without the bound on the exponent the claim is false.  Near the int32
    bounds the checks overflow: the encoder reports a negative precision, or a scale
    that gives a different number. *)
Theorem C11_int32_exponent_refuted :
  (exists d b p s, 0 <= a_coeff d /\ in_int 32 (a_exp d) /\ decimal_to_bytes d = Ok (b, p, s) /\ p < 0) /\
  (exists d b p s, 0 <= a_coeff d /\ in_int 32 (a_exp d) /\ decimal_to_bytes d = Ok (b, p, s) /\ p < s) /\
  (exists d b p s, 0 <= a_coeff d /\ in_int 32 (a_exp d) /\ decimal_to_bytes d = Ok (b, p, s) /\ s < 0).
Proof.
  split; [|split].
  - assert (E : decimal_to_bytes (Apd false 0 2147483647) = Ok (repeat 0 16, -2147483648, 0)).
    { unfold decimal_to_bytes. cbv zeta. cbn [a_exp a_coeff a_neg].
      change (0 <? 2147483647) with true. cbv iota. rewrite Z.mul_0_l. vm_compute. reflexivity. }
    exists (Apd false 0 2147483647), (repeat 0 16), (-2147483648), 0.
    split; [cbn; lia|]. split; [cbn [a_exp]; unfold in_int; cbn; lia|]. split; [exact E|lia].
  - exists (Apd false 5 (-2147483647)), (5 :: repeat 0 15), 1, 2147483647.
    split; [cbn; lia|]. split; [cbn [a_exp]; unfold in_int; cbn; lia|]. split; [vm_compute; reflexivity|lia].
  - exists (Apd false 5 (-2147483648)), (5 :: repeat 0 15), 1, (-2147483648).
    split; [cbn; lia|]. split; [cbn [a_exp]; unfold in_int; cbn; lia|]. split; [vm_compute; reflexivity|lia].
Qed.

(** Finding: some numbers that a 38-digit decimal can hold are refused, because one
    digit is always reserved before the point. *)
Theorem C11_representable_refused_refuted :
  exists d, apd_ok d /\ decimal_to_bytes d = Err /\
    exists b, new_decimal_from_twos_complement b 38 38 = Ok (b, 38, 38) /\ bytes 16 b /\
      same_number (signed128 b) (-38) (apd_int d) (a_exp d).
Proof.
  exists (Apd false 1 (-38)). split; [unfold apd_ok; cbn [a_coeff a_exp]; split; [lia|]; split; [exists 1; unfold has_digits; split; [|reflexivity]; split; [lia|]; split; [reflexivity|right; cbn; lia]|lia]|].
  split; [vm_compute; auto|].
  exists (1 :: repeat 0 15). split; [reflexivity|]. split.
  - split; [reflexivity|]. repeat (apply Forall_cons; [unfold is_byte; lia|]). apply Forall_nil.
  - vm_compute. auto.
Qed.

(** Raw bytes are accepted exactly with 16 bytes, precision 1..38 and scale
    0..precision, and kept as they are. *)
Theorem C11_raw_bytes_accepted_iff : forall b p s,
  (List.length b = 16%nat /\ 1 <= p <= 38 /\ 0 <= s <= p ->
     new_decimal_from_twos_complement b p s = Ok (b, p, s)) /\
  (~ (List.length b = 16%nat /\ 1 <= p <= 38 /\ 0 <= s <= p) ->
     new_decimal_from_twos_complement b p s = Err).
Proof.
  intros b p s. unfold new_decimal_from_twos_complement.
  destruct (Z.eqb_spec (Z.of_nat (List.length b)) 16); cbn [negb].
  - destruct (Z.ltb_spec p 1); cbn [orb]; [split; auto; lia|].
    destruct (Z.ltb_spec 38 p); [split; auto; lia|].
    destruct (Z.ltb_spec s 0); cbn [orb]; [split; auto; lia|].
    destruct (Z.ltb_spec p s); [split; auto; lia|]. split; auto. lia.
  - split; auto. lia.
Qed.

(** ** C13 *)

Lemma modify_char : forall b scale tp ts, bytes 16 b ->
  let v := signed128 b in
  let c := fst (reduce (Z.abs v) (- scale)) in
  let e := snd (reduce (Z.abs v) (- scale)) in
  (tp <= 38 /\ validate_prec_scale c e tp ts = true /\
   - ts <= e /\ c * 10 ^ (e + ts) < 10 ^ tp /\
   modify_decimal b scale tp ts = Ok (signed_bytes (v <? 0) (c * 10 ^ (e + ts)), tp, ts)) \/
  (~ (tp <= 38 /\ validate_prec_scale c e tp ts = true) /\ modify_decimal b scale tp ts = Err).
Proof.
  intros b scale tp ts Hb. cbv zeta. unfold modify_decimal.
  destruct (38 <? tp) eqn:E1.
  { apply Z.ltb_lt in E1. right. split; auto. lia. }
  apply Z.ltb_ge in E1. cbv zeta.
  destruct (abs_of_bytes b Hb) as [A1 A2]. rewrite A1.
  assert (HT : top_bit b = (signed128 b <? 0)).
  { destruct (top_bit b) eqn:T.
    - symmetry. apply Z.ltb_lt. apply A2; auto.
    - symmetry. apply Z.ltb_ge. destruct (Z_lt_ge_dec (signed128 b) 0) as [L|G]; [apply A2 in L; discriminate|lia]. }
  rewrite HT.
  pose proof (reduce_spec (Z.abs (signed128 b)) (- scale) (Z.abs_nonneg _)) as R.
  destruct (reduce (Z.abs (signed128 b)) (- scale)) as [c e]. cbn [fst snd].
  destruct R as [R0 R1].
  destruct (validate_prec_scale c e tp ts) eqn:V.
  2:{ right. split; auto. intros [_ H]; discriminate. }
  left. split; auto. split; auto.
  unfold validate_prec_scale, min_prec_scale in V.
  assert (Hc : 0 <= c) by (destruct (Z.eq_dec (Z.abs (signed128 b)) 0); [destruct (R0 e0); lia|]; pose proof (Z.abs_nonneg (signed128 b)); destruct R1; lia).
  pose proof (num_digits_spec c Hc) as Hd. pose proof Hd as (Hd1 & Hd2 & _).
  assert (HV : - ts <= e /\ num_digits c + e + ts <= tp /\ 0 <= e + ts).
  { destruct (0 <? e) eqn:Ee; rewrite !andb_true_iff, !negb_true_iff, !Z.ltb_ge in V;
    [apply Z.ltb_lt in Ee|apply Z.ltb_ge in Ee]; lia. }
  destruct HV as (HV1 & HV2 & HV3). split; auto.
  assert (P : 0 < 10 ^ (e + ts)) by (apply Z.pow_pos_nonneg; lia).
  assert (HB : c * 10 ^ (e + ts) < 10 ^ (num_digits c + (e + ts))).
  { rewrite (Z.pow_add_r 10 (num_digits c)) by lia. apply Z.mul_lt_mono_pos_r; auto. }
  assert (HB2 : 10 ^ (num_digits c + (e + ts)) <= 10 ^ tp) by (apply Z.pow_le_mono_r; lia).
  assert (H0 : 0 <= c * 10 ^ (e + ts)) by (apply Z.mul_nonneg_nonneg; lia).
  split; [lia|].
  unfold quantize. cbv zeta. destruct (0 <? - ts - e) eqn:Q; [apply Z.ltb_lt in Q; lia|].
  replace (- (- ts - e)) with (e + ts) by lia.
  assert (ND : num_digits (c * 10 ^ (e + ts)) <= tp).
  { destruct (Z.eq_dec c 0) as [->|Hnz].
    - rewrite Z.mul_0_l. change (num_digits 0) with 1. lia.
    - assert (HS := has_digits_scale c (num_digits c) (e + ts) ltac:(lia) ltac:(lia) Hd).
      pose proof (num_digits_spec _ H0) as HN.
      rewrite (has_digits_unique _ _ _ H0 HN HS). lia. }
  destruct (tp <? num_digits (c * 10 ^ (e + ts))) eqn:Q2; [apply Z.ltb_lt in Q2; lia|].
  cbn [bind].
  assert (H38 : 10 ^ tp <= 10 ^ 38) by (apply Z.pow_le_mono_r; lia).
  assert (H127 : 10 ^ 38 < 256 ^ 16) by reflexivity.
  destruct (be_bytes_spec _ H0) as (_ & _ & BL).
  assert (HL := proj2 BL ltac:(lia)).
  destruct (16 <? Z.of_nat (List.length (be_bytes (c * 10 ^ (e + ts))))) eqn:G; [apply Z.ltb_lt in G; lia|].
  reflexivity.
Qed.

Lemma reduce_same : forall c e, 0 <= c -> same_number (fst (reduce c e)) (snd (reduce c e)) c e.
Proof.
  intros c e Hc. pose proof (reduce_spec c e Hc) as R. destruct (reduce c e) as [c' e']. cbn [fst snd].
  destruct R as [R0 R1]. destruct (Z.eq_dec c 0) as [->|].
  - destruct (R0 eq_refl) as [-> ->]. unfold same_number. lia.
  - destruct R1 as (H1 & H2 & H3 & _); [lia|].
    apply (same_number_iff _ _ _ _ e); [lia|lia|]. rewrite Z.sub_diag. change (10 ^ 0) with 1. lia.
Qed.

(** When it succeeds, the bytes returned are the same number at the new scale, and it
    has at most the new precision's digits. *)
Theorem C13_modify_preserves_value : forall b scale tp ts b' p' s', bytes 16 b ->
  modify_decimal b scale tp ts = Ok (b', p', s') ->
  p' = tp /\ s' = ts /\ bytes 16 b' /\
  same_number (signed128 b') (- ts) (signed128 b) (- scale) /\
  Z.abs (signed128 b') < 10 ^ tp.
Proof.
  intros b scale tp ts b' p' s' Hb E.
  pose proof (modify_char b scale tp ts Hb) as H. cbv zeta in H.
  destruct H as [(H1 & H2 & H3 & H4 & H5)|[_ H5]]; [|congruence].
  rewrite H5 in E. inversion E; subst b' p' s'. split; auto. split; auto.
  pose proof (reduce_same (Z.abs (signed128 b)) (- scale) (Z.abs_nonneg _)) as RS.
  pose proof (reduce_spec (Z.abs (signed128 b)) (- scale) (Z.abs_nonneg _)) as R.
  destruct (reduce (Z.abs (signed128 b)) (- scale)) as [c e]. cbn [fst snd] in *.
  assert (Hc : 0 <= c).
  { destruct R as [R0 R1]. destruct (Z.eq_dec (Z.abs (signed128 b)) 0) as [E0|E0]; [destruct (R0 E0); lia|].
    pose proof (Z.abs_nonneg (signed128 b)). destruct R1; lia. }
  assert (P : 0 < 10 ^ (e + ts)) by (apply Z.pow_pos_nonneg; lia).
  assert (H0 : 0 <= c * 10 ^ (e + ts)) by (apply Z.mul_nonneg_nonneg; lia).
  assert (H38 : 10 ^ tp <= 10 ^ 38) by (apply Z.pow_le_mono_r; lia).
  assert (H127 : 10 ^ 38 < 2 ^ 127) by reflexivity.
  assert (H128 : c * 10 ^ (e + ts) < 256 ^ 16).
  { rewrite pow256_16. change (2 ^ 128) with (2 * 2 ^ 127). lia. }
  destruct (signed_bytes_spec (signed128 b <? 0) _ (conj H0 H128)) as [S1 S2]. split; auto.
  assert (SV : signed128 (signed_bytes (signed128 b <? 0) (c * 10 ^ (e + ts))) =
     if signed128 b <? 0 then - (c * 10 ^ (e + ts)) else c * 10 ^ (e + ts)).
  { apply signed128_of_mod; [exact S2|]. destruct (signed128 b <? 0); lia. }
  rewrite SV. split.
  - assert (S : same_number (c * 10 ^ (e + ts)) (- ts) (Z.abs (signed128 b)) (- scale)).
    { eapply same_number_trans; [|exact RS]. apply (same_number_iff _ _ _ _ (- ts)); [lia|lia|].
      rewrite Z.sub_diag. replace (e - - ts) with (e + ts) by lia. change (10 ^ 0) with 1. lia. }
    unfold same_number in *. destruct (signed128 b <? 0) eqn:N.
    + apply Z.ltb_lt in N. rewrite Z.abs_neq in S by lia. rewrite !Z.mul_opp_l in *. lia.
    + apply Z.ltb_ge in N. rewrite Z.abs_eq in S by lia. auto.
  - destruct (signed128 b <? 0); [rewrite Z.abs_opp|]; rewrite Z.abs_eq; lia.
Qed.

(** It succeeds exactly when the target is a legal precision and scale and the number
    can be written at the target scale with the target's digits (for a number other
    than zero; for zero see below).  Otherwise it is an error, never a panic. *)
Theorem C13_modify_succeeds_iff : forall b scale tp ts, bytes 16 b -> signed128 b <> 0 ->
  modify_decimal b scale tp ts <> Panic /\
  ((exists r, modify_decimal b scale tp ts = Ok r) <->
   tp <= 38 /\ 0 <= ts <= tp /\
   exists m, same_number m (- ts) (signed128 b) (- scale) /\ Z.abs m < 10 ^ tp).
Proof.
  intros b scale tp ts Hb Hnz.
  pose proof (modify_char b scale tp ts Hb) as H. cbv zeta in H.
  split. { destruct H as [(_ & _ & _ & _ & ->)|[_ ->]]; discriminate. }
  pose proof (reduce_same (Z.abs (signed128 b)) (- scale) (Z.abs_nonneg _)) as RS.
  pose proof (reduce_spec (Z.abs (signed128 b)) (- scale) (Z.abs_nonneg _)) as R.
  split.
  - intros [[[b' p'] s'] E].
    destruct (C13_modify_preserves_value _ _ _ _ _ _ _ Hb E) as (-> & -> & _ & HS & HA).
    destruct H as [(H1 & H2 & _)|[_ H5]]; [|congruence]. split; auto.
    destruct (reduce (Z.abs (signed128 b)) (- scale)) as [c e]. cbn [fst snd] in *.
    unfold validate_prec_scale, min_prec_scale in H2. split.
    + destruct R as [_ R]. destruct R as (Hc & _); [lia|].
      pose proof (num_digits_spec c ltac:(lia)) as (Hd1 & _).
      destruct (0 <? e) eqn:Ee; rewrite !andb_true_iff, !negb_true_iff, !Z.ltb_ge in H2;
      [apply Z.ltb_lt in Ee|apply Z.ltb_ge in Ee]; lia.
    + exists (signed128 b'). auto.
  - intros (H1 & H2 & m & HS & HA).
    destruct H as [(_ & _ & _ & _ & ->)|[Hn _]]; [eauto|]. exfalso. apply Hn. split; auto. clear Hn.
    destruct (reduce (Z.abs (signed128 b)) (- scale)) as [c e]. cbn [fst snd] in *.
    destruct R as [_ R]. destruct R as (Hc & He & Hce & Hmod); [lia|].
    (* |m| at -ts is c at e *)
    assert (S : same_number (Z.abs m) (- ts) c e).
    { eapply same_number_trans; [|apply same_number_sym; exact RS].
      unfold same_number in *. apply (f_equal Z.abs) in HS. rewrite !Z.abs_mul in HS.
      rewrite (Z.abs_eq (10 ^ (- ts - _))) in HS by (apply Z.pow_nonneg; lia).
      rewrite (Z.abs_eq (10 ^ (- scale - _))) in HS by (apply Z.pow_nonneg; lia). auto. }
    assert (Hle : - ts <= e).
    { destruct (Z_le_gt_dec (- ts) e); auto. exfalso. apply Hmod.
      apply (same_number_iff _ _ _ _ e) in S; [|lia|lia]. rewrite Z.sub_diag in S. change (10 ^ 0) with 1 in S.
      rewrite Z.mul_1_r in S. rewrite <- S. replace (- ts - e) with (Z.succ (- ts - e - 1)) by lia.
      rewrite Z.pow_succ_r by lia. rewrite Z.mul_assoc, (Z.mul_comm (Z.abs m) 10), <- Z.mul_assoc.
      rewrite Z.mul_comm. apply Z.mod_mul. lia. }
    assert (Hm : Z.abs m = c * 10 ^ (e + ts)).
    { apply (same_number_iff _ _ _ _ (- ts)) in S; [|lia|lia]. rewrite Z.sub_diag in S. change (10 ^ 0) with 1 in S.
      replace (e - - ts) with (e + ts) in S by lia. lia. }
    pose proof (num_digits_spec c ltac:(lia)) as Hd.
    assert (HSd := has_digits_scale c (num_digits c) (e + ts) ltac:(lia) ltac:(lia) Hd).
    assert (P : 0 < 10 ^ (e + ts)) by (apply Z.pow_pos_nonneg; lia).
    assert (Hpos : 0 < c * 10 ^ (e + ts)) by (apply Z.mul_pos_pos; lia).
    rewrite Hm in HA. apply (digits_lt_iff _ _ tp Hpos HSd) in HA.
    unfold validate_prec_scale, min_prec_scale.
    destruct (0 <? e) eqn:Ee; [apply Z.ltb_lt in Ee|apply Z.ltb_ge in Ee];
    rewrite !andb_true_iff, !negb_true_iff, !Z.ltb_ge; lia.
Qed.

(** Zero needs one digit before the point. *)
Theorem C13_modify_zero_iff : forall b scale tp ts, bytes 16 b -> signed128 b = 0 ->
  (0 <= ts < tp /\ tp <= 38 -> exists b', modify_decimal b scale tp ts = Ok (b', tp, ts) /\ signed128 b' = 0) /\
  (~ (0 <= ts < tp /\ tp <= 38) -> modify_decimal b scale tp ts = Err).
Proof.
  intros b scale tp ts Hb Hz.
  pose proof (modify_char b scale tp ts Hb) as H. cbv zeta in H. rewrite Hz in H.
  change (reduce (Z.abs 0) (- scale)) with (0, 0) in H. cbn [fst snd] in H.
  assert (V : validate_prec_scale 0 0 tp ts = true <-> 0 <= ts < tp).
  { unfold validate_prec_scale, min_prec_scale. change (0 <? 0) with false. cbv iota.
    change (num_digits 0) with 1. rewrite !andb_true_iff, !negb_true_iff, !Z.ltb_ge. lia. }
  split.
  - intros [H1 H2]. destruct H as [(_ & _ & _ & _ & E)|[Hn _]].
    + eexists. split; [exact E|]. rewrite Z.mul_0_l. reflexivity.
    + exfalso. apply Hn. split; auto. apply V; auto.
  - intros Hn. destruct H as [(H1 & H2 & _)|[_ E]]; auto. exfalso. apply Hn. split; auto. apply V; auto.
Qed.

Definition ex_bytes : list Z := [199; 207] ++ repeat 255 14.  (* -12345 *)
Example C13_modify_nonvacuous :
  bytes 16 ex_bytes /\ signed128 ex_bytes = -12345 /\
  (exists b', modify_decimal ex_bytes 2 8 4 = Ok (b', 8, 4) /\ signed128 b' = -1234500) /\
  modify_decimal ex_bytes 2 8 1 = Err /\ modify_decimal ex_bytes 2 6 4 = Err.
Proof.
  split; [split; [reflexivity|]; repeat (apply Forall_cons; [unfold is_byte; lia|]); apply Forall_nil|].
  split; [reflexivity|]. split; [exists ([188; 41; 237] ++ repeat 255 13); split; vm_compute; reflexivity|]. split; vm_compute; reflexivity.
Qed.

(** Finding: zero cannot be given a type whose precision equals its scale, although
    such a type holds it. *)
Theorem C13_zero_refused_refuted : exists b, bytes 16 b /\ signed128 b = 0 /\
  modify_decimal b 0 5 5 = Err /\
  same_number 0 (-5) (signed128 b) 0 /\ Z.abs 0 < 10 ^ 5.
Proof.
  exists (repeat 0 16). split.
  - split; [reflexivity|]. repeat (apply Forall_cons; [unfold is_byte; lia|]). apply Forall_nil.
  - vm_compute. auto.
Qed.

Print Assumptions C11_encode_exact.
Print Assumptions C11_roundtrip.
Print Assumptions C11_int32_exponent_refuted.
Print Assumptions C11_representable_refused_refuted.
Print Assumptions C11_raw_bytes_accepted_iff.
Print Assumptions C12_negate_is_arithmetic_negation.
Print Assumptions C12_negate_involutive.
Print Assumptions C12_decode_is_twos_complement.
Print Assumptions C13_modify_preserves_value.
Print Assumptions C13_modify_succeeds_iff.
Print Assumptions C13_modify_zero_iff.
Print Assumptions C13_zero_refused_refuted.
