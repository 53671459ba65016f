(** Proofs about decimals. *)

From Coq Require Import List ZArith Bool Lia.
From Verif Require Import Base DecimalModel DecimalSpec.
Import ListNotations.
Local Open Scope Z_scope.

(** ** little-endian values *)
Lemma le_value_app : forall a b, le_value (a ++ b) = le_value a + 256 ^ Z.of_nat (List.length a) * le_value b.
Proof.
  induction a as [|x a IH]; intros b.
  - change (256 ^ Z.of_nat (List.length (@nil Z))) with 1. simpl app. simpl le_value. lia.
  - simpl app. cbn [le_value List.length]. rewrite IH, Nat2Z.inj_succ, Z.pow_succ_r by lia. ring.
Qed.

Lemma le_value_bound : forall l, Forall is_byte l -> 0 <= le_value l < 256 ^ Z.of_nat (List.length l).
Proof.
  induction l as [|b l IH]; intros H.
  - simpl. lia.
  - inversion H; subst. specialize (IH H3). unfold is_byte in H2.
    cbn [le_value List.length]. rewrite Nat2Z.inj_succ, Z.pow_succ_r by lia. lia.
Qed.

Lemma le_value_inj : forall a b, List.length a = List.length b -> Forall is_byte a -> Forall is_byte b ->
  le_value a = le_value b -> a = b.
Proof.
  induction a as [|x a IH]; intros [|y b] HL Ha Hb Hv; cbn [le_value List.length] in *; try discriminate; auto.
  inversion Ha; inversion Hb; subst. unfold is_byte in *.
  pose proof (le_value_bound a H2). pose proof (le_value_bound b H6).
  assert (x = y /\ le_value a = le_value b) as [-> Hv'] by lia.
  f_equal. apply IH; auto.
Qed.

Lemma set_bytes_be : forall l, set_bytes l = be_value l.
Proof.
  intros l. unfold set_bytes, be_value.
  assert (G : forall l acc, fold_left (fun acc b => acc * 256 + b) l acc =
     acc * 256 ^ Z.of_nat (List.length l) + le_value (rev l)).
  { clear. induction l as [|b l IH]; intros acc.
    - change (256 ^ Z.of_nat (List.length (@nil Z))) with 1. simpl. lia.
    - cbn [fold_left rev List.length]. rewrite IH, le_value_app, rev_length.
      rewrite Nat2Z.inj_succ, Z.pow_succ_r by lia. cbn [le_value]. ring. }
  rewrite G. lia.
Qed.

Lemma Forall_rev' : forall A (P : A -> Prop) l, Forall P l -> Forall P (rev l).
Proof. intros A P l H. apply Forall_forall. intros x Hx. apply in_rev in Hx. rewrite Forall_forall in H. auto. Qed.

(** ** negate *)
Lemma carry_spec : forall l, Forall is_byte l ->
  le_value (carry l) = (le_value l + 1) mod 256 ^ Z.of_nat (List.length l) /\
  List.length (carry l) = List.length l /\ Forall is_byte (carry l).
Proof.
  induction l as [|b l IH]; intros H.
  - simpl. auto.
  - inversion H as [|? ? Hb Hl]; subst. destruct (IH Hl) as (IH1 & IH2 & IH3).
    pose proof (le_value_bound l Hl) as Bl. unfold is_byte in Hb.
    cbn [carry]. cbv zeta.
    assert (HP : 0 < 256 ^ Z.of_nat (List.length l)) by (apply Z.pow_pos_nonneg; lia).
    destruct ((b + 1) mod 256 =? 0) eqn:E.
    + apply Z.eqb_eq in E. assert (b = 255).
      { destruct (Z.eq_dec b 255); auto. rewrite Z.mod_small in E by lia. lia. }
      subst b. cbn [le_value List.length]. rewrite IH1, IH2.
      rewrite Nat2Z.inj_succ, Z.pow_succ_r by lia.
      split; [|split; auto; constructor; auto; unfold is_byte; rewrite E; lia].
      rewrite E. replace (255 + 256 * le_value l + 1) with (256 * (le_value l + 1)) by ring.
      rewrite Z.mul_mod_distr_l by lia. ring.
    + apply Z.eqb_neq in E. assert (b + 1 < 256).
      { destruct (Z.eq_dec b 255); [subst; exfalso; apply E; reflexivity|lia]. }
      rewrite Z.mod_small by lia. cbn [le_value List.length].
      split; [|split; auto; constructor; auto; unfold is_byte; lia].
      rewrite Nat2Z.inj_succ, Z.pow_succ_r by lia. rewrite Z.mod_small by lia. ring.
Qed.

Lemma flip_value : forall l, Forall is_byte l ->
  le_value (map (fun b => 255 - b) l) = 256 ^ Z.of_nat (List.length l) - 1 - le_value l /\
  Forall is_byte (map (fun b => 255 - b) l).
Proof.
  induction l as [|b l IH]; intros H.
  - simpl. auto.
  - inversion H as [|? ? Hb Hl]; subst. destruct (IH Hl) as [IH1 IH2]. unfold is_byte in Hb.
    cbn [map le_value List.length]. rewrite IH1, Nat2Z.inj_succ, Z.pow_succ_r by lia.
    split; [ring|]. constructor; auto. unfold is_byte. lia.
Qed.

Lemma negate_spec : forall l, Forall is_byte l ->
  be_value (negate l) = (- be_value l) mod 256 ^ Z.of_nat (List.length l) /\
  List.length (negate l) = List.length l /\ Forall is_byte (negate l).
Proof.
  intros l H. unfold negate, be_value. rewrite rev_involutive.
  rewrite <- map_rev. pose proof (Forall_rev' _ _ _ H) as Hr.
  destruct (flip_value (rev l) Hr) as [F1 F2]. destruct (carry_spec _ F2) as (C1 & C2 & C3).
  rewrite C1, F1, map_length, rev_length. split.
  - replace (256 ^ Z.of_nat (List.length l) - 1 - le_value (rev l) + 1)
      with (- le_value (rev l) + 1 * 256 ^ Z.of_nat (List.length l)) by ring.
    apply Z.mod_add. pose proof (Z.pow_pos_nonneg 256 (Z.of_nat (List.length l))). lia.
  - rewrite rev_length, C2, map_length, rev_length. split; auto. apply Forall_rev'; auto.
Qed.

(** ** be_bytes *)
Lemma log2_div_256 : forall n, 256 <= n -> Z.log2 (n / 256) < Z.log2 n.
Proof.
  intros n H. change 256 with (2 ^ 8). rewrite <- Z.shiftr_div_pow2 by lia.
  rewrite Z.log2_shiftr by lia. assert (8 <= Z.log2 n) by (apply Z.log2_le_pow2; lia). lia.
Qed.

Lemma le_bytes_spec : forall fuel n, 0 <= n -> (n = 0 \/ Z.log2 n < Z.of_nat fuel) ->
  le_value (le_bytes_fuel fuel n) = n /\ Forall is_byte (le_bytes_fuel fuel n) /\
  (n = 0 -> le_bytes_fuel fuel n = []) /\
  (0 < n -> 256 ^ (Z.of_nat (List.length (le_bytes_fuel fuel n)) - 1) <= n).
Proof.
  induction fuel as [|f IH]; intros n Hn Hf.
  - assert (n = 0) by (destruct Hf; auto; pose proof (Z.log2_nonneg n); lia). subst.
    simpl. repeat split; auto; intros; lia.
  - cbn [le_bytes_fuel]. destruct (n =? 0) eqn:E.
    + apply Z.eqb_eq in E. subst. simpl. repeat split; auto; intros; lia.
    + apply Z.eqb_neq in E.
      assert (Hd : 0 <= n / 256) by (apply Z.div_pos; lia).
      assert (Hf' : n / 256 = 0 \/ Z.log2 (n / 256) < Z.of_nat f).
      { destruct (Z_lt_ge_dec n 256); [left; apply Z.div_small; lia|right].
        pose proof (log2_div_256 n). lia. }
      destruct (IH (n / 256) Hd Hf') as (I1 & I2 & I3 & I4).
      cbn [le_value]. rewrite I1. pose proof (Z.mod_pos_bound n 256).
      pose proof (Z.div_mod n 256). split; [lia|]. split; [constructor; auto; unfold is_byte; lia|].
      split; [intros; lia|]. intros _. cbn [List.length]. rewrite Nat2Z.inj_succ.
      destruct (Z_lt_ge_dec n 256) as [L|G].
      * rewrite I3 by (apply Z.div_small; lia). simpl. lia.
      * assert (0 < n / 256) by (apply Z.div_str_pos; lia). specialize (I4 H1).
        destruct (le_bytes_fuel f (n / 256)) as [|x l] eqn:EL.
        { simpl in I1. lia. }
        cbn [List.length] in *. rewrite Nat2Z.inj_succ in *.
        replace (Z.succ (Z.succ (Z.of_nat (List.length l))) - 1) with (Z.succ (Z.succ (Z.of_nat (List.length l)) - 1)) by lia.
        rewrite Z.pow_succ_r by lia. lia.
Qed.

Lemma be_bytes_spec : forall n, 0 <= n ->
  be_value (be_bytes n) = n /\ Forall is_byte (be_bytes n) /\
  (Z.of_nat (List.length (be_bytes n)) <= 16 <-> n < 256 ^ 16).
Proof.
  intros n Hn. unfold be_bytes, be_value. rewrite rev_involutive, rev_length.
  set (f := Z.to_nat (Z.log2 n + 1)).
  assert (Hf : n = 0 \/ Z.log2 n < Z.of_nat f).
  { right. unfold f. pose proof (Z.log2_nonneg n). lia. }
  destruct (le_bytes_spec f n Hn Hf) as (H1 & H2 & H3 & H4).
  split; auto. split; [apply Forall_rev'; auto|].
  pose proof (le_value_bound _ H2) as B. rewrite H1 in B.
  split; intros H.
  - apply Z.lt_le_trans with (256 ^ Z.of_nat (List.length (le_bytes_fuel f n))); [lia|].
    apply Z.pow_le_mono_r; lia.
  - destruct (Z.eq_dec n 0); [rewrite H3 by auto; simpl; lia|].
    specialize (H4 ltac:(lia)).
    destruct (Z_le_gt_dec (Z.of_nat (List.length (le_bytes_fuel f n))) 16); auto.
    assert (256 ^ 16 <= 256 ^ (Z.of_nat (List.length (le_bytes_fuel f n)) - 1)) by (apply Z.pow_le_mono_r; lia).
    lia.
Qed.

Lemma le_value_zeros : forall n, le_value (repeat 0 n) = 0.
Proof. induction n; simpl; auto. rewrite IHn. auto. Qed.

Lemma rev_repeat : forall A (x : A) n, rev (repeat x n) = repeat x n.
Proof.
  induction n; simpl; auto. rewrite IHn. clear. induction n; simpl; auto. f_equal; auto.
Qed.

Lemma pad16_spec : forall l, Forall is_byte l -> (List.length l <= 16)%nat ->
  be_value (pad16 l) = be_value l /\ bytes 16 (pad16 l).
Proof.
  intros l H HL. unfold pad16, be_value. rewrite rev_app_distr, le_value_app, rev_repeat, le_value_zeros.
  split; [lia|]. split.
  - rewrite app_length, repeat_length. lia.
  - apply Forall_app. split; auto. apply Forall_forall. intros x Hx. apply repeat_spec in Hx. subst.
    unfold is_byte; lia.
Qed.

(** sign handling: the 16 bytes of [±n] *)
Definition signed_bytes (neg : bool) (n : Z) : list Z :=
  rev (if neg then negate (pad16 (be_bytes n)) else pad16 (be_bytes n)).

Lemma pow256_16 : 256 ^ 16 = 2 ^ 128. Proof. reflexivity. Qed.

Lemma signed_bytes_spec : forall neg n, 0 <= n < 256 ^ 16 ->
  bytes 16 (signed_bytes neg n) /\
  le_value (signed_bytes neg n) = (if neg then - n else n) mod 2 ^ 128.
Proof.
  intros neg n Hn. destruct (be_bytes_spec n) as (B1 & B2 & B3); [lia|].
  assert (HL : (List.length (be_bytes n) <= 16)%nat) by (apply B3 in Hn || (destruct B3 as [_ B3]; specialize (B3 (proj2 Hn)); lia)).
  destruct (pad16_spec _ B2 HL) as (P1 & P2 & P3). unfold signed_bytes.
  destruct neg.
  - destruct (negate_spec _ P3) as (N1 & N2 & N3).
    split; [split; [rewrite rev_length; congruence|apply Forall_rev'; auto]|].
    change (le_value (rev (negate (pad16 (be_bytes n))))) with (be_value (negate (pad16 (be_bytes n)))).
    rewrite N1, P1, B1, P2. reflexivity.
  - split; [split; [rewrite rev_length; congruence|apply Forall_rev'; auto]|].
    change (le_value (rev (pad16 (be_bytes n)))) with (be_value (pad16 (be_bytes n))).
    rewrite P1, B1. symmetry. apply Z.mod_small. rewrite <- pow256_16. lia.
Qed.

Lemma signed128_of_mod : forall l z, le_value l = z mod 2 ^ 128 -> - 2 ^ 127 <= z < 2 ^ 127 -> signed128 l = z.
Proof.
  intros l z H Hz. unfold signed128. rewrite H.
  destruct (Z_lt_ge_dec z 0).
  - assert (E : z mod 2 ^ 128 = z + 2 ^ 128).
    { symmetry. apply Z.mod_unique with (-1); lia. }
    rewrite E. destruct (z + 2 ^ 128 <? 2 ^ 127) eqn:C; [apply Z.ltb_lt in C; lia|]. lia.
  - rewrite Z.mod_small by lia. destruct (z <? 2 ^ 127) eqn:C; auto. apply Z.ltb_ge in C. lia.
Qed.

(** ** decoding *)
Lemma top_bit_iff : forall b, bytes 16 b -> top_bit b = negb (le_value b <? 2 ^ 127).
Proof.
  intros b [HL HB]. unfold top_bit.
  do 16 (destruct b as [|? b]; [discriminate HL|]). destruct b; [|discriminate HL].
  cbn [nth].
  change (?x :: ?y) with ([x] ++ y)%list.
  assert (E : forall x1 x2 x3 x4 x5 x6 x7 x8 x9 x10 x11 x12 x13 x14 x15 x16,
    le_value [x1;x2;x3;x4;x5;x6;x7;x8;x9;x10;x11;x12;x13;x14;x15;x16] =
    le_value [x1;x2;x3;x4;x5;x6;x7;x8;x9;x10;x11;x12;x13;x14;x15] + 256 ^ 15 * x16).
  { intros. change [x1;x2;x3;x4;x5;x6;x7;x8;x9;x10;x11;x12;x13;x14;x15;x16] with
     ([x1;x2;x3;x4;x5;x6;x7;x8;x9;x10;x11;x12;x13;x14;x15] ++ [x16])%list.
    rewrite le_value_app. change (Z.of_nat _) with 15. cbn [le_value]. ring. }
  cbn [app]. rewrite E.
  match goal with |- context [le_value ?l] => set (lo := l) in * end.
  assert (Hlo : 0 <= le_value lo < 256 ^ 15).
  { apply (le_value_bound lo). unfold lo. repeat match goal with H : Forall _ (_ :: _) |- _ => inversion H; clear H; subst end.
    repeat (apply Forall_cons; [assumption|]). apply Forall_nil. }
  match goal with |- (128 <=? ?t) = _ => assert (Ht : is_byte t) by
   (repeat match goal with H : Forall _ (_ :: _) |- _ => inversion H; clear H; subst end; auto); set (tt := t) in * end.
  unfold is_byte in Ht. change (2 ^ 127) with (256 ^ 15 * 128).
  destruct (128 <=? tt) eqn:C1; destruct (le_value lo + 256 ^ 15 * tt <? 256 ^ 15 * 128) eqn:C2; auto.
  - apply Z.leb_le in C1. apply Z.ltb_lt in C2. exfalso.
    assert (256 ^ 15 * 128 <= 256 ^ 15 * tt) by (apply Z.mul_le_mono_nonneg_l; lia). lia.
  - apply Z.leb_gt in C1. apply Z.ltb_ge in C2. exfalso.
    assert (256 ^ 15 * tt <= 256 ^ 15 * 127) by (apply Z.mul_le_mono_nonneg_l; lia). lia.
Qed.

Lemma abs_of_bytes : forall b, bytes 16 b ->
  set_bytes (if top_bit b then negate (rev b) else rev b) = Z.abs (signed128 b) /\
  (top_bit b = true <-> signed128 b < 0).
Proof.
  intros b Hb. rewrite top_bit_iff by auto. destruct Hb as [HL HB].
  pose proof (le_value_bound b HB) as B. rewrite HL in B. change (256 ^ Z.of_nat 16) with (2 ^ 128) in B.
  unfold signed128. destruct (le_value b <? 2 ^ 127) eqn:C; cbn [negb].
  - apply Z.ltb_lt in C. rewrite set_bytes_be. unfold be_value. rewrite rev_involutive. split; [lia|].
    split; [discriminate|lia].
  - apply Z.ltb_ge in C. rewrite set_bytes_be.
    destruct (negate_spec (rev b) (Forall_rev' _ _ _ HB)) as (N1 & _).
    rewrite N1. unfold be_value. rewrite rev_involutive, rev_length, HL.
    change (256 ^ Z.of_nat 16) with (2 ^ 128). split; [|split; auto; lia].
    rewrite Z.abs_neq by lia. symmetry. apply Z.mod_unique with (-1); lia.
Qed.

(** ** decimal digits *)
Lemma log2_div_10 : forall n, 10 <= n -> Z.log2 (n / 10) < Z.log2 n.
Proof.
  intros n H. assert (n / 10 <= n / 8) by (apply Z.div_le_compat_l; lia).
  assert (Z.log2 (n / 10) <= Z.log2 (n / 8)) by (apply Z.log2_le_mono; auto).
  assert (Z.log2 (n / 8) < Z.log2 n).
  { change 8 with (2 ^ 3). rewrite <- Z.shiftr_div_pow2 by lia. rewrite Z.log2_shiftr by lia.
    assert (3 <= Z.log2 n) by (apply Z.log2_le_pow2; lia). lia. }
  lia.
Qed.

Lemma num_digits_fuel_spec : forall fuel n, 0 <= n -> Z.log2 n < Z.of_nat fuel ->
  has_digits n (num_digits_fuel fuel n).
Proof.
  induction fuel as [|f IH]; intros n Hn Hf.
  - pose proof (Z.log2_nonneg n). lia.
  - cbn [num_digits_fuel]. destruct (n <? 10) eqn:E.
    + apply Z.ltb_lt in E. unfold has_digits. change (10 ^ 1) with 10. change (10 ^ (1 - 1)) with 1. lia.
    + apply Z.ltb_ge in E. destruct (IH (n / 10)) as (D1 & D2 & D3).
      * apply Z.div_pos; lia.
      * pose proof (log2_div_10 n). lia.
      * set (d := num_digits_fuel f (n / 10)) in *.
        assert (0 < n / 10) by (apply Z.div_str_pos; lia).
        assert (D3' : 10 ^ (d - 1) <= n / 10) by lia. unfold has_digits.
        pose proof (Z.div_mod n 10). pose proof (Z.mod_pos_bound n 10).
        replace (1 + d) with (Z.succ d) by lia. rewrite Z.pow_succ_r by lia.
        replace (Z.succ d - 1) with (Z.succ (d - 1)) by lia. rewrite Z.pow_succ_r by lia. lia.
Qed.

Lemma num_digits_spec : forall n, 0 <= n -> has_digits n (num_digits n).
Proof.
  intros n Hn. apply num_digits_fuel_spec; auto. pose proof (Z.log2_nonneg n). lia.
Qed.

Lemma has_digits_unique : forall n d d', 0 <= n -> has_digits n d -> has_digits n d' -> d = d'.
Proof.
  intros n d d' Hn (A1 & A2 & A3) (B1 & B2 & B3).
  destruct A3 as [[-> ->]|A3]; destruct B3 as [[E ->]|B3]; auto; subst;
    try (assert (0 < 10 ^ (d' - 1)) by (apply Z.pow_pos_nonneg; lia); lia);
    try (assert (0 < 10 ^ (d - 1)) by (apply Z.pow_pos_nonneg; lia); lia).
  destruct (Z.lt_trichotomy d d') as [L|[->|L]]; auto; exfalso.
  - assert (10 ^ d <= 10 ^ (d' - 1)) by (apply Z.pow_le_mono_r; lia). lia.
  - assert (10 ^ d' <= 10 ^ (d - 1)) by (apply Z.pow_le_mono_r; lia). lia.
Qed.

Lemma has_digits_scale : forall n d k, 0 < n -> 0 <= k -> has_digits n d -> has_digits (n * 10 ^ k) (d + k).
Proof.
  intros n d k Hn Hk (D1 & D2 & D3). unfold has_digits.
  assert (P : 0 < 10 ^ k) by (apply Z.pow_pos_nonneg; lia).
  rewrite Z.pow_add_r by lia. split; [lia|]. split; [apply Z.mul_lt_mono_pos_r; auto|].
  right. replace (d + k - 1) with ((d - 1) + k) by lia. rewrite Z.pow_add_r by lia.
  apply Z.mul_le_mono_nonneg_r; lia.
Qed.

Lemma digits_lt_iff : forall n d p, 0 < n -> has_digits n d -> (n < 10 ^ p <-> d <= p).
Proof.
  intros n d p Hn (D1 & D2 & D3). split; intros H.
  - destruct (Z_le_gt_dec d p); auto. exfalso.
    destruct (Z_lt_ge_dec p 0). { rewrite Z.pow_neg_r in H by lia. lia. }
    assert (10 ^ p <= 10 ^ (d - 1)) by (apply Z.pow_le_mono_r; lia). lia.
  - assert (10 ^ d <= 10 ^ p) by (apply Z.pow_le_mono_r; lia). lia.
Qed.

(** ** reduce *)
Lemma reduce_fuel_spec : forall fuel c e, 0 < c -> Z.log2 c < Z.of_nat fuel ->
  let '(c', e') := reduce_fuel fuel c e in
  0 < c' /\ e <= e' /\ c = c' * 10 ^ (e' - e) /\ c' mod 10 <> 0.
Proof.
  induction fuel as [|f IH]; intros c e Hc Hf.
  - pose proof (Z.log2_nonneg c). lia.
  - cbn [reduce_fuel]. destruct (c mod 10 =? 0) eqn:E.
    + apply Z.eqb_eq in E. pose proof (Z.div_mod c 10). assert (Hc10 : c = 10 * (c / 10)) by lia.
      assert (Hp : 0 < c / 10) by lia.
      assert (Hl : Z.log2 (c / 10) < Z.of_nat f) by (pose proof (log2_div_10 c); lia).
      pose proof (IH (c / 10) (e + 1) Hp Hl) as G.
      destruct (reduce_fuel f (c / 10) (e + 1)) as [c' e']. destruct G as (G1 & G2 & G3 & G4).
      repeat split; auto; [lia|]. replace (e' - e) with (Z.succ (e' - (e + 1))) by lia.
      rewrite Z.pow_succ_r by lia. lia.
    + apply Z.eqb_neq in E. rewrite Z.sub_diag. change (10 ^ 0) with 1. repeat split; auto; lia.
Qed.

Lemma reduce_spec : forall c e, 0 <= c ->
  let '(c', e') := reduce c e in
  (c = 0 -> c' = 0 /\ e' = 0) /\
  (0 < c -> 0 < c' /\ e <= e' /\ c = c' * 10 ^ (e' - e) /\ c' mod 10 <> 0).
Proof.
  intros c e Hc. unfold reduce. destruct (c =? 0) eqn:E.
  - apply Z.eqb_eq in E. split; auto. lia.
  - apply Z.eqb_neq in E.
    pose proof (reduce_fuel_spec (Z.to_nat (Z.log2 c + 1)) c e ltac:(lia)) as G.
    pose proof (Z.log2_nonneg c).
    specialize (G ltac:(lia)). destruct (reduce_fuel _ c e) as [c' e']. split; [lia|auto].
Qed.

(** same_number facts *)
Lemma same_number_iff : forall m e m' e' k, k <= e -> k <= e' ->
  (same_number m e m' e' <-> m * 10 ^ (e - k) = m' * 10 ^ (e' - k)).
Proof.
  intros m e m' e' k H1 H2. unfold same_number. set (mn := Z.min e e').
  assert (k <= mn) by (unfold mn; lia).
  replace (e - k) with ((e - mn) + (mn - k)) by lia. replace (e' - k) with ((e' - mn) + (mn - k)) by lia.
  rewrite !Z.pow_add_r by (unfold mn; lia). rewrite !Z.mul_assoc.
  assert (0 < 10 ^ (mn - k)) by (apply Z.pow_pos_nonneg; lia).
  split; intros G; [rewrite G; auto|]. apply Z.mul_cancel_r in G; auto. lia.
Qed.

Lemma same_number_refl : forall m e, same_number m e m e.
Proof. intros. unfold same_number. auto. Qed.

Lemma same_number_trans : forall a e b f c g, same_number a e b f -> same_number b f c g -> same_number a e c g.
Proof.
  intros a e b f c g H1 H2. set (k := Z.min e (Z.min f g)).
  apply (same_number_iff _ _ _ _ k) in H1; [|lia|lia].
  apply (same_number_iff _ _ _ _ k) in H2; [|lia|lia].
  apply (same_number_iff _ _ _ _ k); try lia.
Qed.

Lemma same_number_sym : forall a e b f, same_number a e b f -> same_number b f a e.
Proof. intros a e b f H. unfold same_number in *. rewrite Z.min_comm. auto. Qed.

Lemma wrap_small : forall z, - 2 ^ 31 <= z < 2 ^ 31 -> wrap 32 z = z.
Proof.
  intros z H. unfold wrap. cbv zeta. change (2 ^ (32 - 1)) with (2 ^ 31).
  replace (2 ^ 32) with (2 * 2 ^ 31) by reflexivity.
  rewrite Z.mod_small; lia.
Qed.
