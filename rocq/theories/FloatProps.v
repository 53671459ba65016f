(** C70: the floating point numbers of test cases. *)

From Coq Require Import ZArith Lia Bool String Ascii List.
From Verif Require Import Base TypesModel TimeModel TextModel CalSpec CalTextProofs SigModel LitModel IntervalModel IntervalProofs TestCaseModel TestCaseSpec TestCaseProps.
From Verif Require Import FloatModel FloatSpec FloatProofs FloatTextProofs.
Import ListNotations.
Local Open Scope string_scope.
Local Open Scope Z_scope.

(** ** texts *)

Lemma says_iff : forall text neg m e, says_float text neg m e <-> exists t, split_sign text = (neg, t) /\ parse_decimal t = Ok (m, e).
Proof.
  intros text neg m e. split.
  - intros [sg n t m' j p e' SG M P]. exists (t ++ p). split; [|apply parse_decimal_reads; assumption]. apply split_sign_of; [exact SG|].
    assert (F : exists c r, t = String c r /\ (c = "."%char \/ exists d, 0 <= d <= 9 /\ c = digit d)).
    { destruct M as [t k v D|t k v D|f j w D|t k v f j w D D']; [| |exists "."%char, f; split; [reflexivity|auto]|]; destruct (digits_first _ _ _ D) as (d & r & DD & ->); eexists; eexists; (split; [reflexivity|right; eauto]). }
    destruct F as (c & r & -> & [->|(d & D & ->)]); cbn [append]; [split; reflexivity|]. destruct (digit_plain d D) as (_ & _ & _ & A & B). auto.
  - intros (t & S1 & P). destruct (split_sign_says _ _ _ S1) as (sg & -> & SG). destruct (parse_decimal_says _ _ _ P) as (t' & j & p & e' & -> & M & PW & ->). constructor; assumption.
Qed.
Lemma lower_spells : forall w, Forall (fun c => (97 <= nat_of_ascii c <= 122)%nat) (list_ascii_of_string w) -> forall t, lower t = w <-> spells w t.
Proof.
  induction w as [|c w IH]; intros F t.
  - split; [destruct t; [constructor|discriminate]|]. intros H. inversion H. reflexivity.
  - cbn [list_ascii_of_string] in F. inversion F as [|c0 l0 C F']; subst. specialize (IH F').
    assert (LC : forall c', lower_char c' = c <-> c' = c \/ nat_of_ascii c = (nat_of_ascii c' + 32)%nat).
    { intros c'. unfold lower_char, in_range. destruct (Nat.leb_spec 65 (nat_of_ascii c')); destruct (Nat.leb_spec (nat_of_ascii c') 90); cbn [andb]; split; intros G;
        try (left; exact G); try (destruct G as [G|G]; [exact G|lia]).
      - right. rewrite <- G. rewrite nat_ascii_embedding; [reflexivity|]. lia.
      - destruct G as [->|G]; [lia|]. rewrite <- G. apply ascii_nat_embedding. }
    split.
    + destruct t as [|c' t]; [discriminate|]. cbn [lower]. intros [= A B]. constructor; [apply LC; exact A|]. apply IH; exact B.
    + intros H. inversion H as [|x x' w' t' A B]; subst. cbn [lower]. f_equal; [apply LC; exact A|apply IH; exact B].
Qed.
Ltac letters := repeat constructor; cbn; lia.

Lemma special_iff : forall text b, special text = Some b <->
  spells "nan" text /\ b = 0x7FF8000000000001 \/ exists sg neg t, text = sg ++ t /\ signed sg neg /\ (spells "inf" t \/ spells "infinity" t) /\ b = (if neg then 0xFFF0000000000000 else 0x7FF0000000000000).
Proof.
  intros text b. unfold special. destruct (String.eqb_spec (lower text) "nan") as [N|N].
  - apply lower_spells in N; [|letters]. split; [intros [= <-]; left; split; [exact N|reflexivity]|]. intros [[_ ->]|(sg & neg & t & -> & SG & SP & _)]; [reflexivity|]. exfalso.
    destruct SG; cbn [append] in N; inversion N as [|x x' w t' A B]; subst; try (destruct A as [A|A]; discriminate A).
    destruct SP as [SP|SP]; inversion SP as [|y y' w2 t2 A2 B2]; subst; change (nat_of_ascii "n") with 110%nat in A; change (nat_of_ascii "i") with 105%nat in A2;
      (destruct A as [A|A], A2 as [A2|A2]; [congruence|subst; discriminate|subst; discriminate|lia]).
  - destruct (split_sign text) as [neg t] eqn:S1. split.
    + destruct (String.eqb_spec (lower t) "inf") as [I|I].
      * intros [= <-]. right. destruct (split_sign_says _ _ _ S1) as (sg & E & SG). exists sg, neg, t. split; [exact E|]. split; [exact SG|]. split; [left; apply lower_spells; [letters|exact I]|]. destruct neg; reflexivity.
      * destruct (String.eqb_spec (lower t) "infinity") as [J|J]; [|discriminate]. intros [= <-]. right. destruct (split_sign_says _ _ _ S1) as (sg & E & SG). exists sg, neg, t. split; [exact E|]. split; [exact SG|]. split; [right; apply lower_spells; [letters|exact J]|]. destruct neg; reflexivity.
    + intros [[H _]|(sg & neg' & t' & E & SG & SP & ->)]; [apply lower_spells in H; [contradiction|letters]|].
      assert (S2 : split_sign text = (neg', t')).
      { rewrite E. apply split_sign_of; [exact SG|]. destruct t' as [|c t']; [exact I|]. destruct SP as [SP|SP]; inversion SP as [|y y' w2 t2 A2 B2]; subst; destruct A2 as [->|A2]; try (split; reflexivity); split; apply Ascii.eqb_neq; intros ->; discriminate A2. }
      rewrite S2 in S1. injection S1 as <- <-. assert (L : lower t' = "inf" \/ lower t' = "infinity") by (destruct SP as [SP|SP]; apply lower_spells in SP; auto; letters).
      destruct L as [->| ->]; destruct neg'; reflexivity.
Qed.
Lemma says_first : forall text neg m e, says_float text neg m e -> exists sg c r, signed sg neg /\ text = sg ++ String c r /\ (c = "."%char \/ exists d, 0 <= d <= 9 /\ c = digit d).
Proof.
  intros text neg m e [sg n t m' j p e' SG M P]. exists sg.
  assert (F : exists c r, t = String c r /\ (c = "."%char \/ exists d, 0 <= d <= 9 /\ c = digit d)).
  { destruct M as [t k v D|t k v D|f j w D|t k v f j w D D']; [| |exists "."%char, f; split; [reflexivity|auto]|]; destruct (digits_first _ _ _ D) as (d & r & DD & ->); eexists; eexists; (split; [reflexivity|right; eauto]). }
  destruct F as (c & r & -> & F). exists c, (r ++ p). auto.
Qed.
Lemma says_not_special : forall text neg m e, says_float text neg m e -> special text = None.
Proof.
  intros text neg m e H. destruct (says_first _ _ _ _ H) as (sg & c & r & SG & -> & F). destruct (special (sg ++ String c r)) as [b|] eqn:E; [exfalso|reflexivity].
  apply special_iff in E.
  assert (NS : forall x y, (x = "n"%char \/ x = "i"%char) -> (y = "."%char \/ exists d, 0 <= d <= 9 /\ y = digit d) -> ~ (y = x \/ nat_of_ascii x = (nat_of_ascii y + 32)%nat)).
  { intros x y X Y [Z|Z]; destruct Y as [->|(d & D & ->)]; destruct X as [->| ->]; try discriminate Z; apply digit_cases in D; decompose [or] D; subst; discriminate Z. }
  destruct E as [[SP _]|(sg' & neg' & t & E & SG' & SP & _)].
  - destruct SG; cbn [append] in SP; inversion SP as [|x x' w t' A B]; subst; [|destruct A as [A|A]; discriminate A|destruct A as [A|A]; discriminate A]. revert A. apply NS; auto.
  - assert (T : exists c' r', t = String c' r' /\ (c' = "i"%char \/ nat_of_ascii "i" = (nat_of_ascii c' + 32)%nat)).
    { destruct SP as [SP|SP]; inversion SP as [|x x' w t' A B]; subst; eauto. }
    destruct T as (c' & r' & -> & A). assert (PM : forall x, (x = "+"%char \/ x = "-"%char) -> ~ (x = "."%char \/ exists d, 0 <= d <= 9 /\ x = digit d) /\ ~ (x = "i"%char \/ nat_of_ascii "i" = (nat_of_ascii x + 32)%nat)).
    { intros x X. split; intros [Z|Z]; try (destruct X as [->| ->]; discriminate Z). destruct Z as (d & D & ->). apply digit_cases in D. decompose [or] D; subst; destruct X as [X|X]; discriminate X. }
    destruct SG, SG'; cbn [append] in E; injection E as E1 E2; subst; try discriminate;
      try (revert A; apply NS; auto; fail); try (destruct (PM _ (or_introl eq_refl)) as [P1 P2]; tauto); try (destruct (PM _ (or_intror eq_refl)) as [P1 P2]; tauto).
    all: injection E2 as -> ->; revert A; apply NS; auto.
Qed.
Lemma hex_iff : forall text, (let '(_, t) := split_sign text in hex_prefix t) = true <-> hexadecimal text.
Proof.
  intros text. destruct (split_sign text) as [neg t] eqn:S1. split.
  - intros H. destruct (split_sign_says _ _ _ S1) as (sg & -> & SG). destruct t as [|a [|b [|c r]]]; try discriminate H. cbn [hex_prefix] in H. apply andb_prop in H. destruct H as [A B]. apply Ascii.eqb_eq in A, B.
    assert (BB : b = "x"%char \/ b = "X"%char) by (clear -B; destruct b as [[] [] [] [] [] [] [] []]; try discriminate B; auto).
    exists sg, neg, (String b ""), c, r. split; [exact SG|]. split; [destruct BB as [->| ->]; auto|]. rewrite A. reflexivity.
  - intros (sg & neg' & x & c & r & SG & X & ->). assert (S2 : split_sign (sg ++ "0" ++ x ++ String c r) = (neg', "0" ++ x ++ String c r)) by (apply split_sign_of; [exact SG|split; reflexivity]).
    rewrite S2 in S1. injection S1 as <- <-. destruct X as [->| ->]; reflexivity.
Qed.
Lemma mantissa_nonneg : forall t m j, mantissa t m j -> 0 <= m.
Proof. intros t m j [? ? ? D|? ? ? D|? ? ? D|? ? ? ? ? ? D D']; apply digits_nonneg in D; try assumption. apply digits_nonneg in D'. pose proof (Z.pow_nonneg 10 (Z.of_nat j0)). nia. Qed.
Lemma says_nonneg : forall text neg m e, says_float text neg m e -> 0 <= m.
Proof. intros text neg m e [sg n t m' j p e' SG M P]. apply (mantissa_nonneg _ _ _ M). Qed.
Lemma number_facts : forall m e, 0 <= m -> 0 <= m * 10 ^ Z.max 0 e * 2 ^ 1074 /\ 0 < 10 ^ Z.max 0 (- e).
Proof.
  intros m e M. split; [|apply Z.pow_pos_nonneg; lia]. apply Z.mul_nonneg_nonneg; [|apply Z.pow_nonneg; lia]. apply Z.mul_nonneg_nonneg; [exact M|apply Z.pow_nonneg; lia].
Qed.

Section Hex.
Variable hex : string -> res Z.
Notation parse_float := (parse_float hex).

(** A text is read as exactly the float64 it stands for: the nearest one, an infinity, or no number; all else is refused, and so is a
    number rounded beyond the largest. *)
Theorem C70_text : forall text b, ~ hexadecimal text -> parse_float text = Ok b <-> float64_of text b.
Proof.
  intros text b NH. unfold FloatModel.parse_float. destruct (special text) as [s|] eqn:SP.
  - split.
    + intros [= ->]. apply special_iff in SP. destruct SP as [[SP ->]|(sg & neg & t & E & SG & SP & ->)]; [apply Of_no_number; exact SP|econstructor; eauto].
    + intros H. f_equal. destruct H as [neg m e x b SF _ _ _|sg neg t E SG SP'|SP'].
      * apply says_not_special in SF. congruence.
      * assert (Q : special text = Some (if neg then 0xFFF0000000000000 else 0x7FF0000000000000)) by (apply special_iff; right; eauto 8). congruence.
      * assert (Q : special text = Some 0x7FF8000000000001) by (apply special_iff; left; auto). congruence.
  - destruct (split_sign text) as [neg t] eqn:S1. assert (HP : hex_prefix t = false).
    { destruct (hex_prefix t) eqn:HP; [|reflexivity]. exfalso. apply NH, hex_iff. rewrite S1. exact HP. }
    rewrite HP. split.
    + intros H. destruct (parse_decimal t) as [[m e]| |] eqn:PD; cbn [bind] in H; try discriminate H. cbv zeta in H.
      assert (SF : says_float text neg m e) by (apply says_iff; eauto). destruct (number_facts m e (says_nonneg _ _ _ _ SF)) as [N D]. set (x := round_bits 53 (m * 10 ^ Z.max 0 e * 2 ^ 1074) (10 ^ Z.max 0 (- e))) in *.
      assert (NB : nearest64 m e x) by (apply round_nearest; [lia|assumption|assumption]). pose proof (round_nonneg 53 _ _ ltac:(lia) N D : 0 <= x) as X0. destruct (Z.ltb_spec x (2 ^ (1024 + 1074))) as [L|L]; [|discriminate H]. injection H as <-.
      apply (Of_number text neg m e x (magnitude_bits 53 x)); [exact SF|exact NB|rewrite <- Z.pow_add_r by lia; exact L|]. apply magnitude_bits_of; [lia|exact X0|apply NB].
    + intros H. destruct H as [neg' m e x b SF NB L BO|sg neg' t' E SG SP'|SP'].
      * destruct (number_facts m e (says_nonneg _ _ _ _ SF)) as [N D]. apply says_iff in SF. destruct SF as (t' & S2 & PD). rewrite S2 in S1. injection S1 as <- <-. rewrite PD. cbn [bind]. cbv zeta.
        apply round_iff in NB; [|lia|assumption|assumption]. rewrite NB. rewrite <- Z.pow_add_r in L by lia. destruct (Z.ltb_spec x (2 ^ (1024 + 1074))) as [_|L']; [|lia].
        assert (M : magnitude_bits 53 x = b). { apply magnitude_iff; [lia| | |exact BO]; apply (bits_binary 53 x b) in BO; try lia; tauto. }
        rewrite M. destruct neg'; reflexivity.
      * assert (Q : special text = Some (if neg' then 0xFFF0000000000000 else 0x7FF0000000000000)) by (apply special_iff; right; eauto 8). congruence.
      * assert (Q : special text = Some 0x7FF8000000000001) by (apply special_iff; left; auto). congruence.
Qed.

(** Nothing crashes on a text. *)
Theorem C70_refused : forall text, ~ hexadecimal text -> parse_float text = Err <-> forall b, ~ float64_of text b.
Proof.
  intros text NH. assert (NP : parse_float text <> Panic).
  { unfold FloatModel.parse_float. destruct (special text); [discriminate|]. destruct (split_sign text) as [neg t] eqn:S1. assert (HP : hex_prefix t = false).
    { destruct (hex_prefix t) eqn:HP; [|reflexivity]. exfalso. apply NH, hex_iff. rewrite S1. exact HP. }
    rewrite HP. assert (D : parse_decimal t <> Panic).
    { unfold parse_decimal. destruct (scan _ _) as [x r]. destruct (sc_some x); [|discriminate]. destruct (exponent r) as [[[e u] [|]]|]; try discriminate. destruct (_ && _); discriminate. }
    destruct (parse_decimal t) as [[m e]| |]; cbn [bind]; try discriminate; [|contradiction]. cbv zeta. destruct (_ <? _); discriminate. }
  split; [intros E b H; apply (C70_text _ _ NH) in H; congruence|]. intros H. destruct (parse_float text) as [b| |] eqn:E; [|reflexivity|contradiction]. exfalso. apply (H b). apply C70_text; assumption.
Qed.

(** A number too large is refused, never read as an infinity. *)
Theorem C70_too_large : forall text neg m e x, ~ hexadecimal text -> says_float text neg m e -> nearest64 m e x -> 2 ^ 1024 * 2 ^ 1074 <= x -> parse_float text = Err.
Proof.
  intros text neg m e x NH SF NB L. apply C70_refused; [exact NH|]. intros b H. pose proof (says_not_special _ _ _ _ SF) as SP.
  destruct H as [neg' m' e' x' b SF' NB' L' BO|sg neg' t' E SG SP'|SP'].
  - apply says_iff in SF, SF'. destruct SF as (t & S1 & P1), SF' as (t' & S2 & P2). assert (t = t') as <- by congruence. assert (m = m' /\ e = e') as [<- <-] by (split; congruence).
    pose proof (nearest_one _ _ _ _ _ NB NB'). lia.
  - assert (Q : special text = Some (if neg' then 0xFFF0000000000000 else 0x7FF0000000000000)) by (apply special_iff; right; eauto 8). congruence.
  - assert (Q : special text = Some 0x7FF8000000000001) by (apply special_iff; left; auto). congruence.
Qed.

(** ** float32 *)

Lemma sign_fields : forall (neg : bool) b, 0 <= b < 2 ^ 63 -> let c := if neg then 2 ^ 63 + b else b in
  (2 ^ 63 <=? c) = neg /\ c / 2 ^ 52 mod 2 ^ 11 = b / 2 ^ 52 /\ c mod 2 ^ 52 = b mod 2 ^ 52.
Proof.
  intros neg b B c. assert (Q : 0 <= b / 2 ^ 52 < 2 ^ 11) by (split; [apply Z.div_pos; lia|apply Z.div_lt_upper_bound; lia]). unfold c. destruct neg.
  - split; [apply Z.leb_le; lia|]. replace (2 ^ 63 + b) with (b + 2 ^ 11 * 2 ^ 52) by ring. rewrite Z.div_add, Z_mod_plus_full by lia. split; [|reflexivity].
    replace (b / 2 ^ 52 + 2 ^ 11) with (b / 2 ^ 52 + 1 * 2 ^ 11) by ring. rewrite Z_mod_plus_full. apply Z.mod_small. exact Q.
  - split; [apply Z.leb_gt; lia|]. split; [apply Z.mod_small; exact Q|reflexivity].
Qed.
Lemma bits_fields : forall x b, bits_of 53 x b -> exists e f, b / 2 ^ 52 = e /\ b mod 2 ^ 52 = f /\ x = (if e =? 0 then f else (2 ^ 52 + f) * 2 ^ (e - 1)).
Proof.
  intros x b (e & f & E0 & F & -> & X). change (53 - 1) with 52 in *. exists e, f. split; [|split].
  - rewrite Z.div_add_l by lia. rewrite Z.div_small by lia. lia.
  - rewrite Z.add_comm, Z_mod_plus_full. apply Z.mod_small. lia.
  - exact X.
Qed.
Lemma range64 : forall x b, bits_of 53 x b -> x < 2 ^ 1024 * 2 ^ 1074 <-> b < 2047 * 2 ^ 52.
Proof. intros x b H. rewrite <- (bits_range 53 x b 2046) by (try lia; exact H). replace (2 ^ (53 - 1) * 2 ^ 2046) with (2 ^ 1024 * 2 ^ 1074) by (rewrite <- !Z.pow_add_r by lia; reflexivity). reflexivity. Qed.
Lemma bits_nonneg : forall p x b, 1 <= p -> bits_of p x b -> 0 <= b.
Proof. intros p x b P (e & f & E0 & F & -> & _). pose proof (pow_pos (p - 1) ltac:(lia)). nia. Qed.
Lemma lor_plain : forall g, 0 <= g < 2 ^ 23 -> Z.lor (2 ^ 22) g = 2 ^ 22 + g mod 2 ^ 22.
Proof.
  intros g G. pose proof (Z.div_mod g (2 ^ 22) ltac:(lia)) as DM. pose proof (Z.mod_pos_bound g (2 ^ 22) ltac:(lia)) as MB.
  assert (L : forall r, 0 <= r < 2 ^ 22 -> Z.lor (2 ^ 22) r = 2 ^ 22 + r).
  { intros r R. symmetry. apply Z.add_nocarry_lxor in R as _ || idtac. rewrite <- Z.lxor_lor; [apply Z.add_nocarry_lxor|].
    all: apply Z.bits_inj; intros i; rewrite Z.land_spec, Z.bits_0; destruct (Z_lt_le_dec i 0); [rewrite Z.testbit_neg_r by assumption; reflexivity|]; destruct (Z.eq_dec i 22) as [->|N];
      [|rewrite Z.pow2_bits_false by lia; reflexivity].
    all: destruct (Z.eq_dec r 0) as [->|NR]; [rewrite Z.bits_0, andb_false_r; reflexivity|]; rewrite (Z.bits_above_log2 r 22), andb_false_r; [reflexivity|lia|]; apply Z.log2_lt_pow2; lia. }
  assert (Q : g / 2 ^ 22 = 0 \/ g / 2 ^ 22 = 1). { assert (0 <= g / 2 ^ 22 < 2) by (split; [apply Z.div_pos; lia|apply Z.div_lt_upper_bound; lia]). lia. }
  destruct Q as [Q|Q]; rewrite Q in DM.
  - assert (E : g = g mod 2 ^ 22) by lia. rewrite E at 1. apply L. exact MB.
  - assert (E : g = 2 ^ 22 + g mod 2 ^ 22) by lia. rewrite E at 1. rewrite <- (L _ MB) at 1. rewrite Z.lor_assoc, Z.lor_diag. apply L. exact MB.
Qed.

Lemma to32_sound : forall b c, float32_of b c -> to_float32 b = c.
Proof.
  intros b c H. destruct H as [neg x b y b' X BO NB L BO'|neg x b y X BO NB L|neg|neg f g F ->].
  - pose proof (bits_nonneg 53 x b ltac:(lia) BO) as B0. pose proof (proj1 (range64 x b BO) ltac:(lia)) as B1. assert (BR : 0 <= b < 2 ^ 63) by lia.
    destruct (sign_fields neg b BR) as (S1 & S2 & S3). cbv zeta in S1, S2, S3. destruct (bits_fields x b BO) as (e & f & E & F & XE). rewrite E in S2. rewrite F in S3.
    assert (EL : e <> 2047). { intros ->. pose proof (Z.mul_div_le b (2 ^ 52) ltac:(lia)). lia. }
    set (z := if neg then 2 ^ 63 + b else b) in *. unfold to_float32, magnitude64. cbv zeta. rewrite S1, S2, S3. apply Z.eqb_neq in EL. rewrite EL, <- XE.
    apply round_iff in NB; [|lia|lia|lia]. rewrite NB. rewrite <- Z.pow_add_r in L by lia. destruct (Z.ltb_spec y (2 ^ (128 + 149))) as [_|L']; [|lia].
    assert (M : magnitude_bits 24 y = b'). { apply magnitude_iff; [lia| | |exact BO']; apply (bits_binary 24 y b') in BO'; try lia; tauto. }
    rewrite M. destruct neg; reflexivity.
  - pose proof (bits_nonneg 53 x b ltac:(lia) BO) as B0. pose proof (proj1 (range64 x b BO) ltac:(lia)) as B1. assert (BR : 0 <= b < 2 ^ 63) by lia.
    destruct (sign_fields neg b BR) as (S1 & S2 & S3). cbv zeta in S1, S2, S3. destruct (bits_fields x b BO) as (e & f & E & F & XE). rewrite E in S2. rewrite F in S3.
    assert (EL : e <> 2047). { intros ->. pose proof (Z.mul_div_le b (2 ^ 52) ltac:(lia)). lia. }
    set (z := if neg then 2 ^ 63 + b else b) in *. unfold to_float32, magnitude64. cbv zeta. rewrite S1, S2, S3. apply Z.eqb_neq in EL. rewrite EL, <- XE.
    apply round_iff in NB; [|lia|lia|lia]. rewrite NB. rewrite <- Z.pow_add_r in L by lia. destruct (Z.ltb_spec y (2 ^ (128 + 149))) as [L'|_]; [lia|]. destruct neg; reflexivity.
  - destruct neg; reflexivity.
  - assert (BR : 0 <= 2047 * 2 ^ 52 + f < 2 ^ 63) by lia. destruct (sign_fields neg _ BR) as (S1 & S2 & S3). cbv zeta in S1, S2, S3.
    assert (Z1 : (2047 * 2 ^ 52 + f) / 2 ^ 52 = 2047) by (rewrite Z.div_add_l by lia; rewrite Z.div_small by lia; lia).
    assert (Z2 : (2047 * 2 ^ 52 + f) mod 2 ^ 52 = f) by (rewrite Z.add_comm, Z_mod_plus_full; apply Z.mod_small; lia). rewrite Z1 in S2. rewrite Z2 in S3.
    assert (ZE : (if neg then 2 ^ 63 else 0) + 0x7FF0000000000000 + f = if neg then 2 ^ 63 + (2047 * 2 ^ 52 + f) else 2047 * 2 ^ 52 + f) by (destruct neg; lia). rewrite ZE.
    set (z := if neg then 2 ^ 63 + (2047 * 2 ^ 52 + f) else 2047 * 2 ^ 52 + f) in *. unfold to_float32. cbv zeta. rewrite S1, S2, S3. change (2047 =? 2047) with true. cbv iota.
    replace (f =? 0) with false by (symmetry; apply Z.eqb_neq; lia). rewrite lor_plain by (split; [apply Z.div_pos; lia|apply Z.div_lt_upper_bound; lia]).
    unfold with_sign. generalize ((f / 2 ^ 29) mod 2 ^ 22). intros r. destruct neg; lia.
Qed.
Lemma to32_total : forall b, 0 <= b < 2 ^ 64 -> exists c, float32_of b c.
Proof.
  intros b B. assert (SG : exists (neg : bool) b0, 0 <= b0 < 2 ^ 63 /\ b = if neg then 2 ^ 63 + b0 else b0).
  { destruct (Z_lt_le_dec b (2 ^ 63)) as [L|L]; [exists false, b|exists true, (b - 2 ^ 63)]; split; lia. }
  destruct SG as (neg & b0 & B0 & ->). pose proof (Z.div_mod b0 (2 ^ 52) ltac:(lia)) as DM. pose proof (Z.mod_pos_bound b0 (2 ^ 52) ltac:(lia)) as MB. set (e := b0 / 2 ^ 52) in *. set (f := b0 mod 2 ^ 52) in *.
  assert (E0 : 0 <= e <= 2047) by (split; [apply Z.div_pos; lia|]; assert (e < 2048) by (apply Z.div_lt_upper_bound; lia); lia).
  destruct (Z.eq_dec e 2047) as [E|N].
  - destruct (Z.eq_dec f 0) as [F|F].
    + exists (if neg then 0xFF800000 else 0x7F800000). assert (b0 = 0x7FF0000000000000) as -> by lia. apply (Of_infinite neg).
    + eexists. assert (Q : (if neg then 2 ^ 63 + b0 else b0) = (if neg then 2 ^ 63 else 0) + 0x7FF0000000000000 + f) by (destruct neg; lia). rewrite Q. apply Of_nan; [lia|reflexivity].
  - set (x := if e =? 0 then f else (2 ^ 52 + f) * 2 ^ (e - 1)). assert (BO : bits_of 53 x b0). { exists e, f. change (53 - 1) with 52. split; [lia|]. split; [lia|]. split; [lia|reflexivity]. }
    pose proof (bits_binary 53 x b0 ltac:(lia) BO) as [X0 _]. assert (XL : x < 2 ^ 1024 * 2 ^ 1074) by (apply (range64 x b0 BO); lia).
    set (y := round_bits 24 x (2 ^ 925)). assert (NB : nearest32 x y) by (apply round_nearest; lia). pose proof (round_nonneg 24 x (2 ^ 925) ltac:(lia) X0 ltac:(lia)) as Y0. fold y in Y0.
    destruct (Z_lt_le_dec y (2 ^ 128 * 2 ^ 149)) as [L|L].
    + eexists. eapply Of_float64; eauto. apply magnitude_bits_of; [lia|exact Y0|apply NB].
    + eexists. eapply Of_too_large; eauto.
Qed.

(** A float64 is converted to the nearest float32, and to an infinity beyond the largest. *)
Theorem C70_float32 : forall b c, 0 <= b < 2 ^ 64 -> to_float32 b = c <-> float32_of b c.
Proof. intros b c B. split; [|apply to32_sound]. intros <-. destruct (to32_total b B) as [c C]. rewrite (to32_sound _ _ C). exact C. Qed.

(** ** arguments of test cases *)

Lemma float64_range : forall text b, float64_of text b -> 0 <= b < 2 ^ 64.
Proof.
  intros text b [neg m e x b' SF NB L BO|sg neg t E SG SP|SP]; [|destruct neg; lia|lia]. pose proof (bits_nonneg 53 x b' ltac:(lia) BO). pose proof (proj1 (range64 x b' BO) L). destruct neg; lia.
Qed.
Theorem C70_fp64_argument : forall text null c, ~ hexadecimal text ->
  read_typed_arg parse_float to_float32 (GFloat text PrimFp64 null) = Ok c <->
  exists b, float64_of text b /\ c = Case (TPrim PrimFp64 (nul null) 0) text (CLit (LPrim (VFp64 b) (TPrim PrimFp64 (nul null) 0))).
Proof.
  intros text null c NH. rewrite C65_argument by (intros (? & ? & ? & ?); discriminate). split.
  - intros H. inversion H; subst; [|match goal with IN : In _ _ |- _ => cbn [In] in IN; exfalso; decompose [or] IN; try discriminate; assumption end]. match goal with SV : says_value _ _ _ _ _ |- _ => inversion SV; subst end. match goal with PF : parse_float _ = Ok ?g |- _ => rename PF into PF1; rename g into f end. exists f. split; [apply C70_text; assumption|reflexivity].
  - intros (b & F & ->). constructor; [cbn; auto|]. constructor. apply C70_text; assumption.
Qed.
Theorem C70_fp32_argument : forall text null c, ~ hexadecimal text ->
  read_typed_arg parse_float to_float32 (GFloat text PrimFp32 null) = Ok c <->
  exists b b', float64_of text b /\ float32_of b b' /\ c = Case (TPrim PrimFp32 (nul null) 0) text (CLit (LPrim (VFp32 b') (TPrim PrimFp32 (nul null) 0))).
Proof.
  intros text null c NH. rewrite C65_argument by (intros (? & ? & ? & ?); discriminate). split.
  - intros H. inversion H; subst; [|match goal with IN : In _ _ |- _ => cbn [In] in IN; exfalso; decompose [or] IN; try discriminate; assumption end]. match goal with SV : says_value _ _ _ _ _ |- _ => inversion SV; subst end. match goal with PF : parse_float _ = Ok ?g |- _ => rename PF into PF1; rename g into f end. exists f, (to_float32 f). apply C70_text in PF1; [|exact NH].
    split; [exact PF1|]. split; [apply C70_float32; [apply (float64_range _ _ PF1)|reflexivity]|reflexivity].
  - intros (b & b' & F & G & ->). constructor; [cbn; auto|]. apply to32_sound in G. subst b'. constructor. apply C70_text; assumption.
Qed.

(** ** cases, and what does not hold *)

Lemma plain_text : forall text, (let '(_, t) := split_sign text in hex_prefix t) = false -> ~ hexadecimal text.
Proof. intros text H HX. apply hex_iff in HX. congruence. Qed.
Example C70_text_example :
  parse_float "-1_0.5e-1" = Ok (2 ^ 63 + 0x3FF0CCCCCCCCCCCD) /\ parse_float "9007199254740993" = Ok 0x4340000000000000 /\
  parse_float "4.9e-324" = Ok 1 /\ parse_float "-0" = Ok (2 ^ 63) /\ parse_float "1.7976931348623157e308" = Ok 0x7FEFFFFFFFFFFFFF /\
  parse_float "1.7976931348623159e308" = Err /\ parse_float "-Infinity" = Ok 0xFFF0000000000000 /\ parse_float "NaN" = Ok 0x7FF8000000000001 /\
  parse_float "1__0" = Err /\ parse_float "1_" = Err /\ parse_float "+nan" = Err /\ parse_float "." = Err /\ parse_float "1e" = Err /\ parse_float ".5." = Err.
Proof. repeat split; vm_compute; reflexivity. Qed.
Example C70_float32_example : to_float32 0x3FF0CCCCCCCCCCCD = 0x3F866666 /\ to_float32 1 = 0 /\ to_float32 (2 ^ 63 + 0x36A0000000000000) = 2 ^ 31 + 1 /\ to_float32 0x7FF8000000000001 = 0x7FC00000.
Proof. repeat split; vm_compute; reflexivity. Qed.
Example C70_too_large_example : exists text neg m e x, ~ hexadecimal text /\ says_float text neg m e /\ nearest64 m e x /\ 2 ^ 1024 * 2 ^ 1074 <= x.
Proof.
  exists "1e400"%string, false, 1, 400, (round_bits 53 (1 * 10 ^ Z.max 0 400 * 2 ^ 1074) (10 ^ Z.max 0 (- 400))). split; [apply plain_text; reflexivity|]. split; [apply says_iff; eexists; split; reflexivity|].
  split; [apply round_nearest; vm_compute; congruence|]. vm_compute. congruence.
Qed.

(** The float32 read is not always the float32 nearest to the number in the text: it is rounded twice. *)
Theorem C70_fp32_nearest_refuted : exists text m e y b b' b'',
  says_float text false m e /\ float64_of text b /\ float32_of b b' /\
  nearest_binary 24 (m * 10 ^ Z.max 0 e * 2 ^ 149) (10 ^ Z.max 0 (- e)) y /\ bits_of 24 y b'' /\ b' <> b''.
Proof.
  set (m := 10000000596046447753906251). set (y := round_bits 24 (m * 10 ^ Z.max 0 (-25) * 2 ^ 149) (10 ^ Z.max 0 (- (-25)))).
  exists "1.0000000596046447753906251"%string, m, (-25), y, 0x3FF0000010000000, 0x3F800000, 0x3F800001.
  assert (NB : nearest_binary 24 (m * 10 ^ Z.max 0 (-25) * 2 ^ 149) (10 ^ Z.max 0 (- (-25))) y) by (apply round_nearest; vm_compute; congruence).
  split; [apply says_iff; eexists; split; vm_compute; reflexivity|]. split; [apply C70_text; [apply plain_text; reflexivity|vm_compute; reflexivity]|].
  split; [apply C70_float32; [vm_compute; split; congruence|vm_compute; reflexivity]|]. split; [exact NB|].
  split; [|discriminate]. apply magnitude_iff; [lia|vm_compute; congruence|apply NB|vm_compute; reflexivity].
Qed.
(** A number beyond the largest float32 is not refused as a float32: it is read as an infinity. *)
Theorem C70_fp32_range_refuted : exists text m e, says_float text false m e /\ 0 < m /\
  read_typed_arg parse_float to_float32 (GFloat text PrimFp32 false) = Ok (Case (TPrim PrimFp32 (nul false) 0) text (CLit (LPrim (VFp32 0x7F800000) (TPrim PrimFp32 (nul false) 0)))).
Proof. exists "1e39"%string, 1, 39. split; [apply says_iff; eexists; split; reflexivity|]. split; [lia|]. vm_compute. reflexivity. Qed.
End Hex.

Print Assumptions C70_text.
Print Assumptions C70_refused.
Print Assumptions C70_too_large.
Print Assumptions C70_float32.
Print Assumptions C70_fp64_argument.
Print Assumptions C70_fp32_argument.
Print Assumptions C70_fp32_nearest_refuted.
Print Assumptions C70_fp32_range_refuted.
