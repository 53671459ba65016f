(** How the texts of floating point numbers are read. *)

From Coq Require Import ZArith Lia Bool String Ascii List.
From Verif Require Import Base TimeModel TextModel CalSpec CalTextProofs FloatModel FloatSpec.
Import ListNotations.
Local Open Scope string_scope.
Local Open Scope Z_scope.

(** ** characters *)

Lemma digit_cases : forall d, 0 <= d <= 9 -> d = 0 \/ d = 1 \/ d = 2 \/ d = 3 \/ d = 4 \/ d = 5 \/ d = 6 \/ d = 7 \/ d = 8 \/ d = 9.
Proof. intros; lia. Qed.
Lemma digit_plain : forall d, 0 <= d <= 9 -> Ascii.eqb (digit d) "_" = false /\ Ascii.eqb (digit d) "." = false /\ Ascii.eqb (lower_char (digit d)) "e" = false /\ Ascii.eqb (digit d) "-" = false /\ Ascii.eqb (digit d) "+" = false.
Proof. intros d D. apply digit_cases in D. decompose [or] D; subst; repeat split; reflexivity. Qed.
Lemma app_nil_s : forall s : string, s ++ "" = s.
Proof. induction s as [|c s IH]; [reflexivity|]. cbn [append]. rewrite IH. reflexivity. Qed.

(** ** digits *)

Lemma scan_digits : forall t k v, digits t k v -> forall r m f b o u,
  exists u', scan (t ++ r) (Scanned m f b o u) =
    scan r (Scanned (m * 10 ^ Z.of_nat k + v) (if b then f + Z.of_nat k else f) b true (u || u')).
Proof.
  induction 1 as [d D|t k v us d H IH US D]; intros r m f b o u.
  - destruct (digit_plain d D) as (A1 & A2 & _). exists false. cbn [append scan sc_mant sc_frac sc_dot sc_some sc_under]. rewrite A1, A2, digit_of_digit by exact D. rewrite orb_false_r. reflexivity.
  - destruct (digit_plain d D) as (A1 & A2 & _). rewrite !app_assoc_s. destruct (IH (us ++ String (digit d) "" ++ r) m f b o u) as [u' ->].
    assert (E : forall z, (m * 10 ^ Z.of_nat k + v) * 10 + z = m * 10 ^ Z.of_nat (S k) + (10 * v + z)).
    { intros z. rewrite Nat2Z.inj_succ, Z.pow_succ_r by lia. ring. }
    destruct US as [->| ->].
    + exists u'. cbn [append scan sc_mant sc_frac sc_dot sc_some sc_under]. rewrite A1, A2, digit_of_digit by exact D. rewrite E. do 2 f_equal. destruct b; lia.
    + exists true. cbn [append scan sc_mant sc_frac sc_dot sc_some sc_under]. change (Ascii.eqb "_" "_") with true. cbv iota. rewrite A1, A2, digit_of_digit by exact D. rewrite E, orb_true_r. do 2 f_equal. destruct b; lia.
Qed.
Lemma counted_step : forall w e d, 0 <= w -> 0 <= d <= 9 -> counts_as w e -> counts_as (10 * w + d) (if e <? 10000 then e * 10 + d else e).
Proof.
  intros w e d W D C. unfold counts_as in *. destruct (Z.ltb_spec e 10000) as [L|L].
  - destruct C as [[H ->]|[H _]]; [left; lia|lia].
  - destruct C as [[H ->]|[H (k & r & K & -> & R)]].
    + right. split; [lia|]. exists 1, d. lia.
    + right. split; [exact H|]. exists (k + 1), (10 * r + d). rewrite Z.pow_add_r by lia. nia.
Qed.
Lemma digits_nonneg : forall t k v, digits t k v -> 0 <= v.
Proof. induction 1; lia. Qed.
Lemma scan_exponent_digits : forall t k w, digits t k w -> forall r u,
  exists u' e, scan_exponent (t ++ r) 0 u = scan_exponent r e (u || u') /\ counts_as w e.
Proof.
  induction 1 as [d D|t k v us d H IH US D]; intros r u.
  - destruct (digit_plain d D) as (A1 & A2 & _). exists false, d. cbn [append scan_exponent]. rewrite A1, digit_of_digit by exact D. rewrite orb_false_r. split; [reflexivity|]. left. lia.
  - destruct (digit_plain d D) as (A1 & A2 & _). rewrite !app_assoc_s. destruct (IH (us ++ String (digit d) "" ++ r) u) as (u' & e & -> & C).
    pose proof (counted_step v e d (digits_nonneg _ _ _ H) D C) as C'. destruct US as [->| ->].
    + exists u'. eexists. split; [|exact C']. cbn [append scan_exponent]. rewrite A1, digit_of_digit by exact D. reflexivity.
    + exists true. eexists. split; [|exact C']. cbn [append scan_exponent]. change (Ascii.eqb "_" "_") with true. cbv iota. rewrite A1, digit_of_digit by exact D. rewrite orb_true_r. reflexivity.
Qed.
Lemma counts_one : forall w e e', 0 <= w -> counts_as w e -> counts_as w e' -> e = e'.
Proof.
  assert (P : forall k, 0 <= k -> 0 < 10 ^ k) by (intros; apply Z.pow_pos_nonneg; lia).
  assert (S1 : forall k, 0 < k -> 10 <= 10 ^ k) by (intros k K; replace k with (1 + (k - 1)) by lia; rewrite Z.pow_add_r by lia; specialize (P (k - 1) ltac:(lia)); lia).
  assert (SM : forall w e k r, 0 <= k -> w < 100000 -> 10000 <= e < 100000 -> w = e * 10 ^ k + r -> 0 <= r < 10 ^ k -> e = w).
  { intros w e k r K W E -> R. destruct (Z.eq_dec k 0) as [->|N]; [rewrite Z.pow_0_r in *; lia|]. specialize (S1 k ltac:(lia)). nia. }
  assert (LT : forall e k r e' k' r', 0 <= k -> k < k' -> 10000 <= e < 100000 -> 10000 <= e' < 100000 -> e * 10 ^ k + r = e' * 10 ^ k' + r' -> 0 <= r < 10 ^ k -> 0 <= r' < 10 ^ k' -> False).
  { intros e k r e' k' r' K L E E' Q R R'. assert (A : 10 ^ k' = 10 ^ (k' - k) * 10 ^ k) by (rewrite <- Z.pow_add_r by lia; f_equal; lia). specialize (S1 (k' - k) ltac:(lia)). specialize (P k K). rewrite A in *. set (a := 10 ^ (k' - k)) in *. set (b := 10 ^ k) in *. clearbody a b. assert (e < 10 * 10000) by lia. assert (e' * (a * b) >= 100000 * b) by nia. nia. }
  intros w e e' W [[H ->]|[H (k & r & K & E & R)]] [[H' ->]|[H' (k' & r' & K' & E' & R')]]; auto.
  - symmetry. eapply SM; eauto.
  - eapply SM; eauto.
  - destruct (Z.lt_trichotomy k k') as [L|[->|L]].
    + exfalso. eapply (LT e k r e' k' r'); eauto. congruence.
    + assert (e * 10 ^ k' + r = e' * 10 ^ k' + r') by congruence. specialize (P k' K'). nia.
    + exfalso. eapply (LT e' k' r' e k r); eauto. congruence.
Qed.
Lemma ok_digits : forall t k v, digits t k v -> forall a r, underscores_ok a (t ++ r) = underscores_ok SawDigit r.
Proof.
  induction 1 as [d D|t k v us d H IH US D]; intros a r.
  - cbn [append underscores_ok]. rewrite digit_of_digit by exact D. reflexivity.
  - rewrite !app_assoc_s, IH. destruct US as [->| ->]; cbn [append underscores_ok]; rewrite digit_of_digit by exact D; reflexivity.
Qed.

(** ** where digits end *)

Definition stops (r : string) : Prop :=
  match r with
  | EmptyString => True
  | String c r' => digit_of c = None /\ (c = "_"%char -> match r' with EmptyString => True | String d _ => digit_of d = None end)
  end.
Lemma digits_go_on : forall s t k v, digits t k v -> exists t' r k' v', t ++ s = t' ++ r /\ digits t' k' v' /\ stops r.
Proof.
  fix F 1. intros s t k v H. destruct s as [|c s].
  - exists t, "", k, v. split; [reflexivity|]. split; [exact H|exact I].
  - destruct (digit_of c) as [d|] eqn:C.
    + apply digit_of_iff in C. destruct C as [D ->]. destruct (F s _ _ _ (More_digits t k v "" d H (or_introl eq_refl) D)) as (t' & r & k' & v' & E & H' & S').
      exists t', r, k', v'. split; [|auto]. rewrite <- E, !app_assoc_s. reflexivity.
    + destruct (Ascii.eqb_spec c "_") as [->|N].
      * destruct s as [|c' s].
        -- exists t, "_", k, v. split; [reflexivity|]. split; [exact H|]. cbn. auto.
        -- destruct (digit_of c') as [d|] eqn:C'.
           ++ apply digit_of_iff in C'. destruct C' as [D ->]. destruct (F s _ _ _ (More_digits t k v "_" d H (or_intror eq_refl) D)) as (t' & r & k' & v' & E & H' & S').
              exists t', r, k', v'. split; [|auto]. rewrite <- E, !app_assoc_s. reflexivity.
           ++ exists t, (String "_" (String c' s)), k, v. split; [reflexivity|]. split; [exact H|]. cbn [stops]. auto.
      * exists t, (String c s), k, v. split; [reflexivity|]. split; [exact H|]. cbn [stops]. split; [exact C|]. intros; contradiction.
Qed.
Lemma split_digits : forall s, (exists t r k v, s = t ++ r /\ digits t k v /\ stops r) \/ match s with String c _ => digit_of c = None | EmptyString => True end.
Proof.
  intros [|c s]; [right; exact I|]. destruct (digit_of c) as [d|] eqn:C; [left|right; reflexivity]. apply digit_of_iff in C. destruct C as [D ->].
  destruct (digits_go_on s _ _ _ (One_digit d D)) as (t & r & k & v & E & H & S1). exists t, r, k, v. auto.
Qed.

Lemma scan_under : forall s x y r, scan s x = (y, r) -> sc_under x = true -> sc_under y = true.
Proof.
  induction s as [|c s IH]; intros x y r E U; cbn [scan] in E; [injection E as <- _; exact U|].
  destruct (Ascii.eqb c "_"); [apply IH in E; auto|]. destruct (Ascii.eqb c ".").
  - destruct (sc_dot x); [injection E as <- _; exact U|]. apply IH in E; auto.
  - destruct (digit_of c); [apply IH in E; auto|]. injection E as <- _. exact U.
Qed.
Lemma scan_exponent_under : forall s e e' u r, scan_exponent s e true = (e', u, r) -> u = true.
Proof.
  induction s as [|c s IH]; intros e e' u r E; cbn [scan_exponent] in E; [congruence|]. destruct (Ascii.eqb c "_"); [eauto|]. destruct (digit_of c); [eauto|congruence].
Qed.
Lemma stops_under : forall r, stops (String "_" r) -> underscores_ok SawDigit (String "_" r) = false.
Proof. intros r [_ H]. specialize (H eq_refl). cbn [underscores_ok]. change (digit_of "_") with (@None Z). change (Ascii.eqb "_" "_") with true. cbv iota. destruct r as [|c r]; [reflexivity|]. cbn [underscores_ok]. rewrite H. destruct (Ascii.eqb c "_"); reflexivity. Qed.

(** ** the exponent *)

Lemma split_sign_says : forall s neg t, split_sign s = (neg, t) -> exists sg, s = sg ++ t /\ signed sg neg.
Proof.
  intros s neg t. unfold split_sign. destruct s as [|c s]; [intros [= <- <-]; exists ""; split; [reflexivity|constructor]|].
  destruct (Ascii.eqb_spec c "-") as [->|_]; [intros [= <- <-]; exists "-"; split; [reflexivity|constructor]|].
  destruct (Ascii.eqb_spec c "+") as [->|_]; [intros [= <- <-]; exists "+"; split; [reflexivity|constructor]|]. intros [= <- <-]. exists "". split; [reflexivity|constructor].
Qed.
Lemma digits_first : forall t k v, digits t k v -> exists d t', 0 <= d <= 9 /\ t = String (digit d) t'.
Proof.
  induction 1 as [d D|t k v us d H (d0 & t0 & D0 & ->) US D]; [eauto|]. exists d0. eexists. split; [exact D0|reflexivity].
Qed.
Lemma split_sign_of : forall sg neg s, signed sg neg -> match s with String c _ => Ascii.eqb c "-" = false /\ Ascii.eqb c "+" = false | EmptyString => True end -> split_sign (sg ++ s) = (neg, s).
Proof. intros sg neg s [] H; cbn [append]; [|reflexivity|reflexivity]. destruct s as [|c s]; [reflexivity|]. unfold split_sign. destruct H as [-> ->]. reflexivity. Qed.
Lemma sign_first : forall c s, digit_of c = None -> c <> "_"%char -> forall r a, a <> SawUnderscore -> underscores_ok a (String c "" ++ s ++ r) = underscores_ok SawOther (s ++ r).
Proof. intros c s C N r a A. cbn [append underscores_ok]. rewrite C. destruct (Ascii.eqb_spec c "_"); [contradiction|]. destruct a; congruence. Qed.
Lemma ok_sign : forall sg neg r, signed sg neg -> forall a, a <> SawUnderscore -> a <> SawDigit -> a <> SawStart -> underscores_ok a (sg ++ r) = underscores_ok SawOther r.
Proof. intros sg neg r [] a A B C; destruct a; try congruence; reflexivity. Qed.

Lemma exponent_reads : forall p e, power_of_ten p e -> exists u, exponent p = Some (e, u, "") /\ underscores_ok SawDigit p = true /\ underscores_ok SawOther p = true.
Proof.
  intros p e H. destruct H as [|c sg neg t k w e C SG D CO]; [exists false; repeat split; reflexivity|].
  destruct (scan_exponent_digits t k w D "" false) as (u & e' & E & CO'). rewrite app_nil_s in E. cbn [scan_exponent] in E. assert (e' = e) as -> by (eapply counts_one; eauto using digits_nonneg).
  destruct (digits_first _ _ _ D) as (d & t' & DD & TE). destruct (digit_plain d DD) as (_ & _ & _ & M1 & M2).
  assert (SS : split_sign (sg ++ t) = (neg, t)). { apply split_sign_of; [exact SG|]. rewrite TE. auto. }
  assert (OK : underscores_ok SawOther (sg ++ t) = true). { rewrite (ok_sign _ _ _ SG) by discriminate. rewrite <- (app_nil_s t). rewrite (ok_digits _ _ _ D). reflexivity. }
  exists u. assert (EX : exponent (String (match c with String a _ => a | _ => "e" end) (sg ++ t)) = Some (if neg then - e else e, u, "")).
  { destruct C as [->| ->]; unfold exponent; [change (Ascii.eqb (lower_char "e") "e") with true|change (Ascii.eqb (lower_char "E") "e") with true]; cbv iota; rewrite SS, TE, digit_of_digit by exact DD; rewrite <- TE, E; reflexivity. }
  destruct C as [->| ->]; cbn [append] in EX |- *; (split; [exact EX|]); cbn [underscores_ok]; auto.
Qed.
(** what is left over, if anything, is not taken *)
Lemma exponent_says : forall r e u a, (a = SawDigit \/ a = SawOther) -> exponent r = Some (e, u, "") -> (u = true -> underscores_ok a r = true) -> power_of_ten r e.
Proof.
  intros r e u a A E OK. destruct r as [|c s]; [cbn in E; injection E as <- <-; constructor|]. unfold exponent in E.
  destruct (Ascii.eqb_spec (lower_char c) "e") as [C|C]; [|discriminate E].
  assert (CC : c = "e"%char \/ c = "E"%char). { clear -C. destruct c as [[] [] [] [] [] [] [] []]; try discriminate C; auto. }
  destruct (split_sign s) as [neg t] eqn:SS. destruct (split_sign_says _ _ _ SS) as (sg & -> & SG). clear SS.
  destruct (split_digits t) as [(t' & r & k & w & -> & D & ST)|NO].
  - destruct (digits_first _ _ _ D) as (d & t'' & DD & TE). destruct (scan_exponent_digits _ _ _ D r false) as (u' & e' & SE & CO).
    assert (E' : (let '(e0, u0, r0) := scan_exponent (t' ++ r) 0 false in Some (if neg then - e0 else e0, u0, r0)) = Some (e, u, "")).
    { rewrite TE in E |- *. cbn [append] in E |- *. rewrite digit_of_digit in E by exact DD. exact E. }
    rewrite SE in E'. clear E SE. destruct r as [|x r].
    + cbn [scan_exponent] in E'. injection E' as <- <-. rewrite app_nil_s. change (String c (sg ++ t')) with (String c "" ++ sg ++ t'). econstructor; eauto. destruct CC as [->| ->]; auto.
    + destruct ST as [ND ST]. cbn [scan_exponent] in E'. destruct (Ascii.eqb_spec x "_") as [->|NU].
      * exfalso. destruct (scan_exponent r e' true) as [[e1 u1] r1] eqn:SE. pose proof (scan_exponent_under _ _ _ _ _ SE) as ->. injection E' as _ <- _. specialize (OK eq_refl).
        assert (OK' : underscores_ok SawOther (sg ++ t' ++ String "_" r) = true) by (destruct CC as [->| ->], A as [->| ->]; exact OK).
        rewrite (ok_sign _ _ _ SG) in OK' by discriminate. rewrite (ok_digits _ _ _ D), stops_under in OK' by (split; auto). discriminate.
      * rewrite ND in E'. discriminate E'.
  - exfalso. destruct t as [|x t]; [discriminate E|]. rewrite NO in E. discriminate E.
Qed.

(** ** the whole *)

Lemma parse_decimal_reads : forall t m j p e, mantissa t m j -> power_of_ten p e -> parse_decimal (t ++ p) = Ok (m, e - Z.of_nat j).
Proof.
  intros t m j p e M P. destruct (exponent_reads p e P) as (u & EX & OD & OO).
  assert (ST : forall x, sc_dot x = true \/ True -> scan p x = (x, p)).
  { intros x _. destruct P as [|c sg neg t0 k w e0 C SG D CO]; [reflexivity|]. destruct C as [->| ->]; reflexivity. }
  assert (FIN : forall x, scan (t ++ p) (Scanned 0 0 false false false) = scan p x -> sc_some x = true -> underscores_ok SawStart (t ++ p) = true -> parse_decimal (t ++ p) = Ok (sc_mant x, e - sc_frac x)).
  { intros x S1 SO OK. unfold parse_decimal. rewrite S1, ST by auto. rewrite SO, EX, OK, andb_false_r. reflexivity. }
  destruct M as [t k v D|t k v D|f j w D|t k v f j w D D'].
  - destruct (scan_digits _ _ _ D p 0 0 false false false) as [u' S1]. rewrite (FIN _ S1 eq_refl); cbn [sc_mant sc_frac]; [reflexivity|]. rewrite (ok_digits _ _ _ D). exact OD.
  - destruct (scan_digits _ _ _ D ("." ++ p) 0 0 false false false) as [u' S1]. rewrite app_assoc_s in *. cbn [append scan] in S1. change (Ascii.eqb "." "_") with false in S1. change (Ascii.eqb "." ".") with true in S1. cbv iota in S1. cbn [sc_dot sc_mant sc_frac sc_some sc_under] in S1.
    rewrite (FIN _ S1 eq_refl); cbn [sc_mant sc_frac]; [reflexivity|]. rewrite (ok_digits _ _ _ D). exact OO.
  - destruct (scan_digits _ _ _ D p 0 0 true false false) as [u' S1]. rewrite app_assoc_s in *. rewrite (FIN _ S1 eq_refl); cbn [sc_mant sc_frac]; [reflexivity|].
    cbn [append underscores_ok]. change (digit_of ".") with (@None Z). change (Ascii.eqb "." "_") with false. cbv iota. rewrite (ok_digits _ _ _ D). exact OD.
  - destruct (scan_digits _ _ _ D ("." ++ f ++ p) 0 0 false false false) as [u' S1]. cbn [append scan] in S1. change (Ascii.eqb "." "_") with false in S1. change (Ascii.eqb "." ".") with true in S1. cbv iota in S1. cbn [sc_dot sc_mant sc_frac sc_some sc_under] in S1.
    destruct (scan_digits _ _ _ D' p (0 * 10 ^ Z.of_nat k + v) 0 true true (false || u')) as [u'' S2]. rewrite S2 in S1. clear S2. rewrite !app_assoc_s in *. cbn [append] in *.
    rewrite (FIN _ S1 eq_refl); cbn [sc_mant sc_frac]; [do 2 f_equal; ring|].
    rewrite (ok_digits _ _ _ D). cbn [underscores_ok]. change (digit_of ".") with (@None Z). change (Ascii.eqb "." "_") with false. cbv iota. rewrite (ok_digits _ _ _ D'). exact OD.
Qed.

Lemma parse_decimal_says : forall s m e, parse_decimal s = Ok (m, e) -> exists t j p e', s = t ++ p /\ mantissa t m j /\ power_of_ten p e' /\ e = e' - Z.of_nat j.
Proof.
  intros s m e H. unfold parse_decimal in H. destruct (scan s (Scanned 0 0 false false false)) as [x r] eqn:SC. destruct (sc_some x) eqn:SO; [|discriminate].
  destruct (exponent r) as [[[e1 u] r']|] eqn:EX; [|discriminate]. destruct r' as [|]; [|discriminate].
  destruct ((sc_under x || u) && negb (underscores_ok SawStart s)) eqn:OK; [discriminate|]. injection H as <- <-.
  assert (OK' : sc_under x = true \/ u = true -> underscores_ok SawStart s = true).
  { intros [E|E]; rewrite E in OK; destruct (underscores_ok SawStart s); try reflexivity; destruct (sc_under x); discriminate OK. }
  clear OK.
  destruct (split_digits s) as [(t & r0 & k & v & -> & D & ST)|NO].
  - destruct (scan_digits _ _ _ D r0 0 0 false false false) as [u' S1]. rewrite S1 in SC. clear S1. rewrite (ok_digits _ _ _ D) in OK'. rewrite Z.mul_0_l, Z.add_0_l in SC.
    destruct r0 as [|c r0].
    + cbn [scan] in SC. injection SC as <- <-. cbn in EX. injection EX as <- <-. exists t, 0%nat, "", 0. split; [reflexivity|]. split; [apply (Whole _ _ _ D)|]. split; [constructor|]. reflexivity.
    + destruct ST as [ND ST]. cbn [scan] in SC. destruct (Ascii.eqb_spec c "_") as [->|NU].
      { exfalso. rewrite stops_under in OK' by (split; auto). apply scan_under in SC; [|reflexivity]. specialize (OK' (or_introl SC)). discriminate. }
      destruct (Ascii.eqb_spec c ".") as [->|NP].
      * cbn [sc_dot sc_mant sc_frac sc_some sc_under] in SC. assert (OK2 : sc_under x = true \/ u = true -> underscores_ok SawOther r0 = true) by exact OK'. clear OK'.
        destruct (split_digits r0) as [(f & r1 & j & w & -> & D' & ST')|NO'].
        -- destruct (scan_digits _ _ _ D' r1 v 0 true true (false || u')) as [u'' S2]. rewrite S2 in SC. clear S2. rewrite (ok_digits _ _ _ D') in OK2.
           assert (M : mantissa (t ++ "." ++ f) (v * 10 ^ Z.of_nat j + w) j) by (econstructor; eauto).
           destruct r1 as [|c r1].
           ++ cbn [scan] in SC. injection SC as <- <-. cbn in EX. injection EX as <- <-. exists (t ++ "." ++ f), j, "", 0. split; [rewrite !app_assoc_s; reflexivity|]. split; [exact M|]. split; [constructor|]. reflexivity.
           ++ destruct ST' as [ND' ST']. cbn [scan] in SC. destruct (Ascii.eqb_spec c "_") as [->|NU'].
              { exfalso. rewrite stops_under in OK2 by (split; auto). apply scan_under in SC; [|reflexivity]. specialize (OK2 (or_introl SC)). discriminate. }
              rewrite ND' in SC. destruct (Ascii.eqb_spec c ".") as [->|_]; cbn [sc_dot] in SC; injection SC as <- <-; [discriminate EX|].
              exists (t ++ "." ++ f), j, (String c r1), e1. split; [rewrite !app_assoc_s; reflexivity|]. split; [exact M|]. split; [|reflexivity].
              apply (exponent_says _ _ u SawDigit); auto.
        -- assert (M : mantissa (t ++ ".") v 0) by (econstructor; eauto). destruct r0 as [|c r1].
           ++ cbn [scan] in SC. injection SC as <- <-. cbn in EX. injection EX as <- <-. exists (t ++ "."), 0%nat, "", 0. split; [rewrite !app_assoc_s; reflexivity|]. split; [exact M|]. split; [constructor|]. reflexivity.
           ++ cbn [scan] in SC. destruct (Ascii.eqb_spec c "_") as [->|NU'].
              { exfalso. apply scan_under in SC; [|reflexivity]. specialize (OK2 (or_introl SC)). discriminate. }
              rewrite NO' in SC. destruct (Ascii.eqb_spec c ".") as [->|_]; cbn [sc_dot] in SC; injection SC as <- <-; [discriminate EX|].
              exists (t ++ "."), 0%nat, (String c r1), e1. split; [rewrite !app_assoc_s; reflexivity|]. split; [exact M|]. split; [|reflexivity].
              apply (exponent_says _ _ u SawOther); auto.
      * rewrite ND in SC. injection SC as <- <-. exists t, 0%nat, (String c r0), e1. split; [reflexivity|]. split; [apply (Whole _ _ _ D)|]. split; [|reflexivity]. apply (exponent_says _ _ u SawDigit); auto.
  - destruct s as [|c s]; [cbn in SC; injection SC as <- <-; discriminate SO|]. cbn [scan] in SC. destruct (Ascii.eqb_spec c "_") as [->|NU].
    { exfalso. apply scan_under in SC; [|reflexivity]. specialize (OK' (or_introl SC)). discriminate. }
    rewrite NO in SC. destruct (Ascii.eqb_spec c ".") as [->|_]; [|injection SC as <- <-; discriminate SO].
    cbn [sc_dot sc_mant sc_frac sc_some sc_under] in SC. assert (OK2 : sc_under x = true \/ u = true -> underscores_ok SawOther s = true) by exact OK'. clear OK'.
    destruct (split_digits s) as [(f & r1 & j & w & -> & D' & ST')|NO'].
    + destruct (scan_digits _ _ _ D' r1 0 0 true false false) as [u'' S2]. rewrite S2 in SC. clear S2. rewrite (ok_digits _ _ _ D') in OK2. rewrite Z.mul_0_l, !Z.add_0_l in SC.
      assert (M : mantissa ("." ++ f) w j) by (constructor; auto).
      destruct r1 as [|c r1].
      * cbn [scan] in SC. injection SC as <- <-. cbn in EX. injection EX as <- <-. exists ("." ++ f), j, "", 0. split; [reflexivity|]. split; [exact M|]. split; [constructor|]. reflexivity.
      * destruct ST' as [ND' ST']. cbn [scan] in SC. destruct (Ascii.eqb_spec c "_") as [->|NU'].
        { exfalso. rewrite stops_under in OK2 by (split; auto). apply scan_under in SC; [|reflexivity]. specialize (OK2 (or_introl SC)). discriminate. }
        rewrite ND' in SC. destruct (Ascii.eqb_spec c ".") as [->|_]; cbn [sc_dot] in SC; injection SC as <- <-; [discriminate EX|].
        exists ("." ++ f), j, (String c r1), e1. split; [reflexivity|]. split; [exact M|]. split; [|reflexivity]. apply (exponent_says _ _ u SawDigit); auto.
    + exfalso. destruct s as [|c s]; [cbn in SC; injection SC as <- <-; discriminate SO|]. cbn [scan] in SC. destruct (Ascii.eqb_spec c "_") as [->|NU'].
      { apply scan_under in SC; [|reflexivity]. specialize (OK2 (or_introl SC)). discriminate. }
      rewrite NO' in SC. destruct (Ascii.eqb_spec c ".") as [->|_]; cbn [sc_dot] in SC; injection SC as <- <-; discriminate SO.
Qed.
