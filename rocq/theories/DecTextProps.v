(** Theorems of C63: decimals read from texts. *)

From Coq Require Import ZArith String Ascii Bool Lia List.
From Verif Require Import Base TypesModel DecimalModel DecimalSpec DecimalProofs DecimalProps LitModel TimeModel CalModel CalSpec CalTextProofs DecTextModel DecTextSpec.
Import ListNotations.
Local Open Scope Z_scope.

Lemma opt_sign_spec : forall s n r, opt_sign s = (n, r) -> exists t, sign t (if n then -1 else 1) /\ s = (t ++ r)%string.
Proof.
  intros [|a s] n r; cbn [opt_sign]; [intros [= <- <-]; exists ""%string; split; [constructor|auto]|].
  destruct (Ascii.eqb_spec a "-"); [intros [= <- <-]; subst; exists "-"%string; split; [constructor|auto]|].
  destruct (Ascii.eqb_spec a "+"); intros [= <- <-]; subst; [exists "+"%string|exists ""%string]; (split; [constructor|auto]).
Qed.
Definition signless (s : string) : Prop := match s with String a _ => a <> "-"%char /\ a <> "+"%char | EmptyString => True end.
Lemma opt_sign_back : forall t k r, sign t k -> signless r -> exists n : bool, opt_sign (t ++ r) = (n, r) /\ k = if n then -1 else 1.
Proof.
  intros t k r H S1. destruct H; cbn [append opt_sign]; [|eexists; split; reflexivity..].
  destruct r as [|a r]; [exists false; auto|]. destruct S1 as [A B]. cbn [opt_sign].
  destruct (Ascii.eqb_spec a "-"); [contradiction|]. destruct (Ascii.eqb_spec a "+"); [contradiction|]. exists false. auto.
Qed.
Lemma digit_plain : forall d, 0 <= d <= 9 -> digit d <> "-"%char /\ digit d <> "+"%char /\ digit d <> "."%char.
Proof. intros d H. destruct (digit_cases d H) as [H0|[H0|[H0|[H0|[H0|[H0|[H0|[H0|[H0|H0]]]]]]]]]; subst d; cbn; repeat split; discriminate. Qed.
Lemma str_signless : forall ds r, Forall dig ds -> signless r -> signless (str ds ++ r).
Proof. intros [|d ds] r F S1; cbn; auto. inversion F; subst. pose proof (digit_plain d H1). tauto. Qed.
Lemma val_number : forall ds, digits_number ds = val ds.
Proof. reflexivity. Qed.
Lemma to_number : forall ds, Forall dig ds -> number (List.length ds) (val ds) (str ds).
Proof. intros ds F. apply number_iff. exists ds. auto. Qed.

Lemma opt_point_spec : forall s fs r, opt_point s = (fs, r) -> no_digit s -> Forall dig fs /\ no_digit r /\
  ((fs = [] /\ s = r) \/ s = String "." (str fs ++ r)).
Proof.
  intros [|a s] fs r; cbn [opt_point]; [intros [= <- <-]; cbn; auto|].
  destruct (Ascii.eqb_spec a "."); [|intros [= <- <-]; auto].
  intros E _. apply digit_run_spec in E. destruct E as (F & -> & N). subst. auto.
Qed.
Lemma opt_power_spec : forall s pw r, opt_power s = (pw, r) ->
  (pw = None /\ s = r) \/
  exists n ds t e, pw = Some (n, ds) /\ Forall dig ds /\ sign t (if n then -1 else 1) /\ (e = "e" \/ e = "E")%string /\ s = (e ++ t ++ str ds ++ r)%string.
Proof.
  intros [|a s] pw r; cbn [opt_power]; [intros [= <- <-]; auto|].
  destruct (Ascii.eqb a "e" || Ascii.eqb a "E") eqn:A; [|intros [= <- <-]; auto].
  destruct (opt_sign s) as [n s1] eqn:E1. destruct (digit_run s1) as [ds s2] eqn:E2. intros [= <- <-].
  apply opt_sign_spec in E1. destruct E1 as (t & T & ->). apply digit_run_spec in E2. destruct E2 as (F & -> & _).
  right. exists n, ds, t, (String a ""). do 3 (split; [auto|]). split; [|reflexivity].
  apply orb_true_iff in A. destruct A as [A|A]; apply Ascii.eqb_eq in A; subst; auto.
Qed.

(** the apd value a text stands for, if it is within the limits *)
Definition within (c x : Z) (j : nat) : bool :=
  negb ((x <? -100000) || (100000 <? x) || (100000 <? Z.of_nat j) || (x - Z.of_nat j + num_digits c - 1 <? -100000) || (100000 <? x - Z.of_nat j + num_digits c - 1)).

Lemma parse_apd_spec : forall s d, parse_apd s = Some d -> exists j x, says_decimal s (apd_int d) j x /\ 0 <= a_coeff d /\
  a_exp d = x - Z.of_nat j /\ within (a_coeff d) x j = true.
Proof.
  intros s d. unfold parse_apd. destruct (opt_sign s) as [n r1] eqn:E1. destruct (digit_run r1) as [ds r2] eqn:E2.
  destruct (opt_point r2) as [fs r3] eqn:E3. destruct (opt_power r3) as [pw r4] eqn:E4. destruct r4 as [|a r4]; [|discriminate].
  apply opt_sign_spec in E1. destruct E1 as (t & T & ->). apply digit_run_spec in E2. destruct E2 as (F & -> & N).
  apply opt_point_spec in E3; auto. destruct E3 as (G & N3 & E3).
  destruct (ds ++ fs) as [|d0 all] eqn:EA; [discriminate|]. rewrite <- EA. cbv zeta.
  set (xo := match pw with None => Some 0 | Some (_, []) => None | Some (n0, xs) => Some (if n0 then - digits_number xs else digits_number xs) end).
  destruct xo as [x|] eqn:EX; [|discriminate]. rewrite val_number.
  destruct (_ || _) eqn:W; [discriminate|]. intros [= <-]. cbn [a_coeff a_exp].
  assert (P : power r3 x).
  { apply opt_power_spec in E4. destruct E4 as [[-> ->]|(m & xs & q & e & -> & X & Q & EE & ->)].
    - injection EX as <-. constructor.
    - unfold xo in EX. destruct xs as [|x0 xs]; [discriminate|]. injection EX as <-. rewrite (app_nil_s (str (x0 :: xs))).
      replace (if m then - digits_number (x0 :: xs) else digits_number (x0 :: xs)) with ((if m then -1 else 1) * val (x0 :: xs)).
      + apply (Power e q (List.length xs)); auto. apply (to_number (x0 :: xs)); auto.
      + change (digits_number (x0 :: xs)) with (val (x0 :: xs)). destruct m; lia. }
  exists (List.length fs), x. split; [|split; [|split; [reflexivity|]]].
  - replace (apd_int _) with ((if n then -1 else 1) * val (ds ++ fs)) by (unfold apd_int; cbn [a_neg a_coeff]; destruct n; lia).
    destruct E3 as [[-> ->]| ->].
    + rewrite app_nil_r in *. apply Says_decimal; auto. cbn [List.length]. apply (Without_point (List.length all)).
      replace (S (List.length all)) with (List.length ds) by (rewrite EA; reflexivity). apply to_number; auto.
    + change (String "." (str fs ++ r3)) with ("." ++ (str fs ++ r3))%string.
      rewrite <- (app_assoc_s "."), <- (app_assoc_s (str ds)). apply Says_decimal; auto. rewrite val_app.
      apply (With_point (List.length ds)); [apply to_number; auto|apply to_number; auto|].
      rewrite <- app_length, EA. cbn. lia.
  - apply val_bound. apply Forall_app; auto.
  - unfold within. rewrite W. reflexivity.
Qed.

Lemma power_stops : forall e x, power e x -> no_digit e /\ signless e /\ forall r, e <> String "." r.
Proof. intros e x H. destruct H as [|e sg k s z ds [-> | ->]]; cbn; repeat split; auto; try discriminate. Qed.
Lemma opt_power_back : forall e x, power e x -> exists pw, opt_power e = (pw, ""%string) /\
  match pw with None => Some 0 | Some (_, []) => None | Some (n0, xs) => Some (if n0 then - digits_number xs else digits_number xs) end = Some x.
Proof.
  intros e x H. destruct H as [|e sg k s z ds EE SG N]; [exists None; auto|].
  apply number_iff in N. destruct N as (l & L & F & -> & ->). destruct l as [|d l]; [discriminate|].
  destruct (opt_sign_back sg s (str (d :: l))) as (n & ES & ->); auto.
  { rewrite <- (app_nil_s (str _)). apply str_signless; cbn; auto. }
  exists (Some (n, d :: l)). split; [|rewrite val_number; f_equal; destruct n; lia].
  pose proof (digit_run_back (d :: l) "" F I) as R. rewrite app_nil_s in R.
  destruct EE as [-> | ->]; cbn [append opt_power Ascii.eqb Bool.eqb orb]; rewrite ES, R; reflexivity.
Qed.
Lemma parse_apd_back : forall s v j x, says_decimal s v j x -> exists (n : bool) c, 0 <= c /\ v = (if n then -1 else 1) * c /\
  parse_apd s = if within c x j then Some (Apd n c (x - Z.of_nat j)) else None.
Proof.
  intros s v j x H. destruct H as [sg m e k v j x SG M P].
  destruct (power_stops _ _ P) as (ND & SL & NP). destruct (opt_power_back _ _ P) as (pw & EP & EX).
  assert (Q : exists ds fs r, Forall dig ds /\ Forall dig fs /\ m = (str ds ++ r)%string /\ no_digit (r ++ e) /\ signless (r ++ e) /\ opt_point (r ++ e) = (fs, e) /\
    ds ++ fs <> [] /\ v = val (ds ++ fs) /\ j = List.length fs).
  { destruct M as [k0 v ds N|k0 j v w ds fs N1 N2 K].
    - apply number_iff in N. destruct N as (l & L & F & -> & ->). exists l, [], ""%string. rewrite app_nil_s, app_nil_r.
      do 3 (split; auto). split; [exact ND|]. split; [exact SL|]. split; [|split; [intros ->; discriminate|auto]].
      cbn [append]. destruct e as [|a e]; auto. cbn [opt_point]. destruct (Ascii.eqb_spec a "."); [subst; exfalso; eapply NP; eauto|reflexivity].
    - apply number_iff in N1. destruct N1 as (l1 & L1 & F1 & -> & ->). apply number_iff in N2. destruct N2 as (l2 & L2 & F2 & -> & ->).
      exists l1, l2, ("." ++ str l2)%string. do 3 (split; auto). split; [reflexivity|]. split; [cbn; split; discriminate|].
      split; [|split; [|split; [rewrite val_app, L2; reflexivity|auto]]].
      + cbn [append opt_point Ascii.eqb Bool.eqb]. apply digit_run_back; auto.
      + intros E. apply (f_equal (@List.length Z)) in E. rewrite app_length in E. cbn in E. lia. }
  destruct Q as (ds & fs & r & F & G & -> & R1 & R2 & R3 & NE & -> & ->).
  rewrite app_assoc_s. destruct (opt_sign_back sg k (str ds ++ r ++ e) SG) as (n & ES & ->); [apply str_signless; auto|].
  exists n, (val (ds ++ fs)). split; [apply val_bound; apply Forall_app; auto|]. split; [reflexivity|].
  unfold parse_apd. rewrite ES, digit_run_back, R3, EP by auto. destruct (ds ++ fs) as [|d0 all] eqn:EA; [contradiction|].
  rewrite EX. cbv zeta. rewrite val_number. unfold within. destruct (_ || _); reflexivity.
Qed.

(** ** reading *)

(** Every text says at most one number, written one way. *)
Lemma digits_abs : forall (n : bool) c, 0 <= c -> Z.abs ((if n then -1 else 1) * c) = c.
Proof. intros [|] c H; lia. Qed.


(** A text is read exactly if it says a decimal of at most 38 digits, with no more than 100000 places and a power of ten of at
    most 100000; the bytes are the number at the scale the text has, and the precision is the number of digits it needs. *)
Theorem C63_read : forall text v j x p, says_decimal text v j x -> needs_digits v (x - Z.of_nat j) p ->
  (p <= 38 /\ Z.abs x <= 100000 /\ Z.of_nat j <= 100000 -> exists b,
     decimal_string_to_bytes text = Ok (b, p, Z.max 0 (Z.of_nat j - x)) /\ bytes 16 b /\
     same_number (signed128 b) (- Z.max 0 (Z.of_nat j - x)) v (x - Z.of_nat j) /\ Z.abs (signed128 b) < 10 ^ p) /\
  (~ (p <= 38 /\ Z.abs x <= 100000 /\ Z.of_nat j <= 100000) -> decimal_string_to_bytes text = Err).
Proof.
  intros text v j x p SD (nd & HD & P1 & P2). destruct (parse_apd_back _ _ _ _ SD) as (n & c & C & -> & E).
  rewrite digits_abs in HD by auto. pose proof (num_digits_spec c C) as HN.
  assert (nd = num_digits c) by (eapply has_digits_unique; eauto). subst nd.
  unfold decimal_string_to_bytes. rewrite E. set (e := x - Z.of_nat j) in *.
  assert (PD : p = digits_needed (num_digits c) e) by (unfold digits_needed; destruct (Z.ltb_spec 0 e); [auto|rewrite P2 by auto; f_equal; lia]).
  pose proof HN as (HN1 & _).
  assert (OK : within c x j = true -> num_digits c < 2 ^ 30 /\ - 2 ^ 30 < e < 2 ^ 30 /\ Z.abs x <= 100000 /\ Z.of_nat j <= 100000).
  { unfold within. intros W. apply negb_true_iff in W. repeat rewrite orb_false_iff in W. repeat rewrite Z.ltb_ge in W.
    unfold e in *. change (2 ^ 30) with 1073741824. lia. }
  split.
  - intros (B1 & B2 & B3). assert (W : within c x j = true).
    { unfold within. apply negb_true_iff. repeat rewrite orb_false_iff. repeat rewrite Z.ltb_ge. unfold digits_needed in PD. unfold e in *.
      destruct (Z.ltb_spec 0 (x - Z.of_nat j)); lia. }
    rewrite W. destruct (OK W) as (O1 & O2 & _).
    destruct (C11_encode_exact (Apd n c e) (num_digits c)) as [_ R]; [split; [exact C|]; split; [exists (num_digits c); auto|exact O2]|exact HN|].
    cbn [a_coeff a_exp] in R. rewrite <- PD in R. destruct (R B1) as (b & p' & s & R1 & R2 & -> & -> & R5 & R6).
    exists b. replace (Z.max 0 (Z.of_nat j - x)) with (Z.max 0 (- e)) by (unfold e; lia).
    split; [exact R1|]. split; [exact R2|]. split; [|exact R6].
    replace ((if n then -1 else 1) * c) with (apd_int (Apd n c e)) by (unfold apd_int; cbn [a_neg a_coeff]; destruct n; lia). exact R5.
  - intros B. destruct (within c x j) eqn:W; auto. destruct (OK eq_refl) as (O1 & O2 & O3 & O4).
    destruct (C11_encode_exact (Apd n c e) (num_digits c)) as [R _]; [split; [exact C|]; split; [exists (num_digits c); auto|exact O2]|exact HN|].
    cbn [a_coeff a_exp] in R. apply R. rewrite <- PD. lia.
Qed.
Print Assumptions C63_read.

Theorem C63_needs_digits : forall v e, exists p, needs_digits v e p /\ forall q, needs_digits v e q -> q = p.
Proof.
  intros v e. pose proof (num_digits_spec (Z.abs v) (Z.abs_nonneg v)) as HN.
  exists (if 0 <? e then num_digits (Z.abs v) + e else Z.max (num_digits (Z.abs v)) (1 - e)). split.
  - exists (num_digits (Z.abs v)). split; [exact HN|]. destruct (Z.ltb_spec 0 e); lia.
  - intros q (nd & HD & A & B). assert (nd = num_digits (Z.abs v)) by (eapply has_digits_unique; [apply Z.abs_nonneg|exact HD|exact HN]). subst nd.
    destruct (Z.ltb_spec 0 e); auto.
Qed.
Print Assumptions C63_needs_digits.

Theorem C63_refused : forall text, (forall v j x, ~ says_decimal text v j x) -> decimal_string_to_bytes text = Err.
Proof.
  intros text H. unfold decimal_string_to_bytes. destruct (parse_apd text) as [d|] eqn:E; auto.
  apply parse_apd_spec in E. destruct E as (j & x & S1 & _). exfalso. eapply H; eauto.
Qed.
Print Assumptions C63_refused.

(** No text that is read says two different numbers. *)
Theorem C63_unambiguous : forall text v j x v' j' x' r, says_decimal text v j x -> says_decimal text v' j' x' ->
  decimal_string_to_bytes text = Ok r -> v = v' /\ x - Z.of_nat j = x' - Z.of_nat j'.
Proof.
  intros text v j x v' j' x' r H H' E. destruct (parse_apd_back _ _ _ _ H) as (n & c & _ & -> & P).
  destruct (parse_apd_back _ _ _ _ H') as (n' & c' & _ & -> & P'). unfold decimal_string_to_bytes in E. rewrite P in P'.
  rewrite P in E. destruct (within c x j); [|discriminate]. destruct (within c' x' j'); [|discriminate]. injection P' as -> -> ->. auto.
Qed.
Print Assumptions C63_unambiguous.

Theorem C63_never_panics : forall text, decimal_string_to_bytes text <> Panic.
Proof.
  intros text E. destruct (parse_apd text) as [d|] eqn:P; [|unfold decimal_string_to_bytes in E; rewrite P in E; discriminate].
  apply parse_apd_spec in P. destruct P as (j & x & S1 & _).
  destruct (C63_needs_digits (apd_int d) (x - Z.of_nat j)) as (p & N & _).
  destruct (C63_read _ _ _ _ _ S1 N) as [R1 R2].
  destruct (Z.le_decidable p 38) as [Y1|Y1]; [destruct (Z.le_decidable (Z.abs x) 100000) as [Y2|Y2]; [destruct (Z.le_decidable (Z.of_nat j) 100000) as [Y3|Y3]|]|].
  - destruct R1 as (b & R & _); [auto|]. rewrite R in E. discriminate.
  - rewrite R2 in E; [discriminate|tauto].
  - rewrite R2 in E; [discriminate|tauto].
  - rewrite R2 in E; [discriminate|tauto].
Qed.
Print Assumptions C63_never_panics.

(** A plain text (no power of ten) that says the number [b] holds at scale [s] is read as just that: the same bytes and scale. *)
Theorem C63_reads_back : forall text b s p, bytes 16 b -> (s <= 37)%nat -> says_decimal text (signed128 b) s 0 ->
  needs_digits (signed128 b) (- Z.of_nat s) p -> p <= 38 -> decimal_string_to_bytes text = Ok (b, p, Z.of_nat s).
Proof.
  intros text b s p B S1 SD N P. replace (- Z.of_nat s) with (0 - Z.of_nat s) in N by lia.
  destruct (C63_read _ _ _ _ _ SD N) as [R _]. destruct R as (b' & R & B' & SN & _); [lia|].
  replace (Z.max 0 (Z.of_nat s - 0)) with (Z.of_nat s) in * by lia. rewrite R.
  assert (E : signed128 b' = signed128 b).
  { unfold same_number in SN. replace (- Z.of_nat s - Z.min (- Z.of_nat s) (0 - Z.of_nat s)) with 0 in SN by lia.
    replace (0 - Z.of_nat s - Z.min (- Z.of_nat s) (0 - Z.of_nat s)) with 0 in SN by lia. lia. }
  assert (b' = b); [|subst; auto]. destruct B as [L F]. destruct B' as [L' F']. apply le_value_inj; try congruence; auto.
  pose proof (le_value_bound b F) as U. pose proof (le_value_bound b' F') as U'. rewrite L in U. rewrite L' in U'.
  unfold signed128 in E. change (256 ^ Z.of_nat 16) with (2 ^ 128) in *. set (w := le_value b) in *. set (w' := le_value b') in *.
  change (2 ^ 128) with (2 * 2 ^ 127) in *. destruct (w <? 2 ^ 127); destruct (w' <? 2 ^ 127); lia.
Qed.
Print Assumptions C63_reads_back.

Lemma read_bytes : forall text b p s, decimal_string_to_bytes text = Ok (b, p, s) -> bytes 16 b.
Proof.
  intros text b p s E. destruct (parse_apd text) as [d|] eqn:P; [|unfold decimal_string_to_bytes in E; rewrite P in E; discriminate].
  apply parse_apd_spec in P. destruct P as (j & x & S1 & _).
  destruct (C63_needs_digits (apd_int d) (x - Z.of_nat j)) as (q & N & _).
  destruct (C63_read _ _ _ _ _ S1 N) as [R1 R2].
  destruct (Z.le_decidable q 38) as [Y1|Y1]; [destruct (Z.le_decidable (Z.abs x) 100000) as [Y2|Y2]; [destruct (Z.le_decidable (Z.of_nat j) 100000) as [Y3|Y3]|]|].
  - destruct R1 as (b' & R & B & _); [auto|]. rewrite R in E. injection E as -> _ _. exact B.
  - rewrite R2 in E; [discriminate|tauto].
  - rewrite R2 in E; [discriminate|tauto].
  - rewrite R2 in E; [discriminate|tauto].
Qed.

(** The literal made from a text has the type [decimal<p, s>] of what was read, with the nullability asked for; a text that is
    refused makes no literal. *)
Theorem C63_literal : forall text nullable,
  (forall b p s, decimal_string_to_bytes text = Ok (b, p, s) ->
     new_decimal_from_string text nullable = Ok (LProto (XBytes b) (TDecimal (if nullable then NullNullable else NullRequired) 0 p s))) /\
  (decimal_string_to_bytes text = Err -> new_decimal_from_string text nullable = Err).
Proof.
  intros text nullable. unfold new_decimal_from_string. split; [|intros ->; reflexivity].
  intros b p s E. destruct (read_bytes _ _ _ _ E) as [L _]. rewrite E. cbn [bind]. unfold new_literal.
  rewrite L. destruct nullable; reflexivity.
Qed.
Print Assumptions C63_literal.

Example C63_read_nonvacuous :
  says_decimal "-12.50"%string (-1250) 2 0 /\ needs_digits (-1250) (-2) 4 /\
  decimal_string_to_bytes "-12.50"%string = Ok ([30; 251; 255; 255; 255; 255; 255; 255; 255; 255; 255; 255; 255; 255; 255; 255], 4, 2) /\
  says_decimal "5E-3"%string 5 0 (-3) /\ needs_digits 5 (-3) 4 /\
  decimal_string_to_bytes "5E-3"%string = Ok ([5; 0; 0; 0; 0; 0; 0; 0; 0; 0; 0; 0; 0; 0; 0; 0], 4, 3).
Proof.
  split; [|split; [|split; [|split; [|split]]]]; try (vm_compute; reflexivity).
  - apply (Says_decimal "-" "12.50" "" (-1) 1250 2 0); [constructor| |constructor].
    apply (With_point 2 2 12 50 "12" "50"); [|apply number_iff; exists [5; 0]|lia];
      [apply number_iff; exists [1; 2]|]; (split; [reflexivity|split; [repeat (constructor; [unfold dig; lia|]); constructor|split; reflexivity]]).
  - exists 4. split; [|split; lia]. unfold has_digits. change (Z.abs (-1250)) with 1250. split; [lia|]. split; [reflexivity|]. right. cbn. lia.
  - apply (Says_decimal "" "5" "E-3" 1 5 0 (-3)); [constructor| |].
    + apply (Without_point 0). apply number_iff. exists [5]. split; [reflexivity|split; [repeat (constructor; [unfold dig; lia|]); constructor|split; reflexivity]].
    + apply (Power "E" "-" 0 (-1) 3 "3"); [auto|constructor|]. apply number_iff. exists [3]. split; [reflexivity|split; [repeat (constructor; [unfold dig; lia|]); constructor|split; reflexivity]].
  - exists 1. split; [|split; lia]. unfold has_digits. cbn. split; [lia|]. split; [reflexivity|]. right. lia.
Qed.

(** Texts that pass the pattern but say nothing, and numbers between blanks, are refused. *)
Theorem C63_blanks_refuted : exists text core, text = (" " ++ core ++ " ")%string /\
  (exists v j x r, says_decimal core v j x /\ decimal_string_to_bytes core = Ok r) /\ decimal_string_to_bytes text = Err.
Proof.
  exists " 5 "%string, "5"%string. split; [reflexivity|]. split; [|vm_compute; reflexivity].
  exists 5, 0%nat, 0. eexists. split; [|vm_compute; reflexivity].
  apply (Says_decimal "" "5" "" 1 5 0 0); [constructor| |constructor].
  apply (Without_point 0). apply number_iff. exists [5]. split; [reflexivity|split; [repeat (constructor; [unfold dig; lia|]); constructor|split; reflexivity]].
Qed.
Print Assumptions C63_blanks_refuted.

Example C63_nothing_said : map decimal_string_to_bytes [""; "."; "+"; "1e"; "1e+"; ".e5"]%string = [Err; Err; Err; Err; Err; Err].
Proof. vm_compute. reflexivity. Qed.
