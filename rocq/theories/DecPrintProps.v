(** Theorems of C71: the texts decimals are printed as, and reading them back. *)

From Coq Require Import ZArith String Ascii Bool Lia List.
From Verif Require Import Base TypesModel DecimalModel DecimalSpec DecimalProofs DecimalProps LitModel CalModel CalSpec CalTextProofs
  DecTextModel DecTextSpec DecTextProps TestCaseModel TestCaseSpec TestPrintModel TestPrintSpec DecPrintModel DecPrintSpec DecPrintProofs.
Import ListNotations.
Local Open Scope Z_scope.

Lemma abs_coeff : forall b s, a_coeff (decimal_of_bytes b s) = 0 -> a_neg (decimal_of_bytes b s) = false.
Proof. intros b s. unfold decimal_of_bytes. cbn [a_coeff a_neg]. intros E. apply Z.ltb_ge. lia. Qed.

(** The text of sixteen bytes at a scale is the one the specification gives to their two's complement value, and no other. *)
Theorem C71_text : forall zif b s, bytes 16 b -> in_int 32 s -> s <> - 2 ^ 31 ->
  forall text, shows_decimal zif (signed128 b) s text <-> text = decimal_text zif b s.
Proof.
  intros zif b s B I NE text. destruct (C12_decode_is_twos_complement b s B I NE) as (E1 & E2 & E3).
  assert (H : shows_decimal zif (signed128 b) s (decimal_text zif b s)).
  { unfold decimal_text. pose proof (apd_shows zif _ E2 (abs_coeff b s)) as H. rewrite E1, E3 in H. replace (- - s) with s in H by lia. exact H. }
  split; [intros H'; eapply shows_fun; eauto|intros ->; exact H].
Qed.
Print Assumptions C71_text.

(** Every text says the number that was printed, with all of its places; without a power of ten unless the number has a
    negative scale or is small. *)
Theorem C71_says : forall zif b s, bytes 16 b -> in_int 32 s -> s <> - 2 ^ 31 ->
  exists j x, says_decimal (decimal_text zif b s) (signed128 b) j x /\ Z.of_nat j - x = s /\ (in_full zif (signed128 b) s -> x = 0).
Proof.
  intros zif b s B I NE. destruct (shows_says zif (signed128 b) s (decimal_text zif b s)) as (j & x & S1 & S2 & S3 & _); [apply C71_text; auto|].
  exists j, x. split; [exact S1|]. split; [lia|]. intros F. destruct S3; [auto|contradiction].
Qed.
Print Assumptions C71_says.

Lemma same_bytes : forall b b', bytes 16 b -> bytes 16 b' -> signed128 b' = signed128 b -> b' = b.
Proof.
  intros b b' [L F] [L' F'] E. apply le_value_inj; try congruence; auto.
  pose proof (le_value_bound b F) as U. pose proof (le_value_bound b' F') as U'. rewrite L in U. rewrite L' in U'.
  unfold signed128 in E. change (256 ^ Z.of_nat 16) with (2 ^ 128) in *. set (w := le_value b) in *. set (w' := le_value b') in *.
  change (2 ^ 128) with (2 * 2 ^ 127) in *. destruct (w <? 2 ^ 127); destruct (w' <? 2 ^ 127); lia.
Qed.

(** What a printed decimal is read as: the same bytes and the same scale, with the precision its digits need, unless that is
    more than 38; then it is refused.  A scale below zero is read as zero, with the same number. *)
Theorem C71_reads_back : forall zif b s p, bytes 16 b -> in_int 32 s -> s <> - 2 ^ 31 -> needs_digits (signed128 b) (- s) p ->
  (p <= 38 -> 0 <= s -> decimal_string_to_bytes (decimal_text zif b s) = Ok (b, p, s)) /\
  (p <= 38 -> s < 0 -> exists b', decimal_string_to_bytes (decimal_text zif b s) = Ok (b', p, 0) /\ bytes 16 b' /\ signed128 b' = signed128 b * 10 ^ - s) /\
  (38 < p -> decimal_string_to_bytes (decimal_text zif b s) = Err).
Proof.
  intros zif b s p B I NE N. pose proof (proj2 (C71_text zif b s B I NE _) eq_refl) as SH.
  destruct (shows_says _ _ _ _ SH) as (j & x & S1 & S2 & S3 & S4). rewrite <- S2 in N.
  destruct (C63_read _ _ _ _ _ S1 N) as [R1 R2].
  assert (LIM : p <= 38 -> Z.abs x <= 100000 /\ Z.of_nat j <= 100000).
  { intros P. destruct N as (nd & (D1 & D2 & D3) & N1 & N2).
    assert (U : forall n, has_digits (Z.abs (signed128 b)) n -> n = nd)
      by (intros n H; exact (has_digits_unique _ _ _ (Z.abs_nonneg _) H (conj D1 (conj D2 D3)))).
    destruct S4 as [S4|(n & S4 & S5)]; [|apply U in S4; subst n]; destruct (Z.ltb_spec 0 (x - Z.of_nat j)); lia. }
  split; [|split].
  - intros P S0. destruct R1 as (b' & R & B' & SN & _); [tauto|]. replace (Z.max 0 (Z.of_nat j - x)) with s in * by lia. rewrite R.
    replace b' with b; auto. symmetry. apply same_bytes; auto. unfold same_number in SN.
    replace (- s - Z.min (- s) (x - Z.of_nat j)) with 0 in SN by lia. replace (x - Z.of_nat j - Z.min (- s) (x - Z.of_nat j)) with 0 in SN by lia. lia.
  - intros P S0. destruct R1 as (b' & R & B' & SN & _); [tauto|]. replace (Z.max 0 (Z.of_nat j - x)) with 0 in * by lia.
    exists b'. split; [exact R|]. split; [exact B'|]. unfold same_number in SN.
    replace (- 0 - Z.min (- 0) (x - Z.of_nat j)) with 0 in SN by lia. replace (x - Z.of_nat j - Z.min (- 0) (x - Z.of_nat j)) with (- s) in SN by lia. lia.
  - intros P. apply R2. lia.
Qed.
Print Assumptions C71_reads_back.

(** The value text of a decimal literal is this text. *)
Theorem C71_literal : forall zif float_text other_text b n w p s, bytes 16 b ->
  value_string float_text (decimal_text zif) other_text (LProto (XBytes b) (TDecimal n w p s)) = Ok (decimal_text zif b s).
Proof.
  intros zif ft ot b n w p s [L _]. cbn [value_string]. rewrite L. cbn [Nat.ltb Nat.leb]. rewrite firstn_all2 by lia. reflexivity.
Qed.
Print Assumptions C71_literal.

(** A printed literal makes an equal one again, up to its precision, which becomes what its digits need. *)
Theorem C71_literal_again : forall zif float_text other_text b n w p s q nullable, bytes 16 b -> 0 <= s <= 37 -> needs_digits (signed128 b) (- s) q -> q <= 38 ->
  exists text, value_string float_text (decimal_text zif) other_text (LProto (XBytes b) (TDecimal n w p s)) = Ok text /\
  new_decimal_from_string text nullable = Ok (LProto (XBytes b) (TDecimal (if nullable then NullNullable else NullRequired) 0 q s)).
Proof.
  intros zif ft ot b n w p s q nullable B S0 N Q. exists (decimal_text zif b s). split; [apply C71_literal; exact B|].
  destruct (C71_reads_back zif b s q B) as (R & _); [unfold in_int; change (2 ^ (32 - 1)) with 2147483648; lia|lia|exact N|].
  apply (C63_literal (decimal_text zif b s) nullable). apply R; [exact Q|lia].
Qed.
Print Assumptions C71_literal_again.

(** Decimals of test cases: the printed text says the value at its type exactly if the value fits the type and has at most 37
    places (a zero, fewer places than digits). *)
Theorem C71_test_argument : forall zif parse_float to_float32 float_text b n w p s, in_int 32 s -> s <> - 2 ^ 31 ->
  reads_back parse_float to_float32 float_text (decimal_text zif) (LProto (XBytes b) (TDecimal n w p s)) <->
  bytes 16 b /\ Z.abs (signed128 b) < 10 ^ p /\ p <= 38 /\ 0 <= s <= p /\ s <= 37 /\ (signed128 b = 0 -> s < p).
Proof.
  intros zif pf tf ft b n w p s I NE. cbn [reads_back]. split.
  - intros (v & j & x & q & SD & N & Q & X & J & B & SN & V & P & S0 & Z0). 
    destruct (C71_says zif b s B I NE) as (j' & x' & SD' & E' & _).
    destruct (C63_read _ _ _ _ _ SD N) as [R _]. destruct R as (b1 & R & _); [auto|].
    destruct (C63_unambiguous _ _ _ _ _ _ _ _ SD SD' R) as [-> E].
    split; [exact B|]. split; [exact V|]. split; [exact P|]. split; [exact S0|]. split; [|exact Z0].
    destruct N as (nd & _ & N1 & N2). rewrite E in N2. lia.
  - intros (B & V & P & S0 & S1 & Z0). destruct (C71_says zif b s B I NE) as (j & x & SD & E & _).
    destruct (C63_needs_digits (signed128 b) (x - Z.of_nat j)) as (q & N & _).
    assert (Q : q <= 38).
    { destruct N as (nd & D & N1 & N2). rewrite N2 by lia. apply Z.max_lub; [|lia].
      destruct (Z.eq_dec (signed128 b) 0) as [Z1|NZ].
      - rewrite Z1 in D. destruct D as (_ & _ & [[_ D]|D]); [lia|]. pose proof (Z.pow_pos_nonneg 10 (nd - 1)).
        destruct (Z.leb_spec 0 (nd - 1)); [cbn [Z.abs] in D; lia|lia].
      - apply (digits_lt_iff (Z.abs (signed128 b)) nd p) in D; [|lia]. apply D in V. lia. }
    exists (signed128 b), j, x, q.
    destruct (C71_reads_back zif b s q B I NE) as (R & _); [replace (- s) with (x - Z.of_nat j) by lia; exact N|].
    destruct (C63_read _ _ _ _ _ SD N) as [_ R2].
    assert (LIM : Z.abs x <= 100000 /\ Z.of_nat j <= 100000).
    { destruct (Z.le_decidable (Z.abs x) 100000) as [X|X]; [destruct (Z.le_decidable (Z.of_nat j) 100000) as [J|J]|]; auto;
        (rewrite R2 in R by tauto; specialize (R Q ltac:(lia)); discriminate). }
    destruct LIM as [X J]. repeat (split; [assumption||lia|]). split; [|auto].
    unfold same_number. replace (x - Z.of_nat j) with (- s) by lia. reflexivity.
Qed.
Print Assumptions C71_test_argument.

(** A decimal with 38 places is printed as a text that no decimal can be read from. *)
Theorem C71_reads_back_refuted : exists b, bytes 16 b /\ Z.abs (signed128 b) < 10 ^ 38 /\
  forall zif, decimal_text zif b 38 = "0.50000000000000000000000000000000000000"%string /\ decimal_string_to_bytes (decimal_text zif b 38) = Err.
Proof.
  exists [0; 0; 0; 0; 32; 17; 197; 4; 61; 98; 67; 45; 84; 166; 157; 37].
  split; [split; [reflexivity|repeat (constructor; [unfold is_byte; lia|]); constructor]|].
  split; [vm_compute; reflexivity|]. intros [|]; split; vm_compute; reflexivity.
Qed.
Print Assumptions C71_reads_back_refuted.

Example C71_examples : forall zif,
  map (fun p : list Z * Z => decimal_text zif (fst p) (snd p))
    [([57; 48; 0; 0; 0; 0; 0; 0; 0; 0; 0; 0; 0; 0; 0; 0], 0); ([57; 48; 0; 0; 0; 0; 0; 0; 0; 0; 0; 0; 0; 0; 0; 0], 2);
     ([57; 48; 0; 0; 0; 0; 0; 0; 0; 0; 0; 0; 0; 0; 0; 0], 10); ([57; 48; 0; 0; 0; 0; 0; 0; 0; 0; 0; 0; 0; 0; 0; 0], 11);
     ([57; 48; 0; 0; 0; 0; 0; 0; 0; 0; 0; 0; 0; 0; 0; 0], -3); ([251; 255; 255; 255; 255; 255; 255; 255; 255; 255; 255; 255; 255; 255; 255; 255], 7);
     ([251; 255; 255; 255; 255; 255; 255; 255; 255; 255; 255; 255; 255; 255; 255; 255], 6)]
  = ["12345"; "123.45"; "0.0000012345"; "1.2345E-7"; "1.2345E+7"; "-5E-7"; "-0.000005"]%string.
Proof. intros [|]; vm_compute; reflexivity. Qed.
Example C71_zero : decimal_text true (repeat 0 16) 9 = "0.000000000"%string /\ decimal_text false (repeat 0 16) 9 = "0E-9"%string.
Proof. split; vm_compute; reflexivity. Qed.
Example C71_nonvacuous : let b := [57; 48; 0; 0; 0; 0; 0; 0; 0; 0; 0; 0; 0; 0; 0; 0] in
  bytes 16 b /\ in_int 32 11 /\ needs_digits (signed128 b) (- 11) 12 /\ decimal_string_to_bytes "1.2345E-7" = Ok (b, 12, 11).
Proof.
  split; [split; [reflexivity|repeat (constructor; [unfold is_byte; lia|]); constructor]|]. split; [unfold in_int; cbn; lia|].
  split; [|vm_compute; reflexivity]. exists 5. split; [|split; lia]. unfold has_digits. vm_compute. split; [reflexivity|]. split; [reflexivity|]. right. discriminate.
Qed.
