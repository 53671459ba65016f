(** Proofs about the reader of test cases, towards C64-C66. *)

From Coq Require Import ZArith String Ascii Bool Lia List.
From Verif Require TextNameProofs.
From Verif Require Import Base FMap TypesModel TypesSpec TypesProps SigModel DecimalModel DecimalSpec DecimalProofs DecimalProps LitModel LitProps TimeModel
  TimeProofs CalModel CalSpec CalTextProofs IntervalModel TextModel TextSpec DecTextModel DecTextSpec DecTextProps TestCaseModel TestCaseSpec.
Import ListNotations.
Local Open Scope string_scope.
Local Open Scope Z_scope.

(** ** texts *)

Section Trim.
Variable p : ascii -> bool.
Variable P : ascii -> Prop.
Hypothesis PP : forall c, p c = true <-> P c.

Lemma chars_app : forall s t, chars (s ++ t) = (chars s ++ chars t)%list.
Proof. induction s as [|c s IH]; intros t; cbn; [reflexivity|]. unfold chars in *. cbn. rewrite IH. reflexivity. Qed.
Lemma only_cons : forall c s, only P (String c s) <-> P c /\ only P s.
Proof. intros c s. unfold only. cbn. split; [intros H; inversion H; auto|intros [? ?]; constructor; auto]. Qed.
Lemma only_nil : only P "".
Proof. constructor. Qed.

Lemma drop_while_spec : forall s, exists a, s = a ++ drop_while p s /\ only P a /\
  forall c r, drop_while p s = String c r -> ~ P c.
Proof.
  induction s as [|c s (a & E & A & N)]; cbn [drop_while].
  - exists "". split; [reflexivity|]. split; [apply only_nil|discriminate].
  - destruct (p c) eqn:C.
    + exists (String c a). split; [cbn; congruence|]. split; [apply only_cons; split; [apply PP|]; auto|exact N].
    + exists "". split; [reflexivity|]. split; [apply only_nil|]. intros c0 r [= <- <-] H. apply PP in H. congruence.
Qed.
Lemma drop_end_spec : forall s, exists b, s = drop_end p s ++ b /\ only P b /\
  forall c r, drop_end p s = r ++ String c "" -> ~ P c.
Proof.
  induction s as [|c s (b & E & B & N)]; cbn [drop_end].
  - exists "". split; [reflexivity|]. split; [apply only_nil|]. intros c r H. destruct r; discriminate.
  - destruct (drop_end p s) as [|c1 r1] eqn:D.
    + cbn in E. subst b. destruct (p c) eqn:C.
      * exists (String c s). split; [reflexivity|]. split; [apply only_cons; split; [apply PP|]; auto|]. intros c0 r H. destruct r; discriminate.
      * exists s. split; [reflexivity|]. split; [exact B|]. intros c0 r H. destruct r as [|? [|? ?]]; [|discriminate..].
        injection H as <-. intros K. apply PP in K. congruence.
    + exists b. split; [cbn in *; congruence|]. split; [exact B|]. intros c0 [|c2 r2] H; [discriminate|].
      injection H as <- H. apply (N c0 r2). exact H.
Qed.

Lemma append_nil_r : forall s, s ++ "" = s.
Proof. induction s as [|c s IH]; cbn; congruence. Qed.
Lemma append_assoc_s : forall a b c : string, (a ++ b) ++ c = a ++ b ++ c.
Proof. induction a as [|x a IH]; intros b c; cbn; [reflexivity|]. rewrite IH. reflexivity. Qed.

Lemma drop_while_only : forall a s, only P a -> drop_while p (a ++ s) = drop_while p s.
Proof.
  induction a as [|c a IH]; intros s H; cbn; [reflexivity|]. apply only_cons in H. destruct H as [H1 H2]. apply PP in H1. rewrite H1. auto.
Qed.
Lemma drop_end_only : forall b, only P b -> drop_end p b = "".
Proof.
  induction b as [|c b IH]; intros H; cbn; [reflexivity|]. apply only_cons in H. destruct H as [H1 H2]. rewrite IH by auto. apply PP in H1. rewrite H1. reflexivity.
Qed.
Lemma drop_end_app : forall s b, only P b -> drop_end p (s ++ b) = drop_end p s.
Proof. induction s as [|c s IH]; intros b H; cbn; [apply drop_end_only; auto|]. rewrite IH by auto. reflexivity. Qed.
Lemma drop_end_bare : forall s, (forall c r, s = r ++ String c "" -> ~ P c) -> drop_end p s = s.
Proof.
  induction s as [|c s IH]; intros H; cbn; [reflexivity|]. destruct s as [|d s].
  - cbn. destruct (p c) eqn:C; [|reflexivity]. apply PP in C. exfalso. apply (H c ""); auto.
  - rewrite IH by (intros c0 r E; apply (H c0 (String c r)); cbn; congruence). reflexivity.
Qed.

Lemma trimmed_iff : forall s r, trimmed P s r <-> trim p s = r.
Proof.
  intros s r. unfold trim. split.
  - intros H. destruct H as [a r b A B [F L]]. rewrite drop_while_only by auto.
    destruct r as [|c r].
    + cbn. destruct (drop_while_spec b) as (x & E & _ & _). rewrite drop_end_only; [reflexivity|].
      unfold only in *. rewrite E, chars_app in B. apply Forall_app in B. apply B.
    + assert (C : p c = false). { destruct (p c) eqn:C; auto. apply PP in C. exfalso. eapply F; eauto. }
      cbn [append drop_while]. rewrite C. change (String c (r ++ b)) with (String c r ++ b).
      rewrite drop_end_app by auto. apply drop_end_bare. exact L.
  - intros <-. destruct (drop_while_spec s) as (a & E1 & A & F). destruct (drop_end_spec (drop_while p s)) as (b & E2 & B & L).
    rewrite E1 at 1. rewrite E2 at 1. constructor; auto. split; [|exact L].
    intros c r E K. rewrite E in E2. cbn in E2. eapply F; [exact E2|exact K].
Qed.
End Trim.

Lemma quote_iff : forall c, is_quote c = true <-> c = "'"%char.
Proof. intros c. unfold is_quote. apply Ascii.eqb_eq. Qed.
Lemma unquoted_iff : forall s r, unquoted s r <-> raw_string s = r.
Proof. intros. apply trimmed_iff. apply quote_iff. Qed.
Lemma blank_iff : forall c, is_space c = true <-> blank c.
Proof.
  intros c. unfold is_space, blank. rewrite orb_true_iff, andb_true_iff, Z.eqb_eq, !Z.leb_le. cbn [In]. lia.
Qed.
Lemma describes_iff : forall s d, describes s d <-> description s = d.
Proof.
  intros s d. unfold describes, description. split.
  - intros (t & [E|[E N]] & T); subst; apply (trimmed_iff is_space blank blank_iff) in T; [exact T|].
    destruct t as [|c t]; [exact T|]. destruct (Ascii.eqb_spec c "#"); [subst; exfalso; eapply N; reflexivity|exact T].
  - destruct s as [|c s].
    + intros H. exists "". split; [right; split; [reflexivity|discriminate]|apply (trimmed_iff is_space blank blank_iff); exact H].
    + destruct (Ascii.eqb_spec c "#"); intros H.
      * subst c. exists s. split; [left; reflexivity|apply (trimmed_iff is_space blank blank_iff); exact H].
      * exists (String c s). split; [right; split; [reflexivity|intros r [= -> _]; auto]|apply (trimmed_iff is_space blank blank_iff); exact H].
Qed.

Lemma bytes_of_eq : forall s, bytes_of s = text_bytes s.
Proof. induction s as [|c s IH]; cbn; [reflexivity|]. rewrite IH. reflexivity. Qed.

Lemma digits_value_of : forall ds a, Forall dig ds -> digits_value a (str ds) = Some (fold_left (fun v d => 10 * v + d) ds a).
Proof.
  induction ds as [|d ds IH]; intros a F; cbn [str digits_value fold_left]; [reflexivity|]. inversion F; subst.
  rewrite (proj2 (digit_of_iff (digit d) d)) by (split; [assumption|reflexivity]). rewrite IH by auto. do 2 f_equal. lia.
Qed.
Lemma unsigned_atoi_iff : forall s z, unsigned_atoi s = Some z <-> exists k, CalSpec.number (S k) z s.
Proof.
  intros s z. split.
  - intros H. destruct s as [|c s]; [discriminate|]. cbn [unsigned_atoi] in H.
    destruct (digits_value_str _ _ _ H) as (ds & E & F & V). exists (pred (List.length ds)).
    assert (L : S (pred (List.length ds)) = List.length ds) by (destruct ds; [discriminate|reflexivity]).
    rewrite L. apply number_iff. exists ds. do 3 (split; auto).
  - intros (k & H). apply number_iff in H. destruct H as (ds & L & F & -> & ->). destruct ds as [|d ds]; [discriminate|].
    unfold unsigned_atoi. cbn [str]. change (String (digit d) (str ds)) with (str (d :: ds)). rewrite digits_value_of by auto. reflexivity.
Qed.
Lemma in_int_64 : forall z, in_int 64 z <-> (- 2 ^ 63 <=? z) && (z <? 2 ^ 63) = true.
Proof. intros z. unfold in_int. rewrite andb_true_iff, Z.leb_le, Z.ltb_lt. reflexivity. Qed.
Lemma atoi_iff : forall s z, atoi s = Ok z <-> whole_number s z.
Proof.
  intros s z. unfold atoi, whole_number. cbv zeta.
  set (o := match s with String c s' => if Ascii.eqb c "-" then option_map Z.opp (unsigned_atoi s') else if Ascii.eqb c "+" then unsigned_atoi s' else unsigned_atoi s | EmptyString => None end).
  assert (O : forall w, o = Some w <-> exists sg k n v ds, sign sg k /\ CalSpec.number (S n) v ds /\ s = sg ++ ds /\ w = k * v).
  { intros w. subst o. split.
    - destruct s as [|c s]; [discriminate|]. destruct (Ascii.eqb_spec c "-"); [|destruct (Ascii.eqb_spec c "+")].
      + destruct (unsigned_atoi s) as [v|] eqn:U; [|discriminate]. intros [= <-]. apply unsigned_atoi_iff in U. destruct U as (k & U).
        exists "-", (-1), k, v, s. subst c. split; [constructor|]. split; [exact U|]. split; [reflexivity|lia].
      + intros U. apply unsigned_atoi_iff in U. destruct U as (k & U). exists "+", 1, k, w, s. subst c. split; [constructor|]. split; [exact U|]. split; [reflexivity|lia].
      + intros U. apply unsigned_atoi_iff in U. destruct U as (k & U). exists "", 1, k, w, (String c s). split; [constructor|]. split; [exact U|]. split; [reflexivity|lia].
    - intros (sg & k & n & v & ds & SG & N & -> & ->). assert (U : unsigned_atoi ds = Some v) by (apply unsigned_atoi_iff; eauto).
      destruct SG; cbn [append].
      + replace (1 * v) with v by lia. destruct ds as [|c ds]; [discriminate|]. apply number_iff in N. destruct N as (l & L & F & E & _).
        destruct l as [|d l]; [discriminate|]. cbn [str] in E. injection E as -> _. inversion F; subst. destruct (digit_plain d H1) as (A & B & _).
        destruct (Ascii.eqb_spec (digit d) "-"); [contradiction|]. destruct (Ascii.eqb_spec (digit d) "+"); [contradiction|]. exact U.
      + replace (1 * v) with v by lia. exact U.
      + cbn [Ascii.eqb Bool.eqb]. rewrite U. cbn [option_map]. f_equal. }
  destruct o as [w|].
  - split.
    + destruct ((- 2 ^ 63 <=? w) && (w <? 2 ^ 63)) eqn:R; [|discriminate]. intros [= <-].
      destruct (proj1 (O w) eq_refl) as (sg & k & n & v & ds & A & B & C & D). exists sg, k, n, v, ds. do 4 (split; auto). apply in_int_64. exact R.
    + intros (sg & k & n & v & ds & A & B & C & D & R). assert (E : Some w = Some z) by (apply O; exists sg, k, n, v, ds; auto).
      injection E as ->. apply in_int_64 in R. rewrite R. reflexivity.
  - split; [discriminate|]. intros (sg & k & n & v & ds & A & B & C & D & R). assert (E : None = Some z) by (apply O; exists sg, k, n, v, ds; auto). discriminate.
Qed.
Lemma int_param_iff : forall s z, int_param s = Ok z <-> parameter s z.
Proof.
  intros s z. unfold int_param. split.
  - destruct (atoi s) as [w| |] eqn:E; [|discriminate..]. intros [= <-]. constructor. apply atoi_iff. exact E.
  - intros H. destruct H as [s w H]. apply atoi_iff in H. rewrite H. reflexivity.
Qed.
Lemma nul_eq : forall n, nullability_of n = nul n.
Proof. intros [|]; reflexivity. Qed.

(** ** types *)

Ltac unok H := match type of H with (bind ?e _ = Ok _) => let E := fresh "E" in destruct e eqn:E; [cbn [bind] in H|discriminate H..] end.

Lemma declares_iff : forall d t, dtype_of d = Ok t <-> declares d t.
Proof.
  split.
  - revert t. induction d as [p n| |[[p s]|] n|k len n|p n|p n|p n|[p|] n| |e IH n|]; intros t H; cbn [dtype_of] in H; rewrite ?nul_eq in H; try discriminate H;
      repeat unok H; try (injection H as <-); repeat match goal with E : int_param _ = Ok _ |- _ => apply int_param_iff in E end; try (constructor; auto).
  - intros H. induction H; cbn [dtype_of]; rewrite ?nul_eq; repeat match goal with E : parameter _ _ |- _ => apply int_param_iff in E; rewrite E; cbn [bind] end; try reflexivity.
    rewrite IHdeclares. reflexivity.
Qed.

(** ** values *)

Lemma pow_le : forall a b, a <= b -> 10 ^ a <= 10 ^ b.
Proof. intros. apply Z.pow_le_mono_r; lia. Qed.

Lemma same_number_zero : forall a e b f, same_number a e b f -> (a = 0 <-> b = 0).
Proof.
  intros a e b f H. unfold same_number in H.
  assert (P1 : 0 < 10 ^ (e - Z.min e f)) by (apply Z.pow_pos_nonneg; lia).
  assert (P2 : 0 < 10 ^ (f - Z.min e f)) by (apply Z.pow_pos_nonneg; lia). split; intros ->; nia.
Qed.

Definition lit_decimal (b : list Z) (null : bool) (p s : Z) : lit := LProto (XBytes b) (TDecimal (nul null) 0 p s).
Lemma decimal_retyped : forall b p0 s0 n0 null p s, bytes 16 b ->
  forall l, must_with_type (LProto (XBytes b) (TDecimal n0 0 p0 s0)) (TDecimal (nul null) 0 p s) = Ok l <->
  exists b', modify_decimal b s0 p s = Ok (b', p, s) /\ bytes 16 b' /\ l = lit_decimal b' null p s.
Proof.
  intros b p0 s0 n0 null p s [L B] l. unfold must_with_type. cbn [with_type]. unfold decimal_with_type. rewrite L. cbn [Nat.ltb Nat.leb].
  rewrite firstn_all2 by lia. split.
  - intros H. destruct (modify_decimal b s0 p s) as [[[b' p'] s']| |] eqn:E; [cbn [bind] in H|discriminate H..].
    destruct (C13_modify_preserves_value _ _ _ _ _ _ _ (conj L B) E) as (-> & -> & B' & _). exists b'. split; [reflexivity|]. split; [exact B'|].
    unfold new_literal in H. destruct B' as [L' _]. rewrite L' in H. cbn [Nat.eqb] in H. injection H as <-. unfold lit_decimal. destruct null; reflexivity.
  - intros (b' & E & [L' _] & ->). rewrite E. cbn [bind]. unfold new_literal. rewrite L'. cbn [Nat.eqb]. unfold lit_decimal. destruct null; reflexivity.
Qed.

Lemma bytes_inj : forall b b', bytes 16 b -> bytes 16 b' -> signed128 b = signed128 b' -> b = b'.
Proof.
  intros b b' [L F] [L' F'] E. apply le_value_inj; try congruence; auto.
  pose proof (le_value_bound b F) as B1. pose proof (le_value_bound b' F') as B2. unfold signed128 in E. rewrite L in B1. rewrite L' in B2.
  change (256 ^ Z.of_nat 16) with (2 ^ 128) in *.
  destruct (Z.ltb_spec (le_value b) (2 ^ 127)); destruct (Z.ltb_spec (le_value b') (2 ^ 127)); lia.
Qed.
Lemma modify_iff : forall b s0 p s b', bytes 16 b -> bytes 16 b' ->
  modify_decimal b s0 p s = Ok (b', p, s) <->
  same_number (signed128 b') (- s) (signed128 b) (- s0) /\ Z.abs (signed128 b') < 10 ^ p /\ p <= 38 /\ 0 <= s <= p /\ (signed128 b = 0 -> s < p).
Proof.
  intros b s0 p s b' Hb Hb'. destruct (Z.eq_dec (signed128 b) 0) as [Z0|NZ].
  - destruct (C13_modify_zero_iff b s0 p s Hb Z0) as [Z1 Z2]. split.
    + intros E. destruct (C13_modify_preserves_value _ _ _ _ _ _ _ Hb E) as (_ & _ & _ & SN & AB).
      assert (D : 0 <= s < p /\ p <= 38).
      { destruct (Z.lt_decidable s p) as [|N1]; [destruct (Z.le_decidable 0 s) as [|N2]; [destruct (Z.le_decidable p 38) as [|N3]; [lia|]|]|];
          rewrite Z2 in E by lia; discriminate. }
      do 3 (split; [auto; lia|]). split; [lia|]. intros _. lia.
    + intros (SN & AB & P & S1 & S2). specialize (S2 Z0). destruct Z1 as (b2 & E & Z3); [lia|]. rewrite E. do 3 f_equal.
      destruct (C13_modify_preserves_value _ _ _ _ _ _ _ Hb E) as (_ & _ & B2 & _).
      apply bytes_inj; auto. rewrite Z3. apply same_number_zero in SN. symmetry. apply SN. exact Z0.
  - pose proof (C13_modify_succeeds_iff b s0 p s Hb NZ) as [_ I2]. split.
    + intros E. destruct (C13_modify_preserves_value _ _ _ _ _ _ _ Hb E) as (_ & _ & _ & SN & AB).
      destruct (proj1 I2) as (P & S1 & _); [eauto|]. do 4 (split; [auto|]). contradiction.
    + intros (SN & AB & P & S1 & _). destruct (proj2 I2) as ([[b2 p2] s2] & E); [do 2 (split; [auto|]); exists (signed128 b'); auto|].
      destruct (C13_modify_preserves_value _ _ _ _ _ _ _ Hb E) as (-> & -> & B2 & SN2 & _). rewrite E. do 3 f_equal. apply bytes_inj; auto.
      assert (Q : same_number (signed128 b2) (- s) (signed128 b') (- s)) by (eapply same_number_trans; [exact SN2|apply same_number_sym; exact SN]).
      unfold same_number in Q. replace (- s - Z.min (- s) (- s)) with 0 in Q by lia. lia.
Qed.
Lemma decimal_value_iff : forall text null p s l,
  (let! d := new_decimal_from_string text false in must_with_type d (TDecimal (nul null) 0 p s)) = Ok l <->
  exists b, decimal_value text p s b /\ l = lit_decimal b null p s.
Proof.
  intros text null p s l. destruct (C63_literal text false) as [LY LN]. split.
  - destruct (decimal_string_to_bytes text) as [[[b0 p0] s0]| |] eqn:E.
    + rewrite (LY _ _ _ eq_refl). cbn [bind]. intros H. pose proof (read_bytes _ _ _ _ E) as B0.
      apply (proj1 (decimal_retyped b0 p0 s0 2 null p s B0 l)) in H. destruct H as (b & M & B & ->). exists b. split; [|reflexivity].
      apply (modify_iff b0 s0 p s b B0 B) in M. destruct M as (SN & AB & P & S1 & S2).
      assert (SD : exists v j x, says_decimal text v j x).
      { unfold decimal_string_to_bytes in E. destruct (parse_apd text) as [d|] eqn:PA; [|discriminate]. apply parse_apd_spec in PA. destruct PA as (j & x & Y & _). eauto. }
      destruct SD as (v & j & x & SD). destruct (C63_needs_digits v (x - Z.of_nat j)) as (q & ND & _).
      destruct (C63_read _ _ _ _ _ SD ND) as [R1 R2].
      assert (D : q <= 38 /\ Z.abs x <= 100000 /\ Z.of_nat j <= 100000).
      { destruct (Z.le_decidable q 38) as [Y1|Y1]; [destruct (Z.le_decidable (Z.abs x) 100000) as [Y2|Y2]; [destruct (Z.le_decidable (Z.of_nat j) 100000) as [Y3|Y3]; [auto|]|]|];
          rewrite R2 in E by tauto; discriminate. }
      destruct (R1 D) as (b1 & E1 & B1 & SN1 & _). rewrite E in E1. injection E1 as <- <- ->.
      destruct D as (D1 & D2 & D3). pose proof (same_number_trans _ _ _ _ _ _ SN SN1) as SN3.
      exists v, j, x, p0. do 10 (split; [solve [auto]|]). intros V. apply S2. apply same_number_zero in SN1. apply SN1. exact V.
    + rewrite (LN eq_refl). discriminate.
    + exfalso. eapply C63_never_panics; eauto.
  - intros (b & (v & j & x & q & SD & ND & D1 & D2 & D3 & B & SN & AB & P & S1 & S2) & ->).
    destruct (C63_read _ _ _ _ _ SD ND) as [R1 _]. destruct R1 as (b0 & E & B0 & SN0 & _); [auto|].
    rewrite (LY _ _ _ E). cbn [bind]. apply (proj2 (decimal_retyped b0 _ _ 2 null p s B0 _)). exists b. split; [|split; [exact B|reflexivity]].
    apply modify_iff; auto. split; [eapply same_number_trans; [exact SN|apply same_number_sym; exact SN0]|].
    do 3 (split; [auto|]). intros Z0. apply S2. apply same_number_zero in SN0. apply SN0. exact Z0.
Qed.

(** a type a text of a type says, whatever its nullability has become *)
Fixpoint declared (t : ty) : Prop :=
  match t with
  | TPrim _ n v | TDecimal n v _ _ | TFixed _ n v _ | TPrecTime n v _ | TPrecTs n v _ | TPrecTsTz n v _ | TIntervalDay n v _ => (n = 1 \/ n = 2) /\ v = 0
  | TList n v e => (n = 1 \/ n = 2) /\ v = 0 /\ declared e
  | _ => False
  end.
Lemma nul_cases : forall n, nul n = 1 \/ nul n = 2.
Proof. intros [|]; cbn; auto. Qed.
Lemma nul_of : forall n, n = 1 \/ n = 2 -> exists b, n = nul b.
Proof. intros n [-> | ->]; [exists true|exists false]; reflexivity. Qed.
Lemma declares_declared : forall d t, declares d t -> declared t.
Proof. intros d t H. induction H; cbn; auto using nul_cases. Qed.
Lemma is_nullable_nul : forall n, (nul n =? NullNullable) = n.
Proof. intros [|]; reflexivity. Qed.

Section Floats.
Variable parse_float : string -> res Z.
Variable to_float32 : Z -> Z.
Notation from_string := (from_string parse_float to_float32).
Notation says_value := (says_value parse_float to_float32).

Lemma not_takes : forall t, ~ takes_text t <-> match t with
  | TPrim p _ _ => ~ In p [PrimI8; PrimI16; PrimI32; PrimI64; PrimFp32; PrimFp64; PrimString; PrimBinary]
  | TDecimal _ _ _ _ | TFixed _ _ _ _ => False | _ => True end.
Proof. intros t. destruct t; cbn [takes_text]; tauto. Qed.

Lemma int_literal_iff : forall s p null l, In p [PrimI8; PrimI16; PrimI32; PrimI64] ->
  int_literal s p null = Ok l <-> says_value (TPrim p (nul null) 0) s l.
Proof.
  intros s p null l IN. unfold int_literal. split.
  - intros H. destruct (atoi s) as [z| |] eqn:E; [|discriminate H..]. cbn [bind] in H. apply atoi_iff in E.
    destruct IN as [<-|[<-|[<-|[<-|[]]]]]; cbn [new_literal prim_lit_type] in H; rewrite nul_eq in H; injection H as <-; constructor; auto.
  - intros H. inversion H; subst; try (cbn [In] in IN; exfalso; intuition discriminate);
    match goal with E : whole_number _ _ |- _ => apply atoi_iff in E; rewrite E end; cbn [bind new_literal prim_lit_type]; rewrite nul_eq;
    match goal with K : nul _ = nul _ |- _ => rewrite K end; reflexivity.
Qed.
Lemma float_literal_iff : forall s p null l, In p [PrimFp32; PrimFp64] ->
  float_literal parse_float to_float32 s p null = Ok l <-> says_value (TPrim p (nul null) 0) s l.
Proof.
  intros s p null l IN. unfold float_literal. split.
  - intros H. destruct (parse_float s) as [z| |] eqn:E; [|discriminate H..]. cbn [bind] in H.
    destruct IN as [<-|[<-|[]]]; cbn [new_literal prim_lit_type] in H; rewrite nul_eq in H; injection H as <-; constructor; auto.
  - intros H. inversion H; subst; try (cbn [In] in IN; exfalso; intuition discriminate);
    match goal with E : parse_float _ = _ |- _ => rewrite E end; cbn [bind new_literal prim_lit_type]; rewrite nul_eq;
    match goal with K : nul _ = nul _ |- _ => rewrite K end; reflexivity.
Qed.
Lemma wrap_mod : forall n, 0 <= n -> 0 <= n mod 2 ^ 32.
Proof. intros. apply Z.mod_pos_bound. reflexivity. Qed.
Lemma fixed_literal_iff : forall k s null len l,
  (let! d := fixed_literal k s null in must_with_type d (TFixed k (nul null) 0 len)) = Ok l <-> says_value (TFixed k (nul null) 0 len) s l.
Proof.
  intros k s null len l. unfold must_with_type. split.
  - destruct k; cbn [fixed_literal new_literal prim_lit_type bind with_type].
    + intros [= <-]. constructor.
    + unfold varchar_with_type. destruct (Z.ltb_spec len (Z.of_nat (String.length s))); [discriminate|]. intros [= <-]. constructor. lia.
    + intros [= <-]. rewrite bytes_of_eq. constructor.
  - intros H. inversion H; subst; cbn [fixed_literal new_literal prim_lit_type bind with_type]; repeat match goal with K : nul _ = nul _ |- _ => rewrite K; clear K end; try reflexivity.
    + unfold varchar_with_type. destruct (Z.ltb_spec len (Z.of_nat (String.length s))); [lia|reflexivity].
    + rewrite bytes_of_eq. reflexivity.
Qed.

Lemma some_bind : forall A (x : res A) l, (let! v := x in Ok (Some v)) = Ok (Some l) <-> x = Ok l.
Proof. intros A [x| |] l; cbn; split; congruence. Qed.
Lemma some_bind2 : forall A B (x : res A) (k : A -> res B) l, (let! v := x in let! w := k v in Ok (Some w)) = Ok (Some l) <-> (let! v := x in k v) = Ok l.
Proof. intros A B [x| |] k l; cbn; [apply some_bind|split; congruence..]. Qed.
Lemma from_string_some : forall t s l, declared t -> from_string s t = Ok (Some l) <-> says_value t s l.
Proof.
  intros t s l D. destruct t as [p n v|k n v len|n v p sc| | | | | | | | | | | |]; cbn [declared] in D; try contradiction; cbn [from_string];
    try (split; [discriminate|intros H; inversion H]; fail).
  - destruct D as [N ->]. apply nul_of in N. destruct N as [b ->]. unfold is_nullable. cbn [get_nullability]. rewrite is_nullable_nul.
    destruct p; try (split; [discriminate|intros H; inversion H]; fail);
      try (rewrite some_bind; apply int_literal_iff; cbn; tauto); try (rewrite some_bind; apply float_literal_iff; cbn; tauto).
    + rewrite some_bind. cbn [new_literal prim_lit_type]. rewrite nul_eq. split; [intros [= <-]; constructor|intros H; inversion H; subst].
      match goal with K : nul _ = nul _ |- _ => rewrite K end. reflexivity.
    + rewrite some_bind. cbn [new_literal bytes_lit_type]. rewrite nul_eq, bytes_of_eq. split; [intros [= <-]; constructor|intros H; inversion H; subst].
      match goal with K : nul _ = nul _ |- _ => rewrite K end. reflexivity.
  - destruct D as [N ->]. apply nul_of in N. destruct N as [b ->]. rewrite some_bind2. unfold is_nullable. cbn [get_nullability]. rewrite is_nullable_nul.
    apply fixed_literal_iff.
  - destruct D as [N ->]. apply nul_of in N. destruct N as [b ->]. rewrite some_bind2. rewrite decimal_value_iff. split.
    + intros (bs & V & ->). constructor. exact V.
    + intros H. inversion H; subst. eexists. split; [eassumption|]. unfold lit_decimal. match goal with K : nul _ = nul _ |- _ => rewrite K end. reflexivity.
Qed.
Lemma from_string_none : forall t s, declared t -> from_string s t = Ok None <-> ~ takes_text t.
Proof.
  intros t s D. rewrite not_takes. destruct t as [p n v|k n v len|n v p sc| | | | | | | | | | | |]; cbn [declared] in D; try contradiction; cbn [from_string];
    try (split; auto; fail).
  - destruct p; cbn [In]; match goal with |- Ok None = Ok None <-> _ => split; [intros _; intuition discriminate|auto] | |- _ => idtac end;
      (split; [|intros H; exfalso; apply H; tauto]); match goal with |- bind ?e _ = _ -> _ => destruct e; discriminate end.
  - split; [|tauto]. match goal with |- bind ?e _ = _ -> _ => destruct e; [|discriminate..] end. cbn [bind]. match goal with |- bind ?e _ = _ -> _ => destruct e; discriminate end.
  - split; [|tauto]. match goal with |- bind ?e _ = _ -> _ => destruct e; [|discriminate..] end. cbn [bind]. match goal with |- bind ?e _ = _ -> _ => destruct e; discriminate end.
Qed.

(** ** literals of their own kind *)

Definition own_literal (l : tlit) (null : bool) : res lit :=
  let s := raw_string (t_text l) in
  match t_kind l with
  | KBool => new_literal (APrim (VBool (is_true (t_text l)))) null
  | KDate => date_literal s null
  | KTime => time_literal s null
  | KTs => ts_literal s null
  | KTsTz => tstz_literal s null
  | KIntervalYear => interval_year_literal s null
  | KIntervalDay => interval_day_literal s null
  | _ => Err
  end.
Lemma is_true_iff : forall text, is_true text = true <-> same_letters text "true".
Proof. intros text. unfold is_true. rewrite String.eqb_eq. symmetry. apply (TextNameProofs.same_letters_iff text "true"). Qed.
Lemma own_iff : forall l null v, own_literal l null = Ok v <-> says_own (t_kind l) (t_text l) null v.
Proof.
  intros [k text] null v. unfold own_literal. cbn [t_kind t_text]. split.
  - destruct k; cbn [new_literal prim_lit_type]; rewrite ?nul_eq;
      unfold date_literal, time_literal, ts_literal, tstz_literal, interval_year_literal, interval_day_literal.
    + intros [= <-]. constructor. apply is_true_iff.
    + intros H. unok H. cbn [new_literal prim_lit_type] in H. rewrite nul_eq in H. injection H as <-. econstructor; [apply unquoted_iff; reflexivity|eassumption].
    + intros H. unok H. cbn [new_literal prim_lit_type] in H. rewrite nul_eq in H. injection H as <-. econstructor; [apply unquoted_iff; reflexivity|eassumption].
    + intros H. unok H. cbn [new_literal prim_lit_type] in H. rewrite nul_eq in H. injection H as <-. econstructor; [apply unquoted_iff; reflexivity|eassumption].
    + intros H. unok H. cbn [new_literal prim_lit_type] in H. rewrite nul_eq in H. injection H as <-. econstructor; [apply unquoted_iff; reflexivity|eassumption].
    + intros H. unok H. destruct a as [y m]. cbn [new_literal] in H. rewrite nul_eq in H. injection H as <-. econstructor; [apply unquoted_iff; reflexivity|eassumption].
    + intros H. unok H. destruct a as [[[d sec] ss] p]. cbn [new_literal get_precision id_mode] in H. rewrite nul_eq in H. injection H as <-.
      econstructor; [apply unquoted_iff; reflexivity|eassumption].
    + discriminate.
    + discriminate.
    + discriminate.
    + discriminate.
  - intros H. destruct H;
      unfold date_literal, time_literal, ts_literal, tstz_literal, interval_year_literal, interval_day_literal;
      try (match goal with U : unquoted _ _ |- _ => apply unquoted_iff in U; rewrite U end; match goal with E : _ = Ok _ |- _ => rewrite E end;
           cbn [bind new_literal prim_lit_type get_precision id_mode]; rewrite nul_eq; reflexivity).
    cbn [new_literal prim_lit_type]. rewrite nul_eq. do 3 f_equal. destruct (is_true text) eqn:T.
    + symmetry. apply H. apply is_true_iff. exact T.
    + destruct b; auto. exfalso. rewrite (proj2 (is_true_iff text)) in T by (apply H; reflexivity). discriminate.
Qed.

Lemma interval_at_iff : forall text null n v q l,
  (let! i := interval_day_literal (raw_string text) null in must_with_type i (TIntervalDay n v q)) = Ok l <->
  exists d, interval_at text q d /\ l = LProto (XDaySecond d) (TIntervalDay n v q).
Proof.
  intros text null n v q l. unfold interval_day_literal, must_with_type. split.
  - destruct (parse_interval_days (raw_string text)) as [[[[d sec] ss] p]| |] eqn:E; [|discriminate..].
    cbn [bind new_literal with_type get_precision id_mode id_days id_secs id_sub interval_day_with_precision]. intros [= <-].
    eexists. split; [|reflexivity]. econstructor; [apply unquoted_iff; reflexivity|exact E| | |].
    + intros ->. rewrite Z.sub_diag. reflexivity.
    + intros L. destruct (Z.eqb_spec (p - q) 0); [lia|]. destruct (Z.ltb_spec 0 (p - q)); [lia|]. replace (Z.abs (p - q)) with (q - p) by lia. reflexivity.
    + intros L. destruct (Z.eqb_spec (p - q) 0); [lia|]. destruct (Z.ltb_spec 0 (p - q)); [|lia]. replace (Z.abs (p - q)) with (p - q) by lia. reflexivity.
  - intros (d & H & ->). destruct H as [text s d sec ss p q ss' U E A B C]. apply unquoted_iff in U. rewrite U, E.
    cbn [bind new_literal with_type get_precision id_mode id_days id_secs id_sub interval_day_with_precision]. do 4 f_equal.
    destruct (Z.eqb_spec (p - q) 0); [symmetry; apply A; lia|]. destruct (Z.ltb_spec 0 (p - q)).
    + rewrite C by lia. replace (Z.abs (p - q)) with (p - q) by lia. reflexivity.
    + rewrite B by lia. replace (Z.abs (p - q)) with (q - p) by lia. reflexivity.
Qed.

(** ** arguments *)

Notation read_arg := (read_arg parse_float to_float32).
Notation read_typed_arg := (read_typed_arg parse_float to_float32).
Notation arg_says := (arg_says parse_float to_float32).

Lemma typed_arg_prim : forall p n v text l, update_type (Case (TPrim p n v) text l) = Ok (Case (TPrim p n v) text l).
Proof. reflexivity. Qed.
Lemma own_arg : forall k text null p c l, own_type k p ->
  (let! v := own_literal (Tlit k text) null in Ok (Case (TPrim p (nullability_of null) 0) text (CLit v))) = l ->
  (let! c0 := l in update_type c0) = Ok c <-> exists v, says_own k text null v /\ c = Case (TPrim p (nul null) 0) text (CLit v).
Proof.
  intros k text null p c l OT <-. rewrite nul_eq. split.
  - destruct (own_literal (Tlit k text) null) as [v| |] eqn:E; [|discriminate..]. cbn [bind]. rewrite typed_arg_prim. intros [= <-].
    exists v. split; [|reflexivity]. apply (own_iff (Tlit k text) null v). exact E.
  - intros (v & S1 & ->). apply (own_iff (Tlit k text) null v) in S1. rewrite S1. cbn [bind]. apply typed_arg_prim.
Qed.
Lemma must_with_type_ok : forall l t r, with_type l t <> None -> must_with_type l t = r <-> with_type l t = Some r.
Proof. intros l t r N. unfold must_with_type. destruct (with_type l t); [split; congruence|contradiction]. Qed.
Lemma update_must : forall t text l, get_parameters t <> [] -> with_type l t <> None ->
  update_type (Case t text (CLit l)) = (let! l' := must_with_type l t in Ok (Case t text (CLit l'))).
Proof.
  intros t text l P W. unfold update_type, must_with_type. cbn [c_type c_value c_text]. destruct (get_parameters t); [contradiction|].
  destruct l; try (destruct (with_type _ t); [reflexivity|contradiction]). cbn in W. contradiction.
Qed.
Lemma case_inj : forall A (x : res A) (f : A -> caselit) c, (let! l := x in Ok (f l)) = Ok c <-> exists l, x = Ok l /\ c = f l.
Proof. intros A [x| |] f c; cbn; split; try discriminate; try (intros (l & ? & ?); discriminate). - intros [= <-]. eauto. - intros (l & [= <-] & ->). reflexivity. Qed.
Lemma bind_assoc : forall A B C (x : res A) (f : A -> res B) (g : B -> res C), (let! b := (let! a := x in f a) in g b) = (let! a := x in let! b := f a in g b).
Proof. intros A B C [x| |] f g; reflexivity. Qed.

Lemma new_decimal_type : forall text null l, new_decimal_from_string text null = Ok l -> exists b p s, decimal_string_to_bytes text = Ok (b, p, s) /\ l = LProto (XBytes b) (TDecimal (nul null) 0 p s).
Proof.
  intros text null l H. destruct (C63_literal text null) as [A B]. destruct (decimal_string_to_bytes text) as [[[b p] s]| |] eqn:E.
  - rewrite (A _ _ _ eq_refl) in H. injection H as <-. exists b, p, s. split; [reflexivity|]. destruct null; reflexivity.
  - rewrite B in H by reflexivity. discriminate.
  - exfalso. eapply C63_never_panics; eauto.
Qed.
Lemma new_decimal_any : forall text null t, (let! d := new_decimal_from_string text null in must_with_type d t) = (let! d := new_decimal_from_string text false in must_with_type d t).
Proof.
  intros text null t. destruct (C63_literal text null) as [A B]. destruct (C63_literal text false) as [A' B'].
  destruct (decimal_string_to_bytes text) as [[[b p] s]| |] eqn:E.
  - rewrite (A _ _ _ eq_refl), (A' _ _ _ eq_refl). reflexivity.
  - rewrite B, B' by reflexivity. reflexivity.
  - exfalso. eapply C63_never_panics; eauto.
Qed.

Lemma nullable_same : forall t, declared t -> is_nullable t = true -> with_nullability NullNullable t = t.
Proof. intros t D H. apply Z.eqb_eq in H. destruct t; cbn in *; try contradiction; congruence. Qed.
Lemma update_null : forall t text u, update_type (Case t text (CLit (LNull u))) = Ok (Case t text (CLit (LNull u))).
Proof. intros. unfold update_type. cbn. destruct (get_parameters t); reflexivity. Qed.

Lemma prec_update : forall (mk : nullability -> Z -> Z -> ty) text null p z c,
  (mk = TPrecTime \/ mk = TPrecTs \/ mk = TPrecTsTz) ->
  update_type (Case (mk (nul null) 0 p) text (CLit (LProto (XInt64 z) (mk (nul null) 0 p)))) = Ok c <->
  exists z', change_precision z p p = Ok z' /\ c = Case (mk (nul null) 0 p) text (CLit (LProto (XInt64 z') (mk (nul null) 0 p))).
Proof.
  intros mk text null p z c M. destruct M as [-> | [-> | ->]]; cbn [update_type c_type c_value c_text get_parameters with_type].
  - destruct (change_precision z p p) as [z'| |]; cbn [bind]; split; try discriminate; try (intros (? & ? & ?); discriminate); [intros [= <-]; eauto|intros (? & [= <-] & ->); reflexivity].
  - destruct (change_precision z p p) as [z'| |]; cbn [bind]; split; try discriminate; try (intros (? & ? & ?); discriminate); [intros [= <-]; eauto|intros (? & [= <-] & ->); reflexivity].
  - destruct (change_precision z p p) as [z'| |]; cbn [bind]; split; try discriminate; try (intros (? & ? & ?); discriminate); [intros [= <-]; eauto|intros (? & [= <-] & ->); reflexivity].
Qed.

Lemma own_inv : forall k p a text null c, own_type k p ->
  In (k, a) [(KBool, GBool text null); (KDate, GDate text null); (KTime, GTime text null); (KTs, GTs text null);
             (KTsTz, GTsTz text null); (KIntervalYear, GIntervalYear text null)] ->
  arg_says a c <-> exists v, says_own k text null v /\ c = Case (TPrim p (nul null) 0) text (CLit v).
Proof.
  intros k p a text null c OT IN. split.
  - intros H. unfold own_type in *. cbn [In] in OT, IN.
    destruct IN as [IN|[IN|[IN|[IN|[IN|[IN|[]]]]]]]; injection IN as <- <-; inversion H; subst;
      match goal with K : own_type _ _ |- _ => unfold own_type in K; cbn [In] in * end;
      match goal with K : _ \/ _, K2 : _ \/ _ |- _ => idtac end;
      assert (p0 = p /\ text0 = text /\ null0 = null) as (-> & -> & ->) by (intuition congruence);
      eexists; (split; [|reflexivity]); match goal with S1 : says_own ?k0 _ _ _ |- says_own ?k1 _ _ _ => assert (k0 = k1) as <- by (intuition congruence); exact S1 end.
  - intros (v & S1 & ->). eapply Arg_own; eauto.
Qed.

Lemma arg_iff : forall a c, ~ is_list a -> read_typed_arg a = Ok c <-> arg_says a c.
Proof.
  intros a c NL. unfold read_typed_arg. destruct a as [text d|text p null|text p null|text null|text null|text ps null|text null|text null|text null|text null|text null|text pt null|k text len null|text pt null|text pt null|text pt null|es d null|name|]; cbn [read_arg].
  - (* null *) split.
    + intros H. unok H. unok E. destruct (is_nullable a0) eqn:N; [|discriminate E]. injection E as <-. cbn [bind] in H.
      unfold new_null_literal in H. rewrite update_null in H. apply declares_iff in E0. rewrite (nullable_same _ (declares_declared _ _ E0) N) in H.
      injection H as <-. constructor; [exact E0|]. apply Z.eqb_eq in N. exact N.
    + intros H. inversion H; subst; [|exfalso; cbn [In] in *; intuition discriminate].
      pose proof (declares_declared _ _ H2) as D. apply declares_iff in H2. rewrite H2. cbn [bind].
      assert (N : is_nullable t = true) by (apply Z.eqb_eq; assumption). rewrite N. cbn [bind]. unfold new_null_literal. rewrite update_null, nullable_same by auto. reflexivity.
  - (* int *) rewrite nul_eq. split.
    + intros H. unok H. apply case_inj in E. destruct E as (l & E & ->). rewrite typed_arg_prim in H. injection H as <-.
      assert (I : In p [PrimI8; PrimI16; PrimI32; PrimI64]).
      { unfold int_literal in E. destruct (atoi text); [|discriminate..]. cbn [bind] in E. destruct p; try discriminate E; cbn; tauto. }
      constructor; [exact I|]. apply int_literal_iff; auto.
    + intros H. inversion H; subst; [|exfalso; cbn [In] in *; intuition discriminate].
      match goal with S1 : TestCaseSpec.says_value _ _ _ _ _ |- _ => apply int_literal_iff in S1; [|assumption]; rewrite S1 end. reflexivity.
  - (* float *) split.
    + intros H. unok H. unok E. apply case_inj in E. destruct E as (t & E & ->).
      assert (I : In p [PrimFp32; PrimFp64]).
      { unfold float_literal in E0. destruct (parse_float text); [|discriminate..]. cbn [bind] in E0. destruct p; try discriminate E0; cbn; tauto. }
      apply float_literal_iff in E0; [|exact I]. assert (T : t = TPrim p (nul null) 0).
      { inversion E0; subst; cbn in E; congruence || (cbn [In] in I; exfalso; intuition discriminate). }
      subst t. rewrite typed_arg_prim in H. injection H as <-. constructor; [exact I|exact E0].
    + intros H. inversion H; subst; [|exfalso; cbn [In] in *; intuition discriminate].
      match goal with S1 : TestCaseSpec.says_value _ _ _ _ _ |- _ => pose proof S1 as S2; apply float_literal_iff in S1; [|assumption]; rewrite S1 end. cbn [bind].
      assert (T : lit_type v = Ok (TPrim p (nul null) 0)).
      { inversion S2; subst; cbn; reflexivity || congruence. }
      rewrite T. reflexivity.
  - (* Bool *) rewrite (own_arg KBool text null PrimBool c _ ltac:(cbn; tauto)) by (unfold own_literal; cbn [t_kind t_text]; reflexivity).
    rewrite (own_inv KBool PrimBool (GBool text null) text null c) by (cbn; tauto). reflexivity.
  - (* string *) split.
    + intros H. cbn [new_literal prim_lit_type bind] in H. rewrite nul_eq in H. rewrite typed_arg_prim in H. injection H as <-.
      econstructor; [apply unquoted_iff; reflexivity|]. constructor.
    + intros H. inversion H; subst; [|exfalso; cbn [In] in *; intuition discriminate].
      match goal with U : unquoted _ _ |- _ => apply unquoted_iff in U; subst end.
      cbn [new_literal prim_lit_type bind]. rewrite nul_eq. rewrite typed_arg_prim.
      match goal with S1 : TestCaseSpec.says_value _ _ _ _ _ |- _ => inversion S1; subst end. do 4 f_equal; congruence.
  - (* decimal *) rewrite bind_assoc. split.
    + intros H. unok H. rewrite bind_assoc in H. cbn [bind] in H. apply declares_iff in E. unok H.
      destruct (new_decimal_type _ _ _ E0) as (b & p & sc & EB & ->).
      assert (PN : get_parameters a <> []) by (inversion E; subst; cbn; discriminate).
      rewrite update_must in H by (auto; cbn; discriminate). apply case_inj in H. destruct H as (l & H & ->). constructor; [exact E|].
      assert (H0 : (let! d := new_decimal_from_string text null in must_with_type d a) = Ok l) by (rewrite E0; exact H).
      rewrite new_decimal_any in H0. apply from_string_some; [exact (declares_declared _ _ E)|].
      inversion E; subst; cbn [from_string]; rewrite some_bind2; exact H0.
    + intros H. inversion H; subst; [|exfalso; cbn [In] in *; intuition discriminate].
      match goal with D : declares _ _ |- _ => pose proof D as DD; apply declares_iff in D; rewrite D end. cbn [bind]. rewrite bind_assoc.
      match goal with S1 : TestCaseSpec.says_value _ _ _ _ _ |- _ => apply from_string_some in S1; [|exact (declares_declared _ _ DD)] end.
      assert (H0 : (let! d := new_decimal_from_string text false in must_with_type d t) = Ok v) by (inversion DD; subst; cbn [from_string] in *; rewrite some_bind2 in *; assumption).
      rewrite <- (new_decimal_any text null) in H0. unok H0. cbn [bind]. destruct (new_decimal_type _ _ _ E) as (b & p & sc & EB & ->).
      rewrite update_must by (inversion DD; subst; cbn; discriminate). rewrite H0. reflexivity.
  - (* Date *) rewrite (own_arg KDate text null PrimDate c _ ltac:(cbn; tauto)) by (unfold own_literal; cbn [t_kind t_text]; reflexivity).
    rewrite (own_inv KDate PrimDate (GDate text null) text null c) by (cbn; tauto). reflexivity.
  - (* Time *) rewrite (own_arg KTime text null PrimTime c _ ltac:(cbn; tauto)) by (unfold own_literal; cbn [t_kind t_text]; reflexivity).
    rewrite (own_inv KTime PrimTime (GTime text null) text null c) by (cbn; tauto). reflexivity.
  - (* Ts *) rewrite (own_arg KTs text null PrimTimestamp c _ ltac:(cbn; tauto)) by (unfold own_literal; cbn [t_kind t_text]; reflexivity).
    rewrite (own_inv KTs PrimTimestamp (GTs text null) text null c) by (cbn; tauto). reflexivity.
  - (* TsTz *) rewrite (own_arg KTsTz text null PrimTimestampTz c _ ltac:(cbn; tauto)) by (unfold own_literal; cbn [t_kind t_text]; reflexivity).
    rewrite (own_inv KTsTz PrimTimestampTz (GTsTz text null) text null c) by (cbn; tauto). reflexivity.
  - (* IntervalYear *) rewrite (own_arg KIntervalYear text null PrimIntervalYear c _ ltac:(cbn; tauto)) by (unfold own_literal; cbn [t_kind t_text]; reflexivity).
    rewrite (own_inv KIntervalYear PrimIntervalYear (GIntervalYear text null) text null c) by (cbn; tauto). reflexivity.
  - (* interval day *) rewrite bind_assoc. split.
    + intros H. unok H. rewrite bind_assoc in H. cbn [bind] in H. apply declares_iff in E. unok H.
      assert (A : exists q, a = TIntervalDay (nul null) 0 q) by (inversion E; subst; eauto). destruct A as (q & ->).
      assert (W : with_type a0 (TIntervalDay (nul null) 0 q) <> None).
      { unfold interval_day_literal in E0. unok E0. destruct a as [[[d sec] ss] p]. injection E0 as <-. cbn. discriminate. }
      rewrite update_must in H by (auto; cbn; discriminate). apply case_inj in H. destruct H as (l & H & ->).
      assert (H0 : (let! i := interval_day_literal (raw_string text) null in must_with_type i (TIntervalDay (nul null) 0 q)) = Ok l) by (rewrite E0; exact H).
      apply interval_at_iff in H0. destruct H0 as (d & I & ->). constructor; [exact E|exact I].
    + intros H. inversion H; subst; [exfalso; cbn [In] in *; intuition discriminate|].
      match goal with D : declares _ _ |- _ => apply declares_iff in D; rewrite D end. cbn [bind]. rewrite bind_assoc.
      assert (H0 : (let! i := interval_day_literal (raw_string text) null in must_with_type i (TIntervalDay (nul null) 0 q)) = Ok (LProto (XDaySecond d) (TIntervalDay (nul null) 0 q)))
        by (apply interval_at_iff; eauto).
      unok H0. cbn [bind]. rewrite update_must; [rewrite H0; reflexivity|cbn; discriminate|].
      unfold interval_day_literal in E. unok E. destruct a0 as [[[d' sec] ss] p]. injection E as <-. cbn. discriminate.
  - (* fixed *) rewrite bind_assoc. split.
    + intros H. unok H. rewrite bind_assoc in H. cbn [bind] in H. apply declares_iff in E. unok H.
      assert (A : exists n, a = TFixed k (nul null) 0 n) by (inversion E; subst; eauto). destruct A as (n & ->).
      assert (W : with_type a0 (TFixed k (nul null) 0 n) <> None) by (destruct k; cbn in E0; injection E0 as <-; cbn; discriminate).
      rewrite update_must in H by (auto; cbn; discriminate). apply case_inj in H. destruct H as (l & H & ->).
      econstructor; [exact E|apply unquoted_iff; reflexivity|]. apply fixed_literal_iff. rewrite E0. exact H.
    + intros H. inversion H; subst; [|exfalso; cbn [In] in *; intuition discriminate].
      match goal with D : declares _ _ |- _ => pose proof D as DD; apply declares_iff in D; rewrite D end. cbn [bind]. rewrite bind_assoc.
      match goal with U : unquoted _ _ |- _ => apply unquoted_iff in U; rewrite U end.
      inversion DD; subst. match goal with S1 : TestCaseSpec.says_value _ _ _ _ _ |- _ => apply fixed_literal_iff in S1; unok S1 end. cbn [bind].
      rewrite update_must; [match goal with M : must_with_type _ _ = _ |- _ => rewrite M end; reflexivity|cbn; discriminate|].
      destruct k; cbn in E; injection E as <-; cbn; discriminate.
  - (* TPrecTime *) rewrite bind_assoc. split.
    + intros H. unok H. rewrite bind_assoc in H. unok H. cbn [new_literal bind new_precision_time] in H. rewrite nul_eq in H.
      apply (prec_update TPrecTime) in H; [|tauto]. destruct H as (z' & C & ->). apply int_param_iff in E.
      econstructor; [exact E|apply unquoted_iff; reflexivity|exact E0|exact C].
    + intros H. inversion H; subst; [exfalso; cbn [In] in *; intuition discriminate|].
      match goal with D : parameter _ _ |- _ => apply int_param_iff in D; rewrite D end. cbn [bind]. rewrite bind_assoc.
      match goal with U : unquoted _ _ |- _ => apply unquoted_iff in U; rewrite U end.
      match goal with D : new_precision_time_from_string _ _ = Ok _ |- _ => rewrite D end. cbn [bind new_literal new_precision_time]. rewrite nul_eq.
      apply (prec_update TPrecTime); [tauto|]. eexists. split; [eassumption|reflexivity].
  - (* TPrecTs *) rewrite bind_assoc. split.
    + intros H. unok H. rewrite bind_assoc in H. unok H. cbn [new_literal bind new_precision_timestamp] in H. rewrite nul_eq in H.
      apply (prec_update TPrecTs) in H; [|tauto]. destruct H as (z' & C & ->). apply int_param_iff in E.
      econstructor; [exact E|apply unquoted_iff; reflexivity|exact E0|exact C].
    + intros H. inversion H; subst; [exfalso; cbn [In] in *; intuition discriminate|].
      match goal with D : parameter _ _ |- _ => apply int_param_iff in D; rewrite D end. cbn [bind]. rewrite bind_assoc.
      match goal with U : unquoted _ _ |- _ => apply unquoted_iff in U; rewrite U end.
      match goal with D : new_precision_timestamp_from_string _ _ = Ok _ |- _ => rewrite D end. cbn [bind new_literal new_precision_timestamp]. rewrite nul_eq.
      apply (prec_update TPrecTs); [tauto|]. eexists. split; [eassumption|reflexivity].
  - (* TPrecTsTz *) rewrite bind_assoc. split.
    + intros H. unok H. rewrite bind_assoc in H. unok H. cbn [new_literal bind new_precision_timestamp_tz] in H. rewrite nul_eq in H.
      apply (prec_update TPrecTsTz) in H; [|tauto]. destruct H as (z' & C & ->). apply int_param_iff in E.
      econstructor; [exact E|apply unquoted_iff; reflexivity|exact E0|exact C].
    + intros H. inversion H; subst; [exfalso; cbn [In] in *; intuition discriminate|].
      match goal with D : parameter _ _ |- _ => apply int_param_iff in D; rewrite D end. cbn [bind]. rewrite bind_assoc.
      match goal with U : unquoted _ _ |- _ => apply unquoted_iff in U; rewrite U end.
      match goal with D : new_precision_timestamp_tz_from_string _ _ = Ok _ |- _ => rewrite D end. cbn [bind new_literal new_precision_timestamp_tz]. rewrite nul_eq.
      apply (prec_update TPrecTsTz); [tauto|]. eexists. split; [eassumption|reflexivity].
  - (* list *) exfalso. apply NL. unfold is_list. eauto.
  - (* enum *) split.
    + intros [= <-]. constructor.
    + intros H. inversion H; subst; [exfalso; cbn [In] in *; intuition discriminate|]. reflexivity.
  - (* other *) split; [discriminate|]. intros H. inversion H; subst. cbn [In] in *. exfalso; intuition discriminate.
Qed.

(** ** lists *)

Notation read_literal := (read_literal parse_float to_float32).
Notation read_element := (read_element parse_float to_float32).
Notation read_elements := (read_elements parse_float to_float32).
Notation literal_says := (literal_says parse_float to_float32).
Notation element_says := (element_says parse_float to_float32).

Lemma nullable_as_iff : forall t n, nullable_as t n <-> is_nullable t = n.
Proof.
  intros t n. unfold nullable_as, is_nullable. split.
  - intros H. destruct (Z.eqb_spec (get_nullability t) NullNullable) as [E|E]; [symmetry; apply H; exact E|]. destruct n; auto. exfalso. apply E. apply H. reflexivity.
  - intros <-. apply Z.eqb_eq.
Qed.
Lemma own_kind : forall l, (exists null v, says_own (t_kind l) (t_text l) null v) -> In (t_kind l) [KBool; KDate; KTime; KTs; KTsTz; KIntervalYear; KIntervalDay].
Proof. intros l (n & v & H). destruct H; cbn; tauto. Qed.

Definition null_kind (l : tlit) : bool := match t_kind l with KNull => true | _ => false end.
Lemma after_unshared : forall t, unshared t true -> after_null (Some t) = Some t.
Proof. intros t U. destruct t; cbn; auto. rewrite (U eq_refl n v prec eq_refl). reflexivity. Qed.

Lemma pair_ok : forall A B (x : res A) (f : A -> B) o (ctx c : option ty), (let! v := x in Ok (f v, ctx)) = Ok (o, c) <-> (exists v, x = Ok v /\ o = f v) /\ c = ctx.
Proof.
  intros A B [x| |] f o ctx c; cbn; split; try discriminate; try (intros ((? & ? & ?) & ?); discriminate).
  - intros [= <- <-]. eauto.
  - intros ((v & [= <-] & ->) & ->). reflexivity.
Qed.

Lemma read_literal_iff : forall l t o c, declared t -> unshared t (null_kind l) ->
  read_literal (Some t) l = Ok (o, c) <-> literal_says t l o /\ c = Some t.
Proof.
  intros [k text] t o c D U. unfold TestCaseModel.read_literal. cbn [t_kind t_text]. cbv zeta.
  assert (OWN : k <> KIntervalDay -> (exists v, own_literal (Tlit k text) (is_nullable t) = Ok v /\ o = Some v) <-> (exists v, says_own k text (is_nullable t) v /\ o = Some v)).
  { intros _. split; intros (v & E & ->); exists v; (split; [|reflexivity]); apply (own_iff (Tlit k text) (is_nullable t) v); exact E. }
  assert (OWN2 : forall (N : In k [KBool; KDate; KTime; KTs; KTsTz; KIntervalYear]), literal_says t (Tlit k text) o <-> (exists v, says_own k text (is_nullable t) v /\ o = Some v)).
  { intros N. split.
    - intros H. inversion H; subst; try (cbn [In] in N; exfalso; intuition discriminate).
      match goal with A : nullable_as _ _ |- _ => apply nullable_as_iff in A; subst end. eauto.
    - intros (v & E & ->). eapply Lit_own; [|apply nullable_as_iff; reflexivity|exact E]. cbn [In] in N. intros ->. intuition discriminate. }
  destruct k.
  1-6: (rewrite OWN2 by (cbn; tauto); rewrite <- OWN by discriminate; apply (pair_ok _ _ _ (@Some lit))).
  - (* interval day *)
    destruct t as [| | | | | |n v q| | | | | | | |] eqn:ET.
    7:{ split.
        - intros H. assert (K : (let! l0 := (let! v0 := interval_day_literal (raw_string text) (is_nullable t) in must_with_type v0 t) in Ok (Some l0, Some t)) = Ok (o, c))
            by (rewrite bind_assoc; rewrite ET; exact H).
          rewrite pair_ok in K. destruct K as ((l & K & ->) & ->). rewrite ET in K. apply interval_at_iff in K. destruct K as (d & K & ->). split; [|congruence]. eapply Lit_interval; eauto.
        - intros [H ->]. inversion H; subst; [congruence|exfalso; eapply H1; reflexivity|].
          assert (K : (let! v0 := interval_day_literal (raw_string text) (is_nullable (TIntervalDay n v q)) in must_with_type v0 (TIntervalDay n v q)) = Ok (LProto (XDaySecond d) (TIntervalDay n v q)))
            by (apply interval_at_iff; match goal with E : TIntervalDay _ _ _ = TIntervalDay _ _ _ |- _ => injection E as -> -> -> end; eauto).
          unok K. cbn [bind]. rewrite K. reflexivity. }
    all: (rewrite (pair_ok _ _ _ (@Some lit)); apply and_iff_compat_r; split;
      [intros (v0 & E & ->); eapply Lit_interval_other; [intros; discriminate|apply nullable_as_iff; reflexivity|apply (own_iff (Tlit KIntervalDay text)); exact E]
      |intros H; inversion H; subst; [congruence| |discriminate];
       match goal with A : nullable_as _ _ |- _ => apply nullable_as_iff in A; subst end; eexists; split; [|reflexivity];
       match goal with S1 : says_own _ _ _ _ |- _ => apply (own_iff (Tlit KIntervalDay text)) in S1; exact S1 end]).
  - (* number *) split.
    + intros H. unok H. injection H as <- <-. split; [|reflexivity]. destruct a as [v|].
      * apply from_string_some in E; [|exact D]. apply Lit_number; [|exact E]. inversion E; subst; cbn; tauto.
      * apply from_string_none in E; [|exact D]. apply Lit_number_dropped. exact E.
    + intros [H ->]. inversion H; subst.
      * exfalso. match goal with S1 : says_own _ _ _ _ |- _ => inversion S1 end.
      * match goal with S1 : TestCaseSpec.says_value _ _ _ _ _ |- _ => apply from_string_some in S1; [|exact D]; rewrite S1 end. reflexivity.
      * match goal with S1 : ~ takes_text _ |- _ => apply (proj2 (from_string_none _ text D)) in S1; rewrite S1 end. reflexivity.
  - (* string *) split.
    + intros H. unok H. destruct a as [v|].
      * injection H as <- <-. split; [|reflexivity]. apply from_string_some in E; [|exact D]. eapply Lit_string; [|apply unquoted_iff; reflexivity|exact E]. inversion E; subst; cbn; tauto.
      * cbn in H. injection H as <- <-. split; [|reflexivity]. apply from_string_none in E; [|exact D]. eapply Lit_string_kept; [exact E|apply unquoted_iff; reflexivity].
    + intros [H ->]. inversion H; subst.
      * exfalso. match goal with S1 : says_own _ _ _ _ |- _ => inversion S1 end.
      * match goal with A : unquoted _ _ |- _ => apply unquoted_iff in A; rewrite A end.
        match goal with S1 : TestCaseSpec.says_value _ _ _ _ _ |- _ => apply from_string_some in S1; [|exact D]; rewrite S1 end. reflexivity.
      * match goal with A : unquoted _ _ |- _ => apply unquoted_iff in A; rewrite A end.
        match goal with S1 : ~ takes_text _ |- _ => apply (proj2 (from_string_none _ s D)) in S1; rewrite S1 end. reflexivity.
  - (* null *) rewrite after_unshared by exact U. split.
    + intros [= <- <-]. split; [|reflexivity]. eapply Lit_null. reflexivity.
    + intros [H ->]. inversion H; subst; [exfalso; match goal with S1 : says_own _ _ _ _ |- _ => inversion S1 end|]. reflexivity.
  - (* other *) split; [discriminate|]. intros [H ->]. inversion H; subst. exfalso. match goal with S1 : says_own _ _ _ _ |- _ => inversion S1 end.
Qed.

Lemma settle_same : forall t, settle_ty t t = t.
Proof. induction t; cbn; auto. congruence. Qed.
Lemma settle_list : forall t n v, settle_ty (TList n v t) t = t.
Proof. induction t; intros m w; cbn; auto. rewrite IHt. reflexivity. Qed.

Definition settled (t : ty) (v : lit) : Prop := settle_lit t v = v /\ exists u, lit_type v = Ok u /\ settle_ty t u = u /\ declared u.

Definition flat (u : ty) : Prop := match u with TIntervalDay _ _ _ | TList _ _ _ => False | _ => declared u end.
Lemma flat_settled : forall t v u, lit_type v = Ok u -> flat u -> (forall vs w, v <> LList vs w) -> settled t v.
Proof.
  intros t v u E F NL. assert (S1 : settle_ty t u = u) by (destruct u; cbn in F; try contradiction; reflexivity).
  split; [|exists u; split; [exact E|split; [exact S1|destruct u; cbn in F; try contradiction; exact F]]].
  destruct v; cbn in E |- *; try reflexivity; try discriminate E; try (injection E as ->; rewrite S1; reflexivity). exfalso. eapply NL. reflexivity.
Qed.
Lemma says_value_flat : forall t s v, says_value t s v -> exists u, lit_type v = Ok u /\ flat u /\ forall vs w, v <> LList vs w.
Proof. intros t s v H. destruct H; eexists; (split; [reflexivity|]); (split; [cbn; auto using nul_cases|discriminate]). Qed.
Lemma says_own_flat : forall k text null v, k <> KIntervalDay -> says_own k text null v -> exists u, lit_type v = Ok u /\ flat u /\ forall vs w, v <> LList vs w.
Proof. intros k text null v N H. destruct H; try congruence; eexists; (split; [reflexivity|]); (split; [cbn; auto using nul_cases|discriminate]). Qed.

Lemma with_nullable_declared : forall t, declared t -> declared (with_nullability 1 t).
Proof. intros t D. destruct t; cbn in *; try contradiction; tauto. Qed.

Lemma literal_settled : forall t l v, declared t -> unshared t (null_kind l) -> literal_says t l (Some v) -> settled t v.
Proof.
  intros t l v D U H. inversion H; subst.
  - edestruct says_own_flat as (u & A & B & C); [|eassumption|]; [assumption|]. eapply flat_settled; eauto.
  - match goal with S1 : says_own _ _ _ _ |- _ => inversion S1; subst end.
    match goal with N : forall _ _ _, t <> _ |- _ => assert (S1 : settle_ty t (TIntervalDay (nul null) 0 p) = TIntervalDay (nul null) 0 p) by (destruct t; cbn; try reflexivity; exfalso; eapply N; reflexivity) end.
    split; [cbn [settle_lit]; rewrite S1; reflexivity|]. eexists. split; [reflexivity|]. split; [exact S1|]. cbn. auto using nul_cases.
  - split; [cbn; reflexivity|]. eexists. split; [reflexivity|]. split; [reflexivity|exact D].
  - match goal with S1 : TestCaseSpec.says_value _ _ _ _ _ |- _ => destruct (says_value_flat _ _ _ S1) as (u & A & B & C) end. eapply flat_settled; eauto.
  - match goal with S1 : TestCaseSpec.says_value _ _ _ _ _ |- _ => destruct (says_value_flat _ _ _ S1) as (u & A & B & C) end. eapply flat_settled; eauto.
  - apply (flat_settled _ _ (TPrim PrimString 2 0)); [reflexivity|cbn; auto|discriminate].
  - assert (S1 : settle_ty t (with_nullability 1 t) = with_nullability 1 t).
    { destruct t; cbn in *; try reflexivity; try contradiction.
      - rewrite (U eq_refl _ _ _ eq_refl). reflexivity.
      - rewrite settle_same. reflexivity. }
    split; [cbn [settle_lit]; rewrite S1; reflexivity|]. eexists. split; [reflexivity|]. split; [exact S1|]. apply with_nullable_declared. exact D.
Qed.

Lemma bind_inv : forall A B (r : res A) (k : A -> res B) y, bind r k = Ok y -> exists a, r = Ok a /\ k a = Ok y.
Proof. intros A B [a| |] k y H; cbn in H; try discriminate. eauto. Qed.
Ltac unb H := apply bind_inv in H; let a := fresh "a" in let E := fresh "E" in destruct H as (a & E & H).

(** ** equality of the types read *)
Lemma declared_plain : forall t, declared t -> plain t.
Proof. induction t; cbn; try tauto. Qed.
Lemma declared_forget : forall t, declared t -> forget_ptr t = t.
Proof. induction t; cbn; try contradiction; auto. intros (_ & _ & D). rewrite IHt by exact D. reflexivity. Qed.
Lemma declared_equals : forall t u, declared t -> declared u -> exists b, type_equals t u = Ok b /\ (b = true <-> t = u).
Proof.
  intros t u D E. destruct (C02_equals_is_structural t u (declared_plain _ D)) as (b & H & I). exists b. split; [exact H|].
  rewrite I. unfold TypesSpec.same_type. rewrite !declared_forget by auto. reflexivity.
Qed.
Definition typed_lit (v : lit) : Prop := exists u, lit_type v = Ok u /\ declared u.
Lemma not_nil : forall v, typed_lit v -> v <> LNil.
Proof. intros v (u & H & _) ->. discriminate. Qed.
Lemma any_mismatch_iff : forall vs t, declared t -> Forall typed_lit vs ->
  exists b, any_mismatch t vs = Ok b /\ (b = false <-> Forall (fun v => lit_type v = Ok t) vs).
Proof.
  induction vs as [|v vs IH]; intros t D F; cbn [any_mismatch]; [exists false; split; [reflexivity|split; auto]|].
  inversion F as [|? ? H1 H2]; subst. destruct H1 as (u & E & DU).
  assert (Q : any_mismatch t (v :: vs) = (let! t0 := lit_type v in let! b := type_equals t t0 in if b then any_mismatch t vs else Ok true)).
  { destruct v; try reflexivity. discriminate E. }
  change (exists b, any_mismatch t (v :: vs) = Ok b /\ (b = false <-> Forall (fun v => lit_type v = Ok t) (v :: vs))). rewrite Q, E. cbn [bind].
  destruct (declared_equals t u D DU) as (b & EQ & I). rewrite EQ. cbn [bind]. destruct b.
  - assert (t = u) by (apply I; reflexivity). subst u. destruct (IH t D H2) as (b & A & B). exists b. split; [exact A|]. rewrite B. split; [intros; constructor; auto|intros G; inversion G; auto].
  - exists true. split; [reflexivity|]. split; [discriminate|]. intros G. inversion G as [|? ? G1 G2]; subst. rewrite E in G1. injection G1 as ->.
    assert (false = true) by (apply I; reflexivity). discriminate.
Qed.
Lemma new_list_iff : forall v vs l, Forall typed_lit (v :: vs) ->
  new_list (v :: vs) false = Ok l <-> exists t, Forall (fun x => lit_type x = Ok t) (v :: vs) /\ l = LList (v :: vs) (TList 2 0 t).
Proof.
  intros v vs l F. inversion F as [|? ? H1 H2]; subst. destruct H1 as (u & E & DU). unfold new_list.
  assert (Q : has_type_mismatch (v :: vs) = any_mismatch u vs).
  { unfold has_type_mismatch. rewrite E. destruct v; try reflexivity. discriminate E. }
  rewrite Q. destruct (any_mismatch_iff vs u DU H2) as (b & A & B). rewrite A. cbn [bind]. destruct b.
  - split; [discriminate|]. intros (t & G & _). inversion G as [|? ? G1 G2]; subst. rewrite E in G1. injection G1 as ->. apply B in G2. discriminate.
  - cbn [new_literal]. rewrite E. cbn [bind]. split.
    + intros [= <-]. exists u. split; [|reflexivity]. constructor; [exact E|]. apply B. reflexivity.
    + intros (t & G & ->). inversion G as [|? ? G1 G2]; subst. rewrite E in G1. injection G1 as ->. reflexivity.
Qed.
Lemma new_list_no_panic : forall v vs, Forall typed_lit (v :: vs) -> new_list (v :: vs) false <> Panic.
Proof.
  intros v vs F. inversion F as [|? ? H1 H2]; subst. destruct H1 as (u & E & DU). unfold new_list.
  assert (Q : has_type_mismatch (v :: vs) = any_mismatch u vs).
  { unfold has_type_mismatch. rewrite E. destruct v; try reflexivity. discriminate E. }
  rewrite Q. destruct (any_mismatch_iff vs u DU H2) as (b & A & B). rewrite A. cbn [bind]. destruct b; [discriminate|]. cbn [new_literal]. rewrite E. discriminate.
Qed.

(** ** elements *)
Definition element_ind2 (Q : element -> Prop) (HL : forall l, Q (ELit l)) (HE : forall es, Forall Q es -> Q (EList es)) : forall e, Q e :=
  fix go e := match e with
  | ELit l => HL l
  | EList es => HE es ((fix gos es : Forall Q es := match es with [] => Forall_nil _ | e :: es' => Forall_cons _ (go e) (gos es') end) es)
  end.

Lemma bottom_inner : forall t, bottom (inner_type t) = bottom t.
Proof. destruct t; reflexivity. Qed.
Lemma inner_declared : forall t, declared t -> declared (inner_type t).
Proof. destruct t; cbn; tauto. Qed.
Lemma unshared_bottom : forall t u b, bottom t = bottom u -> unshared t b -> unshared u b.
Proof. unfold unshared. intros t u b E H B. rewrite <- E. exact (H B). Qed.
Lemma unshared_le : forall t (b c : bool), (c = true -> b = true) -> unshared t b -> unshared t c.
Proof. unfold unshared. intros t b c I H C. exact (H (I C)). Qed.

Lemma kept_cons : forall A (o : option A) os, kept (o :: os) = opt_cons o (kept os).
Proof. intros A [x|] os; reflexivity. Qed.

Lemma read_elements_cons : forall ctx e es, read_elements ctx (e :: es) =
  (let! (v, ctx) := read_element ctx e in let! (vs, ctx) := read_elements ctx es in Ok (opt_cons v vs, ctx)).
Proof. reflexivity. Qed.
Lemma read_element_list : forall ctx es, read_element ctx (EList es) =
  (let! (vs, inner) := read_elements (inner_context ctx) es in
   match settle inner vs with
   | [] => match inner with Some (TList _ _ t) => Ok (Some (new_empty_list_literal t false), outer_context ctx inner) | _ => Err end
   | vs => let! l := new_list vs false in Ok (Some l, outer_context ctx inner)
   end).
Proof. reflexivity. Qed.

Definition exact_element (e : element) : Prop := forall t o c, declared t -> unshared t (has_null e) ->
  (read_element (Some t) e = Ok (o, c) <-> element_says t e o /\ c = Some t) /\ (element_says t e o -> forall v, o = Some v -> settled t v).

Lemma elements_of : forall es, Forall exact_element es -> forall t vs c, declared t -> unshared t (existsb has_null es) ->
  (read_elements (Some t) es = Ok (vs, c) <-> (exists os, Forall2 (element_says t) es os /\ vs = kept os) /\ c = Some t) /\
  (forall os, Forall2 (element_says t) es os -> Forall (settled t) (kept os)).
Proof.
  induction es as [|e es IH]; intros X t vs c D U.
  - split.
    + cbn. split; [intros [= <- <-]; split; [exists []; split; [constructor|reflexivity]|reflexivity]|]. intros ((os & F & ->) & ->). inversion F; subst. reflexivity.
    + intros os F. inversion F; subst. constructor.
  - inversion X as [|? ? X1 X2]; subst. cbn [existsb] in U.
    assert (U1 : unshared t (has_null e)) by (eapply unshared_le; [|exact U]; intros ->; reflexivity).
    assert (U2 : unshared t (existsb has_null es)) by (eapply unshared_le; [|exact U]; intros ->; apply orb_true_r). split.
    + rewrite read_elements_cons. split.
      * intros H. unb H. destruct a as [o c1]. apply (X1 t o c1 D U1) in E. destruct E as [E ->]. unb H. destruct a as [vs' c2]. injection H as <- <-.
        apply (IH X2 t vs' c2 D U2) in E0. destruct E0 as ((os & F & ->) & ->). split; [|reflexivity]. exists (o :: os). split; [constructor; auto|]. rewrite kept_cons. reflexivity.
      * intros ((os & F & ->) & ->). inversion F as [|? o ? os' F1 F2]; subst.
        rewrite (proj2 (proj1 (X1 t o (Some t) D U1))) by auto. cbn [bind].
        rewrite (proj2 (proj1 (IH X2 t (kept os') (Some t) D U2))) by eauto. cbn [bind]. rewrite kept_cons. reflexivity.
    + intros os F. inversion F as [|? o ? os' F1 F2]; subst. rewrite kept_cons. pose proof (proj2 (IH X2 t vs c D U2) os' F2) as G.
      destruct o as [v|]; cbn; [|exact G]. constructor; [|exact G]. eapply (proj2 (X1 t (Some v) (Some t) D U1)); eauto.
Qed.
Lemma settled_typed : forall t vs, Forall (settled t) vs -> Forall typed_lit vs.
Proof. intros t vs H. eapply Forall_impl; [|exact H]. intros v (_ & u & A & _ & B). exists u. auto. Qed.
Lemma settled_map : forall t vs, Forall (settled t) vs -> map (settle_lit t) vs = vs.
Proof. intros t vs H. induction H as [|v vs [A _] _ IH]; cbn; [reflexivity|]. rewrite A, IH. reflexivity. Qed.
Lemma inner_context_some : forall t, inner_context (Some t) = Some (inner_type t).
Proof. destruct t; reflexivity. Qed.
Lemma outer_context_some : forall t, outer_context (Some t) (Some (inner_type t)) = Some t.
Proof. destruct t; reflexivity. Qed.
Lemma settle_inner : forall t e, match t with TList _ _ e' => settle_ty e' e | _ => settle_ty t e end = settle_ty (inner_type t) e.
Proof. destruct t; reflexivity. Qed.

Lemma exact_elements : forall e, exact_element e.
Proof.
  apply element_ind2.
  - intros l t o c D U. split.
    + cbn [read_element]. rewrite read_literal_iff by auto. apply and_iff_compat_r. split; [intros; constructor; auto|intros H; inversion H; auto].
    + intros H v ->. inversion H; subst. eapply literal_settled; eauto.
  - intros es X t o c D U. cbn [has_null] in U.
    assert (DI := inner_declared t D). assert (UI : unshared (inner_type t) (existsb has_null es)) by (eapply unshared_bottom; [symmetry; apply bottom_inner|exact U]).
    pose proof (fun vs c => elements_of es X (inner_type t) vs c DI UI) as EO. split.
    + rewrite read_element_list, inner_context_some. split.
      * intros H. unb H. destruct a as [vs inner]. apply EO in E. destruct E as ((os & F & ->) & ->).
        pose proof (proj2 (EO [] None) os F) as G. cbn [settle] in H. rewrite (settled_map _ _ G) in H. destruct (kept os) as [|v0 vs] eqn:K.
        -- destruct (inner_type t) eqn:IT; try discriminate H. rewrite <- IT in H. rewrite outer_context_some in H. injection H as <- <-. split; [|reflexivity].
           rewrite <- IT in *. eapply Elem_empty; eauto.
        -- unb H. rewrite outer_context_some in H. injection H as <- <-. split; [|reflexivity].
           apply new_list_iff in E; [|eapply settled_typed; exact G]. destruct E as (t0 & F0 & ->). eapply Elem_list; eauto.
      * intros [H ->]. inversion H; subst.
        -- match goal with F : Forall2 _ _ _ |- _ => rewrite (proj2 (proj1 (EO (kept os) (Some (inner_type t))))) by eauto; pose proof (proj2 (EO [] None) os F) as G end.
           cbn [bind settle]. rewrite (settled_map _ _ G). match goal with K : kept os = _ |- _ => rewrite K in * end.
           match goal with FT : Forall (fun v => lit_type v = Ok ?t0) _ |- _ =>
             rewrite (proj2 (new_list_iff v0 vs (LList (v0 :: vs) (TList 2 0 t0)) (settled_typed _ _ G))) by eauto end. cbn [bind]. rewrite outer_context_some. reflexivity.
        -- match goal with F : Forall2 _ _ _ |- _ => rewrite (proj2 (proj1 (EO (kept os) (Some (inner_type t))))) by eauto; pose proof (proj2 (EO [] None) os F) as G end.
           cbn [bind settle]. rewrite (settled_map _ _ G). match goal with K : kept os = _ |- _ => rewrite K in * end. rewrite outer_context_some.
           match goal with K : inner_type t = _ |- _ => rewrite K end. reflexivity.
    + intros H v0 ->. remember (EList es) as e. remember (Some v0) as o. destruct H as [t l o H|t es0 os v1 vs t0 F K FT|t es0 os n v t1 F K IT]; [discriminate Heqe|..];
        injection Heqe as ->; injection Heqo as <-.
      * pose proof (proj2 (EO [] None) os F) as G. rewrite K in G.
        assert (SI : settle_ty (inner_type t) t0 = t0 /\ declared t0).
        { inversion G as [|? ? (_ & u & A & B & C) _]; subst. inversion FT as [|? ? A2 _]; subst. rewrite A in A2. injection A2 as ->. auto. }
        destruct SI as [S1 DT].
        assert (S2 : settle_ty t (TList 2 0 t0) = TList 2 0 t0) by (cbn [settle_ty]; f_equal; rewrite <- S1 at 2; destruct t; reflexivity).
        split.
        -- cbn [settle_lit]. rewrite S2. f_equal. rewrite <- (settled_map _ _ G) at 2. destruct t; reflexivity.
        -- exists (TList 2 0 t0). split; [reflexivity|]. split; [exact S2|]. cbn. auto.
      * assert (S2 : settle_ty t (TList 2 0 t1) = TList 2 0 t1).
        { cbn [settle_ty]. f_equal. transitivity (settle_ty (inner_type t) t1); [destruct t; reflexivity|]. rewrite IT. apply settle_list. }
        split; [cbn [settle_lit map]; rewrite S2; reflexivity|]. exists (TList 2 0 t1). split; [reflexivity|]. split; [exact S2|].
        rewrite IT in DI. cbn in DI |- *. tauto.
Qed.

Lemma list_iff : forall es d null t c, declares d t -> unshared t (existsb has_null es) ->
  read_typed_arg (GList es d null) = Ok c <->
  exists os, Forall2 (element_says t) es os /\ of_one_type (kept os) /\
    c = Case (TList (nul null) 0 t) "" (CLit (LList (kept os) (TList (nul null) 0 t))).
Proof.
  intros es d null t c DD U. pose proof (declares_declared _ _ DD) as D. apply declares_iff in DD.
  pose proof (fun vs c => elements_of es ltac:(apply Forall_forall; intros; apply exact_elements) t vs c D U) as EO.
  unfold TestCaseModel.read_typed_arg. cbn [TestCaseModel.read_arg]. rewrite DD. cbn [bind]. rewrite nul_eq. split.
  - intros H. unb H. unb E. destruct a0 as [vs ctx]. apply EO in E0. destruct E0 as ((os & F & ->) & ->).
    pose proof (proj2 (EO [] None) os F) as G. cbn [settle] in E. rewrite (settled_map _ _ G) in E. exists os. split; [exact F|].
    destruct (kept os) as [|v0 vs] eqn:K.
    + cbn [bind] in E. injection E as <-. cbn in H. injection H as <-. split; [exists t; constructor|reflexivity].
    + unb E. injection E as <-. apply new_list_iff in E0; [|eapply settled_typed; exact G]. destruct E0 as (t0 & F0 & ->). cbn in H. injection H as <-.
      split; [exists t0; exact F0|reflexivity].
  - intros (os & F & (t0 & OT) & ->). rewrite (proj2 (proj1 (EO (kept os) (Some t)))) by eauto. cbn [bind settle].
    pose proof (proj2 (EO [] None) os F) as G. rewrite (settled_map _ _ G). destruct (kept os) as [|v0 vs] eqn:K; [reflexivity|].
    rewrite (proj2 (new_list_iff v0 vs (LList (v0 :: vs) (TList 2 0 t0)) (settled_typed _ _ G))) by eauto. reflexivity.
Qed.
End Floats.
