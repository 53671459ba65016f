(** Proofs that the specification of printed test cases leaves one text for each. *)

From Coq Require Import ZArith String Ascii Bool Lia List.
From Verif Require Import Base TypesModel LitModel IntervalModel CalSpec CalProofs CalTextProofs CalPrintProofs CalProps TestCaseModel TestPrintSpec TestPrintProofs.
Import ListNotations.
Local Open Scope string_scope.
Local Open Scope Z_scope.

Lemma number_one : forall k z s, number k z s -> forall s', number k z s' -> s = s'.
Proof.
  induction 1 as [|k z s d N IH D]; intros s' N'; [inversion N'; reflexivity|].
  remember (10 * z + d) as w eqn:W. inversion N' as [|k' z' t d' N2 D' E1 E2 E3]; subst k' s'. assert (z' = z) by lia. subst z'. assert (d' = d) by lia. subst d'. rewrite (IH _ N2). reflexivity.
Qed.
Lemma padded_one : forall w z s s', padded w z s -> padded w z s' -> s = s'.
Proof.
  assert (C : forall w k z s s', number w z s -> (w < k)%nat -> 10 ^ (Z.of_nat k - 1) <= z -> number k z s' -> False).
  { intros w k z s s' N L B _. apply number_bound in N. assert (10 ^ Z.of_nat w <= 10 ^ (Z.of_nat k - 1)) by (apply Z.pow_le_mono_r; lia). lia. }
  intros w z s s' H H'. inversion H as [z0 s0 N|k z0 s0 K B N]; inversion H' as [z1 s1 N1|k1 z1 s1 K1 B1 N1]; subst.
  - eapply number_one; eassumption.
  - exfalso. exact (C _ _ _ _ _ N K1 B1 N1).
  - exfalso. exact (C _ _ _ _ _ N1 K B N).
  - assert (k1 = k).
    { destruct (Nat.lt_trichotomy k k1) as [L|[L|L]]; [|auto|]; exfalso.
      - apply (C _ _ _ _ _ N L B1 N1).
      - apply (C _ _ _ _ _ N1 L B N). }
    subst. eapply number_one; eassumption.
Qed.
Lemma padded_nonneg : forall w z s, padded w z s -> 0 <= z.
Proof. intros w z s [z' s' N|k z' s' _ _ N]; apply number_bound in N; lia. Qed.
Lemma whole_one : forall z s s', prints_whole z s -> prints_whole z s' -> s = s'.
Proof.
  intros z s s' H H'. inversion H as [z0 t P|z0 t L P]; inversion H' as [z1 t1 P1|z1 t1 L1 P1]; subst; try apply padded_nonneg in P; try apply padded_nonneg in P1 as N1; try lia.
  - inversion H as [? ? Q|]; subst; [|lia]. eapply padded_one; eassumption.
  - inversion H as [? ? Q|z2 t2 L2 Q]; subst; [apply padded_nonneg in Q; lia|]. f_equal. assert (z2 = z1) by lia. subst z2. eapply padded_one; eassumption.
Qed.
Lemma year_one : forall v y s s', prints_year v y s -> prints_year v y s' -> s = s'.
Proof.
  intros v y s s' H H'. inversion H as [z0 t P|z0 t L P E1 E2]; inversion H' as [z1 t1 P1|z1 t1 L1 P1 E3 E4]; subst.
  - eapply padded_one; eassumption.
  - apply padded_nonneg in P. lia.
  - apply padded_nonneg in P1. lia.
  - assert (z1 = z0) by lia. subst z1. f_equal. eapply padded_one; eassumption.
Qed.
Lemma date_one : forall v x s s', prints_date v x s -> prints_date v x s' -> s = s'.
Proof.
  intros v x s s' H H'. inversion H as [y m d ys ms ds Y M D E1 E2]; subst. inversion H' as [y' m' d' ys' ms' ds' Y' M' D' E1 E2]; subst.
  rewrite (year_one _ _ _ _ Y Y'), (number_one _ _ _ M _ M'), (number_one _ _ _ D _ D'). reflexivity.
Qed.
Lemma clock_one : forall (P : Z -> string -> Prop), (forall n s s', P n s -> P n s' -> s = s') -> forall c s s', prints_clock P c s -> prints_clock P c s' -> s = s'.
Proof.
  intros P F c s s' H H'. inversion H as [h m d ns hs ms ss fs A B C D E1 E2]; subst. inversion H' as [h' m' d' ns' hs' ms' ss' fs' A' B' C' D' E1 E2]; subst.
  rewrite (number_one _ _ _ A _ A'), (number_one _ _ _ B _ B'), (number_one _ _ _ C _ C'), (F _ _ _ D D'). reflexivity.
Qed.
Lemma stamp_one : forall sep (P : Z -> string -> Prop) zone, (forall n s s', P n s -> P n s' -> s = s') -> forall x c s s', prints_stamp sep P zone x c s -> prints_stamp sep P zone x c s' -> s = s'.
Proof.
  intros sep P zone F x c s s' H H'. inversion H as [x0 c0 ds cs A B]; subst. inversion H' as [x0 c0 ds' cs' A' B']; subst.
  rewrite (date_one _ _ _ _ A A'), (clock_one P F _ _ _ B B'). reflexivity.
Qed.
Lemma no_frac_one : forall n s s', no_frac n s -> no_frac n s' -> s = s'.
Proof. intros n s s' H H'. inversion H; inversion H'; reflexivity. Qed.
Lemma frac_of_one : forall k n s s', frac_of k n s -> frac_of k n s' -> s = s'.
Proof. intros k n s s' H H'. inversion H as [n0 ds N]; inversion H' as [n1 ds' N']; subst. f_equal. eapply number_one; eassumption. Qed.
Lemma shortest_one : forall n s s', shortest n s -> shortest n s' -> s = s'.
Proof.
  assert (Z0 : forall k v, (k <= 9)%nat -> ~ (10 | v) -> v * 10 ^ (9 - Z.of_nat k) <> 0).
  { intros k v K D E. apply Z.mul_eq_0 in E. destruct E as [E|E]; [subst; apply D; exists 0; reflexivity|]. assert (0 < 10 ^ (9 - Z.of_nat k)) by (apply Z.pow_pos_nonneg; lia). lia. }
  assert (LT : forall k k' v v', (k <= 9)%nat -> (k' <= 9)%nat -> ~ (10 | v) -> ~ (10 | v') -> v * 10 ^ (9 - Z.of_nat k) = v' * 10 ^ (9 - Z.of_nat k') -> (k < k')%nat -> False).
  { intros k k' v v' K K' D D' E L. apply D'. exists (v * 10 ^ (Z.of_nat k' - Z.of_nat k - 1)).
    assert (P : 0 < 10 ^ (9 - Z.of_nat k')) by (apply Z.pow_pos_nonneg; lia). apply (Z.mul_reg_r _ _ (10 ^ (9 - Z.of_nat k'))); [lia|]. rewrite <- E.
    replace (9 - Z.of_nat k) with ((Z.of_nat k' - Z.of_nat k - 1) + 1 + (9 - Z.of_nat k')) by lia. rewrite !Z.pow_add_r by lia. change (10 ^ 1) with 10. ring. }
  intros n s s' H H'. destruct H as [|k v ds K N D].
  - inversion H' as [E1 E2|k v ds K N D E1 E2]; subst; [reflexivity|]. exfalso. apply (Z0 k v K D). exact E1.
  - inversion H' as [E1 E2|k' v' ds' K' N' D' E1 E2]; subst; [exfalso; apply (Z0 k v K D); auto|]. f_equal.
    assert (k' = k). { destruct (Nat.lt_trichotomy k k') as [L|[L|L]]; [|auto|]; exfalso; [apply (LT k k' v v')|apply (LT k' k v' v)]; auto. }
    subst k'. assert (v' = v). { apply (Z.mul_reg_r _ _ (10 ^ (9 - Z.of_nat k))); [|exact E1]. assert (0 < 10 ^ (9 - Z.of_nat k)) by (apply Z.pow_pos_nonneg; lia). lia. }
    subst v'. eapply number_one; eassumption.
Qed.
Lemma hex_one : forall l s, prints_hex l s -> forall s', prints_hex l s' -> s = s'.
Proof.
  induction 1 as [|h lo bs s Hh Hl H IH]; intros s' H'; [inversion H'; reflexivity|].
  remember (16 * h + lo) as w eqn:W. inversion H' as [|h' l' bs' t Hh' Hl' H2 E1 E2]; subst bs' s'. change (16 * h' + l' = w) in E1. assert (h' = h) by lia. subst h'. assert (l' = lo) by lia. subst l'. rewrite (IH _ H2). reflexivity.
Qed.
Lemma separated_one : forall sep l s, separated sep l s -> forall s', separated sep l s' -> s = s'.
Proof.
  induction 1 as [|x|x y l s H IH]; intros s' H'; inversion H' as [|x'|x' y' l' t H2]; subst; try reflexivity. rewrite (IH _ H2). reflexivity.
Qed.
Lemma forall2_one : forall A (P : A -> string -> Prop) l, (forall x s s', In x l -> P x s -> P x s' -> s = s') -> forall m m', Forall2 P l m -> Forall2 P l m' -> m = m'.
Proof.
  intros A P. induction l as [|x l IH]; intros F m m' H H'; inversion H; inversion H'; subst; [reflexivity|]. f_equal.
  - eapply (F x); [left; reflexivity| |]; eassumption.
  - eapply IH; [|eassumption|assumption]. intros z s s' I. apply F. right. exact I.
Qed.

Section Print.
Variable float_text : Z -> string.
Variable decimal_text : list Z -> Z -> string.
Notation prints_value := (prints_value float_text decimal_text).
Notation prints_literal := (prints_literal float_text decimal_text).

Ltac ins := repeat match goal with
  | H : In _ (_ :: _) |- _ => destruct H as [H|H]
  | H : In _ [] |- _ => destruct H
  | H : _ = _ |- _ => discriminate H
  | H : VI8 _ = VI8 _ |- _ => injection H as H; subst
  | H : VI16 _ = VI16 _ |- _ => injection H as H; subst
  | H : VI32 _ = VI32 _ |- _ => injection H as H; subst
  | H : VI64 _ = VI64 _ |- _ => injection H as H; subst
  | H : VFp32 _ = VFp32 _ |- _ => injection H as H; subst
  | H : VFp64 _ = VFp64 _ |- _ => injection H as H; subst
  | H : VString _ = VString _ |- _ => injection H as H; subst
  | H : VFixedChar _ = VFixedChar _ |- _ => injection H as H; subst
  end.
Ltac same := match goal with
  | A : clock_at ?p ?u ?x ?c, B : clock_at ?p ?u ?x' ?c' |- _ => destruct (proj2 (C61_moment _) _ _ _ _ A B); clear A; subst
  | A : calendar ?n ?x, B : calendar ?n ?x' |- _ =>
      let E := fresh in assert (E : x = x') by (destruct (proj1 C60_calendar n) as (z9 & _ & _ & U); rewrite (U _ A), (U _ B); reflexivity); clear A; subst
  end.

Lemma value_one : forall n l, (lit_size l < n)%nat -> forall s s', prints_value l s -> prints_value l s' -> s = s'.
Proof.
  induction n as [|n IH]; intros l L s s' H H'; [lia|].
  destruct l as [|t|v t|es t|es t|kvs t|k bs t|v t|y m w|y m d sec ss p w]; try (exfalso; inversion H; fail).
  - inversion H; inversion H'; reflexivity.
  - destruct v; inversion H; subst; clear H; ins; inversion H'; subst; clear H'; ins; try reflexivity; try (eapply whole_one; eassumption); repeat same;
      first [ eapply date_one; eassumption | eapply clock_one; [exact no_frac_one|eassumption|eassumption] | eapply stamp_one; [exact shortest_one|eassumption|eassumption] ].
  - inversion H as [| | | | | | | | | | | | | | | | | | |es0 t0 ws u F S E1 E2]; subst. inversion H' as [| | | | | | | | | | | | | | | | | | |es0 t0 ws' u' F' S' E1 E2]; subst.
    assert (ws' = ws) by (eapply (forall2_one _ prints_value es); [|exact F'|exact F]; intros x a b I; apply IH; pose proof (element_smaller es t x I); lia). subst.
    rewrite (separated_one _ _ _ S _ S'). reflexivity.
  - destruct k; inversion H; subst; inversion H'; subst.
    + match goal with A : Forall2 _ bs ?m, B : Forall2 _ bs ?m' |- _ => assert (m = m') by (eapply forall2_one; [intros ? ? ? _; apply whole_one|eassumption|eassumption]); subst end.
      match goal with A : separated _ _ ?a, B : separated _ _ ?b |- _ => rewrite (separated_one _ _ _ A _ B) end. reflexivity.
    + match goal with A : prints_hex _ ?a, B : prints_hex _ ?b |- _ => rewrite (hex_one _ _ A _ B) end. reflexivity.
  - destruct v; inversion H; subst; clear H; inversion H'; subst; clear H'; try reflexivity; repeat same;
      try (eapply clock_one; [exact shortest_one|eassumption|eassumption]); try (eapply stamp_one; [exact shortest_one|eassumption|eassumption]);
      repeat match goal with A : prints_whole ?z ?a, B : prints_whole ?z ?b |- _ => rewrite (whole_one _ _ _ A B); clear A end; reflexivity.
Qed.
Lemma literal_one : forall l s s', prints_literal l s -> prints_literal l s' -> s = s'.
Proof.
  assert (V : forall l s s', prints_value l s -> prints_value l s' -> s = s') by (intros l s s'; apply (value_one (S (lit_size l))); lia).
  intros l s s' H H'. inversion H; subst; inversion H'; subst; ins;
    repeat match goal with Q : quoted_kind _ |- _ => inversion Q; subst; clear Q; ins | Q : plain_kind _ |- _ => inversion Q; subst; clear Q; ins end; repeat same;
    try (do 2 f_equal; eapply clock_one; [apply frac_of_one|eassumption|eassumption]);
    try (do 2 f_equal; eapply clock_one; [exact shortest_one|eassumption|eassumption]);
    try (do 2 f_equal; eapply stamp_one; [exact shortest_one|eassumption|eassumption]);
    try (do 2 f_equal; eapply stamp_one; [apply frac_of_one|eassumption|eassumption]);
    try congruence;
    try (do 2 f_equal; eapply V; eassumption); try (eapply V; eassumption).
  repeat match goal with A : prints_whole ?z ?a, B : prints_whole ?z ?b |- _ => rewrite (whole_one _ _ _ A B); clear A end. reflexivity.
Qed.
Lemma argument_one : forall c s s', prints_argument float_text decimal_text c s -> prints_argument float_text decimal_text c s' -> s = s'.
Proof.
  intros c s s' H H'. inversion H; subst; inversion H'; subst; [|reflexivity].
  match goal with A : prints_literal _ ?a, B : prints_literal _ ?b |- _ => rewrite (literal_one _ _ _ A B) end. reflexivity.
Qed.
Lemma outcome_one : forall o s s', prints_outcome float_text decimal_text o s -> prints_outcome float_text decimal_text o s' -> s = s'.
Proof. intros o s s' H H'. inversion H; subst; inversion H'; subst; try reflexivity. eapply argument_one; eassumption. Qed.
Lemma aggregate_one : forall g s s', prints_aggregate float_text decimal_text g s -> prints_aggregate float_text decimal_text g s' -> s = s'.
Proof.
  intros g s s' H H'. inversion H; subst; inversion H'; subst; try reflexivity; try congruence; try (eapply argument_one; eassumption).
  match goal with A : Forall2 _ ?es ?m, B : Forall2 _ ?es ?m' |- _ => assert (m = m') by (eapply forall2_one; [intros ? ? ? _; apply literal_one|eassumption|eassumption]); subst end.
  do 2 f_equal. match goal with A : separated _ _ ?a, B : separated _ _ ?b |- _ => rewrite (separated_one _ _ _ A _ B) end. reflexivity.
Qed.
Lemma options_one : forall o s s', prints_options o s -> prints_options o s' -> s = s'.
Proof.
  intros o s s' H H'. inversion H; subst; inversion H'; subst; [reflexivity|]. do 2 f_equal. eapply separated_one; eassumption.
Qed.
Lemma row_one : forall cols i s s', prints_row float_text decimal_text cols i s -> prints_row float_text decimal_text cols i s' -> s = s'.
Proof.
  intros cols i s s' [cells ws t C W S] H'. inversion H' as [cells' ws' t' C' W' S' E]; subst.
  assert (cells' = cells).
  { clear -C C'. revert cells' C'. induction C as [|c x cs xs A C IH]; intros cells' C'; inversion C'; subst; [reflexivity|]. f_equal; [congruence|]. apply IH. assumption. }
  subst. assert (ws' = ws) by (eapply forall2_one; [intros ? ? ? _; apply literal_one|eassumption|eassumption]). subst. rewrite (separated_one _ _ _ S _ S'). reflexivity.
Qed.
Lemma table_one : forall cols s s', prints_table float_text decimal_text cols s -> prints_table float_text decimal_text cols s' -> s = s'.
Proof.
  intros cols s s' H H'. destruct H as [|col cols rows t L R S]; inversion H' as [|col' cols' rows' t' L' R' S' E]; subst; [reflexivity|].
  assert (rows' = rows).
  { assert (LL : List.length rows' = List.length rows) by congruence. assert (RR : forall i w w', nth_error rows i = Some w -> nth_error rows' i = Some w' -> w = w') by (intros i w w' A B; eapply row_one; eauto).
    clear -LL RR. revert rows LL RR. induction rows' as [|x xs IH]; intros [|y ys] LL RR; try discriminate; [reflexivity|]. f_equal.
    - symmetry. apply (RR 0%nat); reflexivity.
    - apply IH; [cbn in LL; congruence|]. intros i. apply (RR (S i)). }
  subst. do 2 f_equal. eapply separated_one; eassumption.
Qed.
Lemma case_one : forall order k s s', prints_case float_text decimal_text order k s -> prints_case float_text decimal_text order k s' -> s = s'.
Proof.
  intros order k s s' H H'. inversion H; subst; inversion H'; subst; try congruence; try contradiction;
    repeat match goal with
    | A : Forall2 (prints_argument _ _) ?l ?m, B : Forall2 _ ?l ?m' |- _ => assert (m = m') by (eapply forall2_one; [intros ? ? ? _; apply argument_one|eassumption|eassumption]); subst; clear A
    | A : Forall2 (prints_aggregate _ _) ?l ?m, B : Forall2 _ ?l ?m' |- _ => assert (m = m') by (eapply forall2_one; [intros ? ? ? _; apply aggregate_one|eassumption|eassumption]); subst; clear A
    | A : separated _ ?l ?a, B : separated _ ?l ?b |- _ => rewrite (separated_one _ _ _ A _ B); clear A
    | A : prints_options ?l ?a, B : prints_options ?l ?b |- _ => rewrite (options_one _ _ _ A B); clear A
    | A : prints_outcome _ _ ?l ?a, B : prints_outcome _ _ ?l ?b |- _ => rewrite (outcome_one _ _ _ A B); clear A
    | A : prints_table _ _ ?l ?a, B : prints_table _ _ ?l ?b |- _ => rewrite (table_one _ _ _ A B); clear A
    end; reflexivity.
Qed.
End Print.
