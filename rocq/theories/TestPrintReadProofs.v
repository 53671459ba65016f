(** Proofs about printing test cases that were read: all that is read prints. *)

From Coq Require Import ZArith String Ascii Bool Lia List.
From Verif Require Import Base FMap TypesModel SigModel DecimalSpec DecimalModel LitModel TimeModel TimeSpec TimeProofs CalModel CalSpec CalProofs CalTextProofs CalPrintProofs CalProps IntervalModel TextSpec DecTextModel DecTextSpec
  TestCaseModel TestCaseSpec TestCaseProofs TestColumnProps TestPrintModel TestPrintSpec TestPrintProofs.
Import ListNotations.
Local Open Scope string_scope.
Local Open Scope Z_scope.

Lemma quot_int : forall z k, in_int 64 z -> 1 <= k -> in_int 64 (Z.quot z k).
Proof.
  intros z k H K. unfold in_int in *. change (2 ^ (64 - 1)) with 9223372036854775808 in *.
  assert (Z.abs (Z.quot z k) <= Z.abs z).
  { rewrite <- (Z.abs_eq k) at 1 by lia. rewrite <- Z.quot_abs by lia. rewrite Z.quot_div_nonneg by lia. apply Z.div_le_upper_bound; [lia|]. nia. }
  destruct (Z.eq_dec (Z.quot z k) 9223372036854775808) as [E|]; [|lia].
  exfalso. assert (0 <= z) by (destruct (Z_lt_le_dec z 0); [|lia]; assert (Z.quot z k <= 0) by (rewrite <- (Z.opp_involutive z), Z.quot_opp_l by lia; assert (0 <= Z.quot (- z) k) by (apply Z.quot_pos; lia); lia); lia). lia.
Qed.
Lemma time_value_int : forall t p z, time_ok t -> time_value t p = Ok z -> in_int 64 z /\ 0 <= p <= 9.
Proof.
  intros t p z T E. assert (P : 0 <= p <= 9).
  { unfold time_value in E. repeat match goal with H : context [p =? ?k] |- _ => destruct (Z.eqb_spec p k); [lia|] end. discriminate. }
  split; [|exact P]. rewrite time_value_spec in E by assumption. injection E as <-. apply quot_int; [apply wrap_range; lia|].
  assert (p <= clock_precision p) by (unfold clock_precision; Z.to_euclidean_division_equations; lia).
  pose proof (Z.pow_pos_nonneg 10 (clock_precision p - p)). lia.
Qed.
Lemma change_precision_int : forall u p q z, in_int 64 u -> change_precision u p q = Ok z -> in_int 64 z /\ 0 <= q <= 9.
Proof.
  intros u p q z U E. unfold change_precision in E. apply bind_inv in E. destruct E as (t & E & E'). apply (time_value_int t); [|exact E'].
  assert (P : 0 <= p <= 9).
  { unfold time_from_units in E. repeat match goal with H : context [p =? ?k] |- _ => destruct (Z.eqb_spec p k); [lia|] end. discriminate. }
  destruct (from_units_spec u p U P) as (t' & E1 & T & _). congruence.
Qed.
Lemma stamp_ok : forall s st, parse_stamp s = Ok st -> time_ok (stamp_time st).
Proof.
  intros s st E. assert (S := E). apply parse_stamp_iff in S. destruct (says_instant _ _ _ _ S) as (st' & day & E' & _ & T & _). congruence.
Qed.
Lemma day_ok : forall t, time_ok t -> time_ok (time_of_day t).
Proof.
  intros t [T1 T2]. unfold time_of_day, time_ok. cbn [t_sec t_nsec]. change (10 ^ 9) with 1000000000 in *.
  pose proof (Z.mod_pos_bound (t_sec t) 86400 ltac:(lia)). split; [|apply Z.mod_pos_bound; lia].
  unfold in_int. change (2 ^ (64 - 1)) with 9223372036854775808. Z.to_euclidean_division_equations. lia.
Qed.

Section Floats.
Variable parse_float : string -> res Z.
Variable to_float32 : Z -> Z.
Notation read_literal := (read_literal parse_float to_float32).
Notation read_arg := (read_arg parse_float to_float32).
Notation from_string := (from_string parse_float to_float32).

Lemma time_test : forall s z, new_time_from_string s = Ok z -> in_int 64 z.
Proof.
  intros s z E. unfold new_time_from_string in E. apply bind_inv in E. destruct E as (st & E & E'). unfold new_time_of_clock, new_time_from_micros in E'.
  cbv zeta in E'.
  match type of E' with (if ?b then _ else _) = _ => destruct b eqn:B; try discriminate end. injection E' as <-.
  apply orb_false_iff in B. rewrite Z.ltb_ge, Z.leb_gt in B. unfold in_int. change (2 ^ (64 - 1)) with 9223372036854775808. lia.
Qed.
Lemma ts_test : forall s z, new_timestamp_from_string s = Ok z -> in_int 64 z.
Proof. intros s z E. unfold new_timestamp_from_string in E. apply bind_inv in E. destruct E as (st & E & E'). injection E' as <-. apply wrap_range. lia. Qed.
Lemma tstz_test : forall s z, new_timestamp_tz_from_string s = Ok z -> in_int 64 z.
Proof. intros s z E. unfold new_timestamp_tz_from_string in E. apply bind_inv in E. destruct E as (st & E & E'). injection E' as <-. apply wrap_range. lia. Qed.
Lemma prec_time_test : forall p s z, new_precision_time_from_string p s = Ok z -> in_int 64 z /\ 0 <= p <= 9.
Proof.
  intros p s z E. unfold new_precision_time_from_string in E. apply bind_inv in E. destruct E as (st & E & E'). apply stamp_ok in E.
  apply (time_value_int (time_of_day (stamp_time st))); [apply day_ok; exact E|exact E'].
Qed.
Lemma prec_ts_test : forall p s z, new_precision_timestamp_from_string p s = Ok z -> in_int 64 z /\ 0 <= p <= 9.
Proof.
  intros p s z E. unfold new_precision_timestamp_from_string in E. apply bind_inv in E. destruct E as (st & E & E'). apply stamp_ok in E. apply (time_value_int _ _ _ E E').
Qed.
Lemma prec_tstz_test : forall p s z, new_precision_timestamp_tz_from_string p s = Ok z -> in_int 64 z /\ 0 <= p <= 9.
Proof.
  intros p s z E. unfold new_precision_timestamp_tz_from_string in E. apply bind_inv in E. destruct E as (st & E & E'). apply stamp_ok in E. apply (time_value_int _ _ _ E E').
Qed.
Lemma bytes_small : forall s, Forall (fun b => 0 <= b < 256) (bytes_of s).
Proof.
  induction s as [|c s IH]; [constructor|]. cbn [bytes_of]. constructor; [|exact IH]. pose proof (nat_ascii_bounded c). lia.
Qed.

Lemma int_test : forall s p null l, int_literal s p null = Ok l -> test_literal l.
Proof. intros s p null l E. unfold int_literal in E. apply bind_inv in E. destruct E as (z & _ & E). destruct p; try discriminate; injection E as <-; exact I. Qed.
Lemma float_test : forall s p null l, float_literal parse_float to_float32 s p null = Ok l -> test_literal l.
Proof. intros s p null l E. unfold float_literal in E. apply bind_inv in E. destruct E as (z & _ & E). destruct p; try discriminate; injection E as <-; exact I. Qed.
Lemma date_test : forall s null l, date_literal s null = Ok l -> test_literal l.
Proof. intros s null l E. unfold date_literal in E. apply bind_inv in E. destruct E as (z & _ & E). injection E as <-. exact I. Qed.
Lemma time_lit_test : forall s null l, time_literal s null = Ok l -> test_literal l.
Proof. intros s null l E. unfold time_literal in E. apply bind_inv in E. destruct E as (z & H & E). injection E as <-. apply time_test in H. exact H. Qed.
Lemma ts_lit_test : forall s null l, ts_literal s null = Ok l -> test_literal l.
Proof. intros s null l E. unfold ts_literal in E. apply bind_inv in E. destruct E as (z & H & E). injection E as <-. apply ts_test in H. exact H. Qed.
Lemma tstz_lit_test : forall s null l, tstz_literal s null = Ok l -> test_literal l.
Proof. intros s null l E. unfold tstz_literal in E. apply bind_inv in E. destruct E as (z & H & E). injection E as <-. apply tstz_test in H. exact H. Qed.
Lemma year_test : forall s null l, interval_year_literal s null = Ok l -> test_literal l.
Proof. intros s null l E. unfold interval_year_literal in E. apply bind_inv in E. destruct E as ([y m] & H & E). injection E as <-. exact I. Qed.
Lemma day_test : forall s null l, interval_day_literal s null = Ok l -> test_literal l.
Proof. intros s null l E. unfold interval_day_literal in E. apply bind_inv in E. destruct E as ([[[d sec] ss] p] & H & E). injection E as <-. exact I. Qed.
Lemma fixed_test : forall k s null l, fixed_literal k s null = Ok l -> test_literal l.
Proof. intros k s null l E. unfold fixed_literal in E. destruct k; injection E as <-; try exact I. apply bytes_small. Qed.
Lemma decimal_arg_test : forall b p s null l, new_literal (ADecimal b p s) null = Ok l -> test_literal l.
Proof.
  intros b p s null l E. cbn [new_literal] in E. destruct (Nat.eqb (List.length b) 16) eqn:L; [|discriminate]. injection E as <-. apply Nat.eqb_eq in L. exact L.
Qed.
Lemma decimal_test : forall s null l, new_decimal_from_string s null = Ok l -> test_literal l.
Proof.
  intros s null l E. unfold new_decimal_from_string in E. destruct (decimal_string_to_bytes s) as [[[b p] sc]| |]; try discriminate. cbn [bind] in E.
  apply decimal_arg_test in E. exact E.
Qed.
Lemma with_type_test : forall l t l', (forall p n v, t <> TPrim p n v) -> test_literal l -> with_type l t = Some (Ok l') -> test_literal l'.
Proof.
  intros l t l' NP T E. destruct l as [|u|v u|fs u|es u|kvs u|k bs u|v u|y m k|y m d se su pr k]; try contradiction; cbn [with_type] in E; try discriminate.
  - injection E as E. destruct t; try discriminate. destruct k; try discriminate. destruct v; try discriminate. injection E as <-. exact I.
  - injection E as E. destruct t; try discriminate. injection E as <-. destruct u; try contradiction. apply elements_list. eapply list_elements. exact T.
  - injection E as E. destruct t; try discriminate.
    + exfalso. eapply NP. reflexivity.
    + destruct k0; try discriminate. injection E as <-. destruct k, u; cbn [test_literal] in T; try contradiction; try (destruct p; try contradiction); try (destruct k; try contradiction); exact T.
  - injection E as E. destruct t; try discriminate.
    + destruct k; try discriminate. unfold varchar_with_type in E. destruct u; try discriminate. destruct k; try discriminate. destruct v; try discriminate.
      destruct (len <? Z.of_nat (String.length s)); [discriminate|]. injection E as <-. exact I.
    + unfold decimal_with_type in E. destruct u; try discriminate. destruct v; try discriminate. destruct (List.length s <? 16)%nat; [discriminate|].
      apply bind_inv in E. destruct E as ([[b p] sc] & _ & E). apply decimal_arg_test in E. exact E.
    + destruct u; try discriminate. destruct v; try discriminate. destruct T as [T _]. apply bind_inv in E. destruct E as (z' & E & E'). injection E' as <-.
      apply (change_precision_int _ _ _ _ T E).
    + destruct u; try discriminate. destruct v; try discriminate. destruct T as [T _]. apply bind_inv in E. destruct E as (z' & E & E'). injection E' as <-.
      apply (change_precision_int _ _ _ _ T E).
    + destruct u; try discriminate. destruct v; try discriminate. destruct T as [T _]. apply bind_inv in E. destruct E as (z' & E & E'). injection E' as <-.
      apply (change_precision_int _ _ _ _ T E).
    + destruct u; try discriminate. destruct v; try discriminate. injection E as <-. exact I.
Qed.
Lemma must_test : forall l t l', (forall p n v, t <> TPrim p n v) -> test_literal l -> must_with_type l t = Ok l' -> test_literal l'.
Proof. intros l t l' NP T E. unfold must_with_type in E. destruct (with_type l t) eqn:W; [subst r|discriminate]. apply (with_type_test l t l' NP T W). Qed.

Lemma from_string_test : forall s t l, from_string s t = Ok (Some l) -> test_literal l.
Proof.
  intros s t l E. unfold TestCaseModel.from_string in E. destruct t; try discriminate.
  - destruct p; try discriminate; apply bind_inv in E; destruct E as (x & E & E'); injection E' as <-;
      try (apply int_test in E; exact E); try (apply float_test in E; exact E).
    + injection E as <-. exact I.
    + injection E as <-. apply bytes_small.
  - apply bind_inv in E. destruct E as (d & E & E'). apply bind_inv in E'. destruct E' as (x & E' & E''). injection E'' as <-.
    apply fixed_test in E. refine (must_test _ _ _ _ E E'); intros ? ? ?; discriminate.
  - apply bind_inv in E. destruct E as (d & E & E'). apply bind_inv in E'. destruct E' as (x & E' & E''). injection E'' as <-.
    apply decimal_test in E. refine (must_test _ _ _ _ E E'); intros ? ? ?; discriminate.
Qed.
Lemma read_literal_test : forall ctx l v c, read_literal ctx l = Ok (Some v, c) -> test_literal v.
Proof.
  intros ctx [k text] v c E. unfold TestCaseModel.read_literal in E. cbn [t_kind t_text] in E. cbv zeta in E. destruct k; try discriminate.
  - apply bind_inv in E. destruct E as (x & E & E'). injection E' as <- _. injection E as <-. exact I.
  - apply bind_inv in E. destruct E as (x & E & E'). injection E' as <- _. apply date_test in E. exact E.
  - apply bind_inv in E. destruct E as (x & E & E'). injection E' as <- _. apply time_lit_test in E. exact E.
  - apply bind_inv in E. destruct E as (x & E & E'). injection E' as <- _. apply ts_lit_test in E. exact E.
  - apply bind_inv in E. destruct E as (x & E & E'). injection E' as <- _. apply tstz_lit_test in E. exact E.
  - apply bind_inv in E. destruct E as (x & E & E'). injection E' as <- _. apply year_test in E. exact E.
  - apply bind_inv in E. destruct E as (x & E & E'). apply day_test in E. destruct ctx as [[]|]; try (injection E' as <- _; exact E).
    apply bind_inv in E'. destruct E' as (y & E1 & E2). injection E2 as <- _. refine (must_test _ _ _ _ E E1); intros ? ? ?; discriminate.
  - destruct ctx as [t|]; apply bind_inv in E; destruct E as (x & E & E').
    + injection E' as -> _. apply from_string_test in E. exact E.
    + injection E' as <- _. injection E as <-. exact I.
  - apply bind_inv in E. destruct E as (x & E & E'). destruct x as [x|].
    + injection E' as <- _. destruct ctx as [t|]; [|discriminate]. apply from_string_test in E. exact E.
    + apply bind_inv in E'. destruct E' as (y & E1 & E2). injection E2 as <- _. injection E1 as <-. exact I.
  - injection E as <- _. exact I.
Qed.

Lemma settle_test : forall l c, test_literal l -> test_literal (settle_lit c l).
Proof.
  intros l. remember (lit_size l) as n eqn:N. assert (L : (lit_size l <= n)%nat) by lia. clear N. revert l L.
  induction n as [|n IH]; intros l L c T; [destruct l; cbn [lit_size] in L; lia|].
  destruct l as [|t|v t|fs t|es t|kvs t|k bs t|v t|y m k|y m d se su pr k]; try contradiction; try exact T.
  - cbn [settle_lit]. destruct t as [| | | | | | | | | | | |n0 v0 t0| |]; try contradiction. cbn [settle_ty]. apply elements_list. apply list_elements in T.
    rewrite Forall_forall in *. intros x I. apply in_map_iff in I. destruct I as (y & <- & I). apply IH; [|apply T; exact I].
    pose proof (element_smaller es (TList n0 v0 t0) y I). lia.
  - cbn [settle_lit]. destruct v, t; cbn [test_literal] in T |- *; try contradiction; cbn [settle_ty]; try exact T.
    destruct c; exact I.
Qed.
Lemma settle_all : forall ctx vs, Forall test_literal vs -> Forall test_literal (settle ctx vs).
Proof.
  intros [c|] vs T; [|exact T]. cbn [settle]. rewrite Forall_forall in *. intros x I. apply in_map_iff in I. destruct I as (y & <- & I). apply settle_test. auto.
Qed.
Lemma opt_cons_test : forall o vs, (forall v, o = Some v -> test_literal v) -> Forall test_literal vs -> Forall test_literal (opt_cons o vs).
Proof. intros [v|] vs H F; [|exact F]. constructor; [apply H; reflexivity|exact F]. Qed.

Notation read_element := (read_element parse_float to_float32).
Notation read_elements := (read_elements parse_float to_float32).
Lemma new_list_test : forall vs null l, Forall test_literal vs -> new_list vs null = Ok l -> test_literal l.
Proof.
  intros [|v vs] null l F E; [discriminate|]. unfold new_list in E. apply bind_inv in E. destruct E as (bad & _ & E). destruct bad; [discriminate|].
  cbn [new_literal] in E. apply bind_inv in E. destruct E as (t & _ & E). injection E as <-. apply elements_list. exact F.
Qed.
Definition element_test (e : element) : Prop := forall ctx v c, read_element ctx e = Ok (Some v, c) -> test_literal v.
Lemma elements_test : forall es, Forall element_test es -> forall ctx vs c, read_elements ctx es = Ok (vs, c) -> Forall test_literal vs.
Proof.
  induction 1 as [|e es P F IH]; intros ctx vs c E.
  - injection E as <- _. constructor.
  - rewrite read_elements_cons in E. apply bind_inv in E. destruct E as ([o ctx1] & E1 & E). apply bind_inv in E. destruct E as ([vs' ctx2] & E2 & E).
    injection E as <- _. apply opt_cons_test; [|apply (IH _ _ _ E2)]. intros v ->. apply (P _ _ _ E1).
Qed.
Lemma all_elements : forall e, element_test e.
Proof.
  apply element_ind2.
  - intros l ctx v c E. apply (read_literal_test _ _ _ _ E).
  - intros es X ctx v c E. rewrite read_element_list in E. apply bind_inv in E. destruct E as ([vs inner] & E1 & E).
    assert (T := elements_test es X _ _ _ E1). apply (settle_all inner) in T. destruct (settle inner vs) as [|x xs].
    + destruct inner as [[]|]; try discriminate. injection E as <- _. exact I.
    + apply bind_inv in E. destruct E as (l & E2 & E). injection E as <- _. apply (new_list_test _ _ _ T E2).
Qed.
Lemma read_values_test : forall ls ctx vs c, read_values parse_float to_float32 ctx ls = Ok (vs, c) -> Forall test_literal vs.
Proof.
  induction ls as [|l ls IH]; intros ctx vs c E; [injection E as <- _; constructor|].
  cbn [read_values] in E. apply bind_inv in E. destruct E as ([o ctx1] & E1 & E). apply bind_inv in E. destruct E as ([vs' ctx2] & E2 & E).
  injection E as <- _. apply opt_cons_test; [|apply (IH _ _ _ E2)]. intros v ->. apply (read_literal_test _ _ _ _ E1).
Qed.

Lemma read_arg_test : forall a c, read_arg a = Ok c -> Forall test_literal (shown_value c).
Proof.
  assert (G : forall t text l, test_literal l -> Forall test_literal (shown_value (Case t text (CLit l)))) by (intros; repeat constructor; assumption).
  intros a c E. destruct a; cbn [TestCaseModel.read_arg] in E; try discriminate.
  - apply bind_inv in E. destruct E as (t' & E1 & E). destruct (is_nullable t'); [|discriminate]. injection E as <-. apply G. exact I.
  - apply bind_inv in E. destruct E as (l & E1 & E). injection E as <-. apply G. apply int_test in E1. exact E1.
  - apply bind_inv in E. destruct E as (l & E1 & E). apply bind_inv in E. destruct E as (t & _ & E). injection E as <-. apply G. apply float_test in E1. exact E1.
  - apply bind_inv in E. destruct E as (l & E1 & E). injection E as <-. injection E1 as <-. apply G. exact I.
  - apply bind_inv in E. destruct E as (l & E1 & E). injection E as <-. injection E1 as <-. apply G. exact I.
  - apply bind_inv in E. destruct E as (t & _ & E). apply bind_inv in E. destruct E as (l & E1 & E). injection E as <-. apply G. apply decimal_test in E1. exact E1.
  - apply bind_inv in E. destruct E as (l & E1 & E). injection E as <-. apply G. apply date_test in E1. exact E1.
  - apply bind_inv in E. destruct E as (l & E1 & E). injection E as <-. apply G. apply time_lit_test in E1. exact E1.
  - apply bind_inv in E. destruct E as (l & E1 & E). injection E as <-. apply G. apply ts_lit_test in E1. exact E1.
  - apply bind_inv in E. destruct E as (l & E1 & E). injection E as <-. apply G. apply tstz_lit_test in E1. exact E1.
  - apply bind_inv in E. destruct E as (l & E1 & E). injection E as <-. apply G. apply year_test in E1. exact E1.
  - apply bind_inv in E. destruct E as (t & _ & E). apply bind_inv in E. destruct E as (l & E1 & E). injection E as <-. apply G. apply day_test in E1. exact E1.
  - apply bind_inv in E. destruct E as (t & _ & E). apply bind_inv in E. destruct E as (l & E1 & E). injection E as <-. apply G. apply fixed_test in E1. exact E1.
  - apply bind_inv in E. destruct E as (p' & _ & E). apply bind_inv in E. destruct E as (z & E1 & E). injection E as <-. apply G. apply prec_time_test in E1. exact E1.
  - apply bind_inv in E. destruct E as (p' & _ & E). apply bind_inv in E. destruct E as (z & E1 & E). injection E as <-. apply G. apply prec_ts_test in E1. exact E1.
  - apply bind_inv in E. destruct E as (p' & _ & E). apply bind_inv in E. destruct E as (z & E1 & E). injection E as <-. apply G. apply prec_tstz_test in E1. exact E1.
  - apply bind_inv in E. destruct E as (t & _ & E). apply bind_inv in E. destruct E as ([vs ctx] & E1 & E).
    assert (T : Forall test_literal vs) by (eapply (elements_test es); [apply Forall_forall; intros; apply all_elements|exact E1]).
    apply (settle_all ctx) in T. apply bind_inv in E. destruct E as (l & E2 & E). injection E as <-. apply G. destruct (settle ctx vs) as [|x xs].
    + injection E2 as <-. exact I.
    + apply (new_list_test _ _ _ T E2).
  - injection E as <-. constructor.
Qed.
Lemma read_typed_test : forall a c, TestCaseModel.read_typed_arg parse_float to_float32 a = Ok c -> Forall test_literal (shown_value c).
Proof.
  intros a c E. unfold TestCaseModel.read_typed_arg in E. apply bind_inv in E. destruct E as (c0 & E & E'). apply read_arg_test in E.
  unfold update_type in E'. destruct c0 as [t text [l|e]]; cbn [c_type c_text c_value] in E'.
  - assert (NP : get_parameters t <> [] -> forall p n v, t <> TPrim p n v) by (intros H p n v ->; apply H; reflexivity).
    destruct (get_parameters t) eqn:P; [injection E' as <-; exact E|]. specialize (NP ltac:(discriminate)).
    inversion E as [|? ? T _]; subst.
    assert (W : forall r, with_type l t = Some r -> (let! l0 := r in Ok (Case t text (CLit l0))) = Ok c -> Forall test_literal (shown_value c)).
    { intros r W X. apply bind_inv in X. destruct X as (l9 & -> & X). injection X as <-. repeat constructor. apply (with_type_test _ _ _ NP T W). }
    destruct l; try (destruct (with_type _ t) eqn:Q; [eapply W; [reflexivity|exact E']|discriminate]). injection E' as <-. exact E.
  - destruct (get_parameters t); [injection E' as <-; constructor|discriminate].
Qed.

(** ** tables *)
Lemma get_literal_test : forall l t l', test_literal l -> get_literal parse_float to_float32 l t = Ok l' -> test_literal l'.
Proof.
  intros l t l' T E. unfold get_literal in E. destruct l as [|u|v u|fs u|es u|kvs u|k bs u|v u|y m k|y m d se su pr k]; try (injection E as <-; exact T).
  destruct v; try (injection E as <-; exact T). destruct t as [t|]; [|injection E as <-; exact T]. apply bind_inv in E. destruct E as ([x|] & E1 & E); injection E as <-; [|exact T].
  apply from_string_test in E1. exact E1.
Qed.
Lemma read_column_test : forall rows i t cur cells cur', Forall (Forall test_literal) rows -> read_column parse_float to_float32 i t cur rows = Ok (cells, cur') ->
  Forall test_literal cells /\ List.length cells = List.length rows.
Proof.
  induction rows as [|row rows IH]; intros i t cur cells cur' T E; [injection E as <- _; split; [constructor|reflexivity]|].
  inversion T as [|? ? T1 T2]; subst. rewrite read_column_cons in E.
  cbn [read_column] in E. destruct (nth_error row i) as [x|] eqn:N; [|discriminate].
  assert (TX : test_literal x) by (rewrite Forall_forall in T1; apply T1; eapply nth_error_In; exact N).
  apply bind_inv in E. destruct E as (y & E1 & E). assert (TY := get_literal_test _ _ _ TX E1).
  assert (G : forall c0 u, (let! (cells, cur) := read_column parse_float to_float32 i t c0 rows in Ok (u :: cells, cur)) = Ok (cells, cur') -> test_literal u -> Forall test_literal cells /\ List.length cells = S (List.length rows)).
  { intros c0 u X U. apply bind_inv in X. destruct X as ([cs cu] & X1 & X). injection X as <- _. destruct (IH _ _ _ _ _ T2 X1) as [F L]. split; [constructor; assumption|cbn; congruence]. }
  destruct y; try (apply (G _ _ E TY)). destruct t as [t'|]; [|discriminate]. eapply (G _ _ E). exact I.
Qed.
Lemma read_columns_test : forall ts i rows cols ts', Forall (Forall test_literal) rows -> read_columns parse_float to_float32 i ts rows = Ok (cols, ts') ->
  Forall test_literal (List.concat cols) /\ Forall (fun col => List.length col = List.length rows) cols.
Proof.
  induction ts as [|t ts IH]; intros i rows cols ts' T E; [injection E as <- _; split; constructor|].
  cbn [read_columns] in E. apply bind_inv in E. destruct E as ([c t'] & E1 & E). apply bind_inv in E. destruct E as ([cs ts''] & E2 & E). injection E as <- _.
  destruct (read_column_test _ _ _ _ _ _ T E1) as [F1 L1]. destruct (IH _ _ _ _ T E2) as [F2 L2]. split; [cbn [List.concat]; apply Forall_app; auto|constructor; assumption].
Qed.
Lemma same_lengths : forall cols n, Forall (fun col : list lit => List.length col = n) cols -> rectangular cols.
Proof. intros [|c cs] n H; [exact I|]. inversion H as [|? ? L F]; subst. exact F. Qed.
Lemma read_rows_test : forall rows vss, read_rows parse_float to_float32 rows = Ok vss -> Forall (Forall test_literal) vss.
Proof.
  intros rows vss E. unfold read_rows in E. apply mapM_forall2 in E. induction E as [|row vs rows vss H F IH]; constructor; [|exact IH].
  apply bind_inv in H. destruct H as ([x c] & E & H). injection H as <-. apply read_values_test in E. exact E.
Qed.

Lemma new_agg_column : forall table col t g, new_agg_arg table col t = Ok g -> a_arg g = None /\ a_column g = col /\ col <> "" /\ a_type g = t /\ a_scalar g = false.
Proof.
  intros table col t g E. unfold new_agg_arg in E. destruct (Nat.ltb (String.length col) 3) eqn:L; [discriminate|]. apply bind_inv in E. destruct E as (i & _ & E).
  destruct (i <? 0); [discriminate|]. injection E as <-. cbn. repeat split. intros ->. discriminate.
Qed.
Lemma scalar_agg_sound : forall a g, scalar_agg_arg parse_float to_float32 a = Ok g -> sound_agg g /\ a_scalar g = true.
Proof.
  intros a g E. unfold scalar_agg_arg in E. apply bind_inv in E. destruct E as (c & E & E'). injection E' as <-. split; [constructor; apply read_arg_test in E; exact E|reflexivity].
Qed.
Definition tabled (g : aggarg) : Prop := sound_agg g /\ ~ (a_scalar g = false /\ a_column g = "").
Lemma aarg_sound : forall a g, read_aarg parse_float to_float32 a = Ok g -> tabled g.
Proof.
  intros [a|col d] g E; cbn [read_aarg] in E.
  - apply scalar_agg_sound in E. destruct E as [S E]. split; [exact S|]. rewrite E. intros [H _]. discriminate.
  - apply bind_inv in E. destruct E as (t & _ & E). apply new_agg_column in E. destruct E as (A & C & N & T & S). destruct g as [ga gt gc gy gi gs].
    cbn [a_arg a_column a_type a_scalar] in *. subst. split; [constructor; auto|]. cbn. intros [_ H]. contradiction.
Qed.

Definition typed_at (ts : list (option ty)) (j : nat) : Prop := exists t, nth_error ts j = Some (Some t).
Lemma column_types_keep : forall gs ts0 ts j, column_types gs ts0 = Ok ts -> typed_at ts0 j -> typed_at ts j.
Proof.
  induction gs as [|g gs IH]; intros ts0 ts j E (t & N); [injection E as <-; exists t; exact N|]. cbn [column_types] in E.
  destruct (Z.of_nat (List.length ts0) <=? a_index g); [discriminate|]. destruct (a_type g) as [u|]; [|apply (IH _ _ _ E); exists t; exact N].
  destruct (a_index g <? 0); [discriminate|]. apply (IH _ _ _ E). unfold typed_at. rewrite set_nth_nth.
  destruct (Nat.eqb j (Z.to_nat (a_index g)) && Nat.ltb (Z.to_nat (a_index g)) (List.length ts0)); eauto.
Qed.
Lemma column_types_typed : forall gs ts0 ts, column_types gs ts0 = Ok ts -> Forall (fun g => a_type g <> None -> typed_at ts (Z.to_nat (a_index g))) gs.
Proof.
  induction gs as [|g gs IH]; intros ts0 ts E; [constructor|]. cbn [column_types] in E.
  destruct (Z.leb_spec (Z.of_nat (List.length ts0)) (a_index g)) as [|L]; [discriminate|]. destruct (a_type g) as [u|] eqn:T.
  - destruct (Z.ltb_spec (a_index g) 0) as [|L0]; [discriminate|]. constructor; [|apply (IH _ _ E)]. intros _. apply (column_types_keep _ _ _ _ E).
    exists u. rewrite set_nth_nth. rewrite Nat.eqb_refl. assert (X : Nat.ltb (Z.to_nat (a_index g)) (List.length ts0) = true) by (apply Nat.ltb_lt; lia). rewrite X. reflexivity.
  - constructor; [congruence|apply (IH _ _ E)].
Qed.
Lemma read_column_typed : forall rows i t cur cells cur', read_column parse_float to_float32 i t cur rows = Ok (cells, cur') -> cur <> None -> cur' <> None.
Proof.
  induction rows as [|row rows IH]; intros i t cur cells cur' E N; [injection E as _ <-; exact N|]. rewrite read_column_cons in E.
  destruct (nth_error row i) as [x|]; [|discriminate]. apply bind_inv in E. destruct E as (y & _ & E). destruct (is_null_lit y).
  - destruct t as [t'|]; [|discriminate]. apply bind_inv in E. destruct E as ([cs cu] & E1 & E). injection E as _ <-. apply (IH _ _ _ _ _ E1). discriminate.
  - apply bind_inv in E. destruct E as ([cs cu] & E1 & E). injection E as _ <-. apply (IH _ _ _ _ _ E1 N).
Qed.
Lemma read_columns_typed : forall ts i rows cols ts', read_columns parse_float to_float32 i ts rows = Ok (cols, ts') -> forall j, typed_at ts j -> typed_at ts' j.
Proof.
  induction ts as [|t ts IH]; intros i rows cols ts' E j (u & N); [destruct j; discriminate|].
  cbn [read_columns] in E. apply bind_inv in E. destruct E as ([c t'] & E1 & E). apply bind_inv in E. destruct E as ([cs ts''] & E2 & E). injection E as _ <-.
  destruct j as [|j]; cbn in N.
  - injection N as ->. assert (X := read_column_typed _ _ _ _ _ _ E1 ltac:(discriminate)). destruct t' as [t'|]; [|congruence]. exists t'. reflexivity.
  - apply (IH _ _ _ _ E2 j). exists u. exact N.
Qed.
Lemma share_sound : forall gs ts, Forall tabled gs -> Forall (fun g => a_type g <> None -> typed_at ts (Z.to_nat (a_index g))) gs -> Forall tabled (share_types gs ts).
Proof.
  induction gs as [|g gs IH]; intros ts T F; [constructor|]. inversion T as [|? ? T1 T2]; subst. inversion F as [|? ? F1 F2]; subst.
  cbn [share_types]. constructor; [|apply IH; assumption]. destruct T1 as [S N].
  destruct S as [c table col t i X|c table col t i Nn C|t text es lt table ct i X]; cbn [a_arg a_table a_column a_type a_index a_scalar] in *.
  - split; [constructor; exact X|]. cbn. intros [H _]. discriminate.
  - split; [|cbn; exact N]. destruct (F1 ltac:(discriminate)) as (u & E). rewrite E.
    destruct t; try (constructor; assumption). destruct (negb _); constructor; assumption.
  - exfalso. apply N. auto.
Qed.
Lemma resolve_sound : forall table ts q g, (exists a, read_qarg parse_float to_float32 q = Ok a /\ resolve_arg table ts a = Ok g) -> (forall j t, nth_error ts j = Some t -> t <> None) -> tabled g.
Proof.
  intros table ts q g (a & E & E') NT. unfold resolve_arg in E'. destruct (_ && _); [discriminate|]. destruct q as [q|tab col]; cbn [read_qarg] in E.
  - apply scalar_agg_sound in E. destruct E as [S E]. rewrite E in E'. injection E' as <-. split; [exact S|]. rewrite E. intros [H _]. discriminate.
  - apply new_agg_column in E. destruct E as (A & C & N & T & S). rewrite S in E'. destruct (a_index a <? 0); [discriminate|].
    destruct (nth_error ts (Z.to_nat (a_index a))) as [t|] eqn:X; [|discriminate]. injection E' as <-. apply NT in X. destruct t as [t|]; [|congruence].
    rewrite C, A. split; [constructor; auto|]. cbn. intros [_ H]. contradiction.
Qed.

Lemma call_sound : forall c name args cols table ts, read_call parse_float to_float32 c = Ok (name, args, cols, table, ts) ->
  Forall sound_agg args /\ rectangular cols /\ Forall test_literal (List.concat cols) /\
  (Forall (fun g => ~ (a_scalar g = false /\ a_column g = "")) args \/ cols = []) /\ Forall test_literal (flat_map shown_aggregate args).
Proof.
  assert (SH : forall gs, Forall sound_agg gs -> Forall test_literal (flat_map shown_aggregate gs)).
  { induction 1 as [|g gs S F IH]; [constructor|]. cbn [flat_map]. apply Forall_app. split; [|exact IH].
    destruct S as [c table col t i X|c table col t i Nn C|t text es lt table ct i X]; unfold shown_aggregate; cbn; [exact X|subst c; constructor|exact X]. }
  assert (TB : forall gs, Forall tabled gs -> Forall sound_agg gs /\ Forall (fun g => ~ (a_scalar g = false /\ a_column g = "")) gs).
  { intros gs T. split; (eapply Forall_impl; [|exact T]); intros g [A B]; assumption. }
  intros c name args cols table ts E. destruct c as [n values d|rows n oargs|tab ds rows n oargs]; cbn [read_call] in E.
  - apply bind_inv in E. destruct E as (t & _ & E). apply bind_inv in E. destruct E as ([vs ctx] & E1 & E). injection E as _ <- <- _ _.
    assert (T : Forall test_literal (settle ctx vs)) by (apply settle_all; apply read_values_test in E1; exact E1).
    assert (S : Forall sound_agg [AggArg (Some (Case (if existsb is_null_lit (settle ctx vs) then with_nullability NullNullable match ctx with Some t0 => t0 | None => t end else match ctx with Some t0 => t0 | None => t end) ""
       (CLit (LList (settle ctx vs) (TList NullRequired 0 (if existsb is_null_lit (settle ctx vs) then with_nullability NullNullable match ctx with Some t0 => t0 | None => t end else match ctx with Some t0 => t0 | None => t end)))))) ""
       "" (Some (if existsb is_null_lit (settle ctx vs) then with_nullability NullNullable match ctx with Some t0 => t0 | None => t end else match ctx with Some t0 => t0 | None => t end)) 0 false]) by (constructor; [constructor; exact T|constructor]).
    split; [exact S|]. split; [exact I|]. split; [constructor|]. split; [right; reflexivity|]. apply SH. exact S.
  - apply bind_inv in E. destruct E as (lrows & E1 & E). apply bind_inv in E. destruct E as (gs & E2 & E). apply read_rows_test in E1.
    destruct lrows as [|row0 lrows]; [discriminate|]. apply bind_inv in E. destruct E as (ts0 & E3 & E). apply bind_inv in E. destruct E as ([cols0 ts1] & E4 & E).
    injection E as _ <- <- _ _. destruct (read_columns_test _ _ _ _ _ E1 E4) as [C1 C2].
    assert (T : Forall tabled gs). { apply mapM_forall2 in E2. clear -E2. induction E2; constructor; [eapply aarg_sound; eassumption|assumption]. }
    assert (F : Forall (fun g => a_type g <> None -> typed_at ts1 (Z.to_nat (a_index g))) gs).
    { eapply Forall_impl; [|apply (column_types_typed _ _ _ E3)]. cbn. intros g H X. apply (read_columns_typed _ _ _ _ _ E4). apply H. exact X. }
    destruct (TB _ (share_sound _ _ T F)) as [S1 S2]. split; [exact S1|]. split; [eapply same_lengths; exact C2|]. split; [exact C1|]. split; [left; exact S2|apply SH; exact S1].
  - apply bind_inv in E. destruct E as (lrows & E1 & E). apply bind_inv in E. destruct E as (ts0 & E2 & E). apply read_rows_test in E1.
    apply bind_inv in E. destruct E as ([cols0 ts1] & E4 & E). apply bind_inv in E. destruct E as (gs0 & E5 & E). apply bind_inv in E. destruct E as (gs & E6 & E).
    injection E as _ <- <- _ _. destruct (read_columns_test _ _ _ _ _ E1 E4) as [C1 C2].
    assert (NT : forall j t, nth_error ts1 j = Some t -> t <> None).
    { assert (G : forall us, Forall (fun u => u <> None) us -> forall i rs cs us', read_columns parse_float to_float32 i us rs = Ok (cs, us') -> Forall (fun u => u <> None) us').
      { induction 1 as [|u us U F IH]; intros i rs cs us' X; [injection X as _ <-; constructor|]. cbn [read_columns] in X.
        apply bind_inv in X. destruct X as ([c t'] & X1 & X). apply bind_inv in X. destruct X as ([cs' ts''] & X2 & X). injection X as _ <-. constructor.
        - apply (read_column_typed _ _ _ _ _ _ X1 U).
        - apply (IH _ _ _ _ X2). }
      assert (H : Forall (fun u => u <> None) ts1).
      { eapply G; [|exact E4]. apply Forall_forall. intros u Iu. apply in_map_iff in Iu. destruct Iu as (w & <- & _). discriminate. }
      intros j t N. rewrite Forall_forall in H. apply H. eapply nth_error_In. exact N. }
    assert (T : Forall tabled gs).
    { apply mapM_forall2 in E5. apply mapM_forall2 in E6. clear -E5 E6 NT. revert gs E6. induction E5 as [|q a qs as' Q F IH]; intros gs E6; inversion E6 as [|? g ? gs' A1 A2]; subst; constructor.
      - eapply resolve_sound; [|exact NT]. exists a. split; [exact Q|exact A1].
      - apply IH. exact A2. }
    destruct (TB _ T) as [S1 S2]. split; [exact S1|]. split; [eapply same_lengths; exact C2|]. split; [exact C1|]. split; [left; exact S2|apply SH; exact S1].
Qed.

Lemma result_test : forall r o, read_result parse_float to_float32 r = Ok o -> Forall test_literal (match o with OValue c => shown_value c | _ => [] end).
Proof.
  intros [a| |] o E; cbn [read_result] in E; [|injection E as <-; constructor|injection E as <-; constructor].
  apply bind_inv in E. destruct E as (c & E & E'). injection E' as <-. apply read_typed_test in E. exact E.
Qed.
Lemma case_sound : forall uri desc x k, read_case parse_float to_float32 uri desc x = Ok k -> sound_case k.
Proof.
  intros uri desc [[[name args] opts] r] k E. unfold read_case in E. apply bind_inv in E. destruct E as (cs & E1 & E). apply bind_inv in E. destruct E as (o & E2 & E).
  injection E as <-. constructor; cbn [k_aggargs k_columns k_aggregate k_args]; try discriminate; try constructor; auto.
  unfold shown. cbn [k_aggargs k_columns k_aggregate k_args k_result flat_map List.concat app]. apply Forall_app. split; [|apply (result_test _ _ E2)].
  apply mapM_forall2 in E1. induction E1 as [|a c args cs H F IH]; [constructor|]. cbn [flat_map]. apply Forall_app. split; [apply read_typed_test in H; exact H|exact IH].
Qed.
Lemma agg_case_sound : forall uri desc x k, read_agg_case parse_float to_float32 uri desc x = Ok k -> sound_case k.
Proof.
  intros uri desc [[call opts] r] k E. unfold read_agg_case in E. apply bind_inv in E. destruct E as ([[[[name args] cols] table] ts] & E1 & E). apply bind_inv in E. destruct E as (o & E2 & E).
  injection E as <-. destruct (call_sound _ _ _ _ _ _ E1) as (S1 & S2 & S3 & S4 & S5). constructor; cbn [k_aggargs k_columns k_aggregate k_args]; try discriminate; auto.
  - unfold shown. cbn [k_aggargs k_columns k_aggregate k_args k_result flat_map app]. rewrite !Forall_app. split; [exact S5|]. split; [exact S3|]. apply (result_test _ _ E2).
  - intros _. split; [reflexivity|]. intros [NE F]. cbn [k_aggargs] in NE, F. destruct S4 as [S4|S4]; [|exact S4]. exfalso. destruct args as [|g gs]; [congruence|].
    inversion F as [|? ? F1 _]; subst. inversion S4 as [|? ? X _]; subst. apply X. exact F1.
Qed.
Lemma file_sound : forall d f, parse_doc parse_float to_float32 d = Ok f -> Forall sound_case (f_cases f).
Proof.
  intros d f E. unfold parse_doc in E. destruct (read_doc parse_float to_float32 d) as [f'| |] eqn:R; [injection E as <-|discriminate|discriminate]. unfold read_doc in R.
  destruct (d_includes d) as [|inc incs]; [discriminate|]. apply bind_inv in R. destruct R as (gs & R & R'). injection R' as <-. cbn [f_cases].
  apply mapM_forall2 in R. induction R as [|g ks gs' kss H F IH]; [constructor|]. cbn [List.concat]. apply Forall_app. split; [|exact IH].
  destruct g as [[desc|] cases|[desc|] cases]; cbn [read_group] in H; try discriminate; destruct (d_aggregate d); try discriminate; apply mapM_forall2 in H; clear -H;
    (induction H as [|x k cases ks H F IH]; constructor; [|exact IH]); [eapply case_sound; exact H|eapply agg_case_sound; exact H].
Qed.
End Floats.
