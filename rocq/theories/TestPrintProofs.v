(** Proofs about how test cases print. *)

From Coq Require Import ZArith String Ascii Bool Lia List.
From Verif Require Import Base FMap TypesModel SigModel DecimalSpec LitModel TimeModel TimeSpec TimeProofs CalModel CalSpec CalProofs CalTextProofs CalPrintProofs CalProps IntervalModel TextSpec DecTextSpec
  TestCaseModel TestCaseSpec TestCaseProofs TestPrintModel TestPrintSpec.
Import ListNotations.
Local Open Scope string_scope.
Local Open Scope Z_scope.

(** ** texts *)

Lemma whole_text : forall z, prints_whole z (string_of_Z z).
Proof.
  assert (P : forall z, 0 <= z -> padded 1 z (string_of_Z z)).
  { intros z H. assert (Q := pad_padded 1 z (le_n 1) H). unfold pad in Q. change (10 ^ Z.of_nat 1) with 10 in Q.
    destruct (Z.ltb_spec z 10) as [L|L]; [|exact Q]. assert (E : fixed 1 z = string_of_Z z); [|rewrite <- E; exact Q].
    assert (D : z = 0 \/ z = 1 \/ z = 2 \/ z = 3 \/ z = 4 \/ z = 5 \/ z = 6 \/ z = 7 \/ z = 8 \/ z = 9) by lia.
    repeat (destruct D as [->|D]; [reflexivity|]). subst z. reflexivity. }
  intros z. destruct (Z_lt_le_dec z 0) as [L|L]; [|constructor; apply P; exact L].
  replace z with (- - z) at 1 by lia.
  assert (E : string_of_Z z = "-" ++ string_of_Z (- z)) by (destruct z; try lia; reflexivity).
  rewrite E. constructor; [lia|apply P; lia].
Qed.

Lemma joined : forall sep l, separated sep l (join sep l).
Proof.
  intros sep. induction l as [|x [|y l] IH]; [constructor|constructor|]. change (join sep (x :: y :: l)) with (x ++ sep ++ join sep (y :: l)).
  constructor. exact IH.
Qed.

Lemma hex_digit_text : forall z s, 0 <= z < 16 -> hex_digit z ++ s = String (hex z) s.
Proof.
  intros z s H. assert (D : In z (map Z.of_nat (seq 0 16))).
  { apply in_map_iff. exists (Z.to_nat z). split; [lia|]. apply in_seq. lia. }
  cbn in D. repeat (destruct D as [<-|D]; [reflexivity|]). contradiction.
Qed.
Lemma append_assoc : forall a b c : string, (a ++ b) ++ c = a ++ b ++ c.
Proof. apply append_assoc_s. Qed.
Lemma hex_texts : forall l, Forall (fun b => 0 <= b < 256) l -> prints_hex l (hex_text l).
Proof.
  assert (C : forall x l, String.concat "" (x :: l) = x ++ String.concat "" l).
  { intros x [|y l]; cbn [String.concat]; [rewrite append_nil_r; reflexivity|reflexivity]. }
  induction 1 as [|b l B F IH]; [constructor|]. unfold hex_text in *. cbn [map]. rewrite C, append_assoc.
  assert (0 <= b / 16 < 16) by (split; [apply Z.div_pos; lia|apply Z.div_lt_upper_bound; lia]). pose proof (Z.mod_pos_bound b 16 ltac:(lia)) as M.
  rewrite !hex_digit_text by assumption. rewrite (Z.div_mod b 16) at 1 by lia. constructor; assumption.
Qed.
Lemma slice_texts : forall l, Forall2 prints_whole l (map string_of_Z l).
Proof. induction l; constructor; [apply whole_text|assumption]. Qed.

(** ** mapM *)

Lemma mapM_forall2 : forall A B (f : A -> res B) l m, mapM f l = Ok m -> Forall2 (fun x y => f x = Ok y) l m.
Proof.
  induction l as [|x l IH]; intros m H; cbn [mapM] in H; [injection H as <-; constructor|].
  apply bind_inv in H. destruct H as (y & E & H). apply bind_inv in H. destruct H as (ys & E' & H). injection H as <-. constructor; [exact E|apply IH; exact E'].
Qed.
Lemma mapM_total : forall A B (f : A -> res B) l, Forall (fun x => exists y, f x = Ok y) l -> exists m, mapM f l = Ok m.
Proof.
  induction 1 as [|x l (y & E) F (m & IH)]; [exists []; reflexivity|]. exists (y :: m). cbn [mapM]. rewrite E, IH. reflexivity.
Qed.
Lemma forall2_imp : forall A B (P Q : A -> B -> Prop) l m, Forall2 P l m -> (forall x y, In x l -> P x y -> Q x y) -> Forall2 Q l m.
Proof. induction 1 as [|x y l m H F IH]; intros I; constructor; [apply I; [left; reflexivity|exact H]|apply IH; intros a b L; apply I; right; exact L]. Qed.

Lemma Forall2_length' : forall A B (P : A -> B -> Prop) l m, Forall2 P l m -> List.length l = List.length m.
Proof. induction 1; cbn; congruence. Qed.
Lemma forall2_nth' : forall A B (P : A -> B -> Prop) l m, Forall2 P l m -> forall i, match nth_error l i, nth_error m i with Some a, Some b => P a b | None, None => True | _, _ => False end.
Proof. induction 1 as [|x y l m H F IH]; intros [|i]; cbn; auto. apply IH. Qed.

Section Print.
Variable float_text : Z -> string.
Variable decimal_text : list Z -> Z -> string.
Variable other_text : lit -> string.
Notation value_string := (value_string float_text decimal_text other_text).
Notation literal_text := (literal_text float_text decimal_text other_text).
Notation case_text := (case_text float_text decimal_text other_text).
Notation outcome_text := (outcome_text float_text decimal_text other_text).
Notation aggarg_text := (aggarg_text float_text decimal_text other_text).
Notation table_text := (table_text float_text decimal_text other_text).
Notation case_string := (case_string float_text decimal_text other_text).
Notation prints_value := (prints_value float_text decimal_text).
Notation prints_literal := (prints_literal float_text decimal_text).

Lemma list_elements : forall es n v t, test_literal (LList es (TList n v t)) -> Forall test_literal es.
Proof. intros es n v t H. cbn [test_literal] in H. induction es as [|x es IH]; [constructor|]. destruct H as [H1 H2]. constructor; [exact H1|apply IH; exact H2]. Qed.
Lemma elements_list : forall es n v t, Forall test_literal es -> test_literal (LList es (TList n v t)).
Proof. intros es n v t H. cbn [test_literal]. induction H as [|x es P F IH]; [exact I|]. split; [exact P|exact IH]. Qed.

(** induction over lists of lists *)
Fixpoint lit_size (l : lit) : nat :=
  match l with LList es _ => S ((fix sum l := match l with [] => O | x :: l' => lit_size x + sum l' end) es)%nat | _ => 1%nat end.
Lemma element_smaller : forall es t x, In x es -> (lit_size x < lit_size (LList es t))%nat.
Proof.
  intros es t x. cbn [lit_size]. induction es as [|y es IH]; intros H; [contradiction|]. destruct H as [->|H]; [lia|]. specialize (IH H). lia.
Qed.

Lemma moment_at : forall ns, exists x c, moment ns x c.
Proof. intros ns. apply C61_moment. Qed.

Lemma value_texts : forall l, test_literal l -> exists s, value_string l = Ok s /\ prints_value l s.
Proof.
  intros l. remember (lit_size l) as n eqn:N. assert (L : (lit_size l <= n)%nat) by lia. clear N. revert l L.
  induction n as [|n IH]; intros l L T; [destruct l; cbn [lit_size] in L; lia|].
  destruct l as [|t|v t|fs t|es t|kvs t|k bs t|v t|y m k|y m d se su pr k]; try contradiction.
  - exists "null". split; [reflexivity|constructor].
  - exists (pval_text float_text v). split; [reflexivity|].
    destruct v; cbn [test_literal] in T; cbn [pval_text]; try contradiction.
    + destruct b; constructor.
    + eapply Value_int; [cbn; eauto 6|apply whole_text].
    + eapply Value_int; [cbn; eauto 6|apply whole_text].
    + eapply Value_int; [cbn; eauto 6|apply whole_text].
    + eapply Value_int; [cbn; eauto 6|apply whole_text].
    + eapply Value_float; cbn; auto.
    + eapply Value_float; cbn; auto.
    + eapply Value_string; cbn; auto.
    + destruct (moment_at (z * 1000)) as (x & c & M). eapply Value_ts; [exact M|].
      apply C61_timestamp_texts; [|exact M]. destruct t; try contradiction. destruct p; try contradiction. exact T.
    + destruct (date_of_right z) as [V E]. assert (C : calendar z (date_of z)) by (apply calendar_iff; auto). eapply Value_date; [exact C|apply C60_date_text; exact C].
    + destruct (moment_at (z * 1000)) as (x & c & M). eapply Value_time; [exact M|].
      eapply (C61_time_texts _ x); [|exact M]. destruct t; try contradiction. destruct p; try contradiction. exact T.
    + eapply Value_string; cbn; auto.
    + destruct (moment_at (z * 1000)) as (x & c & M). eapply Value_tstz; [exact M|].
      apply C61_timestamp_texts; [|exact M]. destruct t; try contradiction. destruct p; try contradiction. exact T.
  - destruct t as [| | | | | | | | | | | |n0 v0 t0| |]; try contradiction. assert (F := list_elements _ _ _ _ T).
    assert (G : Forall (fun x => exists y, value_string x = Ok y /\ prints_value x y) es).
    { rewrite Forall_forall in F |- *. intros x I. apply IH; [|apply F; exact I]. pose proof (element_smaller es (TList n0 v0 t0) x I). lia. }
    destruct (mapM_total _ _ value_string es) as (ws & E).
    { eapply Forall_impl; [|exact G]. intros x (y & H & _). eauto. }
    exists ("[" ++ join ", " ws ++ "]"). split; [cbn [TestPrintModel.value_string]; fold value_string; rewrite E; reflexivity|].
    eapply Value_list; [|apply joined]. eapply forall2_imp; [apply mapM_forall2; exact E|].
    intros x y I H. rewrite Forall_forall in G. destruct (G x I) as (y' & H' & P). rewrite H in H'. injection H' as <-. exact P.
  - destruct k; cbn [test_literal] in T.
    + destruct t; try contradiction. destruct p; try contradiction. eexists. split; [reflexivity|]. eapply Value_binary; [apply slice_texts|apply joined].
    + destruct t; try contradiction. destruct k; try contradiction. eexists. split; [reflexivity|]. constructor. apply hex_texts. exact T.
    + contradiction.
  - destruct v; cbn [test_literal] in T; try contradiction; destruct t; try contradiction.
    + destruct T as [T P]. destruct (moment_at (z * 10 ^ (9 - prec))) as (x & c & M).
      destruct (C61_precision_texts _ _ _ _ T P M) as ((s & E & _ & Q) & _). exists s. split; [exact E|]. eapply Value_prec_time; [exact M|exact Q].
    + destruct T as [T P]. destruct (moment_at (z * 10 ^ (9 - prec))) as (x & c & M).
      destruct (C61_precision_texts _ _ _ _ T P M) as (_ & (s & E & Q) & _). exists s. split; [exact E|]. eapply Value_prec_ts; [exact M|exact Q].
    + destruct T as [T P]. destruct (moment_at (z * 10 ^ (9 - prec))) as (x & c & M).
      destruct (C61_precision_texts _ _ _ _ T P M) as (_ & _ & _ & (s & E & Q) & _). exists s. split; [exact E|]. eapply Value_prec_tstz; [exact M|exact Q].
    + destruct k; try contradiction. eexists. split; [reflexivity|]. constructor.
    + exists (decimal_text s scale). split; [|constructor; exact T]. cbn [TestPrintModel.value_string]. rewrite T. cbn [Nat.ltb Nat.leb].
      rewrite <- T at 1. rewrite firstn_all. reflexivity.
    + destruct p; try contradiction. eexists. split; [reflexivity|]. constructor; apply whole_text.
    + eexists. split; [reflexivity|]. constructor; apply whole_text.
Qed.

Lemma subseconds_ok : forall s p, 0 <= p <= 9 -> exists d, subseconds_to_duration s p = Ok d.
Proof.
  intros s p H. unfold subseconds_to_duration.
  repeat match goal with |- context [p =? ?k] => destruct (Z.eqb_spec p k); [eauto|] end. lia.
Qed.
Lemma subseconds_panic : forall s p, ~ (0 <= p <= 9) -> subseconds_to_duration s p = Panic.
Proof.
  intros s p H. unfold subseconds_to_duration.
  repeat match goal with |- context [p =? ?k] => destruct (Z.eqb_spec p k); [lia|] end. reflexivity.
Qed.
Lemma interval_prints : forall i p, (0 <= p <= 9 \/ id_secs i <= 0 /\ id_sub i <= 0) -> exists s, interval_day_iso (id_days i) (id_secs i) (id_sub i) p = Ok s.
Proof.
  intros i p H. unfold interval_day_iso. destruct ((0 <? id_secs i) || (0 <? id_sub i)) eqn:E; [|eauto].
  destruct H as [H|[H1 H2]].
  - destruct (subseconds_ok (id_sub i) p H) as (d & ->). eexists. reflexivity.
  - apply orb_true_iff in E. rewrite !Z.ltb_lt in E. lia.
Qed.
Lemma interval_panics : forall i p, ~ (0 <= p <= 9 \/ id_secs i <= 0 /\ id_sub i <= 0) -> interval_day_iso (id_days i) (id_secs i) (id_sub i) p = Panic.
Proof.
  intros i p H. unfold interval_day_iso. destruct ((0 <? id_secs i) || (0 <? id_sub i)) eqn:E.
  - rewrite subseconds_panic by tauto. reflexivity.
  - exfalso. apply H. right. apply orb_false_iff in E. rewrite !Z.ltb_ge in E. exact E.
Qed.

Lemma literal_texts : forall l, test_literal l -> printable l -> exists s, literal_text l = Ok s /\ prints_literal l s.
Proof.
  intros l T G. destruct (value_texts l T) as (s0 & E0 & P0).
  destruct l as [|t|v t|fs t|es t|kvs t|k bs t|v t|y m k|y m d se su pr k]; try contradiction.
  - injection E0 as <-. eexists. split; [reflexivity|]. apply Literal_plain; [constructor|exact P0].
  - destruct v; cbn [test_literal] in T; try contradiction; destruct t; try contradiction; try (destruct p; try contradiction); try (destruct k; try contradiction);
      unfold TestPrintModel.literal_text; cbn [lit_type bind iso_quoted text_quoted iso_value_string]; rewrite ?E0; cbn [bind];
      try (eexists; split; [reflexivity|]; apply Literal_plain; [constructor; cbn; tauto|exact P0]);
      try (eexists; split; [reflexivity|]; apply Literal_quoted; [constructor; cbn; tauto|exact P0]).
    + destruct (moment_at (z * 1000)) as (x & c & M). eexists. split; [reflexivity|]. eapply Literal_ts; [exact M|]. apply (C61_timestamp_texts _ _ _ T M).
    + destruct (moment_at (z * 1000)) as (x & c & M). eexists. split; [reflexivity|]. eapply Literal_time; [exact M|]. apply (C61_time_texts _ _ _ T M).
    + destruct (moment_at (z * 1000)) as (x & c & M). eexists. split; [reflexivity|]. eapply Literal_tstz; [exact M|]. apply (C61_timestamp_texts _ _ _ T M).
  - destruct t as [| | | | | | | | | | | |n0 v0 t0| |]; try contradiction. exists s0. unfold TestPrintModel.literal_text. cbn [lit_type bind iso_quoted text_quoted]. rewrite E0.
    split; [reflexivity|]. apply Literal_plain; [constructor|exact P0].
  - unfold TestPrintModel.literal_text. cbn [lit_type bind iso_value_string].
    destruct k; cbn [test_literal] in T; try contradiction; destruct t; try contradiction; [destruct p; try contradiction|destruct k; try contradiction];
      cbn [iso_quoted text_quoted]; rewrite E0; cbn [bind]; (eexists; split; [reflexivity|]; apply Literal_quoted; [constructor|exact P0]).
  - destruct v; cbn [test_literal] in T; try contradiction; destruct t; try contradiction; try (destruct p; try contradiction); try (destruct k; try contradiction);
      unfold TestPrintModel.literal_text; cbn [lit_type bind iso_quoted text_quoted iso_value_string]; rewrite ?E0; cbn [bind];
      try (eexists; split; [reflexivity|]; apply Literal_plain; [constructor; cbn; tauto|exact P0]);
      try (eexists; split; [reflexivity|]; apply Literal_quoted; [constructor; cbn; tauto|exact P0]).
    + destruct T as [T P]. destruct (moment_at (z * 10 ^ (9 - prec))) as (x & c & M).
      destruct (C61_precision_texts _ _ _ _ T P M) as ((s & _ & E & Q) & _). rewrite E. eexists. split; [reflexivity|]. eapply Literal_prec_time; [exact M|exact Q].
    + destruct T as [T P]. destruct (moment_at (z * 10 ^ (9 - prec))) as (x & c & M).
      destruct (C61_precision_texts _ _ _ _ T P M) as (_ & _ & (s & E & Q) & _). rewrite E. eexists. split; [reflexivity|]. eapply Literal_prec_ts; [exact M|exact Q].
    + destruct T as [T P]. destruct (moment_at (z * 10 ^ (9 - prec))) as (x & c & M).
      destruct (C61_precision_texts _ _ _ _ T P M) as (_ & _ & _ & _ & (s & E & Q)). rewrite E. eexists. split; [reflexivity|]. eapply Literal_prec_tstz; [exact M|exact Q].
    + eexists. split; [reflexivity|]. unfold quoted, print_interval_years_to_month.
      rewrite !append_assoc. cbn [append]. apply (Literal_year _ _ years months); apply whole_text.
    + cbn [printable] in G. destruct (interval_prints _ _ G) as (s & E). rewrite E. eexists. split; [reflexivity|]. constructor. exact E.
Qed.

Lemma literal_panics : forall l, test_literal l -> ~ printable l -> literal_text l = Panic.
Proof.
  intros l T G. destruct l as [|t|v t|fs t|es t|kvs t|k bs t|v t|y m k|y m d se su pr k]; try contradiction; try (exfalso; apply G; exact I).
  destruct v; try (exfalso; apply G; exact I). destruct t; try (exfalso; apply G; exact I).
  unfold TestPrintModel.literal_text. cbn [lit_type bind iso_quoted iso_value_string]. rewrite interval_panics by exact G. reflexivity.
Qed.
(** so printing fails only by a panic *)
Lemma literal_dec : forall l, test_literal l -> (exists s, literal_text l = Ok s /\ printable l) \/ (literal_text l = Panic /\ ~ printable l).
Proof.
  intros l T. assert (D : printable l \/ ~ printable l).
  { destruct l; try (left; exact I). destruct v; try (left; exact I). destruct t; try (left; exact I). cbn [printable]. lia. }
  destruct D as [G|G]; [left|right; split; [apply literal_panics|]; assumption]. destruct (literal_texts l T G) as (s & E & _). eauto.
Qed.

Lemma case_texts : forall c, Forall test_literal (shown_value c) -> Forall printable (shown_value c) ->
  exists s, case_text c = Ok s /\ prints_argument float_text decimal_text c s.
Proof.
  intros [t text [l|e]] T G; unfold shown_value in *; cbn [c_value] in *; unfold TestPrintModel.case_text; cbn [c_value c_type c_text].
  - inversion T as [|? ? T1 _]; subst. inversion G as [|? ? G1 _]; subst. destruct (literal_texts l T1 G1) as (s & E & P). rewrite E.
    eexists. split; [reflexivity|]. constructor. exact P.
  - eexists. split; [reflexivity|]. constructor.
Qed.
Lemma case_panics : forall c, Forall test_literal (shown_value c) -> ~ Forall printable (shown_value c) -> case_text c = Panic.
Proof.
  intros [t text [l|e]] T G; unfold shown_value in *; cbn [c_value] in *; unfold TestPrintModel.case_text; cbn [c_value c_type c_text].
  - inversion T as [|? ? T1 _]; subst. rewrite literal_panics; [reflexivity|exact T1|]. intros H. apply G. constructor; [exact H|constructor].
  - exfalso. apply G. constructor.
Qed.

Lemma printable_dec : forall l, Forall printable l \/ ~ Forall printable l.
Proof.
  intros l. assert (D : forall x, printable x \/ ~ printable x).
  { intros x. destruct x; try (left; exact I). destruct v; try (left; exact I). destruct t; try (left; exact I). cbn [printable]. lia. }
  induction l as [|x l [IH|IH]]; [left; constructor| |right; intros H; inversion H; auto].
  destruct (D x); [left; constructor; assumption|right; intros H'; inversion H'; auto].
Qed.

(** a list of texts, each of which shows some literals *)
Lemma mapM_texts : forall A (f : A -> res string) (P : A -> string -> Prop) (shows : A -> list lit) l,
  (forall x, In x l -> Forall printable (shows x) -> exists s, f x = Ok s /\ P x s) ->
  Forall printable (flat_map shows l) -> exists ws, mapM f l = Ok ws /\ Forall2 P l ws.
Proof.
  induction l as [|x l IH]; intros H G; [exists []; split; [reflexivity|constructor]|]. cbn [flat_map] in G. apply Forall_app in G. destruct G as [G1 G2].
  destruct (H x (or_introl eq_refl) G1) as (s & E & Q). destruct IH as (ws & E' & Q'); [intros y I; apply H; right; exact I|exact G2|].
  exists (s :: ws). cbn [mapM]. rewrite E, E'. split; [reflexivity|constructor; assumption].
Qed.
Lemma mapM_panics : forall A (f : A -> res string) (P : A -> string -> Prop) (shows : A -> list lit) l,
  (forall x, In x l -> Forall printable (shows x) -> exists s, f x = Ok s /\ P x s) ->
  (forall x, In x l -> ~ Forall printable (shows x) -> f x = Panic) ->
  ~ Forall printable (flat_map shows l) -> mapM f l = Panic.
Proof.
  induction l as [|x l IH]; intros H H' G; [exfalso; apply G; constructor|]. cbn [flat_map] in G. cbn [mapM].
  destruct (printable_dec (shows x)) as [G1|G1].
  - destruct (H x (or_introl eq_refl) G1) as (s & E & _). rewrite E. cbn [bind]. rewrite IH; [reflexivity| | |].
    + intros y I. apply H. right. exact I.
    + intros y I. apply H'. right. exact I.
    + intros F. apply G. apply Forall_app. auto.
  - rewrite (H' x (or_introl eq_refl) G1). reflexivity.
Qed.

(** what the arguments of aggregate functions are like that are read *)
Inductive sound_agg : aggarg -> Prop :=
| Sound_constant c table col t i : Forall test_literal (shown_value c) -> sound_agg (AggArg (Some c) table col t i true)
| Sound_column c table col t i : c = None -> col <> "" -> sound_agg (AggArg c table col (Some t) i false)
| Sound_values t text es lt table ct i : Forall test_literal es -> sound_agg (AggArg (Some (Case t text (CLit (LList es lt)))) table "" ct i false).

Lemma literals_texts : forall es, Forall test_literal es -> Forall printable es -> exists ws, mapM literal_text es = Ok ws /\ Forall2 prints_literal es ws.
Proof.
  intros es T G. apply (mapM_texts _ _ _ (fun l => [l])).
  - intros x I G1. rewrite Forall_forall in T. inversion G1; subst. apply literal_texts; auto.
  - assert (E : flat_map (fun l => [l]) es = es) by (clear; induction es; cbn; congruence). rewrite E. exact G.
Qed.
Lemma literals_panic : forall es, Forall test_literal es -> ~ Forall printable es -> mapM literal_text es = Panic.
Proof.
  intros es T G. rewrite Forall_forall in T. apply (mapM_panics _ _ prints_literal (fun l => [l])).
  - intros x I G1. inversion G1; subst. apply literal_texts; auto.
  - intros x I G1. apply literal_panics; auto.
  - assert (E : flat_map (fun l => [l]) es = es) by (clear; induction es; cbn; congruence). rewrite E. exact G.
Qed.

Lemma agg_texts : forall a, sound_agg a -> Forall printable (shown_aggregate a) -> exists s, aggarg_text a = Ok s /\ prints_aggregate float_text decimal_text a s.
Proof.
  intros a S G. destruct S as [c table col t i T|c table col t i N C|t text es lt table ct i T]; unfold shown_aggregate in G; cbn [a_arg a_scalar c_value] in G;
    unfold TestPrintModel.aggarg_text; cbn [a_arg a_scalar a_column a_type].
  - destruct (case_texts c T G) as (s & E & P). exists s. split; [exact E|constructor; exact P].
  - apply String.eqb_neq in C. rewrite C. apply String.eqb_neq in C. eexists. split; [reflexivity|constructor; exact C].
  - cbn [String.eqb]. unfold aggregate_argument_text. cbn [c_value c_type]. destruct (literals_texts es T G) as (ws & E & P). rewrite E. eexists. split; [reflexivity|].
    econstructor; [exact P|apply joined].
Qed.
Lemma agg_panics : forall a, sound_agg a -> ~ Forall printable (shown_aggregate a) -> aggarg_text a = Panic.
Proof.
  intros a S G. destruct S as [c table col t i T|c table col t i N C|t text es lt table ct i T]; unfold shown_aggregate in G; cbn [a_arg a_scalar c_value] in G;
    unfold TestPrintModel.aggarg_text; cbn [a_arg a_scalar a_column a_type].
  - apply case_panics; assumption.
  - subst c. exfalso. apply G. constructor.
  - cbn [String.eqb]. unfold aggregate_argument_text. cbn [c_value c_type]. rewrite (literals_panic es T G). reflexivity.
Qed.

Lemma outcome_texts : forall o, Forall test_literal (match o with OValue c => shown_value c | _ => [] end) ->
  Forall printable (match o with OValue c => shown_value c | _ => [] end) -> exists s, outcome_text o = Ok s /\ prints_outcome float_text decimal_text o s.
Proof.
  intros [c| |] T G; [|eexists; split; [reflexivity|constructor]|eexists; split; [reflexivity|constructor]].
  destruct (case_texts c T G) as (s & E & P). exists s. split; [exact E|constructor; exact P].
Qed.
Lemma outcome_panics : forall o, Forall test_literal (match o with OValue c => shown_value c | _ => [] end) ->
  ~ Forall printable (match o with OValue c => shown_value c | _ => [] end) -> outcome_text o = Panic.
Proof. intros [c| |] T G; [|exfalso; apply G; constructor|exfalso; apply G; constructor]. apply case_panics; assumption. Qed.

(** tables *)
Definition cell (i : nat) (col : list lit) : list lit := match nth_error col i with Some l => [l] | None => [] end.
Definition rectangular (columns : list (list lit)) : Prop :=
  match columns with [] => True | c :: cs => Forall (fun col => List.length col = List.length c) cs end.

Lemma row_texts : forall cols i, Forall (fun col => (i < List.length col)%nat) cols -> Forall (Forall test_literal) cols -> Forall printable (flat_map (cell i) cols) ->
  exists s, row_text float_text decimal_text other_text cols i = Ok s /\ prints_row float_text decimal_text cols i s.
Proof.
  intros cols i L T G.
  assert (H : exists cells ws, mapM (fun col => match nth_error col i with Some l => literal_text l | None => Panic end) cols = Ok ws /\
    Forall2 (fun col cell => nth_error col i = Some cell) cols cells /\ Forall2 prints_literal cells ws).
  { induction cols as [|col cols IH]; [exists [], []; repeat split; constructor|].
    inversion L as [|? ? L1 L2]; subst. inversion T as [|? ? T1 T2]; subst. cbn [flat_map] in G. apply Forall_app in G. destruct G as [G1 G2].
    destruct (IH L2 T2 G2) as (cells & ws & E & F1 & F2). destruct (nth_error col i) as [l|] eqn:N; [|apply nth_error_None in N; lia].
    unfold cell in G1. rewrite N in G1. inversion G1 as [|? ? G3 _]; subst.
    destruct (literal_texts l) as (s & E1 & P); [rewrite Forall_forall in T1; apply T1; eapply nth_error_In; exact N|exact G3|].
    exists (l :: cells), (s :: ws). cbn [mapM]. rewrite N, E1, E. repeat split; constructor; assumption. }
  destruct H as (cells & ws & E & F1 & F2). unfold row_text. rewrite E. eexists. split; [reflexivity|]. econstructor; [exact F1|exact F2|apply joined].
Qed.
Lemma row_panics : forall cols i, Forall (Forall test_literal) cols -> ~ Forall printable (flat_map (cell i) cols) ->
  row_text float_text decimal_text other_text cols i = Panic.
Proof.
  intros cols i T G. unfold row_text.
  assert (H : mapM (fun col => match nth_error col i with Some l => literal_text l | None => Panic end) cols = Panic); [|rewrite H; reflexivity].
  induction cols as [|col cols IH]; [exfalso; apply G; constructor|]. inversion T as [|? ? T1 T2]; subst. cbn [mapM]. cbn [flat_map] in G. unfold cell at 1 in G.
  destruct (nth_error col i) as [l|] eqn:N; [|reflexivity].
  destruct (literal_dec l) as [(s & E & P)|(E & P)]; [rewrite Forall_forall in T1; apply T1; eapply nth_error_In; exact N| |]; rewrite E; [|reflexivity].
  cbn [bind]. rewrite IH; [reflexivity|exact T2|]. intros H. apply G. apply Forall_app. split; [constructor; [exact P|constructor]|exact H].
Qed.

Lemma cells_all : forall cols n, Forall (fun col => List.length col = n) cols ->
  Forall printable (flat_map (fun i => flat_map (cell i) cols) (seq 0 n)) <-> Forall printable (List.concat cols).
Proof.
  intros cols n L. rewrite !Forall_forall. split; intros H x I.
  - apply in_concat in I. destruct I as (col & I1 & I2). apply In_nth_error in I2. destruct I2 as (i & N). apply H. apply in_flat_map. exists i. split.
    + rewrite Forall_forall in L. rewrite <- (L col I1). apply in_seq. split; [lia|]. cbn. apply nth_error_Some. congruence.
    + apply in_flat_map. exists col. split; [exact I1|]. unfold cell. rewrite N. left. reflexivity.
  - apply in_flat_map in I. destruct I as (i & _ & I). apply in_flat_map in I. destruct I as (col & I1 & I2). apply H. apply in_concat. exists col. split; [exact I1|].
    unfold cell in I2. destruct (nth_error col i) eqn:N; [|contradiction]. destruct I2 as [<-|[]]. eapply nth_error_In. exact N.
Qed.

Lemma rectangular_lengths : forall c cs, rectangular (c :: cs) -> Forall (fun col => List.length col = List.length c) (c :: cs).
Proof. intros c cs R. constructor; [reflexivity|exact R]. Qed.
Lemma concat_test : forall cols, Forall test_literal (List.concat cols) -> Forall (Forall test_literal) cols.
Proof. induction cols as [|c cols IH]; intros H; [constructor|]. cbn [List.concat] in H. apply Forall_app in H. destruct H. constructor; auto. Qed.

Lemma table_texts : forall cols, rectangular cols -> Forall test_literal (List.concat cols) -> Forall printable (List.concat cols) ->
  exists s, table_text cols = Ok s /\ prints_table float_text decimal_text cols s.
Proof.
  intros [|c cs] R T G; [exists ""; split; [reflexivity|constructor]|]. apply rectangular_lengths in R. apply concat_test in T.
  apply (cells_all _ _ R) in G. unfold TestPrintModel.table_text.
  destruct (mapM_texts _ (row_text float_text decimal_text other_text (c :: cs)) (prints_row float_text decimal_text (c :: cs)) (fun i => flat_map (cell i) (c :: cs)) (seq 0 (List.length c)))
    as (ws & E & F); [|exact G|].
  - intros i I H. apply in_seq in I. apply row_texts; [|exact T|exact H]. eapply Forall_impl; [|exact R]. cbn. intros col L. lia.
  - rewrite E. eexists. split; [reflexivity|]. econstructor; [| |apply joined].
    + pose proof (Forall2_length' _ _ _ _ _ F) as X. rewrite seq_length in X. symmetry. exact X.
    + intros i w N.
      assert (N0 := N). assert (Q := forall2_nth' _ _ _ _ _ F i). rewrite N in Q.
      destruct (nth_error (seq 0 (List.length c)) i) as [j|] eqn:S0; [|contradiction].
      assert (i < List.length c)%nat by (rewrite <- (seq_length (List.length c) 0); apply nth_error_Some; congruence).
      apply (nth_error_nth _ _ O) in S0. rewrite seq_nth in S0 by assumption. cbn in S0. subst j. exact Q.
Qed.
Lemma table_panics : forall cols, rectangular cols -> Forall test_literal (List.concat cols) -> ~ Forall printable (List.concat cols) -> table_text cols = Panic.
Proof.
  intros [|c cs] R T G; [exfalso; apply G; constructor|]. apply rectangular_lengths in R. apply concat_test in T.
  unfold TestPrintModel.table_text.
  rewrite (mapM_panics _ (row_text float_text decimal_text other_text (c :: cs)) (prints_row float_text decimal_text (c :: cs)) (fun i => flat_map (cell i) (c :: cs)) (seq 0 (List.length c))).
  - reflexivity.
  - intros i I H. apply in_seq in I. apply row_texts; [|exact T|exact H]. eapply Forall_impl; [|exact R]. cbn. intros col L. lia.
  - intros i I H. apply row_panics; assumption.
  - intros H. apply G. apply (cells_all _ _ R). exact H.
Qed.

(** whole cases *)
Record sound_case (k : tcase) : Prop := {
  sc_literals : Forall test_literal (shown k);
  sc_agg : Forall sound_agg (k_aggargs k);
  sc_columns : rectangular (k_columns k);
  sc_scalar : k_aggregate k = false -> k_aggargs k = [] /\ k_columns k = [];
  sc_aggregate : k_aggregate k = true -> k_args k = [] /\ (one_column k -> k_columns k = []) }.

Lemma compact_iff : forall k, compact k = false <-> one_column k.
Proof.
  intros k. unfold compact, one_column. destruct (k_aggargs k) as [|a l]; [split; [discriminate|intros [H _]; congruence]|].
  split.
  - intros E. split; [discriminate|]. apply Forall_forall. intros x I.
    assert (X : a_scalar x || negb (String.eqb (a_column x) "") = false).
    { destruct (a_scalar x || negb (String.eqb (a_column x) "")) eqn:X; [|reflexivity]. rewrite <- E. symmetry. apply existsb_exists. eauto. }
    apply orb_false_iff in X. destruct X as [X1 X2]. apply negb_false_iff, String.eqb_eq in X2. auto.
  - intros [_ F]. destruct (existsb _ (a :: l)) eqn:E; [|reflexivity]. apply existsb_exists in E. destruct E as (x & I & X).
    rewrite Forall_forall in F. destruct (F x I) as [S C]. rewrite S, C in X. discriminate.
Qed.
Lemma option_texts : forall order, prints_options order (option_text order).
Proof. intros [|o os]; [constructor|]. unfold option_text. constructor. apply joined. Qed.

Lemma shown_parts : forall (P : lit -> Prop) k, Forall P (shown k) <->
  Forall P (flat_map shown_value (k_args k)) /\ Forall P (flat_map shown_aggregate (k_aggargs k)) /\ Forall P (List.concat (k_columns k)) /\
  Forall P (match k_result k with OValue c => shown_value c | _ => [] end).
Proof. intros P k. unfold shown. rewrite !Forall_app. tauto. Qed.

Lemma args_test : forall cs, Forall test_literal (flat_map shown_value cs) -> forall c, In c cs -> Forall test_literal (shown_value c).
Proof.
  intros cs H c I. rewrite Forall_forall in *. intros x X. apply H. apply in_flat_map. eauto.
Qed.

Lemma case_strings : forall k order, sound_case k -> Forall printable (shown k) ->
  exists s, case_string order k = Ok s /\ prints_case float_text decimal_text order k s.
Proof.
  intros k order S G. destruct S as [T A R Sc Ag]. apply shown_parts in T. destruct T as (T1 & _ & T3 & T4). apply shown_parts in G. destruct G as (G1 & G2 & G3 & G4).
  destruct (outcome_texts _ T4 G4) as (r & ER & PR). unfold TestPrintModel.case_string. destruct (k_aggregate k) eqn:K.
  - destruct (mapM_texts _ aggarg_text (prints_aggregate float_text decimal_text) shown_aggregate (k_aggargs k)) as (ws & E & F); [|exact G2|].
    { intros a I H. apply agg_texts; [|exact H]. rewrite Forall_forall in A. auto. }
    rewrite E, ER. destruct (compact k) eqn:C; cbn [andb bind].
    + destruct (table_texts _ R T3 G3) as (t & ET & PT). rewrite ET. cbn [bind]. eexists. split; [reflexivity|]. rewrite !append_assoc. apply On_table with (ws := ws); auto.
      * intros H. apply compact_iff in H. congruence.
      * apply joined.
      * apply option_texts.
    + eexists. split; [reflexivity|]. apply (One_column float_text decimal_text order k ws); auto; [apply compact_iff; exact C|apply joined|apply option_texts].
  - destruct (mapM_texts _ case_text (prints_argument float_text decimal_text) shown_value (k_args k)) as (ws & E & F); [|exact G1|].
    { intros c I H. apply case_texts; [apply (args_test _ T1); exact I|exact H]. }
    rewrite E, ER. cbn [andb bind]. eexists. split; [reflexivity|]. apply (Scalar float_text decimal_text order k ws); auto; [apply joined|apply option_texts].
Qed.

Lemma case_string_panics : forall k order, sound_case k -> ~ Forall printable (shown k) -> case_string order k = Panic.
Proof.
  intros k order S G. destruct S as [T A R Sc Ag]. apply shown_parts in T. destruct T as (T1 & T2 & T3 & T4). rewrite shown_parts in G.
  assert (OR : forall o, outcome_text (k_result k) = o -> (exists r, o = Ok r) /\ Forall printable (match k_result k with OValue c => shown_value c | _ => [] end) \/ o = Panic).
  { intros o <-. destruct (printable_dec (match k_result k with OValue c => shown_value c | _ => [] end)) as [D|D];
      [left; split; [destruct (outcome_texts _ T4 D) as (r & E & _); eauto|exact D]|right; apply outcome_panics; assumption]. }
  unfold TestPrintModel.case_string. destruct (k_aggregate k) eqn:K.
  - destruct (Ag eq_refl) as [NA OC].
    assert (OA : forall o, mapM aggarg_text (k_aggargs k) = o -> (exists r, o = Ok r) /\ Forall printable (flat_map shown_aggregate (k_aggargs k)) \/ o = Panic).
    { intros o <-. rewrite Forall_forall in A. destruct (printable_dec (flat_map shown_aggregate (k_aggargs k))) as [D|D].
      - left. split; [|exact D]. destruct (mapM_texts _ aggarg_text (prints_aggregate float_text decimal_text) shown_aggregate (k_aggargs k)) as (ws & E & _); [|exact D|eauto].
        intros a I H. apply agg_texts; auto.
      - right. apply (mapM_panics _ _ (prints_aggregate float_text decimal_text) shown_aggregate); [| |exact D]; intros a I H; [apply agg_texts|apply agg_panics]; auto. }
    destruct (compact k) eqn:C; cbn [andb].
    + destruct (printable_dec (List.concat (k_columns k))) as [D|D]; [|rewrite (table_panics _ R T3 D); reflexivity].
      destruct (table_texts _ R T3 D) as (t & -> & _). cbn [bind].
      destruct (OA _ eq_refl) as [((x & ->) & D2)| ->]; [|reflexivity]. cbn [bind]. destruct (OR _ eq_refl) as [((y & ->) & D3)| ->]; [|reflexivity].
      exfalso. apply G. rewrite NA. repeat split; auto. constructor.
    + cbn [bind]. destruct (OA _ eq_refl) as [((x & ->) & D2)| ->]; [|reflexivity]. cbn [bind]. destruct (OR _ eq_refl) as [((y & ->) & D3)| ->]; [|reflexivity].
      exfalso. apply G. rewrite NA, OC by (apply compact_iff; exact C). repeat split; auto; constructor.
  - destruct (Sc eq_refl) as [N1 N2]. cbn [andb bind].
    destruct (printable_dec (flat_map shown_value (k_args k))) as [D|D].
    + destruct (mapM_texts _ case_text (prints_argument float_text decimal_text) shown_value (k_args k)) as (ws & E & _); [|exact D|].
      { intros c I H. apply case_texts; [apply (args_test _ T1); exact I|exact H]. }
      rewrite E. cbn [bind]. destruct (OR _ eq_refl) as [((y & ->) & D3)| ->]; [|reflexivity].
      exfalso. apply G. rewrite N1, N2. repeat split; auto; constructor.
    + rewrite (mapM_panics _ case_text (prints_argument float_text decimal_text) shown_value); [reflexivity| | |exact D].
      * intros c I H. apply case_texts; [apply (args_test _ T1); exact I|exact H].
      * intros c I H. apply case_panics; [apply (args_test _ T1); exact I|exact H].
Qed.
End Print.
