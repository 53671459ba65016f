(** C69: what test cases print. *)

From Coq Require Import ZArith String Ascii Bool Lia Permutation List.
From Verif Require Import Base FMap TypesModel SigModel DecimalSpec LitModel TimeModel TimeSpec TimeProofs TimeProps CalModel CalSpec CalProofs CalTextProofs CalPrintProofs CalProps
  IntervalModel IntervalSpec IntervalProps TextSpec DecTextSpec TestCaseModel TestCaseSpec TestCaseProofs TestCaseProps TestPrintModel TestPrintSpec TestPrintProofs TestPrintReadProofs TestPrintOneProofs.
Import ListNotations.
Local Open Scope string_scope.
Local Open Scope Z_scope.

Section Print.
Variable parse_float : string -> res Z.
Variable to_float32 : Z -> Z.
Variable float_text : Z -> string.
Variable decimal_text : list Z -> Z -> string.
Variable other_text : lit -> string.
Notation parse_doc := (parse_doc parse_float to_float32).
Notation read_typed_arg := (read_typed_arg parse_float to_float32).
Notation arg_says := (arg_says parse_float to_float32).
Notation value_string := (value_string float_text decimal_text other_text).
Notation literal_text := (literal_text float_text decimal_text other_text).
Notation case_text := (case_text float_text decimal_text other_text).
Notation case_string := (case_string float_text decimal_text other_text).
Notation prints_value := (prints_value float_text decimal_text).
Notation prints_literal := (prints_literal float_text decimal_text).
Notation prints_case := (prints_case float_text decimal_text).

(** The value text of a literal of the kinds of test cases, to the letter. *)
Theorem C69_value : forall l s, test_literal l -> value_string l = Ok s <-> prints_value l s.
Proof.
  intros l s T. destruct (value_texts float_text decimal_text other_text l T) as (s0 & E & P). split.
  - intros H. rewrite E in H. injection H as <-. exact P.
  - intros H. rewrite E. f_equal. eapply (value_one _ _ (S (lit_size l)) l); [apply Nat.lt_succ_diag_r|exact P|exact H].
Qed.
Theorem C69_value_total : forall l, test_literal l -> exists s, value_string l = Ok s.
Proof. intros l T. destruct (value_texts float_text decimal_text other_text l T) as (s & E & _). eauto. Qed.

(** ... and its text in a test case. *)
Theorem C69_literal : forall l s, test_literal l -> printable l -> literal_text l = Ok s <-> prints_literal l s.
Proof.
  intros l s T P. destruct (literal_texts float_text decimal_text other_text l T P) as (s0 & E & H0). split.
  - intros H. rewrite E in H. injection H as <-. exact H0.
  - intros H. rewrite E. f_equal. eapply literal_one; eassumption.
Qed.

(** Every test case that is read prints its name, arguments, options and result, whatever order its options come in, and an aggregate
    function on a table the table before it - unless it shows a day-time interval of a precision there is no unit for. *)
Theorem C69_case : forall d f k order s, parse_doc d = Ok f -> In k (f_cases f) -> Forall printable (shown k) ->
  case_string order k = Ok s <-> prints_case order k s.
Proof.
  intros d f k order s E I P. pose proof (file_sound _ _ _ _ E) as S. rewrite Forall_forall in S.
  destruct (case_strings float_text decimal_text other_text k order (S _ I) P) as (s0 & E0 & H0). split.
  - intros H. rewrite E0 in H. injection H as <-. exact H0.
  - intros H. rewrite E0. f_equal. eapply case_one; eassumption.
Qed.
Theorem C69_printed : forall d f k order, parse_doc d = Ok f -> In k (f_cases f) ->
  (Forall printable (shown k) -> exists s, case_string order k = Ok s) /\ (~ Forall printable (shown k) -> case_string order k = Panic).
Proof.
  intros d f k order E I. pose proof (file_sound _ _ _ _ E) as S. rewrite Forall_forall in S. split; intros P.
  - destruct (case_strings float_text decimal_text other_text k order (S _ I) P) as (s0 & E0 & _). eauto.
  - apply case_string_panics; auto.
Qed.
(** What a case shows is what was read. *)
Theorem C69_shown : forall d f k, parse_doc d = Ok f -> In k (f_cases f) -> Forall test_literal (shown k).
Proof. intros d f k E I. pose proof (file_sound _ _ _ _ E) as S. rewrite Forall_forall in S. apply (S _ I). Qed.

Lemma options_nodup : forall o, NoDup (map fst (read_options o)).
Proof.
  intros [ps|]; [|constructor]. cbn [read_options].
  assert (G : forall m : fmap string string, NoDup (map fst m) -> NoDup (map fst (fold_left (fun m p => fm_set String.eqb (fst p) (snd p) m) ps m))).
  { induction ps as [|[k v] ps IH]; intros m H; [exact H|]. cbn [fold_left fst snd]. apply IH. unfold fm_set. cbn [map fst]. unfold fm_del. constructor.
    - rewrite in_map_iff. intros ([a b] & E & I). cbn in E. subst a. apply filter_In in I. destruct I as [_ I]. cbn in I. rewrite String.eqb_refl in I. discriminate.
    - clear -H. induction m as [|[a b] m IH]; [constructor|]. inversion H as [|? ? H1 H2]; subst. cbn [filter fst]. destruct (negb _); [|apply IH; exact H2].
      cbn [map fst]. constructor; [|apply IH; exact H2]. intros I. apply H1. rewrite in_map_iff in I. destruct I as (x & <- & I). apply filter_In in I. apply in_map. tauto. }
  apply G. constructor.
Qed.
Lemma file_options : forall d f k, parse_doc d = Ok f -> In k (f_cases f) -> NoDup (map fst (k_options k)).
Proof.
  intros d f k E. unfold TestCaseModel.parse_doc in E. destruct (read_doc parse_float to_float32 d) as [f'| |] eqn:R; [injection E as <-|discriminate|discriminate]. unfold read_doc in R.
  destruct (d_includes d) as [|inc incs]; [discriminate|]. apply bind_inv in R. destruct R as (gs & R & R'). injection R' as <-. cbn [f_cases].
  apply mapM_forall2 in R. induction R as [|g ks gs' kss H F IH]; [intros []|]. cbn [List.concat]. intros I. apply in_app_or in I. destruct I as [I|I]; [|apply IH; exact I].
  destruct g as [[desc|] cases|[desc|] cases]; cbn [read_group] in H; try discriminate; destruct (d_aggregate d); try discriminate; apply mapM_forall2 in H; clear -H I;
    (induction H as [|x k' cases ks H F IH]; [destruct I|]; destruct I as [->|I]; [|apply IH; exact I]).
  - destruct x as [[[name args] opts] r]. unfold read_case in H. apply bind_inv in H. destruct H as (cs & _ & H). apply bind_inv in H. destruct H as (o & _ & H). injection H as <-. apply options_nodup.
  - destruct x as [[call opts] r]. unfold read_agg_case in H. apply bind_inv in H. destruct H as ([[[[name args] cols] table] ts] & _ & H). apply bind_inv in H. destruct H as (o & _ & H). injection H as <-. apply options_nodup.
Qed.
Lemma options_back : forall (m : fmap string string) order, Permutation order m -> NoDup (map fst m) -> forall n, fm_get String.eqb n (read_options (Some order)) = fm_get String.eqb n m.
Proof.
  intros m order P N n. assert (N' : NoDup (map fst order)) by (eapply Permutation_NoDup; [apply Permutation_sym, Permutation_map, P|exact N]).
  assert (K : forall l : fmap string string, NoDup (map fst l) -> forall v, fm_get String.eqb n l = Some v <-> In (n, v) l).
  { induction l as [|[k w] l IH]; intros D v; [cbn; split; [discriminate|intros []]|]. inversion D as [|? ? D1 D2]; subst. cbn [fm_get]. cbn [In]. destruct (String.eqb_spec n k) as [->|Q].
    - split; [intros [= ->]; auto|]. intros [[= ->]|H]; [reflexivity|]. exfalso. apply D1. apply in_map_iff. exists (k, v). auto.
    - rewrite IH by assumption. split; [auto|]. intros [[= -> _]|H]; [congruence|exact H]. }
  assert (R : forall v, fm_get String.eqb n (read_options (Some order)) = Some v <-> In (n, v) order).
  { intros v. rewrite (read_options_says (Some order) n v). split.
    - intros (ps & [= <-] & b & a & -> & _). apply in_or_app. right. left. reflexivity.
    - intros H. exists order. split; [reflexivity|]. apply in_split in H. destruct H as (b & a & ->). exists b, a. split; [reflexivity|].
      intros u U. rewrite map_app in N'. cbn [map fst] in N'. apply NoDup_remove_2 in N'. apply N'. apply in_or_app. right. apply in_map_iff. exists (n, u). auto. }
  assert (Q : forall v, fm_get String.eqb n (read_options (Some order)) = Some v <-> fm_get String.eqb n m = Some v).
  { intros v. rewrite R, (K m N). split; apply Permutation_in; [exact P|apply Permutation_sym; exact P]. }
  destruct (fm_get String.eqb n m) as [v|] eqn:E.
  - apply Q. reflexivity.
  - destruct (fm_get String.eqb n (read_options (Some order))) as [v|] eqn:E'; [|reflexivity]. symmetry. exact (proj1 (Q v) eq_refl).
Qed.

(** The options of a case, printed in any order, are read as the same options. *)
Theorem C69_options : forall d f k order, parse_doc d = Ok f -> In k (f_cases f) -> Permutation order (k_options k) ->
  forall n, fm_get String.eqb n (read_options (Some order)) = fm_get String.eqb n (k_options k).
Proof. intros d f k order E I P. apply options_back; [exact P|]. eapply file_options; eassumption. Qed.

(** ** reading an argument back *)

Lemma with_quotes : forall s, Forall (fun c => c <> "'"%char) (chars s) -> unquoted ("'" ++ s ++ "'") s.
Proof.
  intros s F. apply (Trimmed _ "'" s "'"); [constructor; [reflexivity|constructor]|constructor; [reflexivity|constructor]|]. split.
  - intros c r ->. inversion F; assumption.
  - intros c r ->. rewrite chars_app in F. apply Forall_app in F. destruct F as [_ F]. inversion F; assumption.
Qed.
Lemma bare_quotes : forall text s, unquoted text s -> unquoted ("'" ++ s ++ "'") s.
Proof. intros text s H. inversion H as [a r b A B R]; subst. apply (Trimmed _ "'" s "'"); [constructor; [reflexivity|constructor]|constructor; [reflexivity|constructor]|exact R]. Qed.

Definition plain (s : string) : Prop := Forall (fun c => c <> "'"%char) (chars s).
Lemma plain_app : forall a b, plain a -> plain b -> plain (a ++ b).
Proof. intros a b A B. unfold plain. rewrite chars_app. apply Forall_app. auto. Qed.
Lemma plain_number : forall k z s, number k z s -> plain s.
Proof.
  induction 1 as [|k z s d N IH D]; [constructor|]. apply plain_app; [exact IH|]. constructor; [|constructor].
  assert (d = 0 \/ d = 1 \/ d = 2 \/ d = 3 \/ d = 4 \/ d = 5 \/ d = 6 \/ d = 7 \/ d = 8 \/ d = 9) as Q by lia.
  decompose [or] Q; subst; discriminate.
Qed.
Ltac plain := repeat first [apply plain_app | (repeat constructor; discriminate) | (eapply plain_number; eassumption)].
Lemma plain_padded : forall w z s, padded w z s -> plain s.
Proof. intros w z s [z' s' N|k z' s' _ _ N]; eapply plain_number; exact N. Qed.
Lemma plain_whole : forall z, plain (string_of_Z z).
Proof. intros z. destruct (whole_text z) as [z s P|z s _ P]; [|apply plain_app; [repeat constructor; discriminate|]]; eapply plain_padded; exact P. Qed.
Lemma plain_date : forall v x s, prints_date v x s -> plain s.
Proof.
  intros v x s [y m d ys ms ds Y M D]. assert (plain ys) by (destruct Y as [y s' P|y s' _ P]; [|apply plain_app; [repeat constructor; discriminate|]]; eapply plain_padded; exact P).
  apply plain_app; [assumption|]. plain.
Qed.
Lemma plain_clock : forall (P : Z -> string -> Prop) c s, (forall n t, P n t -> plain t) -> prints_clock P c s -> plain s.
Proof. intros P c s F [h m d ns hs ms ss fs H M S E]. apply F in E. plain. assumption. Qed.
Lemma plain_stamp : forall sep (P : Z -> string -> Prop) zone x c s, (forall n t, P n t -> plain t) -> plain sep -> plain zone -> prints_stamp sep P zone x c s -> plain s.
Proof. intros sep P zone x c s F S Z [x' c' ds cs D C]. apply plain_date in D. apply (plain_clock _ _ _ F) in C. repeat apply plain_app; assumption. Qed.
Lemma plain_shortest : forall n t, shortest n t -> plain t.
Proof. intros n t [|k v ds _ N _]; plain. Qed.
Lemma plain_frac : forall k n t, frac_of k n t -> plain t.
Proof. intros k n t [n' ds N]. plain. Qed.
Lemma plain_interval : forall text x, says_interval text x -> plain text.
Proof.
  assert (PA : forall l z a, plain l -> part l z a -> plain a) by (intros l z a L [|k z' ds N]; [constructor|apply plain_app; [eapply plain_number; exact N|exact L]]).
  assert (PS : forall e v k, says_seconds e v k -> plain e) by (intros e v k [|k' v' ds N|k' j v' w ds fs N N']; [constructor|plain|plain]).
  intros text x [d a A|d h m v k a b c e A B C E].
  - apply plain_app; [repeat constructor; discriminate|]. eapply (PA "D"); [repeat constructor; discriminate|exact A].
  - apply PA in A; [|repeat constructor; discriminate]. apply PA in B; [|repeat constructor; discriminate]. apply PA in C; [|repeat constructor; discriminate]. apply PS in E. plain; assumption.
Qed.


Lemma whole_says : forall z, in_int 64 z -> whole_number (string_of_Z z) z.
Proof. intros z H. apply atoi_iff. apply atoi_string_of_Z. exact H. Qed.
Lemma in_smaller : forall b z, 0 < b <= 64 -> in_int b z -> in_int 64 z.
Proof.
  intros b z B H. unfold in_int in *. assert (2 ^ (b - 1) <= 2 ^ (64 - 1)) by (apply Z.pow_le_mono_r; lia). lia.
Qed.
Lemma parsed_int32 : forall s d sec ss p, parse_interval_days s = Ok (d, sec, ss, p) -> in_int 32 d /\ in_int 32 sec.
Proof.
  intros s d sec ss p E. unfold parse_interval_days in E. destruct (Nat.ltb _ _); [discriminate|]. destruct (match_interval s) as [[[[[ds hs] ms] sss] fs]|]; [|discriminate].
  apply bind_inv in E. destruct E as (d0 & _ & E). apply bind_inv in E. destruct E as (h0 & _ & E). apply bind_inv in E. destruct E as (m0 & _ & E). apply bind_inv in E. destruct E as (f0 & _ & E).
  injection E as E. unfold split_interval in E. cbv zeta in E. destruct (_ <? _); injection E as <- <- _ _; split; apply wrap_range; lia.
Qed.
Lemma interval_back : forall i p, in_int 32 (id_days i) -> in_int 32 (id_secs i) ->
  id_sub i = 0 -> 0 <= id_days i -> (0 < id_secs i /\ 0 <= p <= 9 \/ id_secs i = 0 /\ 0 < id_days i) ->
  exists s q, interval_day_iso (id_days i) (id_secs i) (id_sub i) p = Ok s /\ plain s /\ parse_interval_days s = Ok (id_days i, id_secs i, 0, q).
Proof.
  intros i p D S SS ND [[NS P]|[S0 DD]].
  - assert (St : storable (Stored (id_days i) (id_secs i) (id_sub i) p)) by (rewrite SS; unfold storable; cbn [sv_prec sv_days sv_secs sv_sub]; split; [exact P|split; [exact D|split; [exact S|vm_compute; discriminate]]]).
    assert (TN : time_nanos (Stored (id_days i) (id_secs i) (id_sub i) p) = id_secs i * 10 ^ 9) by (unfold time_nanos, sub_nanos; cbn [sv_secs sv_sub sv_prec]; rewrite SS; lia).
    assert (B : 10 ^ 9 <= id_secs i * 10 ^ 9 < 2 ^ 31 * 10 ^ 9) by (unfold in_int in S; change (2 ^ (32 - 1)) with 2147483648 in S; change (2 ^ 31) with 2147483648; change (10 ^ 9) with 1000000000; lia).
    rewrite <- TN in B. destruct (C62_round_trip _ St ND B) as (text & y & E & PB & _ & W). destruct (C62_text_says _ St (proj1 B)) as (text' & h & m & v & k & E' & _ & SI & _).
    rewrite E in E'. injection E' as <-. cbn [sv_days sv_secs sv_sub sv_prec] in *. destruct W as [W1 W2]; [rewrite TN; exists (id_secs i); reflexivity|].
    exists text, (sv_prec y). split; [exact E|]. split; [eapply plain_interval; exact SI|]. rewrite PB. rewrite W2. do 3 f_equal. f_equal.
    rewrite TN in W1. unfold time_nanos, sub_nanos in W1. rewrite W2 in W1. change (10 ^ 9) with 1000000000 in W1. lia.
  - rewrite S0, SS. destruct (C62_days_round_trip (id_days i) p DD D) as (text & E & PB). exists text, 6. split; [exact E|]. split; [|exact PB].
    unfold interval_day_iso in E. cbn [Z.ltb Z.compare orb] in E. injection E as <-. constructor; [discriminate|]. destruct (0 <? id_days i); [|constructor].
    apply plain_app; [apply plain_whole|repeat constructor; discriminate].
Qed.
Lemma read_year : forall s z, new_date_from_string s = Ok z -> new_date_from_string (date_text z) = Ok z /\ plain (date_text z).
Proof.
  intros s z E. apply C60_date_from_text in E. destruct E as (x & S & C). split.
  - apply (C60_date_round_trip z x C). apply says_date_valid in S. lia.
  - eapply plain_date. apply C60_date_text. exact C.
Qed.
Lemma read_clock : forall s z, new_time_from_string s = Ok z -> 0 <= z < 24 * 3600 * 10 ^ 6.
Proof.
  intros s z E. unfold new_time_from_string in E. apply bind_inv in E. destruct E as (st & _ & E). unfold new_time_of_clock in E. cbv zeta in E. unfold new_time_from_micros in E.
  match type of E with context [?a <? 0] => destruct (Z.ltb_spec a 0) as [|L]; [discriminate|] end. cbn [orb] in E.
  match type of E with context [?k <=? ?a] => destruct (Z.leb_spec k a) as [|L2]; [discriminate|] end. injection E as <-. change (24 * 3600 * 10 ^ 6) with 86400000000. lia.
Qed.
Lemma read_prec_clock : forall p s z, new_precision_time_from_string p s = Ok z -> 0 <= p <= 9 -> 0 <= z * 10 ^ (9 - p) < 24 * 3600 * 10 ^ 9.
Proof.
  intros p s z E P. unfold new_precision_time_from_string in E. apply bind_inv in E. destruct E as (st & X & E). apply stamp_ok in X.
  rewrite (C41_precision_time_from_instant p _ X P) in E. assert (E' : z = instant (stamp_time st) mod (24 * 3600 * 10 ^ 9) / 10 ^ (9 - p)) by (unfold unit_ns in E; congruence). clear E. subst z.
  assert (0 < 10 ^ (9 - p)) by (apply Z.pow_pos_nonneg; lia). assert (B : 0 <= instant (stamp_time st) mod (24 * 3600 * 10 ^ 9) < 24 * 3600 * 10 ^ 9) by (apply Z.mod_pos_bound; reflexivity).
  set (w := instant (stamp_time st) mod (24 * 3600 * 10 ^ 9)) in *. pose proof (Z.mul_div_le w (10 ^ (9 - p)) ltac:(lia)). pose proof (Z.div_pos w (10 ^ (9 - p)) ltac:(lia) ltac:(lia)). nia.
Qed.

Lemma nul_inj : forall a b, nul a = nul b -> a = b.
Proof. intros [] []; cbn; congruence. Qed.
Ltac nuls := repeat match goal with E : nul ?a = nul ?b |- _ => apply nul_inj in E; subst end.

(** An argument other than a list, of a literal that prints a text saying it, is read from its text as the same value of the same type. *)
Theorem C69_reads_back : forall a c l, ~ is_list a -> read_typed_arg a = Ok c -> c_value c = CLit l -> reads_back parse_float to_float32 float_text decimal_text l ->
  exists s, literal_text l = Ok s /\ case_text c = Ok (s ++ "::" ++ type_string (c_type c)) /\ read_typed_arg (with_text a s) = Ok (Case (c_type c) s (CLit l)).
Proof.
  intros a c l NL E V B. pose proof (read_typed_test _ _ _ _ E) as TL. apply C65_argument in E; [|exact NL].
  assert (NL' : forall s, ~ is_list (with_text a s)) by (intros s (es & d & null & X); destruct a; try discriminate; apply NL; do 3 eexists; reflexivity).
  assert (FIN : forall s, literal_text l = Ok s -> arg_says (with_text a s) (Case (c_type c) s (CLit l)) ->
    exists s, literal_text l = Ok s /\ case_text c = Ok (s ++ "::" ++ type_string (c_type c)) /\ read_typed_arg (with_text a s) = Ok (Case (c_type c) s (CLit l))).
  { intros s H1 H2. exists s. split; [exact H1|]. split; [unfold TestPrintModel.case_text; rewrite V, H1; reflexivity|]. apply C65_argument; [apply NL'|exact H2]. }
  unfold shown_value in TL. rewrite V in TL. assert (T : test_literal l) by (inversion TL; assumption). clear TL.
  destruct E as [text d t D N|text p null v P S|text p null v P S|text s0 null v Q S|text ps null t v D S|k text s0 len null t v D Q S|a k p text null v O I S
    |text pt null q d D S|text s0 pt null p z z' D Q S Ch|text s0 pt null p z z' D Q S Ch|text s0 pt null p z z' D Q S Ch|name]; cbn [c_value c_type] in *; try (injection V as <-); try discriminate V.
  - apply (FIN "null"); [reflexivity|]. constructor; assumption.
  - destruct P as [<-|[<-|[<-|[<-|[]]]]]; inversion S as [null' text' z W E1 E2 E3|null' text' z W E1 E2 E3|null' text' z W E1 E2 E3|null' text' z W E1 E2 E3| | | | | | | |]; subst; nuls.
    + assert (R : in_int 8 (wrap 8 z)) by (apply wrap_range; lia). apply (FIN (string_of_Z (wrap 8 z))); [reflexivity|]. constructor; [cbn; auto|].
      rewrite <- (wrap_id 8 (wrap 8 z)) at 2 by (auto; lia). constructor. apply whole_says. apply (in_smaller 8); [lia|exact R].
    + assert (R : in_int 16 (wrap 16 z)) by (apply wrap_range; lia). apply (FIN (string_of_Z (wrap 16 z))); [reflexivity|]. constructor; [cbn; auto|].
      rewrite <- (wrap_id 16 (wrap 16 z)) at 2 by (auto; lia). constructor. apply whole_says. apply (in_smaller 16); [lia|exact R].
    + assert (R : in_int 32 (wrap 32 z)) by (apply wrap_range; lia). apply (FIN (string_of_Z (wrap 32 z))); [reflexivity|]. constructor; [cbn; auto|].
      rewrite <- (wrap_id 32 (wrap 32 z)) at 2 by (auto; lia). constructor. apply whole_says. apply (in_smaller 32); [lia|exact R].
    + apply (FIN (string_of_Z z)); [reflexivity|]. constructor; [cbn; auto 6|]. constructor. apply whole_says. destruct W as (sg & s & k & v & ds & _ & _ & _ & _ & W). exact W.
  - destruct P as [<-|[<-|[]]]; inversion S as [| | | |null' text' f W E1 E2 E3|null' text' f W E1 E2 E3| | | | | |]; subst; nuls; cbn in B.
    + destruct B as (g & B1 & B2). apply (FIN (float_text (to_float32 f))); [reflexivity|]. constructor; [cbn; auto|]. rewrite <- B2 at 2. constructor. exact B1.
    + apply (FIN (float_text f)); [reflexivity|]. constructor; [cbn; auto|]. constructor. exact B.
  - inversion S; subst; nuls. apply (FIN ("'" ++ s0 ++ "'")); [reflexivity|]. econstructor; [eapply bare_quotes; exact Q|constructor].
  - assert (X : exists pr sc, t = TDecimal (nul null) 0 pr sc) by (inversion D; subst; eauto). destruct X as (pr & sc & ->).
    inversion S as [| | | | | | | |null' p' s' text' b W E1 E2 E3| | |]; subst; nuls. cbn in B. apply (FIN (decimal_text b sc)).
    + unfold TestPrintModel.literal_text. cbn [lit_type bind iso_quoted TestPrintModel.value_string text_quoted]. cbn in T. rewrite T. cbn [Nat.ltb Nat.leb bind].
      rewrite <- T. rewrite firstn_all. reflexivity.
    + constructor; [exact D|]. constructor. exact B.
  - assert (X : exists n, t = TFixed k (nul null) 0 n) by (inversion D; subst; eauto). destruct X as (n & ->).
    inversion S as [| | | | | | | | |null' len' text' E1 E2 E3|null' len' text' W E1 E2 E3|null' len' text' E1 E2 E3]; subst; nuls; try (destruct B; fail).
    + apply (FIN ("'" ++ s0 ++ "'")); [reflexivity|]. econstructor; [exact D|eapply bare_quotes; exact Q|constructor].
    + apply (FIN ("'" ++ s0 ++ "'")); [reflexivity|]. econstructor; [exact D|eapply bare_quotes; exact Q|constructor; exact W].
  - destruct O as [O|[O|[O|[O|[O|[O|[]]]]]]]; injection O as <- <-; (destruct I as [I|[I|[I|[I|[I|[I|[]]]]]]]; try discriminate I); injection I as <-;
      inversion S as [null' text' b W E1 E2 E3|null' text' s z U W E1 E2 E3|null' text' s z U W E1 E2 E3|null' text' s z U W E1 E2 E3|null' text' s z U W E1 E2 E3|null' text' s y m U W E1 E2 E3|]; subst; nuls; cbn in B, T.
    + apply (FIN (if b then "true" else "false")); [destruct b; reflexivity|]. eapply (Arg_own _ _ _ KBool); [cbn; auto|cbn; auto|]. constructor. destruct b.
      * split; [intros _|auto]. repeat constructor.
      * split; [discriminate|]. intros H. apply Forall2_length' in H. discriminate H.
    + destruct (read_year _ _ W) as [W1 W2]. apply (FIN ("'" ++ date_text z ++ "'")); [reflexivity|]. eapply (Arg_own _ _ _ KDate); [cbn; auto|cbn; auto|]. econstructor; [apply with_quotes; exact W2|exact W1].
    + pose proof (read_clock _ _ W) as R. apply (FIN ("'" ++ time_iso z ++ "'")); [reflexivity|]. eapply (Arg_own _ _ _ KTime); [cbn; auto|cbn; auto|]. econstructor; [apply with_quotes|apply C61_time_round_trip; exact R].
      destruct (proj1 (C61_moment (z * 1000))) as (x & c & M). eapply plain_clock; [|apply (C61_time_texts z x c T M)]. apply plain_frac.
    + destruct B as (x & c & M & Y). apply (FIN ("'" ++ timestamp_iso z ++ "'")); [reflexivity|]. eapply (Arg_own _ _ _ KTs); [cbn; auto 8|cbn; auto 8|]. econstructor.
      * apply with_quotes. eapply plain_stamp; [| | |apply (C61_timestamp_texts z x c T M)]; [apply plain_shortest|repeat constructor; discriminate|constructor].
      * apply (C61_timestamp_round_trip z x c T M). exact Y.
    + destruct B as (x & c & M & Y). apply (FIN ("'" ++ timestamp_tz_iso z ++ "'")); [reflexivity|]. eapply (Arg_own _ _ _ KTsTz); [cbn; auto 8|cbn; auto 8|]. econstructor.
      * apply with_quotes. eapply plain_stamp; [| | |apply (C61_timestamp_texts z x c T M)]; [apply plain_shortest|repeat constructor; discriminate|constructor].
      * apply (C61_timestamp_round_trip z x c T M). exact Y.
    + apply (FIN ("'" ++ print_interval_years_to_month y m ++ "'")); [reflexivity|]. eapply (Arg_own _ _ _ KIntervalYear); [cbn; auto 8|cbn; auto 8|].
      destruct (C41_interval_parse_total s) as [X|(y' & m' & X & Y1 & M1)]; [congruence|]. rewrite W in X. injection X as <- <-. econstructor.
      * apply with_quotes. unfold print_interval_years_to_month. repeat apply plain_app; try apply plain_whole; repeat constructor; discriminate.
      * apply C41_interval_years_months_round_trip; assumption.
  - destruct S as [text s d sec ss p q ss' U W A1 A2 A3]. cbn in B. destruct B as (B1 & B2 & B3). destruct (parsed_int32 _ _ _ _ _ W) as [I1 I2]. subst ss'.
    destruct (interval_back (Idts d sec (IM_precision q) 0) q) as (s1 & q1 & E1 & E2 & E3); cbn [id_days id_secs id_sub]; auto. cbn [id_days id_secs id_sub] in *.
    apply (FIN ("'" ++ s1 ++ "'")); [unfold TestPrintModel.literal_text; cbn [lit_type bind iso_quoted iso_value_string id_days id_secs id_sub]; rewrite E1; reflexivity|]. constructor; [exact D|].
    econstructor; [apply with_quotes; exact E2|exact E3| | |]; intros L; [reflexivity|rewrite Z.mul_0_l; reflexivity|symmetry; apply Z.quot_0_l; apply Z.pow_nonzero; lia].
  - cbn in T. destruct T as [T P]. pose proof (read_prec_clock _ _ _ S P) as R. destruct (prec_time_test _ _ _ S) as [T0 _].
    assert (F : in_int 64 (z * 10 ^ (clock_precision p - p))).
    { pose proof (clock_bounds p P) as CB. unfold in_int. change (2 ^ (64 - 1)) with 9223372036854775808. assert (X : 0 < 10 ^ (9 - clock_precision p)) by (apply Z.pow_pos_nonneg; lia).
      replace (9 - p) with ((clock_precision p - p) + (9 - clock_precision p)) in R by lia. rewrite Z.pow_add_r, Z.mul_assoc in R by lia. change (24 * 3600 * 10 ^ 9) with 86400000000000 in R. nia. }
    pose proof (proj1 (C14_round_trip_iff z p T0 P) F) as C. rewrite C in Ch. injection Ch as <-.
    destruct (proj1 (C61_moment (z * 10 ^ (9 - p)))) as (x & c & M). destruct (C61_precision_round_trip p z x c T0 P M) as (_ & _ & RT). specialize (RT R).
    destruct (proj1 (C61_precision_texts p z x c T0 P M)) as (s1 & E1 & E2 & E3). rewrite E2 in RT. cbn [bind] in RT.
    apply (FIN ("'" ++ s1 ++ "'")); [unfold TestPrintModel.literal_text; cbn [lit_type bind iso_quoted iso_value_string]; rewrite E2; reflexivity|].
    econstructor; [exact D|apply with_quotes; eapply plain_clock; [exact plain_shortest|exact E3]|exact RT|exact C].
  - cbn in T. destruct T as [T P]. destruct B as [(x & c & M & Y) F]. pose proof (proj1 (C14_round_trip_iff z' p T P) F) as C.
    destruct (C61_precision_round_trip p z' x c T P M) as (RT & _). destruct (RT Y F) as [RT1 _].
    destruct (C61_precision_texts p z' x c T P M) as (_ & _ & (s1 & E1 & E2) & _). rewrite E1 in RT1. cbn [bind] in RT1.
    apply (FIN ("'" ++ s1 ++ "'")); [unfold TestPrintModel.literal_text; cbn [lit_type bind iso_quoted iso_value_string]; rewrite E1; reflexivity|].
    econstructor; [exact D|apply with_quotes; eapply plain_stamp; [exact plain_shortest| | |exact E2]; [repeat constructor; discriminate|constructor]|exact RT1|exact C].
  - cbn in T. destruct T as [T P]. destruct B as [(x & c & M & Y) [F P3]]. pose proof (proj1 (C14_round_trip_iff z' p T P) F) as C.
    destruct (C61_precision_round_trip p z' x c T P M) as (RT & _). destruct (RT Y F) as (_ & _ & RT3). specialize (RT3 P3).
    destruct (C61_precision_texts p z' x c T P M) as (_ & _ & _ & _ & (s1 & E1 & E2)). rewrite E1 in RT3. cbn [bind] in RT3.
    apply (FIN ("'" ++ s1 ++ "'")); [unfold TestPrintModel.literal_text; cbn [lit_type bind iso_quoted iso_value_string]; rewrite E1; reflexivity|].
    econstructor; [exact D|apply with_quotes; eapply plain_stamp; [apply plain_frac| | |exact E2]; repeat constructor; discriminate|exact RT3|exact C].
Qed.

(** An enum prints its name, which is read as it. *)
Theorem C69_enum : forall name c, read_typed_arg (GEnum name) = Ok c -> case_text c = Ok (name ++ "::enum").
Proof. intros name c E. apply C65_argument in E; [|intros (es & d & n & X); discriminate X]. inversion E as [| | | | | |a k p text null v O I S| | | | |]; subst; [|reflexivity].
  exfalso. cbn in I. repeat (destruct I as [I|I]; [discriminate I|]). destruct I.
Qed.

(** ** values of other kinds, which no case that is read shows *)

(** A value of another kind than its type needs panics; an interval of one prints zeros. *)
Theorem C69_wrong_value : forall v t n w p sc,
  ((forall z, v <> XInt64 z) -> In t [TPrecTime n w p; TPrecTs n w p; TPrecTsTz n w p] -> value_string (LProto v t) = Panic /\ literal_text (LProto v t) = Panic) /\
  (forall z, ~ (0 <= p <= 9) -> v = XInt64 z -> In t [TPrecTime n w p; TPrecTs n w p; TPrecTsTz n w p] -> value_string (LProto v t) = Panic /\ literal_text (LProto v t) = Panic) /\
  ((forall b, v = XBytes b -> (List.length b < 16)%nat) -> value_string (LProto v (TDecimal n w p sc)) = Panic /\ literal_text (LProto v (TDecimal n w p sc)) = Panic) /\
  ((forall y m, v <> XYearMonth y m) -> value_string (LProto v (TPrim PrimIntervalYear n w)) = Ok "0 years, 0 months" /\ literal_text (LProto v (TPrim PrimIntervalYear n w)) = Ok "'P0Y0M'") /\
  ((forall i, v <> XDaySecond i) -> value_string (LProto v (TIntervalDay n w p)) = Ok "0 days, 0 seconds, 0 subseconds" /\ literal_text (LProto v (TIntervalDay n w p)) = Ok "'P'").
Proof.
  intros v t n w p sc. split; [|split; [|split; [|split]]].
  - intros H [<-|[<-|[<-|[]]]]; destruct v; try (split; reflexivity); exfalso; eapply H; reflexivity.
  - intros z P -> I. destruct (C61_precision_texts_panic p z P) as (A1 & A2 & A3 & A4 & A5 & A6).
    destruct I as [<-|[<-|[<-|[]]]]; unfold TestPrintModel.literal_text; cbn [lit_type bind iso_quoted iso_value_string TestPrintModel.value_string]; rewrite ?A1, ?A2, ?A3, ?A4, ?A5, ?A6; split; reflexivity.
  - intros H. destruct v; try (split; reflexivity). specialize (H _ eq_refl). unfold TestPrintModel.literal_text. cbn [lit_type bind iso_quoted TestPrintModel.value_string text_quoted].
    apply Nat.ltb_lt in H. rewrite H. split; reflexivity.
  - intros H. destruct v; try (split; reflexivity). exfalso. eapply H. reflexivity.
  - intros H. destruct v; try (split; reflexivity). exfalso. eapply H. reflexivity.
Qed.
(** What is missing panics; an argument of an aggregate function that is no list prints the text it was read from. *)
Theorem C69_missing : value_string LNil = Panic /\ literal_text LNil = Panic /\
  (forall table col t i, aggarg_text float_text decimal_text other_text (AggArg None table col t i true) = Panic) /\
  (forall table t i, aggarg_text float_text decimal_text other_text (AggArg None table "" t i false) = Panic) /\
  (forall c table col i, col <> "" -> aggarg_text float_text decimal_text other_text (AggArg c table col None i false) = Panic) /\
  (forall t text v table ct i, (forall es lt, v <> CLit (LList es lt)) ->
     aggarg_text float_text decimal_text other_text (AggArg (Some (Case t text v)) table "" ct i false) = Ok (text ++ "::" ++ type_string t)).
Proof.
  do 4 (split; [reflexivity|]). split.
  - intros c table col i N. unfold aggarg_text. cbn [a_scalar a_column a_type]. destruct (String.eqb_spec col ""); [contradiction|reflexivity].
  - intros t text v table ct i N. unfold aggarg_text. cbn [a_scalar a_column a_arg]. cbn [String.eqb]. unfold aggregate_argument_text. cbn [c_value c_text c_type].
    destruct v as [l|]; [|reflexivity]. destruct l; try reflexivity. exfalso. eapply N. reflexivity.
Qed.
(** Values of the kinds test cases do not have. *)
Theorem C69_other_kinds : forall l, (exists fs t, l = LStruct fs t) \/ (exists kvs t, l = LMap kvs t) \/ (exists y m n, l = LYearMonth y m n) \/
  (exists y m d s ss p n, l = LCompound y m d s ss p n) \/ (exists b t, l = LBytes BkUuid b t) -> value_string l = Ok (other_text l).
Proof. intros l H. decompose [or ex] H; subst; reflexivity. Qed.

(** ** findings *)

(** A day-time interval of a precision above nine is read, and printing the case panics. *)
Theorem C69_precision_refuted : exists d f k, parse_doc d = Ok f /\ In k (f_cases f) /\ forall order, case_string order k = Panic.
Proof.
  exists (Tdoc false "v1.0" ["'/f.yaml'"] [GroupScalar (Some "# g") [("f", [GIntervalDay "'P1DT1S'" (Some "10") false], None, RError)]]).
  eexists. eexists. split; [vm_compute; reflexivity|]. split; [left; reflexivity|]. intros order. reflexivity.
Qed.
(** Bytes print as numbers, which are read as text: other bytes. *)
Theorem C69_binary_refuted : exists a c l s c' , read_typed_arg a = Ok c /\ c_value c = CLit l /\ literal_text l = Ok s /\
  read_typed_arg (with_text a s) = Ok c' /\ c_value c' <> c_value c.
Proof.
  exists (GFixed FxBinary "'ab'" "2" false). do 4 eexists. split; [vm_compute; reflexivity|]. split; [reflexivity|]. split; [reflexivity|].
  split; [vm_compute; reflexivity|]. discriminate.
Qed.
(** Two lists print the same text. *)
Theorem C69_lists_refuted : exists d a a' c c', read_typed_arg (GList a d false) = Ok c /\ read_typed_arg (GList a' d false) = Ok c' /\
  c_value c <> c_value c' /\ case_text c = case_text c' /\ case_text c = Ok "[a, b]::list<string>".
Proof.
  exists (DPrim PrimString false), [TestCaseModel.ELit (Tlit KStr "'a, b'")], [TestCaseModel.ELit (Tlit KStr "'a'"); TestCaseModel.ELit (Tlit KStr "'b'")]. do 2 eexists.
  split; [vm_compute; reflexivity|]. split; [vm_compute; reflexivity|]. split; [discriminate|]. split; vm_compute; reflexivity.
Qed.
(** Times with a zone print milliseconds only. *)
Theorem C69_digits_refuted : exists a c l s c', read_typed_arg a = Ok c /\ c_value c = CLit l /\ literal_text l = Ok s /\
  s = "'2024-02-29T00:00:00.123+00:00'" /\ read_typed_arg (with_text a s) = Ok c' /\ c_value c' <> c_value c.
Proof.
  exists (GPrecTsTz "'2024-02-29T00:00:00.123456+00:00'" "6" false). do 4 eexists. split; [vm_compute; reflexivity|]. split; [reflexivity|]. split; [vm_compute; reflexivity|]. split; [reflexivity|].
  split; [vm_compute; reflexivity|]. discriminate.
Qed.
(** A time before the year 0, which a zone makes, prints a year that is not read. *)
Theorem C69_year_refuted : exists a c l s, read_typed_arg a = Ok c /\ c_value c = CLit l /\ literal_text l = Ok s /\ read_typed_arg (with_text a s) = Err.
Proof.
  exists (GTsTz "'0000-01-01T00:00:00+01:00'" false). do 3 eexists. split; [vm_compute; reflexivity|]. split; [reflexivity|]. split; [vm_compute; reflexivity|]. vm_compute. reflexivity.
Qed.
(** An interval of no time prints no text of one, and half a second prints what is read as hours. *)
Theorem C69_interval_refuted : (exists c l s, read_typed_arg (GIntervalDay "'PT0S'" None false) = Ok c /\ c_value c = CLit l /\ literal_text l = Ok s /\ s = "'P'" /\
    read_typed_arg (GIntervalDay s None false) = Err) /\
  (exists c l s c', read_typed_arg (GIntervalDay "'PT0.5S'" (Some "3") false) = Ok c /\ c_value c = CLit l /\ literal_text l = Ok s /\ s = "'PT500MS'" /\
    read_typed_arg (GIntervalDay s (Some "3") false) = Ok c' /\ c_value c' = CLit (LProto (XDaySecond (Idts 0 30000 (IM_precision 3) 0)) (TIntervalDay 2 0 3))).
Proof.
  split.
  - do 3 eexists. split; [vm_compute; reflexivity|]. split; [reflexivity|]. split; [vm_compute; reflexivity|]. split; [reflexivity|]. vm_compute. reflexivity.
  - do 4 eexists. split; [vm_compute; reflexivity|]. split; [reflexivity|]. split; [vm_compute; reflexivity|]. split; [reflexivity|]. split; [vm_compute; reflexivity|]. reflexivity.
Qed.

Example C69_scalar_example : exists f k, parse_doc (Tdoc false "v1.0" ["'/f.yaml'"] [GroupScalar (Some "# g")
    [("f", [GInt "-007" PrimI8 true; GString "'it'" false; GTime "'1:02:03.5'" false; GIntervalDay "'P1DT2H'" None false; GNull "Null" (DPrim PrimI8 true)],
      Some [("overflow", "ERROR"); ("rounding", "UP")], RArg (GBool "TRUE" true))]]) = Ok f /\ In k (f_cases f) /\ Forall printable (shown k) /\
  case_string [("rounding", "UP"); ("overflow", "ERROR")] k =
    Ok "f(-7::i8?, 'it'::string, '01:02:03.500000'::time, 'P1DT2H0M0S'::interval_day<0>, null::i8?) [rounding:UP,overflow:ERROR] = true::boolean?" /\
  Permutation [("rounding", "UP"); ("overflow", "ERROR")] (k_options k).
Proof.
  do 2 eexists. split; [vm_compute; reflexivity|]. split; [left; reflexivity|]. split; [repeat (apply Forall_cons; [first [exact I|left; split; vm_compute; discriminate]|]); apply Forall_nil|]. split; [vm_compute; reflexivity|]. vm_compute. apply Permutation_refl.
Qed.
Example C69_reads_back_example : exists c l, read_typed_arg (GIntervalDay "'P1DT90S'" (Some "3") true) = Ok c /\ c_value c = CLit l /\
  reads_back parse_float to_float32 float_text decimal_text l /\ literal_text l = Ok "'P1DT1M30S'".
Proof. do 2 eexists. split; [vm_compute; reflexivity|]. split; [reflexivity|]. split; [vm_compute; intuition discriminate|]. vm_compute. reflexivity. Qed.
Example C69_aggregate_example : exists f k1 k2, parse_doc (Tdoc true "v1.0" ["'/f.yaml'"] [GroupAgg (Some "# g")
    [(CSingle "sum" [Tlit KNum "1"; Tlit KNull "null"] (DPrim PrimI8 true), None, RUndefined);
     (CCompact [[Tlit KNum "1"; Tlit KNum "2"]; [Tlit KNum "3"; Tlit KNull "null"]] "corr" (Some [AAColumn "col0" (DPrim PrimI8 false); AAColumn "col1" (DPrim PrimI64 true)]), None, RError)]]) = Ok f /\
  f_cases f = [k1; k2] /\ one_column k1 /\ ~ one_column k2 /\
  case_string [] k1 = Ok "sum((1, null)::i8?) = <!UNDEFINED>" /\
  case_string [] k2 = Ok "((1, 2), (3, null)) corr(col0::i8, col1::i64?) = <!ERROR>".
Proof.
  do 3 eexists. split; [vm_compute; reflexivity|]. split; [vm_compute; reflexivity|]. split; [split; [discriminate|repeat constructor]|].
  split; [intros [_ H]; inversion H as [|? ? [_ X] _]; discriminate X|]. split; vm_compute; reflexivity.
Qed.
End Print.

Print Assumptions C69_value.
Print Assumptions C69_value_total.
Print Assumptions C69_literal.
Print Assumptions C69_case.
Print Assumptions C69_printed.
Print Assumptions C69_shown.
Print Assumptions C69_options.
Print Assumptions C69_reads_back.
Print Assumptions C69_enum.
Print Assumptions C69_wrong_value.
Print Assumptions C69_missing.
Print Assumptions C69_other_kinds.
Print Assumptions C69_precision_refuted.
Print Assumptions C69_binary_refuted.
Print Assumptions C69_lists_refuted.
Print Assumptions C69_digits_refuted.
Print Assumptions C69_year_refuted.
Print Assumptions C69_interval_refuted.
