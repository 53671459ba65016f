(** C66: calls of aggregate functions in test cases. *)

From Coq Require Import ZArith String Ascii Bool Lia List.
From Verif Require Import Base FMap TypesModel SigModel DecimalSpec LitModel TimeModel TimeProofs CalModel CalSpec CalTextProofs DecimalProofs IntervalModel TextSpec DecTextModel DecTextSpec DecTextProps
  TestCaseModel TestCaseSpec TestColumnSpec TestCaseProofs TestCaseProps.
Import ListNotations.
Local Open Scope string_scope.
Local Open Scope Z_scope.

Section Floats.
Variable parse_float : string -> res Z.
Variable to_float32 : Z -> Z.
Notation says_value := (says_value parse_float to_float32).
Notation from_string := (from_string parse_float to_float32).
Notation read_literal := (read_literal parse_float to_float32).
Notation read_values := (read_values parse_float to_float32).
Notation read_rows := (read_rows parse_float to_float32).
Notation get_literal := (get_literal parse_float to_float32).
Notation read_column := (read_column parse_float to_float32).
Notation read_columns := (read_columns parse_float to_float32).
Notation table_cell := (table_cell parse_float to_float32).
Notation column_says := (column_says parse_float to_float32).
Notation table_says := (table_says parse_float to_float32).
Notation read_arg := (read_arg parse_float to_float32).
Notation read_call := (read_call parse_float to_float32).
Notation raw_arg := (raw_arg parse_float to_float32).

(** ** cells *)

Definition str_lit (s : string) : lit := LPrim (VString s) (TPrim PrimString 2 0).
Inductive cell0 : tlit -> lit -> Prop :=
| C0_own k text v : says_own k text false v -> cell0 (Tlit k text) v
| C0_text l s : cell_text l s -> cell0 l (str_lit s)
| C0_null text : cell0 (Tlit KNull text) (LNull (TDecimal 1 0 38 0)).

Lemma read_none : forall l o c, read_literal None l = Ok (o, c) <-> c = None /\ exists v, o = Some v /\ cell0 l v.
Proof.
  intros [k text] o c. unfold TestCaseModel.read_literal. cbn [t_kind t_text]. split.
  - assert (OWN : (let! v := own_literal (Tlit k text) false in Ok (Some v, None)) = Ok (o, c) -> c = None /\ exists v, o = Some v /\ cell0 (Tlit k text) v).
    { intros H. apply (pair_ok _ _ _ (@Some lit)) in H. destruct H as ((v & E & ->) & ->). split; [reflexivity|]. exists v. split; [reflexivity|]. apply C0_own. apply (own_iff (Tlit k text)). exact E. }
    destruct k; try exact OWN.
    + cbn. intros [= <- <-]. split; [reflexivity|]. eexists. split; [reflexivity|]. apply C0_text. constructor.
    + cbn. intros [= <- <-]. split; [reflexivity|]. eexists. split; [reflexivity|]. apply C0_text. constructor. apply unquoted_iff. reflexivity.
    + cbn. intros [= <- <-]. split; [reflexivity|]. eexists. split; [reflexivity|]. exact (C0_null text).
    all: try discriminate.
  - intros (-> & v & -> & H). remember (Tlit k text) as l eqn:EL. destruct H as [k0 t0 v H|l s H|t0].
    + injection EL as -> ->. pose proof H as HO. apply (own_iff (Tlit k text) false v) in H. unfold own_literal in H. cbn [t_kind t_text] in H.
      destruct k; try discriminate H; rewrite H; reflexivity.
    + destruct H as [t|t s H]; injection EL as <- <-; [reflexivity|]. apply unquoted_iff in H. rewrite H. reflexivity.
    + injection EL as <- <-. reflexivity.
Qed.
Lemma read_row_iff : forall row vs c, read_values None row = Ok (vs, c) <-> c = None /\ Forall2 cell0 row vs.
Proof.
  induction row as [|l row IH]; intros vs c; cbn [TestCaseModel.read_values].
  - split; [intros [= <- <-]; auto|]. intros [-> H]. inversion H. reflexivity.
  - split.
    + intros H. apply bind_inv in H. destruct H as ([o c1] & E & H). apply read_none in E. destruct E as (-> & v & -> & E).
      apply bind_inv in H. destruct H as ([vs' c2] & E2 & [= <- <-]). apply IH in E2. destruct E2 as [-> E2]. split; [reflexivity|]. constructor; auto.
    + intros [-> H]. inversion H as [|? v ? vs' H1 H2]; subst. rewrite (proj2 (read_none l (Some v) None)) by eauto. cbn [bind]. rewrite (proj2 (IH vs' None)) by auto. reflexivity.
Qed.
Lemma read_rows_iff : forall rows lrows, read_rows rows = Ok lrows <-> Forall2 (Forall2 cell0) rows lrows.
Proof.
  intros rows lrows. unfold TestCaseModel.read_rows. rewrite mapM_iff. split; intros H; (eapply forall2_impl; [|exact H]); cbv beta; intros row vs E.
  - apply bind_inv in E. destruct E as ([vs' c] & E & [= <-]). apply read_row_iff in E. apply E.
  - rewrite (proj2 (read_row_iff row vs None)) by auto. reflexivity.
Qed.
Lemma readable_cell0 : forall l, readable l <-> exists v, cell0 l v.
Proof.
  intros l. split.
  - intros [K|[(s & H)|(v & H)]].
    + destruct l as [k text]. cbn in K. subst. eexists. apply C0_null.
    + eexists. apply C0_text. exact H.
    + exists v. destruct l. apply C0_own. exact H.
  - intros (v & H). destruct H; [right; right; eauto|right; left; eauto|left; reflexivity].
Qed.
Lemma readable_rows : forall rows, Forall (Forall readable) rows <-> exists lrows, Forall2 (Forall2 cell0) rows lrows.
Proof.
  assert (R : forall row, Forall readable row <-> exists vs, Forall2 cell0 row vs).
  { induction row as [|l row IH]; [split; eauto|]. split.
    - intros H. inversion H as [|? ? H1 H2]; subst. apply readable_cell0 in H1. destruct H1 as (v & H1). apply IH in H2. destruct H2 as (vs & H2). eauto.
    - intros (vs & H). inversion H; subst. constructor; [apply readable_cell0; eauto|apply IH; eauto]. }
  induction rows as [|row rows IH]; [split; eauto|]. split.
  - intros H. inversion H as [|? ? H1 H2]; subst. apply R in H1. destruct H1 as (v & H1). apply IH in H2. destruct H2 as (vs & H2). eauto.
  - intros (vs & H). inversion H; subst. constructor; [apply R; eauto|apply IH; eauto].
Qed.

Definition declared_opt (t : option ty) : Prop := forall u, t = Some u -> declared u.
Lemma not_null_own : forall k text null v, says_own k text null v -> k <> KNull /\ is_null_lit v = false /\ (forall s t, v <> LPrim (VString s) t).
Proof. intros k text null v H. destruct H; repeat split; discriminate. Qed.
Lemma get_iff : forall t l v w, declared_opt t -> cell0 l v -> t_kind l <> KNull -> get_literal v t = Ok w <-> table_cell t l w.
Proof.
  intros t l v w D C NK. destruct C as [k text v H|l s H|text].
  - destruct (not_null_own _ _ _ _ H) as (_ & _ & NS).
    assert (G : get_literal v t = Ok v) by (destruct v as [|?|p u|?|?|?|?|?|?|?]; try reflexivity; destruct p; try reflexivity; exfalso; eapply NS; reflexivity).
    rewrite G. split; [intros [= <-]; apply Cell_own; exact H|]. intros H2. remember (Tlit k text) as l eqn:EL. destruct H2 as [k2 text2 v2 H2|text2 t' E|l s t' v2 H2 E1 E2 E3|l s H2 E].
    + injection EL as -> ->. apply (own_iff (Tlit k text)) in H, H2. congruence.
    + injection EL as <- <-. contradiction.
    + exfalso. destruct H2; injection EL as <- <-; inversion H.
    + exfalso. destruct H2; injection EL as <- <-; inversion H.
  - unfold str_lit. cbn [TestCaseModel.get_literal].
    assert (U : forall s', cell_text l s' -> s' = s).
    { intros s' H'. destruct H; inversion H'; subst; [reflexivity|]. apply unquoted_iff in H. match goal with X : unquoted _ s' |- _ => apply unquoted_iff in X end. congruence. }
    assert (NO : forall k text v', l = Tlit k text -> ~ says_own k text false v') by (intros k text v' -> H'; inversion H; subst; inversion H').
    destruct t as [t|].
    + pose proof (D t eq_refl) as DT. split.
      * intros G. apply bind_inv in G. destruct G as (o & G & [= <-]). destruct o as [v2|].
        -- apply from_string_some in G; [|exact DT]. eapply Cell_value; eauto. inversion G; subst; cbn; tauto.
        -- apply from_string_none in G; [|exact DT]. apply Cell_untyped; [exact H|]. intros t' [= <-]. exact G.
      * intros H2. remember (Some t) as ot eqn:EO. destruct H2 as [k2 text2 v2 H2|text2 t' E|l s2 t' v2 H2 E1 E2 E3|l s2 H2 E].
        -- exfalso. eapply NO; eauto.
        -- exfalso. apply NK. reflexivity.
        -- rewrite (U _ H2) in E3. assert (t' = t) by congruence. subst t'. apply from_string_some in E3; [|exact DT]. rewrite E3. reflexivity.
        -- rewrite (U _ H2). rewrite (proj2 (from_string_none _ _ t s DT)) by (apply E; exact EO). reflexivity.
    + split.
      * intros [= <-]. apply Cell_untyped; [exact H|discriminate].
      * intros H2. remember (@None ty) as ot eqn:EO. destruct H2 as [k2 text2 v2 H2|text2 t' E|l s2 t' v2 H2 E1 E2 E3|l s2 H2 E].
        -- exfalso. eapply NO; eauto.
        -- exfalso. apply NK. reflexivity.
        -- congruence.
        -- rewrite (U _ H2). reflexivity.
  - exfalso. apply NK. reflexivity.
Qed.
Lemma cell_not_null : forall t l w, table_cell t l w -> t_kind l <> KNull -> is_null_lit w = false.
Proof.
  intros t l w H N. destruct H as [k text v H|text t' E|l s t' v H1 E1 E2 H|l s H E]; [apply (not_null_own _ _ _ _ H)|exfalso; apply N; reflexivity| |reflexivity].
  destruct H; reflexivity.
Qed.
Lemma null_twice : forall t, with_nullability 1 (with_nullability 1 t) = with_nullability 1 t.
Proof. destruct t; reflexivity. Qed.
Lemma cell_null : forall t l w, t_kind l = KNull -> table_cell t l w <-> exists u, t = Some u /\ w = LNull (with_nullability 1 u).
Proof.
  intros t l w K. split.
  - intros H. destruct H as [k text v H|text t' E|l s t' v H1 E1 E2 H|l s H E].
    + cbn in K. subst. inversion H.
    + eauto.
    + destruct H1; discriminate.
    + destruct H; discriminate.
  - intros (u & -> & ->). destruct l as [k text]. cbn in K. subst k. apply Cell_null. reflexivity.
Qed.

Lemma read_column_cons : forall i t cur row rows, read_column i t cur (row :: rows) =
  match nth_error row i with
  | None => Panic
  | Some cell =>
      let! cell := get_literal cell t in
      if is_null_lit cell then
        match t with
        | None => Panic
        | Some t' => let! (cells, cur) := read_column i t (Some (with_nullability NullNullable t')) rows in
            Ok (LNull (with_nullability 1 t') :: cells, cur)
        end
      else let! (cells, cur) := read_column i t cur rows in Ok (cell :: cells, cur)
  end.
Proof.
  intros i t cur row rows. cbn [TestCaseModel.read_column]. destruct (nth_error row i) as [v|]; [|reflexivity]. destruct (get_literal v t) as [w| |]; [|reflexivity..]. cbn [bind].
  destruct w; cbn [is_null_lit]; try reflexivity. destruct t as [t|]; [|reflexivity]. unfold new_null_literal. change NullNullable with 1. rewrite null_twice. reflexivity.
Qed.

Definition null_at (i : nat) (row : list tlit) : bool := match nth_error row i with Some l => null_kind l | None => false end.
Lemma null_kind_iff : forall l, null_kind l = true <-> t_kind l = KNull.
Proof. intros [k t]. unfold null_kind. cbn. destruct k; split; congruence. Qed.
Lemma forall2_nth : forall A B (P : A -> B -> Prop) l m, Forall2 P l m -> forall i, match nth_error l i, nth_error m i with Some a, Some b => P a b | None, None => True | _, _ => False end.
Proof. intros A B P l m F. induction F as [|a b l m H _ IH]; intros [|i]; cbn; auto. apply IH. Qed.
Definition cells_say (rows : list (list tlit)) (i : nat) (t : option ty) (cells : list lit) : Prop :=
  Forall2 (fun row v => exists l, nth_error row i = Some l /\ table_cell t l v) rows cells.
Lemma column_iff : forall i t, declared_opt t -> forall rows lrows, Forall2 (Forall2 cell0) rows lrows -> forall cur cells cur',
  read_column i t cur lrows = Ok (cells, cur') <->
  cells_say rows i t cells /\ (if existsb (null_at i) rows then exists u, t = Some u /\ cur' = Some (with_nullability 1 u) else cur' = cur).
Proof.
  intros i t D rows lrows F. induction F as [|row lrow rows lrows R F IH]; intros cur cells cur'.
  - cbn. split; [intros [= <- <-]; split; [constructor|reflexivity]|]. intros [H ->]. inversion H. reflexivity.
  - rewrite read_column_cons. cbn [existsb]. unfold null_at at 1. pose proof (forall2_nth _ _ _ _ _ R i) as RN.
    destruct (nth_error row i) as [l|] eqn:ER; destruct (nth_error lrow i) as [v|]; try contradiction.
    2:{ split; [discriminate|]. intros [H _]. inversion H as [|? ? ? ? (l & E & _) _]; subst. congruence. }
    destruct (null_kind l) eqn:NK; cbn [orb].
    + apply null_kind_iff in NK. assert (G : get_literal v t = Ok v /\ is_null_lit v = true).
      { destruct RN as [k text v H|l s H|text]; [cbn in NK; subst; inversion H|destruct H; discriminate|split; reflexivity]. }
      destruct G as [G1 G2]. rewrite G1. cbn [bind]. rewrite G2. split.
      * intros H. destruct t as [u|]; [|discriminate]. apply bind_inv in H. destruct H as ([cs c] & E & [= <- <-]). apply (IH (Some (with_nullability 1 u))) in E. destruct E as [E1 E2].
        split; [constructor; [exists l; split; [exact ER|apply cell_null; eauto]|exact E1]|].
        destruct (existsb (null_at i) rows); [exact E2|]. exists u. auto.
      * intros [H (u & -> & ->)]. inversion H as [|? w ? cells' (l' & E & TC) FC]; subst. rewrite ER in E. injection E as <-.
        apply (cell_null _ _ _ NK) in TC. destruct TC as (u' & [= <-] & ->). change NullNullable with 1.
        rewrite (proj2 (IH (Some (with_nullability 1 u)) cells' (Some (with_nullability 1 u)))); [reflexivity|]. split; [exact FC|].
        destruct (existsb (null_at i) rows); eauto.
    + assert (K : t_kind l <> KNull) by (intros K; apply null_kind_iff in K; congruence). split.
      * intros H. apply bind_inv in H. destruct H as (w & G & H). apply (get_iff t l v w D RN K) in G. rewrite (cell_not_null _ _ _ G K) in H.
        apply bind_inv in H. destruct H as ([cs c] & E & [= <- <-]). apply IH in E. destruct E as [E1 E2]. split; [constructor; [eauto|exact E1]|exact E2].
      * intros [H N]. inversion H as [|? w ? cells' (l' & E & TC) FC]; subst. rewrite ER in E. injection E as <-.
        rewrite (proj2 (get_iff t l v w D RN K) TC). cbn [bind]. rewrite (cell_not_null _ _ _ TC K). rewrite (proj2 (IH cur cells' cur')) by (split; assumption). reflexivity.
Qed.
Lemma column_says_iff : forall rows i t cells t', column_says rows i t cells t' <->
  cells_say rows i t cells /\ (if existsb (null_at i) rows then exists u, t = Some u /\ t' = Some (with_nullability 1 u) else t' = t).
Proof.
  intros rows i t cells t'. unfold TestColumnSpec.column_says. fold (cells_say rows i t cells). apply and_iff_compat_l. destruct (existsb (null_at i) rows) eqn:E.
  - apply existsb_exists in E. destruct E as (row & I & N). unfold null_at in N. destruct (nth_error row i) as [l|] eqn:ER; [|discriminate]. apply null_kind_iff in N. split.
    + intros [H _]. apply H. eauto.
    + intros H. split; [intros _; exact H|]. intros X. exfalso. apply (X row l I ER N).
  - split.
    + intros [_ H]. apply H. intros row l I ER K. assert (X : existsb (null_at i) rows = true); [|congruence]. apply existsb_exists. exists row. split; [exact I|].
      unfold null_at. rewrite ER. apply null_kind_iff. exact K.
    + intros H. split; [|auto]. intros (row & l & I & ER & K). exfalso. assert (X : existsb (null_at i) rows = true); [|congruence]. apply existsb_exists. exists row. split; [exact I|].
      unfold null_at. rewrite ER. apply null_kind_iff. exact K.
Qed.
Lemma columns_iff : forall rows lrows, Forall2 (Forall2 cell0) rows lrows -> forall ts i cols ts', Forall declared_opt ts ->
  read_columns i ts lrows = Ok (cols, ts') <->
  List.length cols = List.length ts /\ List.length ts' = List.length ts /\
  forall j t col t', nth_error ts j = Some t -> nth_error cols j = Some col -> nth_error ts' j = Some t' -> column_says rows (i + j) t col t'.
Proof.
  intros rows lrows F. induction ts as [|t ts IH]; intros i cols ts' D; cbn [TestCaseModel.read_columns].
  - split; [intros [= <- <-]; do 2 (split; [reflexivity|]); intros [|j] u col u' A; discriminate A|]. intros (L1 & L2 & _). destruct cols; [|discriminate]. destruct ts'; [|discriminate]. reflexivity.
  - inversion D as [|? ? D1 D2]; subst. split.
    + intros H. apply bind_inv in H. destruct H as ([c t'] & E & H). apply bind_inv in H. destruct H as ([cs ts2] & E2 & [= <- <-]).
      apply (column_iff i t D1 rows lrows F) in E. apply (IH (S i) cs ts2 D2) in E2. destruct E2 as (L1 & L2 & X). cbn [List.length]. do 2 (split; [congruence|]).
      intros [|j] u col u' A B C; cbn in A, B, C.
      * injection A as <-. injection B as <-. injection C as <-. rewrite Nat.add_0_r. apply column_says_iff. exact E.
      * replace (i + S j)%nat with (S i + j)%nat by lia. eapply X; eauto.
    + intros (L1 & L2 & X). destruct cols as [|c cs]; [discriminate|]. destruct ts' as [|t' ts2]; [discriminate|].
      pose proof (X 0%nat t c t' eq_refl eq_refl eq_refl) as X0. rewrite Nat.add_0_r in X0. apply column_says_iff in X0.
      rewrite (proj2 (column_iff i t D1 rows lrows F t c t') X0). cbn [bind].
      rewrite (proj2 (IH (S i) cs ts2 D2)); [reflexivity|]. cbn in L1, L2. do 2 (split; [congruence|]). intros j u col u' A B C. replace (S i + j)%nat with (i + S j)%nat by lia. eapply X; eauto.
Qed.
Lemma table_iff : forall rows ts cols ts', Forall declared_opt ts ->
  (let! lrows := read_rows rows in read_columns 0 ts lrows) = Ok (cols, ts') <-> table_says rows ts cols ts'.
Proof.
  intros rows ts cols ts' D. unfold TestColumnSpec.table_says. split.
  - intros H. apply bind_inv in H. destruct H as (lrows & R & H). apply read_rows_iff in R. apply (columns_iff rows lrows R ts 0 cols ts' D) in H.
    split; [apply readable_rows; eauto|exact H].
  - intros [R H]. apply readable_rows in R. destruct R as (lrows & R). rewrite (proj2 (read_rows_iff rows lrows) R). cbn [bind]. apply (columns_iff rows lrows R ts 0 cols ts' D). exact H.
Qed.

(** ** arguments that are not columns *)

Notation read_typed_arg := (TestCaseModel.read_typed_arg parse_float to_float32).
Notation arg_says := (TestCaseSpec.arg_says parse_float to_float32).
Notation element_says := (TestCaseSpec.element_says parse_float to_float32).
Lemma unquoted_shorter : forall text s, unquoted text s -> (String.length s <= String.length text)%nat.
Proof.
  assert (L : forall a b, String.length (a ++ b) = (String.length a + String.length b)%nat) by (induction a as [|c a IH]; intros b; cbn; [reflexivity|f_equal; apply IH]).
  intros text s [a r b _ _ _]. rewrite !L. lia.
Qed.
Lemma bytes_length : forall s, List.length (bytes_of s) = String.length s.
Proof. induction s; cbn; auto. Qed.
Lemma fixed_raw : forall k s null, Z.of_nat (String.length s) < 2 ^ 31 -> exists v, fixed_literal k s null = Ok v /\
  forall w, w = v <-> says_value (TFixed k (nul null) 0 (Z.of_nat (String.length s))) s w.
Proof.
  intros k s null L. assert (W : wrap 32 (Z.of_nat (String.length s)) = Z.of_nat (String.length s)) by (apply wrap_small; lia).
  unfold fixed_literal. destruct k; cbn [new_literal prim_lit_type bytes_lit_type]; rewrite nul_eq; unfold slen32, len32; rewrite ?bytes_length, ?W.
  - rewrite ?bytes_of_eq. eexists. split; [reflexivity|]. intros w. split; [intros ->; constructor|]. intros H. inversion H. reflexivity.
  - rewrite ?Z.mod_small by (cbn; lia). rewrite ?W. eexists. split; [reflexivity|]. intros w. split; [intros ->; constructor; lia|]. intros H. inversion H. reflexivity.
  - rewrite ?bytes_of_eq. eexists. split; [reflexivity|]. intros w. split; [intros ->; constructor|]. intros H. inversion H. reflexivity.
Qed.
Definition plain_case (c : caselit) : Prop := get_parameters (c_type c) = [].
Lemma typed_plain : forall a c, plain_case c -> read_arg a = Ok c <-> read_typed_arg a = Ok c.
Proof.
  intros a c P. unfold TestCaseModel.read_typed_arg. split.
  - intros ->. cbn [bind]. unfold update_type. rewrite P. reflexivity.
  - intros H. apply bind_inv in H. destruct H as (c0 & E & H). rewrite E. f_equal.
    assert (T : c_type c = c_type c0).
    { unfold update_type in H. destruct (get_parameters (c_type c0)); [injection H as <-; reflexivity|]. destruct (c_value c0) as [cv|]; [|discriminate].
      destruct cv; try (injection H as <-; reflexivity); (destruct (with_type _ _) as [r|]; [|discriminate]); apply bind_inv in H; destruct H as (? & _ & [= <-]); reflexivity. }
    unfold plain_case in P. rewrite T in P. unfold update_type in H. rewrite P in H. congruence.
Qed.
Lemma raw_plain : forall c, (exists p n v, c_type c = TPrim p n v) \/ (exists b n v name os, c_type c = TEnum b n v name os) -> plain_case c.
Proof. intros c [(p & n & v & E)|(b & n & v & name & os & E)]; unfold plain_case; rewrite E; reflexivity. Qed.
Lemma raw_same : forall a c, ~ is_list a -> (exists p n v, c_type c = TPrim p n v) \/ (exists b n v name os, c_type c = TEnum b n v name os) -> read_arg a = Ok c <-> raw_arg a c.
Proof.
  intros a c NL T. rewrite (typed_plain a c (raw_plain c T)). rewrite (arg_iff parse_float to_float32 a c NL). split.
  - intros H. apply Raw_same; [intuition|exact NL|exact H].
  - intros H. destruct H as [a c _ _ H|text ps null t b p s D _|text p null t v D _|k text len null t s v D _ _ _| | | |]; [exact H| | | | | | |]; cbn [c_type] in T; exfalso;
      try (inversion D; subst); destruct T as [(? & ? & ? & T)|(? & ? & ? & ? & ? & T)]; discriminate T.
Qed.
Lemma null_raw : forall text d c, read_arg (GNull text d) = Ok c <-> raw_arg (GNull text d) c.
Proof.
  intros text d c. assert (NL : ~ is_list (GNull text d)) by (intros (? & ? & ? & ?); discriminate).
  assert (R : read_arg (GNull text d) = Ok c <-> read_typed_arg (GNull text d) = Ok c).
  { unfold TestCaseModel.read_typed_arg. cbn [TestCaseModel.read_arg]. destruct (dtype_of d) as [t| |]; cbn [bind]; [|tauto..]. destruct (is_nullable t); cbn [bind]; [|tauto].
    unfold new_null_literal. rewrite update_null. tauto. }
  rewrite R. rewrite (arg_iff parse_float to_float32 _ c NL). split.
  - intros H. apply Raw_same; [right; right; eauto|exact NL|exact H].
  - intros H. inversion H; subst. assumption.
Qed.
Definition short_text (a : targ) : Prop := forall k text len null, a = GFixed k text len null -> Z.of_nat (String.length text) < 2 ^ 31.
Definition unshared_list (a : targ) : Prop := forall es d null t, a = GList es d null -> declares d t -> unshared t (existsb has_null es).
Lemma raw_iff : forall a c, short_text a -> unshared_list a -> read_arg a = Ok c <-> raw_arg a c.
Proof.
  intros a c SH U.
  assert (SAME : ~ is_list a -> (read_arg a = Ok c -> (exists p n v, c_type c = TPrim p n v) \/ (exists b n v name os, c_type c = TEnum b n v name os)) ->
    (raw_arg a c -> (exists p n v, c_type c = TPrim p n v) \/ (exists b n v name os, c_type c = TEnum b n v name os)) -> read_arg a = Ok c <-> raw_arg a c).
  { intros NL H1 H2. split; intros H; [apply (raw_same a c NL (H1 H)) in H|apply (raw_same a c NL (H2 H)) in H]; exact H. }
  assert (PR : ~ is_list a -> (forall text d, a <> GNull text d) -> raw_arg a c -> (exists text p null, a = GInt text p null) \/ (exists text p null, a = GFloat text p null) \/ (exists text null, In a [GBool text null; GString text null; GDate text null; GTime text null; GTs text null; GTsTz text null; GIntervalYear text null]) \/ (exists name, a = GEnum name) ->
    (exists p n v, c_type c = TPrim p n v) \/ (exists b n v name os, c_type c = TEnum b n v name os)).
  { intros NL NN H SHAPE. destruct H as [a c T _ _| | | | | | |]; [destruct T as [T|[T|(text & d & ->)]]; [auto|auto|]; exfalso; eapply NN; reflexivity| | | | | | |];
      exfalso; destruct SHAPE as [(? & ? & ? & X)|[(? & ? & ? & X)|[(? & ? & X)|(? & X)]]]; cbn [In] in X; intuition discriminate. }
  destruct a as [text d|text p null|text p null|text null|text null|text ps null|text null|text null|text null|text null|text null|text pt null|k text len null|text pt null|text pt null|text pt null|es d null|name|].
  1: apply null_raw.
  all: match goal with |- TestCaseModel.read_arg _ _ ?a = _ <-> _ => match a with GDecimal _ _ _ => idtac | GIntervalDay _ _ _ => idtac | GFixed _ _ _ _ => idtac | GPrecTime _ _ _ => idtac
     | GPrecTs _ _ _ => idtac | GPrecTsTz _ _ _ => idtac | GList _ _ _ => idtac | GOther => idtac
     | _ => apply SAME; [intros (? & ? & ? & X); discriminate X| |intros RA; apply PR; [intros (? & ? & ? & X); discriminate X|discriminate|exact RA|]] end end.
  all: try (intros H; cbn [TestCaseModel.read_arg] in H; repeat (apply bind_inv in H; destruct H as (? & ? & H)); injection H as <-; cbn [c_type]; left; do 3 eexists; reflexivity).
  all: try (left; do 3 eexists; reflexivity).
  all: try (right; left; do 3 eexists; reflexivity).
  all: try (right; right; left; exists text, null; cbn; tauto).
  - intros H. cbn [TestCaseModel.read_arg] in H. apply bind_inv in H. destruct H as (l & E & H). apply bind_inv in H. destruct H as (t & E2 & [= <-]). left. cbn [c_type].
    unfold float_literal in E. apply bind_inv in E. destruct E as (f & _ & E). destruct p; try discriminate E; injection E as <-; injection E2 as <-; do 3 eexists; reflexivity.
  - (* decimal *) cbn [TestCaseModel.read_arg]. split.
    + intros H. apply bind_inv in H. destruct H as (t & D & H). apply bind_inv in H. destruct H as (l & E & [= <-]). apply declares_iff in D.
      apply new_decimal_type in E. destruct E as (b & p & sc & E & ->). eapply Raw_decimal; eauto.
    + intros H. inversion H as [? ? T NL A| | | | | | |]; subst.
      * exfalso. inversion A; subst; [|cbn [In] in *; intuition discriminate]. match goal with D : declares _ _ |- _ => inversion D; subst end; cbn in T; destruct T as [(? & ? & ? & T)|[(? & ? & ? & ? & ? & T)|(? & ? & T)]]; discriminate T.
      * match goal with D : declares _ _ |- _ => apply declares_iff in D; rewrite D end. cbn [bind].
        match goal with E : decimal_string_to_bytes _ = _ |- _ => rewrite (proj1 (C63_literal text null) _ _ _ E) end. cbn [bind]. destruct null; reflexivity.
  - (* day-time interval *) cbn [TestCaseModel.read_arg]. assert (I : forall l, interval_day_literal (raw_string text) null = Ok l <-> says_own KIntervalDay text null l) by (intros l; apply (own_iff (Tlit KIntervalDay text) null l)). split.
    + intros H. apply bind_inv in H. destruct H as (t & D & H). apply bind_inv in H. destruct H as (l & E & [= <-]). apply declares_iff in D. apply I in E. eapply Raw_interval; eauto.
    + intros H. inversion H as [? ? T NL A| | | | | | |]; subst.
      * exfalso. inversion A; subst; [cbn [In] in *; intuition discriminate|]. cbn in T; destruct T as [(? & ? & ? & T)|[(? & ? & ? & ? & ? & T)|(? & ? & T)]]; discriminate T.
      * match goal with D : declares _ _ |- _ => apply declares_iff in D; rewrite D end. cbn [bind].
        match goal with E : says_own _ _ _ _ |- _ => apply I in E; rewrite E end. reflexivity.
  - (* fixed length *) cbn [TestCaseModel.read_arg]. pose proof (SH _ _ _ _ eq_refl) as SH1.
    assert (L : Z.of_nat (String.length (raw_string text)) < 2 ^ 31) by (pose proof (unquoted_shorter text _ (proj2 (unquoted_iff _ _) eq_refl)); lia).
    destruct (fixed_raw k (raw_string text) null L) as (v0 & E0 & I). rewrite E0. split.
    + intros H. apply bind_inv in H. destruct H as (t & D & H). injection H as <-. apply declares_iff in D. eapply Raw_fixed; [exact D|apply unquoted_iff; reflexivity|exact L|]. apply I. reflexivity.
    + intros H. inversion H as [? ? T NL A| | | | | | |]; subst.
      * exfalso. inversion A; subst; [|cbn [In] in *; intuition discriminate]. match goal with D : declares _ _ |- _ => inversion D; subst end; cbn in T; destruct T as [(? & ? & ? & T)|[(? & ? & ? & ? & ? & T)|(? & ? & T)]]; discriminate T.
      * match goal with D : declares _ _ |- _ => apply declares_iff in D; rewrite D end. cbn [bind].
        match goal with Q : unquoted _ _ |- _ => apply unquoted_iff in Q; subst end.
        match goal with E : TestCaseSpec.says_value _ _ _ _ _ |- _ => apply I in E; subst end. reflexivity.
  - (* precision time *) cbn [TestCaseModel.read_arg]. split.
    + intros H. apply bind_inv in H. destruct H as (p & D & H). apply bind_inv in H. destruct H as (z & E & H). apply int_param_iff in D. rewrite nul_eq in H. injection H as <-.
      eapply Raw_prec_time; [exact D|apply unquoted_iff; reflexivity|exact E].
    + intros H. inversion H as [? ? T NL A| | | | | | |]; subst.
      * exfalso. inversion A; subst; [cbn [In] in *; intuition discriminate|]. cbn in T; destruct T as [(? & ? & ? & T)|[(? & ? & ? & ? & ? & T)|(? & ? & T)]]; discriminate T.
      * match goal with D : parameter _ _ |- _ => apply int_param_iff in D; rewrite D end. cbn [bind].
        match goal with Q : unquoted _ _ |- _ => apply unquoted_iff in Q; subst end.
        match goal with E : _ _ _ = Ok ?z |- context [XInt64 ?z] => rewrite E end. rewrite nul_eq. reflexivity.
  - (* precision timestamp *) cbn [TestCaseModel.read_arg]. split.
    + intros H. apply bind_inv in H. destruct H as (p & D & H). apply bind_inv in H. destruct H as (z & E & H). apply int_param_iff in D. rewrite nul_eq in H. injection H as <-.
      eapply Raw_prec_ts; [exact D|apply unquoted_iff; reflexivity|exact E].
    + intros H. inversion H as [? ? T NL A| | | | | | |]; subst.
      * exfalso. inversion A; subst; [cbn [In] in *; intuition discriminate|]. cbn in T; destruct T as [(? & ? & ? & T)|[(? & ? & ? & ? & ? & T)|(? & ? & T)]]; discriminate T.
      * match goal with D : parameter _ _ |- _ => apply int_param_iff in D; rewrite D end. cbn [bind].
        match goal with Q : unquoted _ _ |- _ => apply unquoted_iff in Q; subst end.
        match goal with E : _ _ _ = Ok ?z |- context [XInt64 ?z] => rewrite E end. rewrite nul_eq. reflexivity.
  - (* precision timestamp with time zone *) cbn [TestCaseModel.read_arg]. split.
    + intros H. apply bind_inv in H. destruct H as (p & D & H). apply bind_inv in H. destruct H as (z & E & H). apply int_param_iff in D. rewrite nul_eq in H. injection H as <-.
      eapply Raw_prec_tstz; [exact D|apply unquoted_iff; reflexivity|exact E].
    + intros H. inversion H as [? ? T NL A| | | | | | |]; subst.
      * exfalso. inversion A; subst; [cbn [In] in *; intuition discriminate|]. cbn in T; destruct T as [(? & ? & ? & T)|[(? & ? & ? & ? & ? & T)|(? & ? & T)]]; discriminate T.
      * match goal with D : parameter _ _ |- _ => apply int_param_iff in D; rewrite D end. cbn [bind].
        match goal with Q : unquoted _ _ |- _ => apply unquoted_iff in Q; subst end.
        match goal with E : _ _ _ = Ok ?z |- context [XInt64 ?z] => rewrite E end. rewrite nul_eq. reflexivity.
  - (* list *) cbn [TestCaseModel.read_arg]. split.
    + intros H. apply bind_inv in H. destruct H as (t & D & H). apply declares_iff in D. pose proof (U _ _ _ _ eq_refl D) as UT. pose proof (declares_declared _ _ D) as DT.
      pose proof (fun vs c => elements_of parse_float to_float32 es ltac:(apply Forall_forall; intros; apply exact_elements) t vs c DT UT) as EO.
      apply bind_inv in H. destruct H as ([vs ctx] & E & H). apply EO in E. destruct E as ((os & F & ->) & ->).
      pose proof (proj2 (EO [] None) os F) as G. cbn [settle] in H. rewrite (settled_map _ _ G) in H. rewrite nul_eq in H. destruct (kept os) as [|v0 vs] eqn:K.
      * cbn [bind] in H. injection H as <-. change (new_empty_list_literal t false) with (LList [] (TList 2 0 t)). rewrite <- K. eapply Raw_list; eauto. rewrite K. constructor.
      * apply bind_inv in H. destruct H as (l & E & [= <-]). apply (new_list_iff parse_float to_float32) in E; [|eapply settled_typed; exact G]. destruct E as (t0 & F0 & ->).
        rewrite <- K in *. eapply Raw_list; eauto. rewrite K. discriminate.
    + intros H. inversion H as [? ? T NL A| | | | | | |? ? ? t os t0 D F OT KE]; subst; [exfalso; apply NL; do 3 eexists; reflexivity|].
      pose proof (U _ _ _ _ eq_refl D) as UT. pose proof (declares_declared _ _ D) as DT.
      pose proof (fun vs c => elements_of parse_float to_float32 es ltac:(apply Forall_forall; intros; apply exact_elements) t vs c DT UT) as EO.
      apply declares_iff in D. rewrite D. cbn [bind]. rewrite (proj2 (proj1 (EO (kept os) (Some t)))) by eauto. cbn [bind settle].
      pose proof (proj2 (EO [] None) os F) as G. rewrite (settled_map _ _ G). rewrite nul_eq. destruct (kept os) as [|v0 vs] eqn:K; [rewrite KE by reflexivity; reflexivity|].
      rewrite (proj2 (new_list_iff parse_float to_float32 v0 vs (LList (v0 :: vs) (TList 2 0 t0)) (settled_typed _ _ G))) by eauto. reflexivity.
  - intros H. injection H as <-. right. cbn. do 5 eexists. reflexivity.
  - right. right. right. eexists. reflexivity.
  - cbn. split; [discriminate|]. intros H. inversion H as [? ? T NL A| | | | | | |]; subst. inversion A; subst. cbn [In] in *. intuition discriminate.
Qed.

(** ** arguments of aggregate functions *)

Definition reads (a : targ) (c : caselit) : Prop := read_arg a = Ok c.
Lemma new_agg_arg_iff : forall table col t g, new_agg_arg table col t = Ok g <->
  exists i, names_column col i /\ g = {| a_arg := None; a_table := table; a_column := col; a_type := t; a_index := i; a_scalar := false |}.
Proof.
  intros table col t g. unfold new_agg_arg. destruct col as [|a [|b [|c ds]]]; cbn [String.length Nat.ltb Nat.leb].
  1-3: split; [discriminate|]; intros (i & H & _); inversion H.
  cbn [str_drop]. split.
  - intros H. apply bind_inv in H. destruct H as (i & E & H). destruct (Z.ltb_spec i 0); [discriminate|]. injection H as <-. apply atoi_iff in E.
    exists (wrap 32 i). split; [constructor; [exact E|lia]|reflexivity].
  - intros (i & H & ->). inversion H; subst. match goal with W : whole_number _ ?z |- _ => apply atoi_iff in W; rewrite W end. cbn [bind].
    match goal with |- context [?z <? 0] => destruct (Z.ltb_spec z 0); [lia|] end. reflexivity.
Qed.
Lemma read_aarg_iff : forall a g, TestCaseModel.read_aarg parse_float to_float32 a = Ok g <-> agg_arg reads a g.
Proof.
  intros [a|col d] g; cbn [TestCaseModel.read_aarg]; unfold scalar_agg_arg.
  - split.
    + intros H. apply bind_inv in H. destruct H as (c & E & [= <-]). constructor. exact E.
    + intros H. inversion H as [? c R|]; subst. unfold reads in R. rewrite R. reflexivity.
  - split.
    + intros H. apply bind_inv in H. destruct H as (t & D & E). apply declares_iff in D. apply new_agg_arg_iff in E. destruct E as (i & N & ->). constructor; assumption.
    + intros H. inversion H as [|? ? t i D N]; subst. apply declares_iff in D. rewrite D. cbn [bind]. apply new_agg_arg_iff. eauto.
Qed.
Lemma resolve_iff : forall table ts q g, (let! a := TestCaseModel.read_qarg parse_float to_float32 q in resolve_arg table ts a) = Ok g <-> qualified_arg reads table ts q g.
Proof.
  intros table ts [a|tab col] g; cbn [TestCaseModel.read_qarg]; unfold scalar_agg_arg.
  - split.
    + intros H. apply bind_inv in H. destruct H as (g0 & E & H). apply bind_inv in E. destruct E as (c & E & [= <-]). cbn in H. injection H as <-. constructor. exact E.
    + intros H. inversion H as [? c R|]; subst. unfold reads in R. rewrite R. reflexivity.
  - split.
    + intros H. apply bind_inv in H. destruct H as (g0 & E & H). apply new_agg_arg_iff in E. destruct E as (i & N & ->). unfold resolve_arg in H. cbn [a_table a_scalar a_index a_arg a_column] in H.
      destruct (String.eqb_spec tab "") as [T|T]; destruct (String.eqb_spec table tab) as [T2|T2]; cbn [negb andb] in H; try discriminate H;
        (destruct (Z.ltb_spec i 0); [discriminate|]); (destruct (nth_error ts (Z.to_nat i)) as [t|] eqn:NE; [|discriminate]); injection H as <-; apply Qualified_column; auto.
    + intros H. inversion H as [|? ? i t N T I NE]; subst. rewrite (proj2 (new_agg_arg_iff tab col None _)) by eauto. cbn [bind]. unfold resolve_arg. cbn [a_table a_scalar a_index a_arg a_column].
      assert (B : negb (String.eqb tab "") && negb (String.eqb table tab) = false) by (destruct T as [<- | ->]; [rewrite String.eqb_refl; apply andb_false_r|reflexivity]).
      rewrite B. destruct (Z.ltb_spec i 0); [lia|]. rewrite NE. reflexivity.
Qed.

Definition final_type (gs : list aggarg) (t0 : option ty) (j : nat) : option ty :=
  fold_left (fun t g => match a_type g with Some u => if a_index g =? Z.of_nat j then Some u else t | None => t end) gs t0.
Lemma final_iff : forall gs t0 j t, t = final_type gs t0 j <->
  ((exists before g after u, gs = (before ++ g :: after)%list /\ a_type g = Some u /\ a_index g = Z.of_nat j /\ t = Some u /\
     forall h, In h after -> a_type h <> None -> a_index h <> Z.of_nat j) \/
  (t = t0 /\ forall h, In h gs -> a_type h <> None -> a_index h <> Z.of_nat j)).
Proof.
  assert (FWD : forall gs t0 j, (exists before g after u, gs = (before ++ g :: after)%list /\ a_type g = Some u /\ a_index g = Z.of_nat j /\ final_type gs t0 j = Some u /\
     forall h, In h after -> a_type h <> None -> a_index h <> Z.of_nat j) \/ (final_type gs t0 j = t0 /\ forall h, In h gs -> a_type h <> None -> a_index h <> Z.of_nat j)).
  { induction gs as [|g gs IH]; intros t0 j; [right; split; [reflexivity|intros h []]|]. unfold final_type. cbn [fold_left]. fold (final_type gs).
    match goal with |- context [fold_left _ gs ?x] => set (t1 := x) end. fold (final_type gs t1 j). destruct (IH t1 j) as [(b & g' & a & u & -> & H)|[H1 H2]].
    - left. exists (g :: b), g', a, u. split; [reflexivity|exact H].
    - rewrite H1. unfold t1. destruct (a_type g) as [u|] eqn:T; [destruct (Z.eqb_spec (a_index g) (Z.of_nat j)) as [I|I]|].
      + left. exists [], g, gs, u. do 4 (split; [auto|]). exact H2.
      + right. split; [reflexivity|]. intros h [<-|I2]; auto.
      + right. split; [reflexivity|]. intros h [<-|I2]; [congruence|auto]. }
  assert (LAST : forall after t0 j, (forall h, In h after -> a_type h <> None -> a_index h <> Z.of_nat j) -> final_type after t0 j = t0).
  { induction after as [|h after IH]; intros t0 j H; [reflexivity|]. unfold final_type. cbn [fold_left]. destruct (a_type h) as [u|] eqn:T.
    - destruct (Z.eqb_spec (a_index h) (Z.of_nat j)) as [I|I]; [exfalso; apply (H h); [left; reflexivity|congruence|exact I]|]. apply IH. intros h' I'. apply H. right. exact I'.
    - apply IH. intros h' I'. apply H. right. exact I'. }
  intros gs t0 j t. split; [intros ->; apply FWD|]. intros [(b & g & a & u & -> & T & I & -> & H)|[-> H]].
  - unfold final_type. rewrite fold_left_app. cbn [fold_left]. rewrite T, I, Z.eqb_refl. symmetry. apply LAST. exact H.
  - symmetry. apply LAST. exact H.
Qed.
Lemma nth_ext : forall A (l m : list A), (forall j, nth_error l j = nth_error m j) -> l = m.
Proof.
  induction l as [|x l IH]; intros [|y m] H; [reflexivity|discriminate (H O)|discriminate (H O)|]. f_equal; [injection (H O); auto|]. apply IH. intros j. exact (H (S j)).
Qed.
Lemma set_nth_length : forall A i (x : A) l, List.length (set_nth i x l) = List.length l.
Proof. intros A i x l. revert i. induction l as [|y l IH]; intros [|i]; cbn; auto. Qed.
Lemma set_nth_nth : forall A i (x : A) l j, nth_error (set_nth i x l) j = if (Nat.eqb j i && Nat.ltb i (List.length l))%bool then Some x else nth_error l j.
Proof.
  intros A i x l. revert i. induction l as [|y l IH]; intros i j.
  - cbn. rewrite andb_false_r. destruct i; reflexivity.
  - destruct i as [|i]; destruct j as [|j]; cbn [set_nth nth_error List.length]; try reflexivity. rewrite IH. reflexivity.
Qed.
Definition bounded (n : nat) (g : aggarg) : Prop := a_index g < Z.of_nat n /\ (a_type g <> None -> 0 <= a_index g).
Lemma column_types_iff : forall gs ts0 ts, column_types gs ts0 = Ok ts <->
  Forall (bounded (List.length ts0)) gs /\ List.length ts = List.length ts0 /\ forall j t0, nth_error ts0 j = Some t0 -> nth_error ts j = Some (final_type gs t0 j).
Proof.
  induction gs as [|g gs IH]; intros ts0 ts; cbn [column_types].
  - split.
    + intros [= <-]. split; [constructor|]. split; [reflexivity|]. intros j t0 H. exact H.
    + intros (_ & L & H). f_equal. apply nth_ext. intros j. destruct (nth_error ts0 j) as [t0|] eqn:E; [symmetry; exact (H j t0 E)|].
      symmetry. apply nth_error_None. apply nth_error_None in E. lia.
  - destruct (Z.leb_spec (Z.of_nat (List.length ts0)) (a_index g)) as [O|O].
    + split; [discriminate|]. intros (F & _). inversion F as [|? ? [B _] _]; subst. lia.
    + destruct (a_type g) as [u|] eqn:T.
      * destruct (Z.ltb_spec (a_index g) 0) as [N|N]; [split; [discriminate|]; intros (F & _); inversion F as [|? ? [_ B] _]; subst; rewrite T in B; specialize (B ltac:(discriminate)); lia|].
        rewrite IH. rewrite set_nth_length.
        assert (STEP : forall j t0, nth_error ts0 j = Some t0 -> nth_error (set_nth (Z.to_nat (a_index g)) (Some u) ts0) j = Some (if a_index g =? Z.of_nat j then Some u else t0)).
        { intros j t0 E. rewrite set_nth_nth. destruct (Z.eqb_spec (a_index g) (Z.of_nat j)) as [I|I].
          - replace (Nat.eqb j (Z.to_nat (a_index g))) with true by (symmetry; apply Nat.eqb_eq; lia).
            replace (Nat.ltb (Z.to_nat (a_index g)) (List.length ts0)) with true by (symmetry; apply Nat.ltb_lt; lia). reflexivity.
          - replace (Nat.eqb j (Z.to_nat (a_index g))) with false by (symmetry; apply Nat.eqb_neq; lia). exact E. }
        assert (FT : forall j t0, final_type (g :: gs) t0 j = final_type gs (if a_index g =? Z.of_nat j then Some u else t0) j) by (intros j t0; unfold final_type; cbn [fold_left]; rewrite T; reflexivity).
        split.
        -- intros (F & L & H). split; [constructor; [split; [lia|intros _; lia]|exact F]|]. split; [exact L|]. intros j t0 E. rewrite FT. apply H. apply STEP. exact E.
        -- intros (F & L & H). inversion F as [|? ? _ F2]; subst. split; [exact F2|]. split; [exact L|]. intros j t1 E.
           destruct (nth_error ts0 j) as [t0|] eqn:E0.
           ++ rewrite (STEP j t0 E0) in E. injection E as <-. rewrite <- FT. apply H. exact E0.
           ++ exfalso. apply nth_error_None in E0. assert (nth_error (set_nth (Z.to_nat (a_index g)) (Some u) ts0) j = None) by (apply nth_error_None; rewrite set_nth_length; exact E0). congruence.
      * assert (FT : forall j t0, final_type (g :: gs) t0 j = final_type gs t0 j) by (intros j t0; unfold final_type; cbn [fold_left]; rewrite T; reflexivity).
        rewrite IH. split.
        -- intros (F & L & H). split; [constructor; [split; [lia|congruence]|exact F]|]. split; [exact L|]. intros j t0 E. rewrite FT. auto.
        -- intros (F & L & H). inversion F as [|? ? _ F2]; subst. split; [exact F2|]. split; [exact L|]. intros j t0 E. rewrite <- FT. auto.
Qed.

Lemma share_iff : forall ts' gs gs', Forall (fun g => a_type g <> None -> 0 <= a_index g < Z.of_nat (List.length ts')) gs -> gs' = share_types gs ts' <->
  List.length gs' = List.length gs /\ forall k g g', nth_error gs k = Some g -> nth_error gs' k = Some g' -> settled_arg (skipn (S k) gs) ts' g g'.
Proof.
  intros ts'. assert (ONE : forall g gs g', (a_type g <> None -> 0 <= a_index g < Z.of_nat (List.length ts')) ->
    g' = hd g (share_types (g :: gs) ts') <-> settled_arg gs ts' g g').
  { intros g gs g' B. cbn [share_types hd]. assert (X : existsb (fun b => negb (a_scalar b) && (a_index b =? a_index g)) gs = true <-> exists h, In h gs /\ a_scalar h = false /\ a_index h = a_index g).
    { rewrite existsb_exists. split; intros (h & I & H); exists h; (split; [exact I|]).
      - apply andb_prop in H. destruct H as [H1 H2]. apply negb_true_iff in H1. apply Z.eqb_eq in H2. auto.
      - destruct H as [-> ->]. rewrite Z.eqb_refl. reflexivity. }
    set (ex := existsb _ gs) in *.
    assert (NEX : ex = false -> forall h, In h gs -> a_scalar h = false -> a_index h <> a_index g) by (intros E h I S1 I2; assert (ex = true) by (apply X; eauto); congruence).
    destruct g as [ar tab col ty i sc]. cbn [a_arg a_table a_column a_type a_index a_scalar] in *. destruct g' as [ar' tab' col' ty' i' sc']. unfold settled_arg. cbn [a_arg a_table a_column a_type a_index a_scalar].
    assert (SAME : forall T, (forall n v p, ty <> Some (TIntervalDay n v p)) \/ ex = true -> T = ty ->
      (AggArg ar' tab' col' ty' i' sc' = AggArg ar tab col T i sc <-> (ar' = ar /\ tab' = tab /\ col' = col /\ i' = i /\ sc' = sc /\
        ((forall n v p, ty <> Some (TIntervalDay n v p)) \/ (exists h, In h gs /\ a_scalar h = false /\ a_index h = i) -> ty' = ty) /\
        ((exists n v p, ty = Some (TIntervalDay n v p)) -> (forall h, In h gs -> a_scalar h = false -> a_index h <> i) -> nth_error ts' (Z.to_nat i) = Some ty')))).
    { intros T C ->. split.
      - intros [= -> -> -> -> -> ->]. do 5 (split; [reflexivity|]). split; [reflexivity|]. intros (n & v & p & E) N. exfalso. destruct C as [C|C]; [apply (C n v p E)|].
        apply X in C. destruct C as (h & I & S1 & I2). apply (N h I S1 I2).
      - intros (-> & -> & -> & -> & -> & H & _). rewrite H; [reflexivity|]. destruct C as [C|C]; [left; exact C|right; apply X; exact C]. }
    destruct ty as [[]|]; try (apply SAME; [left; discriminate|reflexivity]).
    destruct ex eqn:EX; cbn [negb]; [apply SAME; [right; reflexivity|reflexivity]|].
    destruct (nth_error ts' (Z.to_nat i)) as [t|] eqn:NE; [|exfalso; apply nth_error_None in NE; specialize (B ltac:(discriminate)); lia].
    split.
    - intros [= -> -> -> -> -> ->]. do 5 (split; [reflexivity|]). split; [|intros _ _; reflexivity]. intros [C|(h & I & S1 & I2)]; [exfalso; eapply C; reflexivity|]. exfalso. apply (NEX eq_refl h I S1 I2).
    - intros (-> & -> & -> & -> & -> & _ & H). specialize (H ltac:(do 3 eexists; reflexivity) (NEX eq_refl)). congruence. }
  assert (HD : forall g gs, share_types (g :: gs) ts' = hd g (share_types (g :: gs) ts') :: share_types gs ts') by reflexivity.
  induction gs as [|g gs IH]; intros gs' F.
  - cbn [share_types]. split; [intros ->; split; [reflexivity|intros [|k] g g' E; discriminate E]|]. intros [L _]. destruct gs'; [reflexivity|discriminate].
  - inversion F as [|? ? B F2]; subst. rewrite HD. split.
    + intros ->. destruct (proj1 (IH _ F2) eq_refl) as [L H]. split; [cbn [List.length]; congruence|]. intros [|k] g1 g2 E1 E2; cbn [nth_error skipn] in *.
      * injection E1 as <-. injection E2 as <-. apply ONE; [exact B|reflexivity].
      * eapply H; eauto.
    + intros [L H]. destruct gs' as [|g1 gs']; [discriminate|]. f_equal.
      * apply ONE; [exact B|]. exact (H O g g1 eq_refl eq_refl).
      * apply IH; [exact F2|]. split; [cbn in L; congruence|]. intros k a b E1 E2. exact (H (S k) a b E1 E2).
Qed.

(** ** theorems *)

(** A constant argument of an aggregate function is read exactly if it says a value of a type it has by itself; the type declared is kept
    beside it.  (For texts below 2 GB and lists without a null in day-time intervals of a type that is not nullable.) *)
Theorem C66_constant : forall a c, short_text a -> unshared_list a -> read_arg a = Ok c <-> raw_arg a c.
Proof. exact raw_iff. Qed.

(** A call on rows without a table is read exactly if there is a row, the arguments can be read, they name columns of the first row, and every cell
    says a value of the type of its column, which is that of the last argument naming it. *)
Theorem C66_compact : forall rows name args parts, read_call (CCompact rows name args) = Ok parts <->
  exists row0 rest gs ts cols ts' gs', rows = row0 :: rest /\ Forall2 (agg_arg reads) (given args) gs /\
    Forall (fun g => a_index g < Z.of_nat (List.length row0) /\ (a_type g <> None -> 0 <= a_index g)) gs /\
    List.length ts = List.length row0 /\ (forall j t, nth_error ts j = Some t -> type_from gs j t) /\
    table_says rows ts cols ts' /\
    List.length gs' = List.length gs /\ (forall k g g', nth_error gs k = Some g -> nth_error gs' k = Some g' -> settled_arg (skipn (S k) gs) ts' g g') /\
    parts = (name, gs', cols, "", ts').
Proof.
  assert (DECL : forall n args gs ts, Forall2 (agg_arg reads) args gs -> List.length ts = n -> (forall j t, nth_error ts j = Some t -> type_from gs j t) -> Forall declared_opt ts).
  { intros n args gs ts F _ T. apply Forall_forall. intros t I. apply In_nth_error in I. destruct I as (j & I). apply T in I. intros u ->. destruct I as [(b & g & a & u' & -> & TG & _ & [= ->] & _)|[X _]]; [|discriminate].
    apply Forall2_app_inv_r in F. destruct F as (l1 & l2 & _ & F & _). inversion F as [|? ? ? ? A _]; subst. inversion A; subst; cbn in TG; [discriminate|]. injection TG as <-. eapply declares_declared; eauto. }
  assert (TYPES : forall gs n ts, column_types gs (repeat None n) = Ok ts <-> Forall (bounded n) gs /\ List.length ts = n /\ forall j t, nth_error ts j = Some t -> type_from gs j t).
  { intros gs n ts. rewrite column_types_iff. rewrite repeat_length.
    assert (RN : forall j, (j < n)%nat -> nth_error (repeat (@None ty) n) j = Some None) by (induction n as [|n IHn]; intros [|j] J; cbn; [lia|lia|reflexivity|apply IHn; lia]).
    split; intros (F & L & H); (split; [exact F|split; [exact L|]]).
    - intros j t E. assert (J : (j < n)%nat) by (rewrite <- L; apply nth_error_Some; congruence). pose proof (H j None (RN j J)) as E2. rewrite E in E2. injection E2 as E2. apply final_iff in E2. exact E2.
    - intros j t0 E. assert (J : (j < n)%nat) by (rewrite <- (repeat_length (@None ty) n); apply nth_error_Some; congruence). rewrite (RN j J) in E. injection E as <-.
      destruct (nth_error ts j) as [t|] eqn:ET; [|apply nth_error_None in ET; lia]. f_equal. apply final_iff. apply H. exact ET. }
  assert (RL : forall row lrow, Forall2 cell0 row lrow -> List.length lrow = List.length row) by (intros row lrow F; induction F; cbn; congruence).
  assert (BS : forall n (ts' : list (option ty)) gs, Forall (bounded n) gs -> List.length ts' = n -> Forall (fun g => a_type g <> None -> 0 <= a_index g < Z.of_nat (List.length ts')) gs).
  { intros n ts' gs F L. rewrite L. eapply Forall_impl; [|exact F]. intros g [B1 B2] T. split; auto. }
  intros rows name args parts. unfold TestCaseModel.read_call. change (@opt_list aarg args) with (given args). split.
  - intros H. apply bind_inv in H. destruct H as (lrows & R & H). apply bind_inv in H. destruct H as (gs & G & H). apply mapM_iff in G.
    assert (G2 : Forall2 (agg_arg reads) (given args) gs) by (eapply forall2_impl; [|exact G]; intros a g; apply read_aarg_iff).
    pose proof R as R0. apply read_rows_iff in R0. destruct R0 as [|row0 lrow0 rest lrest R0 RR]; [discriminate|].
    apply bind_inv in H. destruct H as (ts & T & H). rewrite (RL _ _ R0) in T. apply TYPES in T. destruct T as (B & L & T).
    apply bind_inv in H. destruct H as ([cols ts'] & C & [= <-]).
    assert (TS : table_says (row0 :: rest) ts cols ts') by (apply table_iff; [eapply DECL; eauto|]; rewrite R; exact C).
    exists row0, rest, gs, ts, cols, ts', (share_types gs ts'). do 6 (split; [auto|]).
    assert (L' : List.length ts' = List.length row0) by (destruct TS as (_ & _ & X & _); congruence).
    destruct (proj1 (share_iff ts' gs _ (BS _ _ _ B L')) eq_refl) as [S1 S2]. split; [exact S1|]. split; [exact S2|reflexivity].
  - intros (row0 & rest & gs & ts & cols & ts' & gs' & -> & G & B & L & T & TS & L2 & S1 & ->).
    assert (G2 : mapM (TestCaseModel.read_aarg parse_float to_float32) (given args) = Ok gs) by (apply mapM_iff; eapply forall2_impl; [|exact G]; intros a g; apply read_aarg_iff).
    assert (L' : List.length ts' = List.length row0) by (destruct TS as (_ & _ & X & _); congruence).
    pose proof TS as TS2. apply table_iff in TS2; [|eapply DECL; eauto]. apply bind_inv in TS2. destruct TS2 as (lrows & R & C). rewrite R. cbn [bind]. rewrite G2. cbn [bind].
    apply read_rows_iff in R. inversion R as [|? lrow0 ? lrest R0 RR]; subst. rewrite (RL _ _ R0). rewrite (proj2 (TYPES gs (List.length row0) ts)) by auto. cbn [bind]. rewrite C. cbn [bind].
    do 5 f_equal. symmetry. apply share_iff; [eapply BS; eauto|]. auto.
Qed.

(** A call on a table is read exactly if the types of its columns can be read, every cell says a value of the type of its column, and the arguments name
    columns of this table. *)
Theorem C66_table : forall table ds rows name args parts, read_call (CMulti table ds rows name args) = Ok parts <->
  exists ts cols ts' gs, Forall2 declares ds ts /\ table_says rows (map Some ts) cols ts' /\ Forall2 (qualified_arg reads table ts') (given args) gs /\
    parts = (name, gs, cols, table, ts').
Proof.
  assert (DS : forall ds ts, mapM dtype_of ds = Ok ts <-> Forall2 declares ds ts).
  { intros ds ts. rewrite mapM_iff. split; intros F; (eapply forall2_impl; [|exact F]); intros d t; apply declares_iff. }
  assert (DECL : forall ds ts, Forall2 declares ds ts -> Forall declared_opt (map Some ts)).
  { intros ds ts F. induction F as [|d t ds ts D _ IH]; cbn; constructor; [|exact IH]. intros u [= <-]. eapply declares_declared; eauto. }
  assert (QS : forall table ts' args gs, (let! args := mapM (TestCaseModel.read_qarg parse_float to_float32) args in mapM (resolve_arg table ts') args) = Ok gs <-> Forall2 (qualified_arg reads table ts') args gs).
  { intros table ts'. induction args as [|q args IH]; intros gs.
    - cbn. split; [intros [= <-]; constructor|]. intros F. inversion F. reflexivity.
    - split.
      + intros H. apply bind_inv in H. destruct H as (as0 & E & H). cbn [mapM] in E. apply bind_inv in E. destruct E as (a & E & E2). apply bind_inv in E2. destruct E2 as (as1 & E2 & [= <-]).
        cbn [mapM] in H. apply bind_inv in H. destruct H as (g & H1 & H2). apply bind_inv in H2. destruct H2 as (gs1 & H2 & [= <-]).
        constructor; [apply resolve_iff; rewrite E; exact H1|]. apply IH. rewrite E2. exact H2.
      + intros F. inversion F as [|? g ? gs1 F1 F2]; subst. apply resolve_iff in F1. apply IH in F2. apply bind_inv in F1. destruct F1 as (a & E & E1). apply bind_inv in F2. destruct F2 as (as1 & E2 & E3).
        cbn [mapM]. rewrite E. cbn [bind]. rewrite E2. cbn [bind mapM]. rewrite E1. cbn [bind]. rewrite E3. reflexivity. }
  intros table ds rows name args parts. unfold TestCaseModel.read_call. change (@opt_list qarg args) with (given args). split.
  - intros H. apply bind_inv in H. destruct H as (lrows & R & H). apply bind_inv in H. destruct H as (ts & D & H). apply DS in D. apply bind_inv in H. destruct H as ([cols ts'] & C & H).
    rewrite <- bind_assoc in H. apply bind_inv in H. destruct H as (gs & G & [= <-]). apply QS in G.
    exists ts, cols, ts', gs. split; [exact D|]. split; [apply table_iff; [eapply DECL; eauto|]; rewrite R; exact C|]. split; [exact G|reflexivity].
  - intros (ts & cols & ts' & gs & D & T & G & ->). pose proof (DECL _ _ D) as DO. apply DS in D. apply table_iff in T; [|exact DO]. apply bind_inv in T. destruct T as (lrows & R & C). rewrite R. cbn [bind]. rewrite D. cbn [bind].
    rewrite C. cbn [bind]. rewrite <- bind_assoc. apply QS in G. rewrite G. reflexivity.
Qed.

Lemma read_values_elements : forall ls ctx, read_values ctx ls = TestCaseModel.read_elements parse_float to_float32 ctx (map ELit ls).
Proof.
  induction ls as [|l ls IH]; intros ctx; [reflexivity|]. cbn [map TestCaseModel.read_values]. rewrite read_elements_cons. cbn [TestCaseModel.read_element].
  destruct (read_literal ctx l) as [[o c]| |]; cbn [bind]; [|reflexivity..]. rewrite IH. reflexivity.
Qed.
Lemma elements_literals : forall t ls os, Forall2 (element_says t) (map ELit ls) os <-> Forall2 (TestCaseSpec.literal_says parse_float to_float32 t) ls os.
Proof.
  intros t. induction ls as [|l ls IH]; intros os; cbn [map].
  - split; intros F; inversion F; constructor.
  - split; intros F; inversion F as [|? o ? os' F1 F2]; subst; (constructor; [|apply IH; exact F2]).
    + inversion F1; subst. assumption.
    + constructor. exact F1.
Qed.
Lemma has_null_map : forall ls, existsb has_null (map ELit ls) = existsb null_kind ls.
Proof. induction ls as [|l ls IH]; cbn; [reflexivity|]. rewrite IH. reflexivity. Qed.
Lemma null_literals : forall t ls os, declared t -> Forall2 (TestCaseSpec.literal_says parse_float to_float32 t) ls os -> existsb is_null_lit (kept os) = existsb null_kind ls.
Proof.
  intros t ls os D F. induction F as [|l o ls os H _ IH]; [reflexivity|]. rewrite kept_cons. cbn [existsb]. rewrite <- IH.
  destruct H as [k text null v K N H|text null v NI N H|n v q text d -> H|text v TT H|text TT|text s v TT Q H|text s TT Q|text t' ->]; cbn [opt_cons existsb null_kind t_kind]; try reflexivity.
  - rewrite (proj1 (proj2 (not_null_own _ _ _ _ H))). destruct H; reflexivity.
  - rewrite (proj1 (proj2 (not_null_own _ _ _ _ H))). reflexivity.
  - destruct H; reflexivity.
  - destruct H; reflexivity.
Qed.

(** A call on a list of values is read exactly if each value says something where a value of the type declared is expected; the type is made nullable if one is null. *)
Theorem C66_values : forall name values d t parts, declares d t -> unshared t (existsb null_kind values) ->
  read_call (CSingle name values d) = Ok parts <->
  exists os t', Forall2 (TestCaseSpec.literal_says parse_float to_float32 t) values os /\
    ((exists l, In l values /\ t_kind l = KNull) -> t' = with_nullability 1 t) /\ ((forall l, In l values -> t_kind l <> KNull) -> t' = t) /\
    parts = (name, [{| a_arg := Some (Case t' "" (CLit (LList (kept os) (TList 2 0 t')))); a_table := ""; a_column := ""; a_type := Some t'; a_index := 0; a_scalar := false |}], [], "", []).
Proof.
  intros name values d t parts DD U. pose proof (declares_declared _ _ DD) as D. apply declares_iff in DD. rewrite <- has_null_map in U.
  pose proof (fun vs c => elements_of parse_float to_float32 (map ELit values) ltac:(apply Forall_forall; intros; apply exact_elements) t vs c D U) as EO.
  unfold TestCaseModel.read_call. rewrite DD. cbn [bind]. rewrite read_values_elements.
  assert (NK : forall t', ((exists l, In l values /\ t_kind l = KNull) -> t' = with_nullability 1 t) /\ ((forall l, In l values -> t_kind l <> KNull) -> t' = t) <-> t' = if existsb null_kind values then with_nullability 1 t else t).
  { intros t'. destruct (existsb null_kind values) eqn:E.
    - apply existsb_exists in E. destruct E as (l & I & K). apply null_kind_iff in K. split; [intros [H _]; apply H; eauto|]. intros ->. split; [auto|]. intros X. exfalso. apply (X l I K).
    - assert (N : forall l, In l values -> t_kind l <> KNull) by (intros l I K; assert (X : existsb null_kind values = true) by (apply existsb_exists; exists l; split; [exact I|apply null_kind_iff; exact K]); congruence).
      split; [intros [_ H]; apply H; exact N|]. intros ->. split; [|auto]. intros (l & I & K). exfalso. apply (N l I K). }
  split.
  - intros H. apply bind_inv in H. destruct H as ([vs c] & E & H). apply EO in E. destruct E as ((os & F & ->) & ->). pose proof (proj2 (EO [] None) os F) as G. cbn [settle] in H. rewrite (settled_map _ _ G) in H.
    apply elements_literals in F. rewrite (null_literals t values os D F) in H. injection H as <-. eexists os, _. split; [exact F|]. rewrite <- and_assoc. split; [|reflexivity]. apply NK. reflexivity.
  - intros (os & t' & F & H). rewrite <- and_assoc in H. destruct H as [H ->]. apply NK in H. pose proof F as F2. apply elements_literals in F. rewrite (proj2 (proj1 (EO (kept os) (Some t)))) by eauto. cbn [bind settle].
    pose proof (proj2 (EO [] None) os F) as G. rewrite (settled_map _ _ G). rewrite (null_literals t values os D F2). rewrite H. reflexivity.
Qed.

(** A null among day-time intervals of a type that is not nullable: the call is read as if the type had been declared nullable. *)
Theorem C66_shared_values : forall name ls p, Forall (fun l => shared_kind (t_kind l)) ls -> Exists (fun l => t_kind l = KNull) ls ->
  read_call (CSingle name ls (DIntervalDay p false)) = read_call (CSingle name ls (DIntervalDay p true)).
Proof.
  intros name ls p F X. unfold TestCaseModel.read_call.
  assert (EX : existsb null_kind ls = true).
  { apply existsb_exists. apply Exists_exists in X. destruct X as (l & I & K). exists l. split; [exact I|]. unfold null_kind. rewrite K. reflexivity. }
  assert (D : (dtype_of (DIntervalDay p false) = Err /\ dtype_of (DIntervalDay p true) = Err) \/ (dtype_of (DIntervalDay p false) = Panic /\ dtype_of (DIntervalDay p true) = Panic) \/
    exists q, dtype_of (DIntervalDay p false) = Ok (TI 2 q) /\ dtype_of (DIntervalDay p true) = Ok (TI 1 q)).
  { destruct p as [p|]; cbn [dtype_of]; [destruct (int_param p) as [q| |]; cbn [bind]|]; [right; right; exists q|left|right; left|right; right; exists 0]; split; reflexivity. }
  destruct D as [[-> ->] | [[-> ->] | (q & -> & ->)]]; [reflexivity..|]. cbn [bind]. rewrite !(read_values_elements ls).
  pose proof (shared_elements parse_float to_float32 ls 2 q F ltac:(auto)) as S1. rewrite EX in S1.
  destruct (TestCaseModel.read_elements parse_float to_float32 (Some (TI 2 q)) (map ELit ls)) as [[vs c]| |]; [|rewrite S1; reflexivity..].
  destruct S1 as (S1 & -> & S2). rewrite S1. cbn [bind settle]. rewrite S2. reflexivity.
Qed.

(** Every cell of a table that is not null has the type its column has, if numbers and strings can be values of it. *)
Theorem C66_cell_type : forall t l v, takes_text t -> table_cell (Some t) l v -> (exists s, cell_text l s) -> lit_type v = Ok t.
Proof.
  intros t l v T H (s & C). remember (Some t) as o eqn:EO. destruct H as [k text v H|text t' E|l s' t' v H E1 E2 E3|l s' H E].
  - exfalso. inversion C; subst; inversion H.
  - inversion C.
  - assert (t' = t) by congruence. subst t'. destruct E3; reflexivity.
  - exfalso. exact (E t EO T).
Qed.

(** ** findings *)

(** the value of a constant argument is not of the type declared for it *)
Theorem C66_constant_type_refuted : exists a c v t, read_arg a = Ok c /\ c_value c = CLit v /\ lit_type v = Ok t /\ t <> c_type c.
Proof. exists (GDecimal "1.5" (Some ("10", "4")) false). do 3 eexists. split; [vm_compute; reflexivity|]. split; [reflexivity|]. split; [reflexivity|]. discriminate. Qed.
(** numbers in a column of dates stay strings, and dates in a column of numbers are kept *)
Theorem C66_other_values_refuted :
  (exists gs, read_call (CMulti "t" [DPrim PrimDate false] [[Tlit KNum "5"]] "max" (Some [QColumn "t" "col0"])) =
     Ok ("max", gs, [[LPrim (VString "5") (TPrim PrimString 2 0)]], "t", [Some (TPrim PrimDate 2 0)])) /\
  (exists gs, read_call (CMulti "t" [DPrim PrimI32 false] [[Tlit KDate "'1970-01-02'"]] "max" (Some [QColumn "t" "col0"])) =
     Ok ("max", gs, [[LPrim (VDate 1) (TPrim PrimDate 2 0)]], "t", [Some (TPrim PrimI32 2 0)])).
Proof. split; eexists; vm_compute; reflexivity. Qed.
(** day-time intervals in a column are not brought to its precision *)
Theorem C66_interval_precision_refuted : exists gs, read_call (CMulti "t" [DIntervalDay (Some "3") false] [[Tlit KIntervalDay "'P1D'"]] "max" (Some [QColumn "t" "col0"])) =
  Ok ("max", gs, [[LProto (XDaySecond (Idts 1 0 (IM_precision 6) 0)) (TIntervalDay 2 0 6)]], "t", [Some (TIntervalDay 2 0 3)]).
Proof. eexists. vm_compute. reflexivity. Qed.
(** cells behind the last column are left out *)
Theorem C66_extra_cells_refuted : exists gs, read_call (CMulti "t" [DPrim PrimI8 false] [[Tlit KNum "1"; Tlit KNum "2"]; [Tlit KNum "3"; Tlit KStr "'x'"; Tlit KNum "4"]] "max" (Some [QColumn "t" "col0"])) =
  Ok ("max", gs, [[LPrim (VI8 1) (TPrim PrimI8 2 0); LPrim (VI8 3) (TPrim PrimI8 2 0)]], "t", [Some (TPrim PrimI8 2 0)]).
Proof. eexists. vm_compute. reflexivity. Qed.
(** a null in a column no argument names makes the file unreadable *)
Theorem C66_unnamed_null_refuted : read_call (CCompact [[Tlit KNum "1"; Tlit KNull "null"]] "max" (Some [AAColumn "col0" (DPrim PrimI8 false)])) = Panic /\
  exists parts, read_call (CCompact [[Tlit KNum "1"; Tlit KNum "2"]] "max" (Some [AAColumn "col0" (DPrim PrimI8 false)])) = Ok parts.
Proof. split; [|eexists]; vm_compute; reflexivity. Qed.
(** the types of two arguments naming one column may disagree; the last one wins *)
Theorem C66_disagreeing_refuted : exists gs, read_call (CCompact [[Tlit KNum "1"]] "corr" (Some [AAColumn "col0" (DPrim PrimI8 false); AAColumn "col0" (DPrim PrimI64 false)])) =
  Ok ("corr", gs, [[LPrim (VI64 1) (TPrim PrimI64 2 0)]], "", [Some (TPrim PrimI64 2 0)]) /\ map a_type gs = [Some (TPrim PrimI8 2 0); Some (TPrim PrimI64 2 0)].
Proof. eexists. split; vm_compute; reflexivity. Qed.
(** a call on no rows, and an argument naming no column, make the file unreadable *)
Theorem C66_no_rows_refuted : read_call (CCompact [] "count" None) = Panic /\ read_call (CCompact [[]] "count" (Some [AAScalar (GInt "1" PrimI8 false)])) = Err.
Proof. split; vm_compute; reflexivity. Qed.
(** nulls make the type of a column nullable, but not that of the argument naming it *)
Theorem C66_nullable_argument_refuted : exists gs cols, read_call (CCompact [[Tlit KNum "1"]; [Tlit KNull "null"]] "max" (Some [AAColumn "col0" (DPrim PrimI8 false)])) =
  Ok ("max", gs, cols, "", [Some (TPrim PrimI8 1 0)]) /\ map a_type gs = [Some (TPrim PrimI8 2 0)].
Proof. do 2 eexists. split; vm_compute; reflexivity. Qed.
(** the values of a list need not have the type of the list *)
Theorem C66_values_type_refuted : exists g, read_call (CSingle "max" [Tlit KNum "1"; Tlit KBool "true"; Tlit KStr "'7'"] (DPrim PrimI8 false)) = Ok ("max", [g], [], "", []) /\
  a_arg g = Some (Case (TPrim PrimI8 2 0) "" (CLit (LList [LPrim (VI8 1) (TPrim PrimI8 2 0); LPrim (VBool true) (TPrim PrimBool 2 0); LPrim (VI8 7) (TPrim PrimI8 2 0)] (TList 2 0 (TPrim PrimI8 2 0))))).
Proof. eexists. split; vm_compute; reflexivity. Qed.
(** any three characters are taken for the word before the number of a column *)
Theorem C66_column_word_refuted : exists g, TestCaseModel.read_aarg parse_float to_float32 (AAColumn "col4294967297" (DPrim PrimI8 false)) = Ok g /\ a_index g = 1.
Proof. eexists. split; vm_compute; reflexivity. Qed.

Example C66_nonvacuous :
  (exists gs, read_call (CCompact [[Tlit KNum "1"; Tlit KStr "'a'"; Tlit KDate "'1970-01-03'"]; [Tlit KNull "null"; Tlit KNum "22"; Tlit KDate "'1970-01-02'"]] "f"
      (Some [AAColumn "col1" (DFixed FxVarChar "5" true); AAScalar (GBool "TRUE" false); AAColumn "col0" (DPrim PrimI16 false)])) =
    Ok ("f", gs, [[LPrim (VI16 1) (TPrim PrimI16 2 0); LNull (TPrim PrimI16 1 0)];
                  [LProto (XString "a") (TFixed FxVarChar 1 0 5); LProto (XString "22") (TFixed FxVarChar 1 0 5)];
                  [LPrim (VDate 2) (TPrim PrimDate 2 0); LPrim (VDate 1) (TPrim PrimDate 2 0)]], "",
        [Some (TPrim PrimI16 1 0); Some (TFixed FxVarChar 1 0 5); None]) /\
    map (fun g => (a_index g, a_scalar g)) gs = [(1, false); (0, true); (0, false)]) /\
  (exists gs cols ts, read_call (CMulti "t1" [DPrim PrimI8 false; DPrim PrimString true] [[Tlit KNum "1"; Tlit KNull "null"]] "f" (Some [QColumn "t1" "col1"; QColumn "" "col0"])) = Ok ("f", gs, cols, "t1", ts) /\
    map a_type gs = [Some (TPrim PrimString 1 0); Some (TPrim PrimI8 2 0)]) /\
  read_call (CMulti "t1" [DPrim PrimI8 false] [[Tlit KNum "1"]] "f" (Some [QColumn "t2" "col0"])) = Err /\
  read_call (CMulti "t1" [DPrim PrimI8 false] [[Tlit KNum "1"]] "f" (Some [QColumn "t1" "col1"])) = Panic /\
  (exists g, read_call (CSingle "sum" [Tlit KNum "1"; Tlit KNull "null"] (DPrim PrimI8 false)) = Ok ("sum", [g], [], "", []) /\ a_type g = Some (TPrim PrimI8 1 0)) /\
  declares (DPrim PrimI8 false) (TPrim PrimI8 2 0) /\ unshared (TPrim PrimI8 2 0) true /\ short_text (GFixed FxChar "'abc'" "2" false) /\ unshared_list (GFixed FxChar "'abc'" "2" false) /\
  (exists c, read_arg (GFixed FxChar "'abc'" "2" false) = Ok c /\ c_type c = TFixed FxChar 2 0 2 /\ c_value c = CLit (LPrim (VFixedChar "abc") (TFixed FxChar 2 0 3))).
Proof.
  split; [eexists; split; vm_compute; reflexivity|]. split; [do 3 eexists; split; vm_compute; reflexivity|]. do 2 (split; [vm_compute; reflexivity|]).
  split; [eexists; split; vm_compute; reflexivity|]. split; [constructor|]. split; [intros _ n v p E; discriminate E|]. split; [intros k text len null E; injection E; intros; subst; cbn; lia|].
  split; [intros es d null t E; discriminate E|]. eexists. split; [vm_compute; reflexivity|]. split; reflexivity.
Qed.
End Floats.

Print Assumptions C66_constant.
Print Assumptions C66_compact.
Print Assumptions C66_table.
Print Assumptions C66_values.
Print Assumptions C66_shared_values.
Print Assumptions C66_cell_type.
Print Assumptions C66_constant_type_refuted.
Print Assumptions C66_other_values_refuted.
Print Assumptions C66_interval_precision_refuted.
Print Assumptions C66_extra_cells_refuted.
Print Assumptions C66_unnamed_null_refuted.
Print Assumptions C66_disagreeing_refuted.
Print Assumptions C66_no_rows_refuted.
Print Assumptions C66_nullable_argument_refuted.
Print Assumptions C66_values_type_refuted.
Print Assumptions C66_column_word_refuted.
