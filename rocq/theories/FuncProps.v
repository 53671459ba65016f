(** Properties of the functions package: C26 registry lookups, C27 localization,
    C28 type strings, C50 dialect files, C51 lookup by invocation. *)

From Coq Require Import ZArith String Ascii Bool Lia List Permutation.
From Verif Require Import Base FMap FMapFacts ExtSetModel ExtSetProofs LoadModel LoadSpec LoadProofs TypesModel SigModel SigSpec ExprModel ExprSpec ExprWireProofs FuncModel FuncSpec FuncTypeProofs FuncDialectProofs.
Import ListNotations.
Local Open Scope string_scope.

(** ** C26 *)

(** A lookup by name and argument count answers the variants of that kind with that name
    that take so many arguments, in registration order. *)
Theorem C26_lookup_exact : forall vo sc ag wi name n p,
  decides p (fun f => v_name f = name /\ takes vo f n) ->
  let r := new_registry sc ag wi in
  scalar_functions vo r name n = filter p sc /\
  agg_functions vo r name n = filter p ag /\
  window_functions vo r name n = filter p wi.
Proof.
  intros vo sc ag wi name n p Hp r. destruct (registry_spec sc ag wi name) as (H1 & H2 & H3 & _).
  unfold scalar_functions, agg_functions, window_functions, r. rewrite H1, H2, H3.
  repeat split; apply by_count_spec; auto.
Qed.

Theorem C26_by_name_exact : forall sc ag wi name p,
  decides p (fun f => v_name f = name) ->
  let r := new_registry sc ag wi in
  scalar_by_name r name = filter p sc /\ agg_by_name r name = filter p ag /\ window_by_name r name = filter p wi.
Proof.
  intros sc ag wi name p Hp r. destruct (registry_spec sc ag wi name) as (H1 & H2 & H3 & _). unfold r. rewrite H1, H2, H3.
  assert (decides (named name) (fun f => v_name f = name)) as Hd by (intros f; apply String.eqb_eq).
  repeat split; eapply filter_ext_iff; eauto.
Qed.

Theorem C26_all_functions : forall sc ag wi, all_functions (new_registry sc ag wi) = (sc ++ ag ++ wi)%list.
Proof. intros. apply (registry_spec sc ag wi ""). Qed.

(** For a function that is not variadic this is the count the signature accepts (C06); for a
    variadic one with one parameter it differs at most at one argument. *)
Theorem C26_count_agrees : forall vo f nargs,
  (vo f = None -> (takes vo f (Z.of_nat nargs) <-> count_ok (List.length (i_args (v_impl f))) (vo f) nargs)) /\
  (List.length (i_args (v_impl f)) = 1%nat -> vo f <> None ->
   (takes vo f (Z.of_nat nargs) <-> count_ok 1 (vo f) nargs \/ nargs = 1%nat)).
Proof.
  intros vo f nargs. unfold takes, count_ok. split.
  - intros ->. split; [intros [H|(v & E & _)]; [lia|discriminate]|intros ->; auto].
  - intros -> Hv. destruct (vo f) as [v|]; [|contradiction]. split.
    + intros [H|(v' & E & H1 & H2)]; [right; lia|]. inversion E; subst v'. left. split; [lia|]. destruct H2; [right; lia|auto].
    + intros [[H1 H2]|H]; [|left; lia]. right. exists v. split; auto. split; [lia|]. destruct H2; [auto|left; lia].
Qed.

(** Finding: with two parameters, the variadic bounds are compared with the whole argument
    list: a call the signature refuses is offered, and one it accepts is not. *)
Theorem C26_variadic_count_refuted : exists vo f,
  (takes vo f 1 /\ ~ count_ok (List.length (i_args (v_impl f))) (vo f) 1) /\
  (~ takes vo f 3 /\ count_ok (List.length (i_args (v_impl f))) (vo f) 3).
Proof.
  exists (fun _ => Some (Variadic 1 2 Consistent)), (Variant "u" "f" 0 (Impl ["i32"; "str"] [] "" "" 0)).
  unfold takes, count_ok; cbn -[Z.of_nat Z.max]. repeat split.
  - right. eexists. split; [reflexivity|]. cbn. lia.
  - cbn. intros [H _]. lia.
  - intros [H|(v & E & H1 & H2)]; [lia|]. inversion E; subst. cbn in *. lia.
  - cbn. lia.
  - cbn. right. lia.
Qed.

Example C26_nonvacuous :
  let f a := Variant "u" "f" 0 (Impl a [] "" "" 0) in
  let g := Variant "u" "g" 0 (Impl ["i32"] [] "" "" 0) in
  scalar_functions (fun _ => None) (new_registry [f ["i32"]; g; f ["i64"]; f ["i32"; "i32"]] [] []) "f" 1 =
  [f ["i32"]; f ["i64"]].
Proof. reflexivity. Qed.

(** ** C28 *)

(** The standard registry reads exactly the strings of the grammar; everything else is an
    error, never a panic. *)
Theorem C28_standard_exact : forall s,
  standard_type s <> Panic /\
  forall t, standard_type s = Ok t <-> reads (fun name k => In name (kind_names k)) "<" ">" s t.
Proof. intros s. apply get_type_spec; [discriminate|apply standard_table]. Qed.

(** A dialect's table is accepted exactly when every type it names is known. *)
Theorem C28_table_accepted : forall table,
  (exists r, localize_types table = Ok r) /\ known_table table \/ localize_types table = Err /\ ~ known_table table.
Proof. apply localize_types_spec. Qed.

(** Standard strings are read for the declared kinds only. *)
Theorem C28_registered_exact : forall table r s, localize_types table = Ok r ->
  reg_type r s <> Panic /\
  forall t, reg_type r s = Ok t <->
    reads (fun name k => In name (registered_names k) /\ exists l b, declares table k l b) "<" ">" s t.
Proof. intros table r s H. apply get_type_spec; [discriminate|apply local_names_table; auto]. Qed.

(** Local strings are read by the declared local names. *)
Theorem C28_local_exact : forall table r s, localize_types table = Ok r -> distinct_locals table ->
  substrait_type r s <> Panic /\
  forall t, substrait_type r s = Ok t <-> reads (fun l k => exists b, declares table k l b) "(" ")" s t.
Proof. intros table r s H Hd. apply get_type_spec; [discriminate|apply local_locals_table; auto]. Qed.

Theorem C28_to_local_exact : forall table r t, localize_types table = Ok r -> distinct_kinds table ->
  local_type r t <> Panic /\
  forall s, local_type r t = Ok s <-> exists k l b, kind_of t = Some k /\ declares table k l b /\ s = local_text l t.
Proof. intros. apply local_type_spec; auto. Qed.

Theorem C28_column_support : forall table r t, localize_types table = Ok r -> distinct_kinds table ->
  supported_in_tables r t = true <-> exists k l, kind_of t = Some k /\ declares table k l true.
Proof. intros. apply supported_in_tables_spec; auto. Qed.

(** The local string of a type reads back as the type, not nullable. *)
Theorem C28_local_round_trip : forall table r t k l b,
  localize_types table = Ok r -> distinct_kinds table -> distinct_locals table ->
  readable t -> kind_of t = Some k -> declares table k l b -> plain_name l ->
  local_type r t = Ok (local_text l t) /\
  substrait_type r (local_text l t) = Ok (plain_type NullRequired t).
Proof.
  intros table r t k l b H Hk Hl Hr Ht Hd Hp. split.
  - apply (C28_to_local_exact table r t H Hk). exists k, l, b. auto.
  - apply (C28_local_exact table r _ H Hl). eapply reads_local; eauto.
Qed.

Lemma str_nullable_marked : forall name n, n = NullNullable \/ n = NullRequired -> ~ ends_with "?" name ->
  marked (name ++ str_nullable n) name n.
Proof.
  intros name n [->| ->] H; unfold str_nullable; cbn.
  - constructor.
  - rewrite append_nil_r. constructor; auto.
Qed.

Lemma no_char_app : forall c a b, no_char c a -> no_char c b -> no_char c (a ++ b).
Proof. unfold no_char. intros c a b Ha Hb. rewrite chars_app. intros H. apply in_app_or in H as []; auto. Qed.
Lemma str_nullable_no : forall c n, c <> "?"%char -> no_char c (str_nullable n).
Proof. unfold no_char, str_nullable. intros c n H. destruct (Z.eqb n NullNullable); cbn; intuition congruence. Qed.
Lemma no_question : forall s, drop_last "?" s = None -> ~ ends_with "?" s.
Proof. intros s. apply drop_last_none. Qed.

(** The text of a simple, fixed-length or decimal type is read back by the standard registry. *)
Theorem C28_standard_round_trip : forall t n,
  readable t -> n = NullNullable \/ n = NullRequired ->
  standard_type (type_string (plain_type n t)) = Ok (plain_type n t).
Proof.
  intros t n Hr Hn. apply C28_standard_exact.
  destruct t; cbn in Hr; try contradiction; cbn [plain_type type_string].
  - exists (prim_name p ++ str_nullable n), [], (prim_name p), n, (KPrim p).
    split; [|split; [|split]].
    + apply Enc_plain. left. apply no_char_app; [|apply str_nullable_no; discriminate]. destruct p; unfold no_char; cbn; intuition discriminate.
    + apply str_nullable_marked; auto. apply no_question. destruct p; reflexivity.
    + destruct p; cbn; auto.
    + constructor.
  - exists (fixed_name k ++ str_nullable n), [len], (fixed_name k), n, (KFixed k).
    split; [|split; [|split]].
    + assert (H := enclosed_params (fixed_name k ++ str_nullable n) "<" ">" [len]).
      cbn [map String.concat] in H. rewrite append_assoc' in H. apply H; [|discriminate|repeat constructor; apply Hr].
      apply no_char_app; [|apply str_nullable_no; discriminate]. destruct k; unfold no_char; cbn; intuition discriminate.
    + apply str_nullable_marked; auto. apply no_question. destruct k; reflexivity.
    + destruct k; cbn; auto.
    + constructor.
  - destruct Hr as [Hr1 Hr2]. exists ("decimal" ++ str_nullable n), [precision; scale], "decimal", n, KDecimal.
    split; [|split; [|split]].
    + assert (H := enclosed_params ("decimal" ++ str_nullable n) "<" ">" [precision; scale]).
      cbn [map String.concat] in H. rewrite !append_assoc' in H. apply H; [|discriminate|repeat constructor; try apply Hr1; apply Hr2].
      apply no_char_app; [|apply str_nullable_no; discriminate]. unfold no_char; cbn; intuition discriminate.
    + apply str_nullable_marked; auto. apply no_question. reflexivity.
    + cbn; auto.
    + constructor.
Qed.

(** Findings: a type with a precision prints the precision, which no registry reads back;
    the nullability of a type is not part of its local text. *)
Lemma reads_shape : forall en o c base text t, no_char o base ->
  reads en o c (base ++ String o (text ++ String c "")) t ->
  exists name n k zs, marked base name n /\ en name k /\ typed n k zs t /\ zs <> [].
Proof.
  intros en o c base text t Hb (text' & zs & name & n & k & He & Hm & Hen & Ht).
  assert (cut_at o (base ++ String o (text ++ String c "")) = Some (base, text ++ String c "")) as Hc by (apply cut_at_some; auto).
  inversion He as [s Hs E1 E2 E3|base' words zs' Hb' Hw HF E1 E2 E3]; subst.
  - exfalso. destruct Hs as [Hs|Hs].
    + apply cut_at_none in Hs. congruence.
    + apply Hs. exists (base ++ String o text). rewrite append_assoc'. reflexivity.
  - assert (cut_at o (text' ++ String o (String.concat "," words ++ String c "")) = Some (text', String.concat "," words ++ String c ""))
      as Hc' by (apply cut_at_some; auto).
    rewrite E1 in Hc'. rewrite Hc in Hc'. inversion Hc'; subst. exists name, n, k, zs. repeat split; auto.
    intros ->. inversion HF; subst. auto.
Qed.

Lemma not_ok_err : forall A (r : res A), r <> Panic -> (forall a, r <> Ok a) -> r = Err.
Proof. intros A [a| |] H1 H2; [exfalso; eapply H2; eauto|reflexivity|contradiction]. Qed.

Lemma marked_unique : forall s a b m n, marked s a m -> marked s b n -> a = b.
Proof. intros s a b m n H1 H2. apply marked_spec in H1, H2. congruence. Qed.

Theorem C28_precision_standard_refuted : forall t, with_precision t -> standard_type (type_string t) = Err.
Proof.
  intros t Ht. apply not_ok_err; [apply C28_standard_exact|]. intros t' H. apply C28_standard_exact in H.
  assert (exists name n text k0, type_string t = (name ++ str_nullable n) ++ String "<" (text ++ String ">" "") /\
            In name (kind_names k0) /\ no_char "<" name /\ ~ ends_with "?" name /\
            (forall n' zs t'', typed n' k0 zs t'' -> zs = [])) as (name & n & text & k0 & E & Hk & Hno & Hq & Hz).
  { destruct t; cbn in Ht; try contradiction; cbn [type_string].
    - exists "precision_time", n, (string_of_Z prec), KPrecTime. rewrite append_assoc'. split; [reflexivity|].
      split; [cbn; auto|]. split; [unfold no_char; cbn; intuition discriminate|]. split; [apply no_question; reflexivity|].
      intros n' zs t'' Hx; inversion Hx; auto.
    - exists "precision_timestamp", n, (string_of_Z prec), KPrecTs. rewrite append_assoc'. split; [reflexivity|].
      split; [cbn; auto|]. split; [unfold no_char; cbn; intuition discriminate|]. split; [apply no_question; reflexivity|].
      intros n' zs t'' Hx; inversion Hx; auto.
    - exists "precision_timestamp_tz", n, (string_of_Z prec), KPrecTsTz. rewrite append_assoc'. split; [reflexivity|].
      split; [cbn; auto|]. split; [unfold no_char; cbn; intuition discriminate|]. split; [apply no_question; reflexivity|].
      intros n' zs t'' Hx; inversion Hx; auto.
    - exists "interval_day", n, (string_of_Z prec), KDay. rewrite append_assoc'. split; [reflexivity|].
      split; [cbn; auto|]. split; [unfold no_char; cbn; intuition discriminate|]. split; [apply no_question; reflexivity|].
      intros n' zs t'' Hx; inversion Hx; auto. }
  rewrite E in H. apply reads_shape in H as (name' & n' & k & zs & Hm & Hk' & Hty & Hne).
  2:{ apply no_char_app; auto. apply str_nullable_no. discriminate. }
  assert (marked (name ++ str_nullable n) name (if Z.eqb n NullNullable then NullNullable else NullRequired)) as Hm'.
  { unfold str_nullable. destruct (Z.eqb n NullNullable); [constructor|rewrite append_nil_r; constructor; auto]. }
  assert (name' = name) by (eapply marked_unique; eauto). subst name'.
  assert (k = k0) by (eapply names_kind_unique; eauto). subst. apply Hne. eauto.
Qed.

Theorem C28_precision_local_refuted : forall table r t s,
  localize_types table = Ok r -> distinct_kinds table -> distinct_locals table ->
  (forall k l b, declares table k l b -> plain_name l) ->
  with_precision t -> local_type r t = Ok s -> substrait_type r s = Err.
Proof.
  intros table r t s H Hk Hl Hpl Ht Hs. apply not_ok_err; [apply (C28_local_exact table r s H Hl)|].
  intros t' Hx. apply (C28_local_exact table r s H Hl) in Hx.
  apply (C28_to_local_exact table r t H Hk) in Hs as (k & l & b & Eo & Hd & ->).
  destruct (Hpl _ _ _ Hd) as [Hp Hq].
  assert (exists text, local_text l t = l ++ String "(" (text ++ String ")" "")) as [text E].
  { destruct t; cbn in Ht; try contradiction; cbn [local_text]; eexists; reflexivity. }
  rewrite E in Hx. apply reads_shape in Hx as (name' & n' & k' & zs & Hm & [b' Hd'] & Hty & Hne); auto.
  assert (name' = l) by (eapply marked_unique; [exact Hm|apply Mk_req; auto]). subst name'.
  assert (k' = k) by (eapply Hl; eauto). subst k'.
  destruct t; cbn in Ht; try contradiction; cbn in Eo; inversion Eo; subst; inversion Hty; subst; auto.
Qed.

Theorem C28_nullability_lost_refuted : forall table r t k l b n,
  localize_types table = Ok r -> distinct_kinds table -> distinct_locals table ->
  readable t -> kind_of t = Some k -> declares table k l b -> plain_name l ->
  n <> NullRequired ->
  local_type r (plain_type n t) = Ok (local_text l t) /\
  substrait_type r (local_text l t) <> Ok (plain_type n t).
Proof.
  intros table r t k l b n H Hk Hl Hr Ht Hd Hp Hn.
  destruct (C28_local_round_trip table r t k l b H Hk Hl Hr Ht Hd Hp) as [_ H2]. split.
  - apply (C28_to_local_exact table r _ H Hk). exists k, l, b.
    destruct t; cbn in Hr; try contradiction; cbn in *; auto.
  - rewrite H2. intros E. apply Hn. destruct t; cbn in Hr; try contradiction; cbn in E; inversion E; auto.
Qed.

(** a year-month interval comes back as the other interval-year type; the name u! is not
    answered by a dialect that declares it *)
Theorem C28_other_kinds_refuted :
  (forall table r l b n v, localize_types table = Ok r -> distinct_kinds table -> distinct_locals table ->
     declares table (KPrim PrimIntervalYear) l b -> plain_name l ->
     local_type r (TIntervalYearToMonth n v) = Ok l /\ substrait_type r l = Ok (TPrim PrimIntervalYear NullRequired 0)) /\
  (forall table r, localize_types table = Ok r -> reg_type r "u!" = Err).
Proof.
  split.
  - intros table r l b n v H Hk Hl Hd [Hp Hq]. split.
    + apply (C28_to_local_exact table r _ H Hk). exists (KPrim PrimIntervalYear), l, b. auto.
    + apply (C28_local_exact table r _ H Hl). exists l, [], l, NullRequired, (KPrim PrimIntervalYear).
      repeat split; auto; [apply Enc_plain; auto|apply Mk_req; auto|eauto|constructor].
  - intros table r H. apply not_ok_err; [apply (C28_registered_exact table r _ H)|]. intros t Hx.
    apply (C28_registered_exact table r _ H) in Hx as (text & zs & name & n & k & He & Hm & [Hin _] & _).
    assert (text = "u!") as ->.
    { inversion He as [s Hs E1 E2 E3|base' words zs' Hb' Hw HF E1 E2 E3]; subst; auto.
      exfalso. assert (cut_at "<" "u!" = None) as Hc by reflexivity. rewrite <- E1 in Hc. apply cut_at_none in Hc.
      unfold no_char in Hc. apply Hc. rewrite chars_app. apply in_or_app. right; left; auto. }
    assert (name = "u!") as ->.
    { eapply marked_unique; [exact Hm|]. apply Mk_req. apply no_question. reflexivity. }
    destruct k as [p|f| | | | | |]; [destruct p|destruct f|..]; cbn in Hin; intuition discriminate.
Qed.

(** Two declarations of one kind: the answer depends on the iteration order of the table. *)
Theorem C28_two_names_order_refuted : exists t t' r r' x,
  Permutation t t' /\ localize_types t = Ok r /\ localize_types t' = Ok r' /\
  local_type r x = Ok "A" /\ local_type r' x = Ok "B".
Proof.
  exists [("str", ("B", true)); ("string", ("A", true))], [("string", ("A", true)); ("str", ("B", true))].
  eexists. eexists. exists (TPrim PrimString 2 0). split; [apply perm_swap|].
  split; [reflexivity|]. split; [reflexivity|]. split; reflexivity.
Qed.

(** Objects: reading a type string leaves every existing type object alone, except that the
    table's own interval_day object is handed out with its nullability overwritten. *)
Theorem C28_read_frame : forall h table values o c s h' a,
  (forall name, fm_get String.eqb name values =
                match fm_get String.eqb name table with Some b => nth_error h b | None => None end) ->
  get_type_heap h table o c s = Ok (h', a) ->
  (exists t, get_type values o c s = Ok t /\ nth_error h' a = Some t) /\
  (forall b t, nth_error h b = Some t -> nth_error h' b = Some t \/
     b = a /\ (exists n v p, t = TIntervalDay n v p) /\ exists name, fm_get String.eqb name table = Some b) /\
  (List.length h <= a)%nat \/
  exists n v p n', nth_error h a = Some (TIntervalDay n v p) /\ (exists name, fm_get String.eqb name table = Some a) /\
    get_type values o c s = Ok (TIntervalDay n' v p) /\
    nth_error h' a = Some (TIntervalDay n' v p) /\ forall b, b <> a -> nth_error h' b = nth_error h b.
Proof.
  intros h table values o c s h' a Hv H. unfold get_type_heap in H.
  destruct (extract o c s) as [[text ps]| |] eqn:Ee; cbn [bind] in H; try discriminate.
  unfold get_type. rewrite Ee. cbn [bind]. destruct (base_and_nullability text) as [base n].
  rewrite Hv. destruct (fm_get String.eqb base table) as [ad|] eqn:Et; [|discriminate].
  destruct (nth_error h ad) as [t|] eqn:En; [|discriminate].
  destruct (type_with_parameters t ps) as [t'| |] eqn:Ep; cbn [bind] in H; try discriminate.
  cbn [bind].
  assert (Hlast : forall (l : list ty) x, nth_error (l ++ [x]) (List.length l) = Some x).
  { intros l x. rewrite nth_error_app2 by lia. rewrite Nat.sub_diag. reflexivity. }
  assert (Hkeep : forall (l : list ty) x b u, nth_error l b = Some u -> nth_error (l ++ [x]) b = Some u).
  { intros l x b u Hb. rewrite nth_error_app1; auto. apply nth_error_Some. congruence. }
  assert (Hfresh : forall t0, with_nullability_heap h ad n = Ok ((h ++ [with_nullability n t0])%list, List.length h) -> t0 = t' ->
     (h', a) = ((h ++ [with_nullability n t0])%list, List.length h) ->
     (exists t, Ok (with_nullability n t') = Ok t /\ nth_error h' a = Some t) /\
     (forall b t, nth_error h b = Some t -> nth_error h' b = Some t \/
        b = a /\ (exists n v p, t = TIntervalDay n v p) /\ exists name, fm_get String.eqb name table = Some b) /\
     (List.length h <= a)%nat).
  { intros t0 _ -> E. inversion E; subst. split; [exists (with_nullability n t'); split; [auto|apply Hlast]|].
    split; [intros b u Hb; left; apply Hkeep; auto|lia]. }
  assert (Hnew : forall t0, (exists k' n' v' l', t0 = TFixed k' n' v' l') \/ (exists n' v' p' s', t0 = TDecimal n' v' p' s') ->
     with_nullability_heap (h ++ [t0])%list (List.length h) n = Ok (h', a) -> t0 = t' ->
     (exists t, Ok (with_nullability n t') = Ok t /\ nth_error h' a = Some t) /\
     (forall b t, nth_error h b = Some t -> nth_error h' b = Some t \/
        b = a /\ (exists n v p, t = TIntervalDay n v p) /\ exists name, fm_get String.eqb name table = Some b) /\
     (List.length h <= a)%nat).
  { intros t0 Hk Hw ->. unfold with_nullability_heap in Hw. rewrite Hlast in Hw.
    assert (Hx : (h', a) = (((h ++ [t']) ++ [with_nullability n t'])%list, List.length (h ++ [t']))).
    { destruct Hk as [(k' & n' & v' & l' & ->)|(n' & v' & p' & s' & ->)]; inversion Hw; reflexivity. }
    inversion Hx; subst. split; [exists (with_nullability n t'); split; [auto|apply Hlast]|].
    split; [intros b u Hb; left; apply Hkeep, Hkeep; auto|rewrite app_length; lia]. }
  destruct t as [p n0 v0|k n0 v0 len|n0 v0 p0 s0|n0 v0 p0|n0 v0 p0|n0 v0 p0|n0 v0 p0|e n0 v0 p0|n0 v0|e n0 v0 nm ops|n0 v0 fs|n0 pp rr|n0 v0 e|n0 v0 k x|n0 v0 rf pm].
  2:{ left. cbn in Ep. destruct ps as [|z [|? ?]]; try discriminate. inversion Ep; subst. eapply Hnew; eauto. left; eauto 6. }
  2:{ left. cbn in Ep. destruct ps as [|z [|? [|? ?]]]; try discriminate. inversion Ep; subst. eapply Hnew; eauto. right; eauto 6. }
  5:{ right. cbn in Ep. destruct ps; try discriminate. inversion Ep; subst. unfold with_nullability_heap in H. rewrite En in H.
      inversion H; subst. exists n0, v0, p0, n. split; [auto|]. split; [eauto|]. split; [reflexivity|].
      assert (List.length (firstn a h) = a) as Hl by (apply firstn_length_le; assert (nth_error h a <> None) as Hx by congruence; apply nth_error_Some in Hx; lia).
      split.
      - rewrite nth_error_app2 by lia. rewrite Hl, Nat.sub_diag. reflexivity.
      - intros b Hb. destruct (Nat.lt_ge_cases b a) as [Hlt|Hge].
        + rewrite nth_error_app1 by lia. clear - Hlt. revert a b Hlt. induction h as [|x h IH]; intros [|a] [|b] Hlt; cbn; auto; try lia.
          * apply IH. lia.
        + rewrite nth_error_app2 by lia. rewrite Hl. destruct (b - a)%nat as [|m] eqn:Eb; [lia|]. cbn [nth_error].
          assert (b = S a + m)%nat as -> by lia. clear. revert a. induction h as [|x h IH]; intros a; cbn.
          * destruct m; reflexivity.
          * destruct a as [|a]; cbn; auto. apply (IH a). }
  all: left; cbn in Ep; destruct ps; try discriminate; inversion Ep; subst;
    assert (Hw := H); unfold with_nullability_heap in Hw; rewrite En in Hw; inversion Hw; subst;
    (split; [eexists; split; [reflexivity|apply Hlast]|split; [intros b u Hb; left; apply Hkeep; auto|lia]]).
Qed.

(** Finding: a type read earlier changes when interval_day is read again. *)
Theorem C28_shared_interval_day_refuted : exists h table h1 h2 a,
  get_type_heap h table "<" ">" "interval_day" = Ok (h1, a) /\
  nth_error h1 a = Some (TIntervalDay NullRequired 0 0) /\
  get_type_heap h1 table "<" ">" "interval_day?" = Ok (h2, a) /\
  nth_error h2 a = Some (TIntervalDay NullNullable 0 0).
Proof.
  exists [TIntervalDay 0 0 0], [("interval_day", 0%nat)]. eexists. eexists. eexists.
  split; [reflexivity|]. split; [reflexivity|]. split; reflexivity.
Qed.

Example C28_nonvacuous :
  let table := [("string", ("TEXT", true)); ("dec", ("NUMERIC", true)); ("varchar", ("VARCHAR", false))] in
  known_table table /\ distinct_kinds table /\ distinct_locals table /\
  exists r, localize_types table = Ok r /\
    local_type r (TDecimal 1 0 10 2) = Ok "NUMERIC(10,2)" /\
    substrait_type r "NUMERIC?(10,2)" = Ok (TDecimal 1 0 10 2) /\
    substrait_type r "NUMERIC(10)" = Err /\
    reg_type r "varchar<7>" = Ok (TFixed FxVarChar 2 0 7) /\ reg_type r "i32" = Err.
Proof.
  cbn zeta.
  assert (Hd : forall k l b, declares [("string", ("TEXT", true)); ("dec", ("NUMERIC", true)); ("varchar", ("VARCHAR", false))] k l b ->
            (k = KPrim PrimString /\ l = "TEXT" /\ b = true) \/ (k = KDecimal /\ l = "NUMERIC" /\ b = true) \/
            (k = KFixed FxVarChar /\ l = "VARCHAR" /\ b = false)).
  { intros k l b (name & Hi & Hn). destruct Hi as [E|[E|[E|[]]]]; inversion E; subst.
    - left. repeat split. eapply names_kind_unique; eauto. cbn; auto.
    - right; left. repeat split. eapply names_kind_unique; eauto. cbn; auto.
    - right; right. repeat split. eapply names_kind_unique; eauto. cbn; auto. }
  split; [|split; [|split]].
  - intros name v [E|[E|[E|[]]]]; inversion E; subst; [exists (KPrim PrimString)|exists KDecimal|exists (KFixed FxVarChar)]; cbn; auto.
  - intros k l l' b b' H H'. apply Hd in H, H'. intuition congruence.
  - intros k k' l b b' H H'. apply Hd in H, H'. intuition congruence.
  - eexists. split; [reflexivity|]. repeat split; vm_compute; reflexivity.
Qed.

(** ** C50 *)

(** A dialect file is loaded exactly when it declares types and functions and each function
    is well formed; each kernel then declares one function, and of two declarations with one
    identity the later counts. *)
Theorem C50_loaded_iff : forall d, NoDup (map fst (dl_deps d)) ->
  (file_ok d -> exists x, load_dialect d = Ok x) /\ (~ file_ok d -> load_dialect d = Err).
Proof.
  intros d Hn. destruct (load_spec d Hn) as [(H1 & x & H2 & _)|[H1 H2]]; split; intros H; try contradiction; eauto.
Qed.

Theorem C50_content : forall d x, NoDup (map fst (dl_deps d)) -> load_dialect d = Ok x ->
  d_types x = dl_types d /\
  forall fs m, (fs, m) = (dl_scalar d, d_scalar x) \/ (fs, m) = (dl_agg d, d_agg x) \/ (fs, m) = (dl_window d, d_window x) ->
    NoDup (map fst m) /\
    exists l, file_infos (dl_deps d) fs l /\ forall id i, In (id, i) m <-> last_with id i l.
Proof.
  intros d x Hn Hx. destruct (load_spec d Hn) as [(H1 & x' & H2 & H3 & H4 & H5 & H6)|[H1 H2]]; [|congruence].
  assert (x' = x) by congruence. subst x'. split; auto.
  intros fs m [E|[E|E]]; inversion E; subst; assumption.
Qed.

Example C50_nonvacuous :
  let f := DFunc "math.add" "" true false [("overflow", "ERROR")] ["any1_any1"; "i32_i32"] in
  let d := DFile [("i32", ("INT", true))] [f] [] [] [("math", "extension:a:b")] in
  file_ok d /\
  exists x, load_dialect d = Ok x /\
    fm_get ext_id_eqb (ExtId "extension:a:b" "add:any_any") (d_scalar x) =
      Some (DInfo (ExtId "extension:a:b" "add:any_any") "add" "add" [("overflow", ["ERROR"])] Infix) /\
    load_dialect (DFile [("i32", ("INT", true))] [DFunc "math.add" "" true false [] ["foo"]] [] [] [("math", "u")]) = Err.
Proof.
  cbn zeta. split.
  - unfold file_ok; cbn. split; [discriminate|]. split; [left; discriminate|].
    intros f [[<-|[]]|[[]|[]]]. unfold func_ok; cbn. split; [discriminate|]. split.
    + exists "math", "add", "extension:a:b". split; [|auto]. unfold dotted, no_char; cbn; intuition discriminate.
    + intros k [<-|[<-|[]]].
      * exists "any_any", ["any1"; "any1"], ["any"; "any"]. split; [|split; [|reflexivity]].
        -- repeat constructor; unfold no_char; cbn; intuition discriminate.
        -- repeat constructor; apply (KW_any "1").
      * exists "i32_i32", ["i32"; "i32"], ["i32"; "i32"]. split; [|split; [|reflexivity]].
        -- repeat constructor; unfold no_char; cbn; intuition discriminate.
        -- repeat constructor; apply (KW_type "i32" (KPrim PrimI32)); cbn; auto.
  - eexists. split; [vm_compute; reflexivity|]. split; vm_compute; reflexivity.
Qed.

(** ** C27 *)

Lemma pick_answers : forall ds infos fs get m slice,
  (forall id d, fm_get ext_id_eqb id infos = Some d <-> In d ds /\ di_id d = id) ->
  (forall n, get n = filter (named n) fs) ->
  (forall n, get_or_empty fname_eqb (FSub n) m = pickn infos get n) ->
  (forall l, get_or_empty fname_eqb (FLoc l) m = filter (at_local l) slice) ->
  Permutation slice (pick infos fs) ->
  answers ds fs (fun nm => get_or_empty fname_eqb nm m) slice.
Proof.
  intros ds infos fs get m slice Hi Hg H1 H2 H3. split.
  - intros n. exists (filter (named n) fs). assert (decides (named n) (fun f => v_name f = n)) as Hd by (intros f; apply String.eqb_eq).
    split; [|split].
    + intros f. rewrite filter_In. unfold named. rewrite String.eqb_eq. tauto.
    + exists (named n). auto.
    + rewrite H1. unfold pickn. rewrite Hg. apply pick_picks; auto.
  - exists (pick infos fs). split; [apply pick_picks; auto|]. split; auto.
    intros l p Hp. rewrite H2.
    assert (filter (at_local l) slice = filter p slice) as ->.
    { eapply filter_ext_iff; [|exact Hp]. intros v. apply String.eqb_eq. }
    clear - H3. induction H3; cbn; auto.
    + destruct (p x); auto.
    + destruct (p x), (p y); auto. apply perm_swap.
    + etransitivity; eauto.
Qed.

(** [d] is a dialect file, [x] what is loaded from it, [sc], [ag], [wi] the functions of the
    registry; [os], [oa], [ow] any orders of the three sets of declarations. *)
Definition localizable (d : dfile) (x : dialect) (sc ag wi : list variant) (os oa ow : list dinfo) : Prop :=
  NoDup (map fst (dl_deps d)) /\ load_dialect d = Ok x /\
  Forall variant_spelled (sc ++ ag ++ wi)%list /\
  NoDup (map variant_id sc) /\ NoDup (map variant_id ag) /\ NoDup (map variant_id wi) /\
  Permutation os (map snd (d_scalar x)) /\ Permutation oa (map snd (d_agg x)) /\ Permutation ow (map snd (d_window x)).

(** one kind: the declarations are met and the order is a good one *)
Definition kind_ok (ds : list dinfo) (fs : list variant) (order : list dinfo) : Prop :=
  (forall i, In i ds -> available fs i) /\ order_ok order.

Lemma localize_kind : forall deps fns m fs get order,
  info_map deps fns m -> Forall variant_spelled fs -> NoDup (map variant_id fs) ->
  (forall n, get n = filter (named n) fs) -> Permutation order (map snd m) ->
  (kind_ok (map snd m) fs order /\ exists mp slice, localize m get order = Ok (mp, slice) /\
     answers (map snd m) fs (fun nm => get_or_empty fname_eqb nm mp) slice) \/
  (~ kind_ok (map snd m) fs order /\ localize m get order = Err).
Proof.
  intros deps fns m fs get order Hm Hs Hn Hg Hp. destruct (info_map_use _ _ _ Hm) as [Hsp Hget].
  destruct (localize_spec (map snd m) m fs get Hsp Hs Hn Hget Hg order Hp) as [(Hok & mp & sl & H1 & H2 & H3 & H4)|[Hok H1]].
  - left. split; auto. exists mp, sl. split; auto. eapply pick_answers; eauto.
  - right. auto.
Qed.

Theorem C27_localized_iff : forall d x sc ag wi os oa ow t,
  localizable d x sc ag wi os oa ow ->
  let ok := kind_ok (map snd (d_scalar x)) sc os /\ kind_ok (map snd (d_agg x)) ag oa /\
            kind_ok (map snd (d_window x)) wi ow in
  (ok -> exists lr, localize_functions x (Ok t) os oa ow (new_registry sc ag wi) = Ok lr) /\
  (~ ok -> localize_functions x (Ok t) os oa ow (new_registry sc ag wi) = Err).
Proof.
  intros d x sc ag wi os oa ow t (Hn & Hx & Hs & N1 & N2 & N3 & P1 & P2 & P3).
  destruct (load_spec d Hn) as [(_ & x' & E & _ & M1 & M2 & M3)|[_ E]]; [|congruence].
  assert (x' = x) by congruence. subst x'. clear E.
  rewrite !Forall_app in Hs. destruct Hs as (S1 & S2 & S3).
  assert (G1 : forall n, scalar_by_name (new_registry sc ag wi) n = filter (named n) sc) by (intros; apply registry_spec).
  assert (G2 : forall n, agg_by_name (new_registry sc ag wi) n = filter (named n) ag) by (intros; apply registry_spec).
  assert (G3 : forall n, window_by_name (new_registry sc ag wi) n = filter (named n) wi) by (intros; apply registry_spec).
  cbn zeta. unfold localize_functions. cbn [bind].
  destruct (localize_kind _ _ _ sc _ os M1 S1 N1 G1 P1) as [(K1 & m1 & s1 & E1 & _)|[K1 E1]]; rewrite E1; cbn [bind];
    [|split; intros H; [tauto|reflexivity]].
  destruct (localize_kind _ _ _ ag _ oa M2 S2 N2 G2 P2) as [(K2 & m2 & s2 & E2 & _)|[K2 E2]]; rewrite E2; cbn [bind];
    [|split; intros H; [tauto|reflexivity]].
  destruct (localize_kind _ _ _ wi _ ow M3 S3 N3 G3 P3) as [(K3 & m3 & s3 & E3 & _)|[K3 E3]]; rewrite E3; cbn [bind];
    [|split; intros H; [tauto|reflexivity]].
  split; [intros _; eexists; reflexivity|tauto].
Qed.

(** Once it succeeds, lookups by a function's own name answer its declared variants in
    registry order, lookups by local name the variants declared under it, and the list of all
    functions has each declared function of the registry once: none of it depends on the order. *)
Theorem C27_answers : forall vo d x sc ag wi os oa ow t lr,
  localizable d x sc ag wi os oa ow ->
  localize_functions x (Ok t) os oa ow (new_registry sc ag wi) = Ok lr ->
  exists ms ma mw ss sa sw,
    answers (map snd (d_scalar x)) sc ms ss /\ answers (map snd (d_agg x)) ag ma sa /\
    answers (map snd (d_window x)) wi mw sw /\
    lr_all lr = (map (pair KScalar) ss ++ map (pair KAgg) sa ++ map (pair KWindow) sw)%list /\
    lr_types lr = t /\
    forall nm n p, decides p (fun v => takes vo (lv_base v) n) ->
      local_scalar vo lr nm n = filter p (ms nm) /\
      local_agg vo lr nm n = filter p (ma nm) /\
      local_window vo lr nm n = filter p (mw nm).
Proof.
  intros vo d x sc ag wi os oa ow t lr (Hn & Hx & Hs & N1 & N2 & N3 & P1 & P2 & P3) H.
  destruct (load_spec d Hn) as [(_ & x' & E & _ & M1 & M2 & M3)|[_ E]]; [|congruence].
  assert (x' = x) by congruence. subst x'. clear E.
  rewrite !Forall_app in Hs. destruct Hs as (S1 & S2 & S3).
  assert (G1 : forall n, scalar_by_name (new_registry sc ag wi) n = filter (named n) sc) by (intros; apply registry_spec).
  assert (G2 : forall n, agg_by_name (new_registry sc ag wi) n = filter (named n) ag) by (intros; apply registry_spec).
  assert (G3 : forall n, window_by_name (new_registry sc ag wi) n = filter (named n) wi) by (intros; apply registry_spec).
  unfold localize_functions in H. cbn [bind] in H.
  destruct (localize_kind _ _ _ sc _ os M1 S1 N1 G1 P1) as [(K1 & m1 & s1 & E1 & A1)|[K1 E1]]; rewrite E1 in H; cbn [bind] in H; [|discriminate].
  destruct (localize_kind _ _ _ ag _ oa M2 S2 N2 G2 P2) as [(K2 & m2 & s2 & E2 & A2)|[K2 E2]]; rewrite E2 in H; cbn [bind] in H; [|discriminate].
  destruct (localize_kind _ _ _ wi _ ow M3 S3 N3 G3 P3) as [(K3 & m3 & s3 & E3 & A3)|[K3 E3]]; rewrite E3 in H; cbn [bind] in H; [|discriminate].
  inversion H; subst lr. eexists _, _, _, s1, s2, s3. split; [exact A1|]. split; [exact A2|]. split; [exact A3|].
  split; [reflexivity|]. split; [reflexivity|]. intros nm n p Hp.
  assert (forall l, by_count vo lv_base l n = filter p l) as Hc.
  { intros l. unfold by_count. eapply filter_ext_iff; [|exact Hp]. intros v. apply takes_count_spec. }
  unfold local_scalar, local_agg, local_window. cbn [lr_scalar lr_agg lr_window]. rewrite !Hc. auto.
Qed.

(** two functions from names to variants that answer for the same declarations agree *)
Theorem C27_order_independent : forall ds fs m slice m' slice',
  NoDup (map di_id ds) ->
  answers ds fs m slice -> answers ds fs m' slice' ->
  (forall n, m (FSub n) = m' (FSub n)) /\ (forall l, Permutation (m (FLoc l)) (m' (FLoc l))) /\ Permutation slice slice'.
Proof.
  intros ds fs m slice m' slice' Hu [A1 (all & A2 & A3 & A4)] [B1 (all' & B2 & B3 & B4)].
  assert (Hsame : forall d e, In d ds -> In e ds -> di_id d = di_id e -> d = e).
  { clear - Hu. induction ds as [|x ds IH]; cbn; intros d e Hd He E; [destruct Hd|]. inversion Hu as [|? ? Hx Hl]; subst.
    destruct Hd as [->|Hd], He as [->|He]; auto.
    - exfalso. apply Hx. rewrite E. apply in_map; auto.
    - exfalso. apply Hx. rewrite <- E. apply in_map; auto. }
  assert (Hfun : forall l vs vs', picks ds l vs -> picks ds l vs' -> vs = vs').
  { intros l vs vs' H. revert vs'. induction H as [|f d v l vs Hd [Hi Hv] H IH|f l vs Hno H IH]; intros vs' H'.
    - inversion H'; auto.
    - inversion H' as [|f' d' v' l' vs'' Hd' [Hi' Hv'] H''|f' l' vs'' Hno' H'']; subst.
      + assert (d' = d) by (apply Hsame; auto; congruence). subst. f_equal. auto.
      + exfalso. eapply Hno'; eauto.
    - inversion H' as [|f' d' v' l' vs'' Hd' [Hi' Hv'] H''|f' l' vs'' Hno' H'']; subst.
      + exfalso. eapply Hno; eauto.
      + auto. }
  split; [|split].
  - intros n. destruct (A1 n) as (o & _ & (p & Hp & ->) & Hk). destruct (B1 n) as (o' & _ & (p' & Hp' & ->) & Hk').
    rewrite (filter_ext_iff _ p p' _ fs Hp Hp') in Hk. eauto.
  - intros l. assert (all' = all) by eauto. subst all'.
    set (p := fun v => String.eqb (lv_local v) l). assert (decides p (fun v => lv_local v = l)) as Hp by (intros v; apply String.eqb_eq).
    rewrite (A4 l p Hp), (B4 l p Hp). reflexivity.
  - assert (all' = all) by eauto. subst all'. rewrite A3, B3. reflexivity.
Qed.

Lemma info_map_ids : forall deps fns m, info_map deps fns m -> NoDup (map di_id (map snd m)).
Proof.
  intros deps fns m (Hn & l & Hl & Hm). rewrite map_map.
  assert (map (fun x => di_id (snd x)) m = fm_keys m) as ->; [|exact Hn].
  unfold fm_keys. apply map_ext_in. intros [id d] Hi. apply Hm in Hi as (l1 & l2 & _ & E & _). exact E.
Qed.

(** Two runs with different iteration orders that both succeed answer alike: lookups by own
    name exactly, lookups by local name and the list of all functions up to order. *)
Theorem C27_runs_agree : forall vo d x sc ag wi os oa ow os' oa' ow' t lr lr',
  localizable d x sc ag wi os oa ow -> localizable d x sc ag wi os' oa' ow' ->
  localize_functions x (Ok t) os oa ow (new_registry sc ag wi) = Ok lr ->
  localize_functions x (Ok t) os' oa' ow' (new_registry sc ag wi) = Ok lr' ->
  Permutation (lr_all lr) (lr_all lr') /\
  forall n,
    (forall name, local_scalar vo lr (FSub name) n = local_scalar vo lr' (FSub name) n /\
                  local_agg vo lr (FSub name) n = local_agg vo lr' (FSub name) n /\
                  local_window vo lr (FSub name) n = local_window vo lr' (FSub name) n) /\
    (forall l, Permutation (local_scalar vo lr (FLoc l) n) (local_scalar vo lr' (FLoc l) n) /\
               Permutation (local_agg vo lr (FLoc l) n) (local_agg vo lr' (FLoc l) n) /\
               Permutation (local_window vo lr (FLoc l) n) (local_window vo lr' (FLoc l) n)).
Proof.
  intros vo d x sc ag wi os oa ow os' oa' ow' t lr lr' HL HL' H H'.
  destruct (C27_answers vo _ _ _ _ _ _ _ _ _ _ HL H) as (ms & ma & mw & ss & sa & sw & A1 & A2 & A3 & A4 & _ & A5).
  destruct (C27_answers vo _ _ _ _ _ _ _ _ _ _ HL' H') as (ms' & ma' & mw' & ss' & sa' & sw' & B1 & B2 & B3 & B4 & _ & B5).
  destruct HL as (Hn & Hx & _).
  destruct (load_spec d Hn) as [(_ & x' & E & _ & M1 & M2 & M3)|[_ E]]; [|congruence].
  assert (x' = x) by congruence. subst x'. clear E.
  destruct (C27_order_independent _ _ _ _ _ _ (info_map_ids _ _ _ M1) A1 B1) as (P1 & Q1 & R1).
  destruct (C27_order_independent _ _ _ _ _ _ (info_map_ids _ _ _ M2) A2 B2) as (P2 & Q2 & R2).
  destruct (C27_order_independent _ _ _ _ _ _ (info_map_ids _ _ _ M3) A3 B3) as (P3 & Q3 & R3).
  split.
  - rewrite A4, B4. auto using Permutation_app, Permutation_map.
  - intros n. assert (decides (fun v => takes_count vo (lv_base v) n) (fun v => takes vo (lv_base v) n)) as Hd by (intros v; apply takes_count_spec).
    assert (Hf : forall (p : lvar -> bool) a b, Permutation a b -> Permutation (filter p a) (filter p b)).
    { intros p a b Hp. induction Hp; cbn; auto.
      - destruct (p x0); auto.
      - destruct (p x0), (p y); auto. apply perm_swap.
      - etransitivity; eauto. }
    split.
    + intros name. destruct (A5 (FSub name) n _ Hd) as (-> & -> & ->). destruct (B5 (FSub name) n _ Hd) as (-> & -> & ->).
      rewrite P1, P2, P3. auto.
    + intros l. destruct (A5 (FLoc l) n _ Hd) as (-> & -> & ->). destruct (B5 (FLoc l) n _ Hd) as (-> & -> & ->). auto.
Qed.

(** Localization succeeds whatever the iteration order exactly when every declaration is met
    and no local name is another declared function's name. *)
Theorem C27_every_order_iff : forall d x sc ag wi os oa ow t,
  localizable d x sc ag wi os oa ow ->
  ((forall os' oa' ow', Permutation os' os -> Permutation oa' oa -> Permutation ow' ow ->
      exists lr, localize_functions x (Ok t) os' oa' ow' (new_registry sc ag wi) = Ok lr) <->
   forall ds fs, (ds, fs) = (map snd (d_scalar x), sc) \/ (ds, fs) = (map snd (d_agg x), ag) \/ (ds, fs) = (map snd (d_window x), wi) ->
     (forall i, In i ds -> available fs i) /\ ~ conflict ds).
Proof.
  intros d x sc ag wi os oa ow t HL.
  assert (HL' : forall os' oa' ow', Permutation os' os -> Permutation oa' oa -> Permutation ow' ow -> localizable d x sc ag wi os' oa' ow').
  { intros os' oa' ow' H1 H2 H3. destruct HL as (L1 & L2 & L3 & L4 & L5 & L6 & P1 & P2 & P3).
    unfold localizable. intuition; etransitivity; eauto. }
  assert (HP := HL). destruct HP as (_ & _ & _ & _ & _ & _ & P1 & P2 & P3). split.
  - intros H.
    assert (Hk : forall os' oa' ow', Permutation os' os -> Permutation oa' oa -> Permutation ow' ow ->
                 kind_ok (map snd (d_scalar x)) sc os' /\ kind_ok (map snd (d_agg x)) ag oa' /\ kind_ok (map snd (d_window x)) wi ow').
    { intros os' oa' ow' H1 H2 H3. destruct (H os' oa' ow' H1 H2 H3) as [lr Hlr].
      destruct (C27_localized_iff d x sc ag wi os' oa' ow' t (HL' _ _ _ H1 H2 H3)) as [_ Hno].
      destruct (HL' _ _ _ H1 H2 H3) as (Hn & Hx & Hs & N1 & N2 & N3 & P1' & P2' & P3').
      destruct (load_spec d Hn) as [(_ & x' & E & _ & M1 & M2 & M3)|[_ E]]; [|congruence].
      assert (x' = x) by congruence. subst x'. clear E.
      rewrite !Forall_app in Hs. destruct Hs as (S1 & S2 & S3).
      assert (G1 : forall n, scalar_by_name (new_registry sc ag wi) n = filter (named n) sc) by (intros; apply registry_spec).
      assert (G2 : forall n, agg_by_name (new_registry sc ag wi) n = filter (named n) ag) by (intros; apply registry_spec).
      assert (G3 : forall n, window_by_name (new_registry sc ag wi) n = filter (named n) wi) by (intros; apply registry_spec).
      destruct (localize_kind _ _ _ sc _ os' M1 S1 N1 G1 P1') as [(K1 & _)|[K1 _]]; [|exfalso; rewrite Hno in Hlr; [discriminate|tauto]].
      destruct (localize_kind _ _ _ ag _ oa' M2 S2 N2 G2 P2') as [(K2 & _)|[K2 _]]; [|exfalso; rewrite Hno in Hlr; [discriminate|tauto]].
      destruct (localize_kind _ _ _ wi _ ow' M3 S3 N3 G3 P3') as [(K3 & _)|[K3 _]]; [|exfalso; rewrite Hno in Hlr; [discriminate|tauto]].
      auto. }
    intros ds fs [E|[E|E]]; inversion E; subst; split.
    + apply (Hk os oa ow); auto.
    + apply order_ok_no_conflict. intros order Ho. apply (Hk order oa ow); auto. etransitivity; [exact Ho|symmetry; auto].
    + apply (Hk os oa ow); auto.
    + apply order_ok_no_conflict. intros order Ho. apply (Hk os order ow); auto. etransitivity; [exact Ho|symmetry; auto].
    + apply (Hk os oa ow); auto.
    + apply order_ok_no_conflict. intros order Ho. apply (Hk os oa order); auto. etransitivity; [exact Ho|symmetry; auto].
  - intros H os' oa' ow' H1 H2 H3. apply (C27_localized_iff d x sc ag wi os' oa' ow' t (HL' _ _ _ H1 H2 H3)).
    destruct (H _ _ (or_introl eq_refl)) as [A1 C1]. destruct (H _ _ (or_intror (or_introl eq_refl))) as [A2 C2].
    destruct (H _ _ (or_intror (or_intror eq_refl))) as [A3 C3].
    split; [|split]; split; auto.
    + apply (proj2 (order_ok_no_conflict _) C1). etransitivity; [exact H1|exact P1].
    + apply (proj2 (order_ok_no_conflict _) C2). etransitivity; [exact H2|exact P2].
    + apply (proj2 (order_ok_no_conflict _) C3). etransitivity; [exact H3|exact P3].
Qed.

(** Finding: with a conflict the same dialect and registry localize or fail by chance. *)
Definition chance_file : dfile :=
  DFile [("i32", ("INT", true))]
        [DFunc "m.add" "sub" false false [] ["i32"]; DFunc "m.sub" "" false false [] ["i32"]] [] [] [("m", "u")].
Definition chance_functions : list variant :=
  [Variant "u" "add" 0 (Impl ["i32"] [] "" "" 0); Variant "u" "sub" 0 (Impl ["i32"] [] "" "" 0)].
Theorem C27_conflict_by_chance_refuted : exists x os os' t lr,
  load_dialect chance_file = Ok x /\ Permutation os os' /\ Permutation os (map snd (d_scalar x)) /\
  localize_functions x (Ok t) os [] [] (new_registry chance_functions [] []) = Ok lr /\
  localize_functions x (Ok t) os' [] [] (new_registry chance_functions [] []) = Err.
Proof.
  eexists. eexists. eexists. exists (TReg [] [] []). eexists.
  split; [vm_compute; reflexivity|].
  split; [apply (perm_swap (DInfo (ExtId "u" "add:i32") "add" "sub" [] Prefix) (DInfo (ExtId "u" "sub:i32") "sub" "sub" [] Prefix) [])|].
  split; [reflexivity|]. split; vm_compute; reflexivity.
Qed.

Example C27_nonvacuous : exists x t lr,
  let d := DFile [("i32", ("INT", true))]
             [DFunc "m.add" "plus" false false [] ["i32"; "i64"]; DFunc "m.sub" "plus" false false [] ["i32"]]
             [] [] [("m", "u")] in
  let sc := [Variant "u" "sub" 0 (Impl ["i32"] [] "" "" 0); Variant "u" "add" 0 (Impl ["i64"] [] "" "" 0);
             Variant "u" "add" 0 (Impl ["i32"] [] "" "" 0); Variant "u" "add" 0 (Impl ["str"] [] "" "" 0)] in
  localizable d x sc [] [] (map snd (d_scalar x)) [] [] /\
  localize_functions x (Ok t) (map snd (d_scalar x)) [] [] (new_registry sc [] []) = Ok lr /\
  map (fun v => variant_id (lv_base v)) (local_scalar (fun _ => None) lr (FSub "add") 1) =
    [ExtId "u" "add:i64"; ExtId "u" "add:i32"] /\
  List.length (local_scalar (fun _ => None) lr (FLoc "plus") 1) = 3%nat.
Proof.
  eexists. exists (TReg [] [] []). eexists. cbn zeta. split; [|split; [|split]].
  - unfold localizable. split; [repeat constructor; cbn; intuition|]. split; [vm_compute; reflexivity|].
    split; [repeat constructor; unfold no_char; cbn; intuition discriminate|].
    split; [cbn; repeat constructor; cbn; intuition discriminate|].
    split; [constructor|]. split; [constructor|]. split; [reflexivity|]. split; constructor.
  - vm_compute. reflexivity.
  - vm_compute. reflexivity.
  - vm_compute. reflexivity.
Qed.

(** ** C51 *)

(** [(k, v)] is the last function of the list with this identity *)
Definition last_id (id : ext_id) (k : fkind) (v : lvar) (l : list (fkind * lvar)) : Prop :=
  exists l1 l2, l = (l1 ++ (k, v) :: l2)%list /\ variant_id (lv_base v) = id /\
    forall k' v', In (k', v') l2 -> variant_id (lv_base v') <> id.

Lemma mapM_ok_or : forall A B (f : A -> res B) l, (forall a, f a <> Panic) ->
  (exists m, mapM f l = Ok m /\ forall a, In a l -> exists b, f a = Ok b) \/
  (mapM f l = Err /\ ~ forall a, In a l -> exists b, f a = Ok b).
Proof.
  intros A B f l Hp. induction l as [|a l IH]; cbn [mapM].
  - left. eexists; split; [reflexivity|]. intros ? [].
  - destruct (f a) as [b| |] eqn:E.
    + destruct IH as [(m & -> & H)|[-> H]].
      * left. eexists; split; [reflexivity|]. intros x [<-|Hx]; eauto.
      * right. split; [reflexivity|]. intros Hx. apply H. intros; apply Hx; right; auto.
    + right. split; [reflexivity|]. intros Hx. destruct (Hx a (or_introl eq_refl)) as [b Hb]. congruence.
    + exfalso. eapply Hp; eauto.
Qed.

(** The lookup finds the last function with the invocation's identity.  It is answered when
    the dialect has every argument type and every requested option value, and the function is
    of the invocation's kind. *)
Theorem C51_by_invocation_exact : forall r k id args opts,
  lr_ids r = by_id (lr_all r) ->
  (forall k' v, In (k', v) (lr_all r) -> NoDup (map fst (lv_options v))) ->
  let call_ok v := (forall a, In a args -> exists s, local_type (lr_types r) a = Ok s) /\ options_ok v opts in
  (forall v, by_invocation r k id args opts = Ok v <-> last_id id k v (lr_all r) /\ call_ok v) /\
  (by_invocation r k id args opts = Panic <-> exists k' v, k' <> k /\ last_id id k' v (lr_all r) /\ call_ok v).
Proof.
  intros r k id args opts Hids Hopt call_ok.
  assert (Hlast : forall k' v, fm_get ext_id_eqb id (lr_ids r) = Some (k', v) <-> last_id id k' v (lr_all r)).
  { intros k' v. rewrite Hids. unfold by_id. rewrite fold_by_id. unfold last_id. split.
    - intros [(l1 & l2 & H1 & H2 & H3)|[_ H]]; [|discriminate]. exists l1, l2. split; [auto|]. split; [auto|].
      intros k2 v2 Hi. apply (H3 _ Hi).
    - intros (l1 & l2 & H1 & H2 & H3). left. exists l1, l2. split; [auto|]. split; [auto|]. intros [k2 v2] Hi. eapply H3; eauto. }
  assert (Hnp : forall a, local_type (lr_types r) a <> Panic).
  { intros a. unfold local_type. destruct (fm_get String.eqb (short_string a) (tr_infos (lr_types r))); discriminate. }
  unfold by_invocation. destruct (fm_get ext_id_eqb id (lr_ids r)) as [[k' v']|] eqn:E.
  - assert (Hl := proj1 (Hlast k' v') eq_refl).
    assert (Hu : forall k2 v2, last_id id k2 v2 (lr_all r) -> k2 = k' /\ v2 = v').
    { intros k2 v2 H2. apply Hlast in H2. inversion H2; auto. }
    assert (Hin : In (k', v') (lr_all r)).
    { destruct Hl as (l1 & l2 & -> & _). apply in_or_app. right; left; auto. }
    destruct (mapM_ok_or _ _ _ args Hnp) as [(m & -> & Ha)|[-> Ha]]; cbn [bind].
    + destruct (forallb _ opts) eqn:Eo.
      * apply options_spec in Eo; [|eapply Hopt; eauto].
        destruct (fkind_eqb k' k) eqn:Ek.
        -- assert (k' = k) as -> by (destruct k', k; auto; discriminate). split.
           ++ intros v. split; [intros Ev; inversion Ev; subst; split; auto; split; auto|]. intros [H2 _]. apply Hu in H2 as [_ ->]. auto.
           ++ split; [discriminate|]. intros (k2 & v2 & Hne & H2 & _). apply Hu in H2 as [-> _]. contradiction.
        -- assert (k' <> k) as Hne by (intros ->; destruct k; discriminate). split.
           ++ intros v. split; [discriminate|]. intros [H2 _]. apply Hu in H2 as [E2 _]. congruence.
           ++ split; [|auto]. intros _. exists k', v'. split; auto. split; auto. split; auto.
      * split.
        -- intros v. split; [discriminate|]. intros [H2 [_ H3]]. apply Hu in H2 as [_ ->]. apply options_spec in H3; [congruence|eapply Hopt; eauto].
        -- split; [discriminate|]. intros (k2 & v2 & Hne & H2 & _ & H3). apply Hu in H2 as [_ ->]. apply options_spec in H3; [congruence|eapply Hopt; eauto].
    + split; [intros v; split; [discriminate|intros [_ [H _]]; contradiction]|].
      split; [discriminate|]. intros (k2 & v2 & _ & _ & H & _). contradiction.
  - split.
    + intros v. split; [discriminate|]. intros [H _]. apply Hlast in H. discriminate.
    + split; [discriminate|]. intros (k2 & v2 & _ & H & _). apply Hlast in H. discriminate.
Qed.

(** The table of identities of a localized registry is the one of all its functions. *)
Theorem C51_ids_of_all : forall x t os oa ow reg lr,
  localize_functions x t os oa ow reg = Ok lr -> lr_ids lr = by_id (lr_all lr).
Proof.
  intros x t os oa ow reg lr H. unfold localize_functions in H. do 4 (unb H). inversion H; subst. reflexivity.
Qed.

(** When no identity is declared twice the answer is the function of that identity and
    kind. *)
Theorem C51_distinct : forall r k id args opts,
  lr_ids r = by_id (lr_all r) ->
  NoDup (map (fun kv => variant_id (lv_base (snd kv))) (lr_all r)) ->
  (forall k' v, In (k', v) (lr_all r) -> NoDup (map fst (lv_options v))) ->
  let call_ok v := (forall a, In a args -> exists s, local_type (lr_types r) a = Ok s) /\ options_ok v opts in
  forall v, by_invocation r k id args opts = Ok v <->
    In (k, v) (lr_all r) /\ variant_id (lv_base v) = id /\ call_ok v.
Proof.
  intros r k id args opts Hids Hnd Hopt call_ok v.
  destruct (C51_by_invocation_exact r k id args opts Hids Hopt) as [H _]. rewrite H. unfold call_ok. clear H.
  assert (last_id id k v (lr_all r) <-> In (k, v) (lr_all r) /\ variant_id (lv_base v) = id) as ->; [|tauto].
  split.
  - intros (l1 & l2 & -> & H1 & _). split; auto. apply in_or_app. right; left; auto.
  - intros [Hi He]. apply in_split in Hi as (l1 & l2 & E). exists l1, l2. split; auto. split; auto.
    intros k' v' Hi E'. rewrite E in Hnd. rewrite map_app in Hnd. cbn in Hnd. apply NoDup_remove_2 in Hnd. apply Hnd.
    apply in_or_app. right. rewrite He, <- E'. apply (in_map (fun kv => variant_id (lv_base (snd kv))) l2 (k', v')). auto.
Qed.

(** Finding: one identity declared for two kinds makes the lookup of the first kind panic. *)
Theorem C51_two_kinds_panic_refuted : exists d x sc ag lr t,
  load_dialect d = Ok x /\ localize_types (dl_types d) = Ok t /\
  localize_functions x (Ok t) (map snd (d_scalar x)) (map snd (d_agg x)) [] (new_registry sc ag []) = Ok lr /\
  by_invocation lr KScalar (ExtId "u" "f:i32") [TPrim PrimI32 2 0] [] = Panic /\
  exists v, by_invocation lr KAgg (ExtId "u" "f:i32") [TPrim PrimI32 2 0] [] = Ok v.
Proof.
  exists (DFile [("i32", ("INT", true))] [DFunc "m.f" "" false false [] ["i32"]] [DFunc "m.f" "" false false [] ["i32"]] [] [("m", "u")]).
  eexists. exists [Variant "u" "f" 0 (Impl ["i32"] [] "" "" 0)], [Variant "u" "f" 0 (Impl ["i32"] [] "" "" 0)]. eexists. eexists.
  split; [vm_compute; reflexivity|]. split; [vm_compute; reflexivity|]. split; [vm_compute; reflexivity|].
  split; [vm_compute; reflexivity|]. eexists. vm_compute. reflexivity.
Qed.

Example C51_nonvacuous : exists d x sc lr t,
  load_dialect d = Ok x /\ localize_types (dl_types d) = Ok t /\
  localize_functions x (Ok t) (map snd (d_scalar x)) [] [] (new_registry sc [] []) = Ok lr /\
  (exists v, by_invocation lr KScalar (ExtId "u" "f:i32") [TPrim PrimI32 2 0] [("rounding", ["Tie_Even"])] = Ok v) /\
  by_invocation lr KScalar (ExtId "u" "f:i32") [TPrim PrimI32 2 0] [("rounding", ["FLOOR"])] = Err /\
  by_invocation lr KScalar (ExtId "u" "f:i32") [TPrim PrimI64 2 0] [] = Err.
Proof.
  exists (DFile [("i32", ("INT", true))] [DFunc "m.f" "" false false [("rounding", "TIE_EVEN")] ["i32"]] [] [] [("m", "u")]).
  eexists. exists [Variant "u" "f" 0 (Impl ["i32"] [] "" "" 0)]. eexists. eexists.
  split; [vm_compute; reflexivity|]. split; [vm_compute; reflexivity|]. split; [vm_compute; reflexivity|].
  split; [eexists; vm_compute; reflexivity|]. split; vm_compute; reflexivity.
Qed.

(** The short names by which compound function names refer to types: two types have the same
    one exactly when they are of the same kind, whatever their parameters.  (A year interval
    is one kind with two representations; user-defined types have the empty name.) *)
Inductive shape := Sh_kind (k : kind) | Sh_compound | Sh_enum | Sh_struct | Sh_func | Sh_list | Sh_map.
Definition shape_of (t : ty) : shape :=
  match kind_of t with
  | Some k => Sh_kind k
  | None =>
      match t with
      | TEnum _ _ _ _ _ => Sh_enum | TStruct _ _ _ => Sh_struct | TFunc _ _ _ => Sh_func
      | TList _ _ _ => Sh_list | TMap _ _ _ _ => Sh_map | _ => Sh_compound
      end
  end.
Definition short_of (s : shape) : string :=
  match s with
  | Sh_kind KUser => ""
  | Sh_kind k => last (kind_names k) ""
  | Sh_compound => "icompound" | Sh_enum => "req" | Sh_struct => "struct"
  | Sh_func => "func" | Sh_list => "list" | Sh_map => "map"
  end.
Theorem C51_short_name : forall t, short_string t = short_of (shape_of t).
Proof. intros t. destruct t; try reflexivity; try (destruct p; reflexivity). destruct k; reflexivity. Qed.
Theorem C51_short_names_distinguish_kinds : forall a b, short_string a = short_string b <-> shape_of a = shape_of b.
Proof.
  intros a b. rewrite !C51_short_name. split; [|intros ->; reflexivity].
  generalize (shape_of a) (shape_of b). intros x y.
  destruct x as [x| | | | | |]; [destruct x as [[]|[]| | | | | |]|..];
    (destruct y as [y| | | | | |]; [destruct y as [[]|[]| | | | | |]|..]); intros H; try reflexivity; discriminate.
Qed.
Example C51_short_example : short_string (TStruct 1 0 []) <> short_string (TList 1 0 (TPrim PrimI32 2 0)) /\
  short_string (TDecimal 1 0 38 2) = short_string (TDecimal 2 5 10 0).
Proof. split; [discriminate|reflexivity]. Qed.
Print Assumptions C26_lookup_exact.
Print Assumptions C27_localized_iff.
Print Assumptions C27_answers.
Print Assumptions C27_order_independent.
Print Assumptions C27_every_order_iff.
Print Assumptions C28_standard_exact.
Print Assumptions C28_local_exact.
Print Assumptions C28_to_local_exact.
Print Assumptions C28_local_round_trip.
Print Assumptions C28_read_frame.
Print Assumptions C50_content.
Print Assumptions C51_by_invocation_exact.
Print Assumptions C51_short_name.
Print Assumptions C51_short_names_distinguish_kinds.
