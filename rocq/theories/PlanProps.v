(** Relations and plans: the properties C29, C30, C31, C34, C35, C36, C43, C44, C52 (see
    /verif/properties.jsonl). *)

From Coq Require Import ZArith String Bool Arith Lia Sorted List.
From Verif Require Import Base TypesModel ExprModel ExprOpsModel ExprSpec LitModel
  PlanModel PlanOpsModel PlanSpec PlanProofs PlanBuildProofs PlanGroupProofs.
Import ListNotations.
Local Open Scope Z_scope.

(** *** concrete relations for the examples *)
Definition t_i64 : xtype := XTy (TPrim PrimI64 NullRequired 0).
Definition t_str : xtype := XTy (TPrim PrimString NullRequired 0).
Definition t_i64n : xtype := XTy (TPrim PrimI64 NullNullable 0).
Definition t_strn : xtype := XTy (TPrim PrimString NullNullable 0).
Definition lit_i64 (z : Z) : expr rel := ELit (LPrim (VI64 z) (TPrim PrimI64 NullRequired 0)).
Definition lit_str (s : string) : expr rel := ELit (LPrim (VString s) (TPrim PrimString NullRequired 0)).
Definition lit_true : expr rel := ELit (LPrim (VBool true) (TPrim PrimBool NullRequired 0)).
Definition two_cols : schema := Schema ["a"; "b"]%string NullRequired 0 [t_i64; t_str].
Definition table : rel := RRead zero_common (RBase two_cols blank blank None None) (KNamed ["t"]%string None).
Definition fetched : rel := RFetch zero_common table 0 10 None.
Definition fetched_swapped : rel := RFetch (mapped (Some [1; 0])) table 0 10 None.

(** ** C29: Remap *)

(** in range: the result picks the named columns of the receiver, and differs from the
    receiver in its mapping only *)
Theorem C29_remap : forall r m cols, rel_type r = Ok cols -> Forall (in_width (List.length cols)) m ->
  exists r' after out, remap_helper r m = Ok (r', after) /\ rel_type r' = Ok out /\ picks m cols out /\
    same_but_mapping r r'.
Proof.
  intros r m cols HT F. destruct (remap_char r m cols HT) as [[_ (x & out & E & HT' & P)]|[N _]]; [|contradiction].
  eexists _, _, out. rewrite E. split; [reflexivity|]. split; auto. split; auto. apply set_mapping_same.
Qed.
Theorem C29_remap_out_of_range : forall r m cols, rel_type r = Ok cols -> ~ Forall (in_width (List.length cols)) m ->
  remap_helper r m = Err.
Proof. intros r m cols HT N. destruct (remap_char r m cols HT) as [[F _]|[_ E]]; [contradiction|auto]. Qed.
Theorem C29_receiver_unchanged : forall r m cols r' after, rel_type r = Ok cols -> ~ leaf r ->
  remap_helper r m = Ok (r', after) -> after = r.
Proof.
  intros r m cols r' after HT NL H. destruct (remap_char r m cols HT) as [[_ (x & out & E & _)]|[_ E]]; rewrite E in H; [|discriminate].
  inversion H. destruct (is_leaf r) eqn:L; auto. apply leaf_iff in L. contradiction.
Qed.
(** a read or a leaf extension is itself changed: it becomes the result *)
Theorem C29_leaf_changed : forall r m cols r' after, rel_type r = Ok cols -> leaf r ->
  remap_helper r m = Ok (r', after) -> after = r'.
Proof.
  intros r m cols r' after HT NL H. destruct (remap_char r m cols HT) as [[_ (x & out & E & _)]|[_ E]]; rewrite E in H; [|discriminate].
  apply leaf_iff in NL. rewrite NL in H. inversion H. reflexivity.
Qed.
Theorem C29_receiver_unchanged_refuted : exists r m cols r' after, rel_type r = Ok cols /\
  remap_helper r m = Ok (r', after) /\ rel_type after <> rel_type r.
Proof.
  exists table, [1], [t_i64; t_str]. eexists _, _. split; [reflexivity|]. split; [reflexivity|]. cbv. congruence.
Qed.
(** any number of successive remaps *)
Theorem C29_remaps : forall r ms cols, rel_type r = Ok cols ->
  (exists r' out, remap_all r ms = Ok r' /\ rel_type r' = Ok out /\ picks_all ms cols out /\ same_but_mapping r r') \/
  (remap_all r ms = Err /\ ~ exists out, picks_all ms cols out).
Proof. exact picks_all_total. Qed.
Theorem C29_picks_all_functional : forall (ms : list (list Z)) (cols a b : list xtype),
  picks_all ms cols a -> picks_all ms cols b -> a = b.
Proof.
  induction ms as [|m ms IH]; cbn; intros cols a b; [congruence|]. intros (x & P & A) (y & Q & B).
  rewrite (picks_fun _ _ _ _ _ P Q) in A. eauto.
Qed.
(** a permutation undone is no mapping at all *)
Example C29_example : remap_all fetched [[1; 0]; [1; 0]; [1]] =
    Ok (RFetch (mapped (Some [1])) table 0 10 None) /\
  remap_all fetched [[1; 0]; [1; 0]] = Ok fetched /\
  remap_all fetched [[1]; [1]] = Err.
Proof. repeat split. Qed.

(** ** C30: joins *)
Theorem C30_join_schema : forall c l r e p jt v lt rt, 1 <= jt <= 10 -> c_map c = None ->
  rel_type l = Ok lt -> rel_type r = Ok rt ->
  forall out, rel_type (RJoin c l r e p jt v) = Ok out <-> join_columns jt lt rt out.
Proof.
  intros c l r e p jt v lt rt J M HL HR out. rewrite type_none by exact M. unfold direct_schema. cbn [direct_with].
  rewrite HL, HR. apply join_char. auto.
Qed.
Theorem C30_join_schema_exists : forall jt lt rt, 1 <= jt <= 10 -> ~ In XNil lt -> ~ In XNil rt ->
  exists out, join_columns jt lt rt out.
Proof. exact join_columns_total. Qed.
(** a nullable version keeps the number of columns; nothing but the nullability changes *)
Theorem C30_nullable_columns : forall l l', nullables l l' -> List.length l' = List.length l /\
  forall i t, nth_error l' i = Some t -> exists t0, nth_error l i = Some t0 /\
     x_nullability t = Ok NullNullable /\
     forall n, x_with_nullability n t = x_with_nullability n t0.
Proof.
  intros l l' H. split; [symmetry; eapply F2_len; eauto|]. intros i t. revert l l' H. induction i; intros l l' H E;
    destruct H as [|a b l l' Hab H]; cbn in *; try discriminate; [|eapply IHi; eauto].
  inversion E; subst b. exists a. split; auto. destruct a; cbn in Hab; inversion Hab; subst; cbn; split; auto.
  - f_equal. destruct t0; reflexivity.
  - intros n. do 2 f_equal. destruct t0; reflexivity.
Qed.
(** cross, hash and merge joins: left then right, whatever the join type *)
Theorem C30_other_joins : forall c l r lt rt ks p jt v, c_map c = None -> rel_type l = Ok lt -> rel_type r = Ok rt ->
  rel_type (RCross c l r v) = Ok (lt ++ rt)%list /\
  rel_type (RHash c l r ks p jt v) = Ok (lt ++ rt)%list /\
  rel_type (RMerge c l r ks p jt v) = Ok (lt ++ rt)%list.
Proof.
  intros c l r lt rt ks p jt v M HL HR.
  repeat split; rewrite type_none by exact M; unfold direct_schema; cbn [direct_with]; rewrite HL, HR; reflexivity.
Qed.
(** mark joins (11, 12) have no columns at all, and a hash join of a semi type has both sides *)
Theorem C30_mark_join_refuted : exists l r e lt rt,
  rel_type l = Ok lt /\ rel_type r = Ok rt /\ rel_type (RJoin zero_common l r e blank 11 None) = Ok [] /\ lt <> [].
Proof. exists table, table, lit_true, [t_i64; t_str], [t_i64; t_str]. repeat split. discriminate. Qed.
Theorem C30_hash_semi_join_refuted : exists l r ks lt rt,
  rel_type l = Ok lt /\ rel_type r = Ok rt /\ rel_type (RHash zero_common l r ks blank 5 None) <> Ok lt.
Proof. exists table, table, [], [t_i64; t_str], [t_i64; t_str]. repeat split. cbv. congruence. Qed.
Example C30_example : rel_type (RJoin zero_common table fetched_swapped lit_true blank 3 None) =
  Ok [t_i64; t_str; t_strn; t_i64n].
Proof. reflexivity. Qed.

(** ** C52: the output schema of every relation *)
Theorem C52_output_schema : forall r out, rel_type r = Ok out <->
  match c_map (common_of r) with
  | None => direct_columns r out
  | Some m => exists cols, direct_columns r cols /\ picks m cols out
  end.
Proof. exact type_iff. Qed.
Theorem C52_columns_functional : forall r a b, direct_columns r a -> direct_columns r b -> a = b.
Proof. intros r a b A B. apply direct_iff in A, B. congruence. Qed.
(** a write whose output mode is unspecified, and a set without inputs, panic *)
Theorem C52_unspecified_write_panics : forall c ns v sch op i, rel_type (RWrite c ns v sch op i 0) = Panic.
Proof. reflexivity. Qed.
Theorem C52_empty_set_panics : forall c op v, rel_type (RSet c [] op v) = Panic.
Proof. reflexivity. Qed.
(** a mapping entry out of range makes RecordType panic *)
Theorem C52_mapping_out_of_range_panics : forall r m cols, c_map (common_of r) = Some m -> direct_columns r cols ->
  ~ Forall (in_width (List.length cols)) m -> rel_type r = Panic.
Proof.
  intros r m cols M D N. apply direct_iff in D. rewrite rel_type_eq, D, M. cbn [bind remap].
  clear M D. induction m as [|i m IH]; [exfalso; apply N; constructor|]. cbn. destruct (col cols i) as [t| |] eqn:E; cbn; auto.
  - rewrite IH; auto. intros F. apply N. constructor; auto. apply col_total. eauto.
  - unfold col in E. destruct (i <? 0); [discriminate|]. destruct (nth_error cols (Z.to_nat i)); discriminate.
Qed.
Example C52_example : rel_type (RAgg zero_common table [Measure (Some (AggF 1 None [] [] (TPrim PrimI64 NullRequired 0) 0 0 [])) blank]
     [lit_i64 1; lit_str "x"] [[0; 1]; [1]] None) = Ok [t_i64; t_str; t_str; t_i64].
Proof. reflexivity. Qed.

(** ** C31: builders with a mapping *)
Theorem C31_remap_builders : forall f, remap_builder f ->
  (forall r0, f None = Ok r0 -> exists cols, rel_type r0 = Ok cols /\ unmapped r0 /\
     forall m, (Forall (in_width (List.length cols)) m /\ exists r out, f (Some m) = Ok r /\
                  same_but_mapping r0 r /\ c_map (common_of r) = Some m /\ rel_type r = Ok out /\ picks m cols out) \/
               (~ Forall (in_width (List.length cols)) m /\ f (Some m) = Err)) /\
  (forall m r, f (Some m) = Ok r -> exists r0, f None = Ok r0).
Proof.
  intros f H. apply checked_use. destruct H.
  - apply checked_project; auto.
  - apply checked_cross.
  - apply checked_fetch.
  - apply checked_filter; auto.
  - apply checked_join.
  - apply checked_scan.
  - apply checked_virtual.
  - apply checked_sort.
  - apply checked_set.
Qed.
Theorem C31_one_column_per_entry : forall f m r, remap_builder f -> f (Some m) = Ok r ->
  exists out, rel_type r = Ok out /\ List.length out = List.length m.
Proof.
  intros f m r H E. destruct (C31_remap_builders f H) as [A B]. destruct (B m r E) as [r0 E0].
  destruct (A r0 E0) as (cols & _ & _ & G). destruct (G m) as [[_ (r' & out & E' & _ & _ & T & P)]|[_ E']]; rewrite E in E'; [|discriminate].
  inversion E'; subst r'. exists out. split; auto. eapply picks_len; eauto.
Qed.
(** which calls without a mapping succeed *)
Theorem C31_project : forall i es r, project_remap i None es = Ok r <->
  exists x, i = Some x /\ es <> [] /\ has_type_rel x /\ r = RProject (Common None None None) x es None.
Proof. exact project_iff. Qed.
Theorem C31_cross : forall l r out, cross_remap l r None = Ok out <->
  exists x y, l = Some x /\ r = Some y /\ has_type_rel x /\ has_type_rel y /\ out = RCross (Common None None None) x y None.
Proof. exact cross_iff. Qed.
Theorem C31_fetch : forall i o n r, fetch_remap i o n None = Ok r <->
  exists x, i = Some x /\ has_type_rel x /\ r = RFetch (Common None None None) x o n None.
Proof. exact fetch_iff. Qed.
Theorem C31_filter : forall i e r, filter_remap i e None = Ok r <->
  exists x, i = Some x /\ e <> blank /\ boolean e /\ (exists cols, direct_columns x cols) /\
    r = RFilter (Common None None None) x e None.
Proof.
  intros i e r. rewrite filter_iff. split; intros (x & H1 & H2 & H3 & (t & Ht) & H5); exists x; repeat split; auto;
    exists t; apply direct_iff; auto.
Qed.
Theorem C31_sort : forall i ss r, sort_remap i None ss = Ok r <->
  exists x, i = Some x /\ ss <> [] /\ has_type_rel x /\ r = RSort (Common None None None) x ss None.
Proof. exact sort_iff. Qed.
Theorem C31_join : forall l r e p jt out, join_remap l r e p jt None = Ok out <->
  exists x y, l = Some x /\ r = Some y /\ e <> blank /\ boolean e /\ (p = blank \/ boolean p) /\ jt <> 0 /\
    has_type_rel (RJoin (Common None None None) x y e p jt None) /\
    out = RJoin (Common None None None) x y e p jt None.
Proof. exact join_iff. Qed.
Theorem C31_scan : forall ns sch r, scan_remap ns sch None = Ok r <->
  r = RRead (Common None None None) (RBase sch blank blank None None) (KNamed ns None).
Proof. exact scan_iff. Qed.
Theorem C31_set : forall op is r, set_remap op None is = Ok r <->
  exists a b l t, is = map Some (a :: b :: l) /\ op <> 0 /\ rel_type a = Ok t /\
    Forall (fun x => exists t', rel_type x = Ok t' /\ record_eq t t' = Ok true) (b :: l) /\
    r = RSet (Common None None None) (a :: b :: l) op None.
Proof. exact set_iff. Qed.
(** the first input whose columns differ is an error *)
Theorem C31_set_mismatch : forall op a same b l t t', op <> 0 -> rel_type a = Ok t ->
  Forall (fun x => exists t', rel_type x = Ok t' /\ record_eq t t' = Ok true) same ->
  rel_type b = Ok t' -> record_eq t t' = Ok false -> set_remap op None (map Some (a :: same ++ b :: l)) = Err.
Proof.
  intros op a same b l t t' N Ta F Tb R. unfold set_remap. apply Z.eqb_neq in N. rewrite N.
  rewrite map_length. cbn [List.length]. rewrite app_length. cbn [List.length].
  replace (Nat.ltb (S (List.length same + S (List.length l))) 2) with false by (symmetry; apply Nat.ltb_ge; lia).
  rewrite (proj2 (mapM_nonnil _ (a :: same ++ b :: l)) eq_refl). cbn [bind]. rewrite Ta. cbn [bind check_map forallb].
  replace (all_equal_from t (same ++ b :: l)) with (@Err unit); [reflexivity|].
  clear -F Tb R. induction F as [|x same (u & E & B) F IH]; cbn [app all_equal_from].
  - rewrite Tb. cbn [bind]. rewrite R. reflexivity.
  - rewrite E. cbn [bind]. rewrite B. exact IH.
Qed.
Example C31_set_mismatch_example : set_remap 1 None [Some table; Some fetched; Some fetched_swapped] = Err.
Proof. reflexivity. Qed.
Theorem C31_extensions : forall i d is r,
  (extension_single i d = Ok r <-> exists x y, i = Some x /\ d = Some y /\ r = RExt1 (Common None None None) x y) /\
  (extension_leaf d = Ok r <-> exists y, d = Some y /\ r = RExt0 (Common None None None) y) /\
  (extension_multi is d = Ok r <-> exists l y, is = map Some l /\ l <> [] /\ d = Some y /\ r = RExtN (Common None None None) l y).
Proof. intros i d is r. split; [apply ext1_iff|]. split; [apply ext0_iff|apply extN_iff]. Qed.
Theorem C31_tables : forall ns sch ts d uri id t,
  empty_virtual ns ts = RRead (Common None None None) (RBase (Schema ns NullRequired 0 ts) blank blank None None) (KVirtual []) /\
  extension_table d sch = RRead (Common None None None) (RBase sch blank blank None None) (KExtTable d) /\
  iceberg_table uri None sch = RRead (Common None None None) (RBase sch blank blank None None) (KIceberg (Direct uri 0 "")) /\
  iceberg_table uri (Some (inl id)) sch = RRead (Common None None None) (RBase sch blank blank None None) (KIceberg (Direct uri 0 id)) /\
  iceberg_table uri (Some (inr t)) sch = RRead (Common None None None) (RBase sch blank blank None None) (KIceberg (Direct uri t "")).
Proof. repeat split. Qed.
(** an absent input is refused with an error *)
Theorem C31_nil_inputs : forall m es e p jt o n ss op ns sch md x d is,
  project_remap None m es = Err /\ cross_remap None x m = Err /\ cross_remap (Some table) None m = Err /\
  fetch_remap None o n m = Err /\ filter_remap None e m = Err /\ filter_remap (Some table) blank m = Err /\
  join_remap None x e p jt m = Err /\ join_remap (Some table) None e p jt m = Err /\
  join_remap (Some table) (Some table) blank p jt m = Err /\
  sort_remap None m ss = Err /\ write_remap None op md m ns sch = Err /\
  extension_single None d = Err /\ extension_leaf None = Err /\ extension_multi [] d = Err /\
  (In None is -> extension_multi is d = Err) /\ (In None is -> set_remap op m is = Err).
Proof.
  intros. repeat split; auto.
  - assert (X : forall is, In None is -> mapM (@nonnil rel) is = Err).
    { clear. induction is as [|[y|] is IH]; cbn; intros H; auto; [destruct H|]. destruct H as [H|H]; [discriminate|].
      change (mapM (@nonnil rel) is) with (mapM (@nonnil rel) is) in IH. rewrite (IH H). reflexivity. }
    intros H. unfold extension_multi. destruct is; auto. rewrite (X _ H). reflexivity.
  - assert (X : forall is, In None is -> mapM (@nonnil rel) is = Err).
    { clear. induction is as [|[y|] is IH]; cbn; intros H; auto; [destruct H|]. destruct H as [H|H]; [discriminate|].
      rewrite (IH H). reflexivity. }
    intros H. unfold set_remap. destruct (op =? 0); auto. destruct (Nat.ltb (List.length is) 2); auto. rewrite (X _ H). reflexivity.
Qed.
(** what is refused by a check is an error, not a panic *)
Lemma not_boolean : forall e t, expr_type rel_type e = Ok t -> t <> XNil -> ~ boolean e -> check_bool e = Err.
Proof.
  intros e t T N B. destruct (check_bool e) as [u| |] eqn:E; auto.
  - apply check_bool_iff in E. contradiction.
  - unfold check_bool in E. rewrite T in E. cbn [bind] in E. destruct t as [|t|n v l|n v x|n v x y|n ps r]; [contradiction| | | | |];
      cbn [x_with_nullability bind] in E; try (cbn in E; discriminate). destruct t; cbn in E; try discriminate.
    destruct (_ && _); discriminate.
Qed.
Theorem C31_reported : forall i j m e p t,
  (project_remap (Some i) m [] = Err) /\ (sort_remap (Some i) None [] = Err \/ rel_type i = Panic \/ rel_type i = Err) /\
  (filter_remap (Some i) blank m = Err) /\ (join_remap (Some i) (Some j) blank p 1 m = Err) /\
  (forall is, set_remap 0 m is = Err) /\ (forall op, set_remap op m [] = Err /\ set_remap op m [Some i] = Err) /\
  (e <> blank -> expr_type rel_type e = Ok t -> t <> XNil -> ~ boolean e ->
     filter_remap (Some i) e m = Err /\ (forall jt q, join_remap (Some i) (Some j) e q jt m = Err) /\
     (forall x jt, x <> blank -> boolean x -> join_remap (Some i) (Some j) x e jt m = Err)) /\
  (e <> blank -> boolean e -> join_remap (Some i) (Some j) e p 0 m = Err).
Proof.
  intros i j m e p t. split; [reflexivity|]. split.
  { unfold sort_remap. cbn [nonnil bind]. destruct (rel_type i); auto. }
  split; [reflexivity|]. split; [reflexivity|]. split; [reflexivity|]. split.
  { intros op. unfold set_remap. split; destruct (op =? 0); reflexivity. }
  assert (HB : forall x, boolean x -> check_bool x = Ok tt) by (intros x Hx; apply check_bool_iff; auto).
  split.
  - intros NE T NX NB. assert (C := not_boolean _ _ T NX NB). apply not_nil_iff in NE.
    unfold filter_remap, join_remap. cbn [nonnil bind]. rewrite NE, C. cbn [bind]. split; auto. split; auto.
    intros x jt NX' Bx. apply not_nil_iff in NX'. rewrite NX', (HB _ Bx). cbn [bind]. destruct (jt =? JoinUnspecified); reflexivity.
  - intros NE B. apply not_nil_iff in NE. unfold join_remap. cbn [nonnil bind]. rewrite NE, (HB _ B). reflexivity.
Qed.
Example C31_reported_example : filter_remap (Some table) (lit_i64 1) None = Err /\ filter_remap (Some table) lit_true None <> Err.
Proof. split; [reflexivity|discriminate]. Qed.
(** table writes check the mapping against the columns of their input, not their own *)
Theorem C31_writes : forall i m ns sch op r,
  (create_table_remap i m ns sch = Ok r <-> exists x t, i = Some x /\ rel_type x = Ok t /\
     Forall (in_width (List.length t)) (match m with Some l => l | None => [] end) /\
     r = RWrite (Common None m None) ns None sch 4 x 2) /\
  (named_write_remap i op ns sch m = Ok r <-> exists x t, i = Some x /\ rel_type x = Ok t /\
     Forall (in_width (List.length t)) (match m with Some l => l | None => [] end) /\
     r = RWrite (Common None m None) ns None sch op x 1).
Proof. intros i m ns sch op r. split; apply write_iff. Qed.
Theorem C31_filter_refuted : exists i e m r, filter_remap (Some i) e (Some m) = Ok r /\ rel_type r = Panic.
Proof. exists (RFetch (mapped (Some [0])) table 0 10 None), lit_true, [1]. eexists. split; reflexivity. Qed.
Theorem C31_named_write_refuted : exists i op ns sch m r,
  named_write_remap (Some i) op ns sch (Some m) = Ok r /\ rel_type r = Panic.
Proof. exists table, 1, ["t"%string], two_cols, [0]. eexists. split; reflexivity. Qed.
Theorem C31_create_table_refuted : exists i ns sch m r,
  create_table_remap (Some i) (Some m) ns sch = Ok r /\ rel_type r = Panic.
Proof. exists table, ["t"%string], (Schema ["a"%string] NullRequired 0 [t_i64]), [1]. eexists. split; reflexivity. Qed.
Theorem C31_untyped_project_refuted : exists i m es r, project_remap (Some i) (Some m) es = Ok r /\ rel_type r = Panic.
Proof. exists table, [0], [blank]. eexists. split; reflexivity. Qed.
Example C31_example : project_remap (Some fetched) (Some [2; 0]) [lit_str "x"] =
    Ok (RProject (mapped (Some [2; 0])) fetched [lit_str "x"] None) /\
  remap_builder (fun m => project_remap (Some fetched) m [lit_str "x"]).
Proof. split; [reflexivity|]. constructor. constructor; [|constructor]. exists t_str. reflexivity. Qed.

(** *** references to columns *)
Theorem C31_column_reference : forall input cols i e, rel_type input = Ok cols ->
  (root_field_ref input i = Ok e <->
   exists t, 0 <= i /\ nth_error cols (Z.to_nat i) = Some t /\ e = ERef RRoot (RefSeg [SField i]) t) /\
  (~ in_width (List.length cols) i -> root_field_ref input i = Err).
Proof.
  intros input cols i e H. unfold root_field_ref. rewrite H. cbn [bind]. split; [apply ref_at_iff|apply ref_at_err].
Qed.
Theorem C31_joined_column_reference : forall l r lt rt i e, rel_type l = Ok lt -> rel_type r = Ok rt ->
  (joined_field_ref l r i = Ok e <->
   exists t, 0 <= i /\ nth_error (lt ++ rt) (Z.to_nat i) = Some t /\ e = ERef RRoot (RefSeg [SField i]) t) /\
  (~ in_width (List.length (lt ++ rt)) i -> joined_field_ref l r i = Err).
Proof.
  intros l r lt rt i e HL HR. unfold joined_field_ref. rewrite HL, HR. cbn [bind]. split; [apply ref_at_iff|apply ref_at_err].
Qed.
Theorem C31_sort_fields : forall input cols is ss, rel_type input = Ok cols ->
  (sort_fields input is = Ok ss <-> exists ts, picks is cols ts /\
     ss = map (fun p => (ERef RRoot (RefSeg [SField (fst p)]) (snd p), SK_dir 2)) (combine is ts)).
Proof.
  intros input cols is ss H. unfold sort_fields. rewrite mapM_F2. split.
  - intros F. induction F as [|i s is ss Hs F (ts & IH1 & ->)]; [exists []; split; [constructor|auto]|].
    apply bind_ok in Hs as (e & He & Hs). apply (C31_column_reference input cols i e H) in He as (t & T1 & T2 & ->).
    inversion Hs. exists (t :: ts). split; auto. constructor; auto.
  - intros (ts & P & ->). induction P as [|i t is ts [P1 P2] P IH]; cbn; constructor; auto.
    apply bind_ok. exists (ERef RRoot (RefSeg [SField i]) t). split; auto. apply (C31_column_reference input cols i _ H). eauto.
Qed.

(** ** C35: grouping sets *)
Theorem C35_cube : forall refs b,
  (20 < List.length refs -> add_cube refs b = Err)%nat /\
  (List.length refs <= 20 -> exists pss groups,
     add_cube refs b = Ok (AggBuilder (ab_input b) (ab_measures b) (ab_exprs b) (ab_refs b ++ groups)) /\
     NoDup pss /\ (forall ps, In ps pss <-> places (List.length refs) ps) /\
     Forall2 (at_places refs) pss groups)%nat.
Proof.
  intros refs b. unfold add_cube, max_grouping. split; intros L.
  - apply Nat.ltb_lt in L. rewrite L. reflexivity.
  - apply Nat.ltb_ge in L. rewrite L. destruct (cube_places (List.length refs)) as [ND C].
    exists (map (bits (List.length refs)) (seq 1 (2 ^ List.length refs - 1))), (map (extract_group refs 0) (seq 1 (2 ^ List.length refs - 1))).
    split; [reflexivity|]. split; auto. split; auto.
    generalize (seq 1 (2 ^ List.length refs - 1)) as l. clear.
    induction l as [|k l IH]; cbn [map]; constructor; auto. apply extract_bits.
Qed.
Theorem C35_rollup : forall refs b,
  add_rollup refs b = AggBuilder (ab_input b) (ab_measures b) (ab_exprs b)
                        (ab_refs b ++ prefixes_longest_first (List.length refs) refs).
Proof. intros refs b. unfold add_rollup, add_groups. rewrite rollup_prefixes. reflexivity. Qed.
Theorem C35_grouping_set : forall refs b,
  add_grouping_set refs b = AggBuilder (ab_input b) (ab_measures b) (ab_exprs b) (ab_refs b ++ [refs]).
Proof. reflexivity. Qed.
Theorem C35_add_expression : forall e b b' i, add_expression e b = (b', i) ->
  ab_input b' = ab_input b /\ ab_measures b' = ab_measures b /\ ab_refs b' = ab_refs b /\
  0 <= i /\ (exists x, nth_error (ab_exprs b') (Z.to_nat i) = Some x /\ same_object x e) /\
  (ab_exprs b' = ab_exprs b \/
   Forall (fun x => ~ same_object x e) (ab_exprs b) /\ ab_exprs b' = (ab_exprs b ++ [e])%list /\
   i = Z.of_nat (List.length (ab_exprs b))).
Proof. exact add_expression_spec. Qed.
Theorem C35_other_calls : forall b r,
  replace_input r b = AggBuilder r (ab_measures b) (ab_exprs b) (ab_refs b) /\
  clear_measures b = AggBuilder (ab_input b) [] (ab_exprs b) (ab_refs b) /\
  clear_grouping b = AggBuilder (ab_input b) (ab_measures b) [] [] /\
  (forall ms, new_agg_builder r ms = AggBuilder r ms [] []).
Proof. repeat split. Qed.

(** any sequence of calls: expressions are never listed twice, the numbers handed out stay
    valid, and every grouping set is made of numbers that were passed in *)
Definition do_call (c : agg_call) (b : agg_builder) : res agg_builder :=
  match c with
  | CallExpr e => Ok (fst (add_expression e b))
  | CallCube refs => add_cube refs b
  | CallRollup refs => Ok (add_rollup refs b)
  | CallSet refs => Ok (add_grouping_set refs b)
  end.
Fixpoint do_calls (cs : list agg_call) (b : agg_builder) : res agg_builder :=
  match cs with [] => Ok b | c :: cs' => let! b' := do_call c b in do_calls cs' b' end.
Definition passed_in (cs : list agg_call) (k : Z) : Prop :=
  exists refs, In k refs /\ (In (CallCube refs) cs \/ In (CallRollup refs) cs \/ In (CallSet refs) cs).

Lemma at_places_incl : forall (refs : list Z) ps g, at_places refs ps g -> incl g refs.
Proof.
  intros refs ps g H. induction H as [|i y ps g Hi H IH]; intros z Hz; [destruct Hz|]. destruct Hz as [<-|Hz]; auto. eapply nth_error_In; eauto.
Qed.
Lemma prefixes_incl : forall n (refs : list Z), Forall (fun g => incl g refs) (prefixes_longest_first n refs).
Proof.
  induction n; intros refs; cbn [prefixes_longest_first]; constructor; auto. intros x Hx. rewrite <- (firstn_skipn (S n) refs).
  apply in_or_app. auto.
Qed.
Lemma one_call : forall c b b', do_call c b = Ok b' ->
  (distinct_objects (ab_exprs b) -> distinct_objects (ab_exprs b')) /\
  (exists more, ab_exprs b' = (ab_exprs b ++ more)%list) /\
  ab_input b' = ab_input b /\ ab_measures b' = ab_measures b /\
  (exists gs, ab_refs b' = (ab_refs b ++ gs)%list /\ Forall (Forall (passed_in [c])) gs).
Proof.
  intros c b b' H.
  assert (P : forall refs g, incl g refs -> c = CallCube refs \/ c = CallRollup refs \/ c = CallSet refs -> Forall (passed_in [c]) g).
  { intros refs g I D. apply Forall_forall. intros k Hk. exists refs. split; auto. cbn. destruct D as [->|[->| ->]]; auto. }
  destruct c as [e|refs|refs|refs]; cbn in H.
  - destruct (add_expression e b) as [b1 i] eqn:E. cbn in H. injection H as <-.
    split; [eapply add_expression_distinct; eauto|].
    apply add_expression_spec in E as (E1 & E2 & E3 & _ & _ & E4). repeat split; auto.
    + destruct E4 as [->|(_ & -> & _)]; eauto. exists []. rewrite app_nil_r. auto.
    + exists []. rewrite app_nil_r. auto.
  - destruct (C35_cube refs b) as [A B]. destruct (le_lt_dec (List.length refs) 20) as [L|L].
    + destruct (B L) as (pss & gs & E & _ & _ & F). rewrite E in H. injection H as <-. cbn. repeat split; auto.
      * exists []. rewrite app_nil_r. auto.
      * exists gs. split; auto. clear - F P. induction F; constructor; auto. eapply P; eauto. eapply at_places_incl; eauto.
    + rewrite (A L) in H. discriminate.
  - injection H as <-. rewrite C35_rollup. cbn. repeat split; auto.
    + exists []. rewrite app_nil_r. auto.
    + eexists. split; [reflexivity|]. eapply Forall_impl; [|apply prefixes_incl]. cbn. intros g I. eapply P; eauto.
  - injection H as <-. cbn. repeat split; auto.
    + exists []. rewrite app_nil_r. auto.
    + eexists. split; [reflexivity|]. constructor; auto. eapply P; eauto. apply incl_refl.
Qed.
Theorem C35_histories : forall cs b b', do_calls cs b = Ok b' ->
  (distinct_objects (ab_exprs b) -> distinct_objects (ab_exprs b')) /\
  (exists more, ab_exprs b' = (ab_exprs b ++ more)%list) /\
  ab_input b' = ab_input b /\ ab_measures b' = ab_measures b /\
  (exists gs, ab_refs b' = (ab_refs b ++ gs)%list /\ Forall (Forall (passed_in cs)) gs).
Proof.
  induction cs as [|c cs IH]; intros b b' H; cbn in H.
  - injection H as <-. repeat split; auto; exists []; rewrite app_nil_r; auto.
  - apply bind_ok in H as (b1 & H1 & H2). apply one_call in H1 as (A1 & (m1 & A2) & A3 & A4 & g1 & A5 & A6).
    apply IH in H2 as (B1 & (m2 & B2) & B3 & B4 & g2 & B5 & B6). repeat split; try congruence; auto.
    + exists (m1 ++ m2)%list. rewrite B2, A2, app_assoc. auto.
    + exists (g1 ++ g2)%list. rewrite B5, A5, app_assoc. split; auto. apply Forall_app. split.
      * eapply Forall_impl; [|exact A6]. intros g. apply Forall_impl. intros k (refs & K1 & K2). exists refs. split; auto. cbn in *.
        destruct K2 as [[->|[]]|[[->|[]]|[->|[]]]]; auto.
      * eapply Forall_impl; [|exact B6]. intros g. apply Forall_impl. intros k (refs & K1 & K2). exists refs. split; auto. cbn.
        destruct K2 as [|[|]]; auto.
Qed.
Theorem C35_build : forall b r, build_agg b = Ok r <->
  exists i, ab_input b = Some i /\
    (ab_measures b <> [] \/ ab_refs b <> [] /\ ab_exprs b <> []) /\
    Forall (fun o => ~ is_blank o) (ab_exprs b) /\
    Forall (Forall (fun k => k < Z.of_nat (List.length (ab_exprs b)))) (ab_refs b) /\
    r = RAgg (Common None None None) i (ab_measures b) (map snd (ab_exprs b)) (ab_refs b) None.
Proof. exact build_iff. Qed.
Theorem C35_build_refuses : forall b, (exists r, build_agg b = Ok r) \/ build_agg b = Err.
Proof. intros b. unfold build_agg. destruct (validate_agg b); auto. destruct (ab_input b); eauto. Qed.
(** a negative reference is not noticed *)
Theorem C35_references_in_range_refuted : exists b r, build_agg b = Ok r /\ rel_type r = Panic.
Proof.
  exists (AggBuilder (Some table) [] [(0%nat, lit_i64 1)] [[-1]]). eexists. split; reflexivity.
Qed.
Example C35_example : exists b, do_calls [CallExpr (0%nat, lit_i64 1); CallExpr (1%nat, lit_i64 1); CallExpr (0%nat, lit_i64 1);
     CallCube [0; 1]; CallRollup [1; 0]] (new_agg_builder (Some table) []) = Ok b /\
  ab_exprs b = [(0%nat, lit_i64 1); (1%nat, lit_i64 1)] /\
  ab_refs b = [[0]; [1]; [0; 1]; [1; 0]; [1]] /\ distinct_objects (ab_exprs (new_agg_builder (Some table) [])).
Proof. eexists. split; [reflexivity|]. split; [reflexivity|]. split; [reflexivity|]. apply distinct_nil. Qed.

(** ** C36: references resolve to the expressions that were given *)
Theorem C36_aggregate_exprs : forall input ms gs, honest (List.concat gs) ->
  exists objs refs,
    distinct_objects objs /\ incl objs (List.concat gs) /\
    Forall2 (resolves_to (map snd objs)) refs (map (map snd) gs) /\
    forall r, aggregate_exprs input ms gs = Ok r <->
      exists i, input = Some i /\ (ms <> [] \/ List.concat gs <> []) /\ Forall (fun o => ~ is_blank o) (List.concat gs) /\
        r = RAgg (Common None None None) i ms (map snd objs) refs None.
Proof. exact aggregate_exprs_char. Qed.
Theorem C36_aggregate_columns : forall input ms cols r, cols <> [] -> aggregate_columns (Some input) ms cols = Ok r <->
  exists types ts, rel_type input = Ok types /\ picks cols types ts /\
    r = RAgg (Common None None None) input ms
          (map (fun p => ERef RRoot (RefSeg [SField (fst p)]) (snd p)) (combine cols ts))
          [map Z.of_nat (seq 0 (List.length cols))] None.
Proof. exact columns_iff. Qed.
(** no columns: the measures alone *)
Theorem C36_aggregate_no_columns : forall input ms r, aggregate_columns input ms [] = Ok r <->
  exists i, input = Some i /\ ms <> [] /\ r = RAgg (Common None None None) i ms [] [] None.
Proof.
  intros input ms r. unfold aggregate_columns. rewrite build_iff. cbn. split.
  - intros (i & H1 & [H2|[H2 _]] & _ & _ & ->); [eauto|contradiction].
  - intros (i & H1 & H2 & ->). exists i. repeat split; auto.
Qed.
(** the reader's form: every reference stands for its expression, up to [Equals]; nothing is
    listed that equals an earlier entry *)
Theorem C36_reader : forall gs es refs, grouping_exprs fresh_equals gs = Ok (es, refs) ->
  incl es (List.concat gs) /\
  Forall2 (Forall2 (fun i e => 0 <= i /\ exists x, nth_error es (Z.to_nat i) = Some x /\ (x = e \/ fresh_equals x e = Ok true))) refs gs /\
  (forall i j x y, (i < j)%nat -> nth_error es i = Some x -> nth_error es j = Some y -> fresh_equals x y = Ok false).
Proof.
  intros gs es refs H. apply grouping_exprs_spec in H as (A & I & F). split; auto.
Qed.
(** it answers as soon as the expressions can be compared; a missing one cannot *)
Theorem C36_reader_total : forall gs,
  (forall a b, In a (List.concat gs) -> In b (List.concat gs) -> exists t, fresh_equals a b = Ok t) ->
  exists es refs, grouping_exprs fresh_equals gs = Ok (es, refs).
Proof. intros gs H. destruct (grouping_total fresh_equals gs H) as [[es refs] E]. eauto. Qed.
Example C36_reader_total_example : let gs := [[lit_i64 1; lit_str "x"]; [lit_str "x"; lit_i64 1]] in
  forall a b, In a (List.concat gs) -> In b (List.concat gs) -> exists t, fresh_equals a b = Ok t.
Proof. cbn [List.concat app]. intros a b [<-|[<-|[<-|[<-|[]]]]] [<-|[<-|[<-|[<-|[]]]]]; eexists; reflexivity. Qed.
(** Nothing that was read is the same object as anything else: subqueries and masks are never
    merged, and arguments only when they have equal values. *)
Theorem C36_reader_merges_values_only : forall r r' ns op red cmp l root m m' t t',
  fresh_equals (ESubScalar r) (ESubScalar r') = Ok false /\
  fresh_equals (ESubSet op r) (ESubSet op r') = Ok false /\
  fresh_equals (ESubIn ns r) (ESubIn ns r') <> Ok true /\
  (l <> blank -> fresh_equals (ESubCmp red cmp l r) (ESubCmp red cmp l r') <> Ok true) /\
  fresh_equals (ERef root (RefMask m) t) (ERef root (RefMask m') t') <> Ok true /\
  (forall n d opts out x y, x <> y ->
     fresh_equals (EScalar n d [AEnum x] opts out) (EScalar n d [AEnum y] opts out) <> Ok true).
Proof.
  intros r r' ns op red cmp l root m m' t t'. unfold fresh_equals.
  split; [reflexivity|]. split; [cbn; destruct (op =? op); reflexivity|]. split.
  { cbn [expr_equals]. destruct (equal_func _ ns ns) as [[]| |]; cbn; discriminate. }
  split.
  { intros N. cbn [expr_equals]. apply not_nil_iff in N. rewrite N. cbn [orb].
    rewrite !Z.eqb_refl. cbn. destruct (expr_equals _ _ _ l l) as [[]| |]; cbn; discriminate. }
  split.
  { cbn [expr_equals reference_equals]. destruct (root_equals _ _ _) as [[]| |]; cbn; discriminate. }
  intros n d opts out x y N. cbn [expr_equals args_loop farg_equals]. rewrite Z.eqb_refl. cbn [negb].
  destruct (type_equals out out) as [[]| |]; cbn; try discriminate.
  apply String.eqb_neq in N. rewrite N. cbn. discriminate.
Qed.
(** an aggregate turned into a builder and built again *)
Theorem C36_to_builder : forall c i ms es refs v ids b, List.length ids = List.length es ->
  to_builder (RAgg c i ms es refs v) ids = Some b ->
  b = AggBuilder (Some i) ms (combine ids es) refs /\ map snd (ab_exprs b) = es.
Proof.
  intros c i ms es refs v ids b L H. cbn in H. injection H as <-. split; auto. cbn. revert es L.
  induction ids; intros [|e es] L; cbn in *; try discriminate; auto. f_equal. auto.
Qed.
Example C36_example :
  aggregate_exprs (Some table) [] [[(1%nat, lit_i64 1); (2%nat, lit_str "x")]; [(2%nat, lit_str "x")]] =
    Ok (RAgg zero_common table [] [lit_i64 1; lit_str "x"] [[0; 1]; [1]] None) /\
  honest (List.concat [[(1%nat, lit_i64 1); (2%nat, lit_str "x")]; [(2%nat, lit_str "x")]]) /\
  grouping_exprs fresh_equals [[lit_i64 1; lit_str "x"]; [lit_str "x"; lit_i64 1]] =
    Ok ([lit_i64 1; lit_str "x"], [[0; 1]; [1; 0]]).
Proof.
  split; [reflexivity|]. split; [|reflexivity]. intros a b A B. cbn in A, B.
  repeat match goal with H : _ \/ _ |- _ => destruct H | H : _ = ?x |- _ => subst x end; auto; try contradiction; cbn; intros; congruence.
Qed.

(** ** C43: virtual tables *)
Theorem C43_virtual_table : forall ns rows r, virtual_remap ns None rows = Ok r <->
  exists row rest ts, rows = row :: rest /\ List.length row = List.length ns /\
    Forall2 (fun e t => expr_type rel_type e = Ok t) row ts /\
    Forall (fun row' => exists used more, ts = (used ++ more)%list /\ Forall2 fits used row') rest /\
    r = RRead (Common None None None) (RBase (Schema ns NullRequired 0 ts) blank blank None None) (KVirtual rows).
Proof. exact virtual_iff. Qed.
Theorem C43_literal_rows : forall ns m rows, virtual_lits_remap ns m rows = virtual_remap ns m (map (map ELit) rows).
Proof. reflexivity. Qed.
Theorem C43_no_rows_or_wrong_width : forall ns m row rest,
  virtual_remap ns m [] = Err /\ (List.length row <> List.length ns -> virtual_remap ns m (row :: rest) = Err).
Proof. intros ns m row rest. split; auto. intros H. unfold virtual_remap. apply Nat.eqb_neq in H. rewrite H. reflexivity. Qed.
Theorem C43_long_row_panics : forall ns row ts row' e more rest, List.length row = List.length ns ->
  Forall2 (fun e t => expr_type rel_type e = Ok t) row ts -> Forall2 fits ts row' ->
  virtual_remap ns None (row :: (row' ++ e :: more)%list :: rest) = Panic.
Proof.
  intros ns row ts row' e more rest L T F. unfold virtual_remap. rewrite L, Nat.eqb_refl. cbn [negb check_map forallb bind].
  apply mapM_F2 in T. rewrite T. cbn [bind check_rows]. rewrite long_row_panics by auto. reflexivity.
Qed.
(** the first column of a later row that does not fit decides: a column of another type is an
    error, and comparing with a column of the first row that has no type panics *)
Theorem C43_misfit : forall ns row used t more row' e t' tl rest, List.length row = List.length ns ->
  Forall2 (fun e t => expr_type rel_type e = Ok t) row (used ++ t :: more) -> Forall2 fits used row' ->
  expr_type rel_type e = Ok t' ->
  (t <> XNil -> x_equals t t' = Ok false -> virtual_remap ns None (row :: (row' ++ e :: tl)%list :: rest) = Err) /\
  (t = XNil -> virtual_remap ns None (row :: (row' ++ e :: tl)%list :: rest) = Panic).
Proof.
  intros ns row used t more row' e t' tl rest L T F E. unfold virtual_remap. rewrite L, Nat.eqb_refl. cbn [negb check_map forallb bind].
  apply mapM_F2 in T. rewrite T. cbn [bind check_rows]. clear T L.
  assert (X : forall r, match t with XNil => Panic | _ => bind (x_equals t t') (fun b => if b then check_row more tl else Err) end = r ->
    check_row (used ++ t :: more) (row' ++ e :: tl) = r).
  { intros r Hr. induction F as [|x y l l' (N & y' & Hy & Hb) F IH].
    - cbn [app check_row]. rewrite E. exact Hr.
    - cbn [app check_row]. rewrite Hy. cbn [bind]. destruct x; try contradiction; rewrite Hb; exact IH. }
  split.
  - intros N B. rewrite (X Err); [reflexivity|]. destruct t; try contradiction; rewrite B; reflexivity.
  - intros ->. rewrite (X Panic); reflexivity.
Qed.
Theorem C43_every_row_full_refuted : exists ns rows r row, virtual_remap ns None rows = Ok r /\ In row rows /\
  List.length row <> List.length ns.
Proof.
  exists ["a"; "b"]%string, [[lit_i64 1; lit_str "x"]; [lit_i64 2]]. eexists _, [lit_i64 2].
  split; [reflexivity|]. split; [right; left; auto|]. discriminate.
Qed.
Example C43_example : exists r, virtual_remap ["a"; "b"]%string None [[lit_i64 1; lit_str "x"]; [lit_i64 2; lit_str "y"]] = Ok r /\
  rel_type r = Ok [t_i64; t_str].
Proof. eexists. split; reflexivity. Qed.
Example C43_misfit_example :
  virtual_remap ["a"; "b"]%string None [[lit_i64 1; lit_str "x"]; [lit_i64 2; lit_i64 3]] = Err /\
  virtual_remap ["a"; "b"]%string None [[lit_i64 1; ERef (RLambda 0) (RefSeg [SField 0]) XNil]; [lit_i64 2; lit_i64 3]] = Panic.
Proof. split; reflexivity. Qed.

(** ** C44: subqueries *)
Theorem C44_in : forall ns h e, in_subquery ns h = Ok e <->
  exists r t, h = Some r /\ ns <> [] /\ Forall (fun x => x <> blank) ns /\ rel_type r = Ok t /\
    List.length ns = List.length t /\ e = ESubIn ns r.
Proof. exact in_iff. Qed.
Theorem C44_in_refused : forall ns h cols, rel_type h = Ok cols ->
  (ns = [] \/ ~ Forall (fun x => x <> blank) ns \/ List.length ns <> List.length cols) -> in_subquery ns (Some h) = Err.
Proof.
  intros ns h cols T H. unfold in_subquery. cbn [nonnil bind]. destruct ns as [|x ns]; auto.
  destruct (existsb is_nil_expr (x :: ns)) eqn:E; auto. apply existsb_nil in E. rewrite T. cbn [bind].
  destruct (Nat.eqb_spec (List.length (x :: ns)) (List.length cols)); auto. destruct H as [H|[H|H]]; [discriminate|contradiction|contradiction].
Qed.
Theorem C44_set : forall h op e, set_subquery h op = Ok e <-> exists r, h = Some r /\ op <> 0 /\ e = ESubSet op r.
Proof. exact set_subquery_iff. Qed.
Theorem C44_comparison : forall l h red cmp e, cmp_subquery l h red cmp = Ok e <->
  exists r, h = Some r /\ red <> 0 /\ cmp <> 0 /\ l <> blank /\ e = ESubCmp red cmp l r.
Proof. exact cmp_subquery_iff. Qed.
Theorem C44_nil_inputs : forall ns op l red cmp,
  in_subquery ns None = Err /\ set_subquery None op = Err /\ scalar_subquery None = Err /\ cmp_subquery l None red cmp = Err.
Proof.
  intros ns op l red cmp. repeat split. unfold cmp_subquery. destruct (red =? 0); auto. destruct (cmp =? 0); auto.
  destruct (is_nil_expr l); auto.
Qed.
Theorem C44_scalar : forall r, scalar_subquery (Some r) = Ok (ESubScalar r).
Proof. reflexivity. Qed.
(** the scalar subquery is built over any relation; its type is only there for one column *)
Theorem C44_scalar_type : forall r cols t, rel_type r = Ok cols ->
  (expr_type rel_type (ESubScalar r) = Ok t <-> exists x, cols = [x] /\ t = x).
Proof.
  intros r cols t H. cbn. rewrite H. cbn. destruct cols as [|x [|y cols]]; split; intros E; try discriminate;
    try (destruct E as (z & E & _); discriminate).
  - inversion E; subst. eauto.
  - destruct E as (z & E & ->). inversion E; auto.
Qed.
Theorem C44_scalar_refuted : exists r e cols, rel_type r = Ok cols /\ List.length cols <> 1%nat /\
  scalar_subquery (Some r) = Ok e /\ expr_type rel_type e = Panic.
Proof. exists table, (ESubScalar table), [t_i64; t_str]. repeat split. discriminate. Qed.
Example C44_example : exists e, in_subquery [lit_i64 1; lit_str "x"] (Some table) = Ok e /\ expr_type rel_type e = Ok (XTy (TPrim PrimBool NullRequired 0)).
Proof. eexists. split; reflexivity. Qed.

(** ** C34: plans with several relations *)
Theorem C34_plan_accepted : forall version r names urls bs others p,
  plan_with_bindings version r names urls bs others = Ok p -> exists x cols, r = Some x /\ rel_type x = Ok cols /\
    List.length names = List.length (x_named cols) /\ validate_bindings x bs = Ok tt.
Proof.
  intros version r names urls bs others p H. unfold plan_with_bindings in H. apply bind_ok in H as (x & Hx & H).
  apply bind_ok in H as (t & Ht & H). apply bind_ok in H as (u & Hu & H). apply bind_ok in H as ([] & Hv & H).
  exists x, t. apply nonnil_ok in Hx. repeat split; auto. unfold check_root_names in Hu.
  destruct (Nat.eqb_spec (List.length names) (schema_name_count t)) as [E|]; [|discriminate]. rewrite E. apply schema_count.
Qed.
Theorem C34_single_relation : forall version x cols names urls bs, rel_type x = Ok cols ->
  List.length names = List.length (x_named cols) -> validate_bindings x bs = Ok tt ->
  exists p, plan_with_bindings version (Some x) names urls bs [] = Ok p /\
    pl_version p = Some version /\ pl_adv p = None /\ pl_urls p = urls /\ pl_bindings p = bs /\
    pl_relations p = [Relation (Some (x, names)) None] /\
    get_roots p = [(x, names)] /\ get_non_roots p = [].
Proof.
  intros version x cols names urls bs T L V. unfold plan_with_bindings. cbn [nonnil bind]. rewrite T. cbn [bind].
  unfold check_root_names. rewrite schema_count, L, Nat.eqb_refl. cbn [bind]. rewrite V. cbn [bind]. rewrite put_others_plan.
  eexists. split; [reflexivity|]. cbn. auto 10.
Qed.
Theorem C34_refused : forall version x cols names urls bs others,
  plan_with_bindings version None names urls bs others = Err /\
  (rel_type x = Ok cols -> List.length names <> List.length (x_named cols) ->
   plan_with_bindings version (Some x) names urls bs others = Err).
Proof.
  intros version x cols names urls bs others. split; auto. intros T N. unfold plan_with_bindings. cbn [nonnil bind]. rewrite T. cbn [bind].
  unfold check_root_names. rewrite schema_count. apply Nat.eqb_neq in N. rewrite N. reflexivity.
Qed.
(** with others: the first one is hidden behind the root, the last place stays empty *)
Theorem C34_with_others_partial : forall version x cols names urls bs o os, rel_type x = Ok cols ->
  List.length names = List.length (x_named cols) -> validate_bindings x bs = Ok tt ->
  exists p, plan_with_bindings version (Some x) names urls bs (o :: os) = Ok p /\
    pl_relations p = (Relation (Some (x, names)) (Some o) :: map (fun y => Relation None (Some y)) os ++ [Relation None None])%list /\
    get_roots p = [(x, names)] /\ get_non_roots p = (map Some os ++ [None])%list /\
    (forall ext m, plan_to_proto p ext <> Ok m).
Proof.
  intros version x cols names urls bs o os T L V. unfold plan_with_bindings. cbn [nonnil bind]. rewrite T. cbn [bind].
  unfold check_root_names. rewrite schema_count, L, Nat.eqb_refl. cbn [bind]. rewrite V. cbn [bind]. rewrite put_others_plan.
  eexists. split; [reflexivity|]. cbn [pl_relations]. split; auto. unfold get_roots, get_non_roots. cbn [pl_relations flat_map rl_root rl_rel].
  assert (R1 : flat_map (fun r : relation => match rl_root r with Some y => [y] | None => [] end)
     (map (fun y => Relation None (Some y)) os ++ [Relation None None]) = []).
  { induction os; cbn; auto. }
  assert (R2 : flat_map (fun r : relation => match rl_root r with Some _ => [] | None => [rl_rel r] end)
     (map (fun y => Relation None (Some y)) os ++ [Relation None None]) = (map Some os ++ [None])%list).
  { clear. induction os; cbn in *; auto. f_equal. auto. }
  rewrite R1, R2. repeat split; auto.
  intros ext m. unfold plan_to_proto. intros H. apply bind_ok in H as ([us ds] & _ & H). apply bind_ok in H as (rs & Hr & _).
  apply mapM_F2 in Hr. cbn [pl_relations] in Hr. inversion Hr as [|? ? ? ? _ F]; subst. apply Forall2_app_inv_l in F as (a & b & _ & F & _).
  inversion F; subst. discriminate.
Qed.
Theorem C34_keeps_all_relations_refuted : exists version x names urls o p,
  plan_with_bindings version (Some x) names urls [] [o] = Ok p /\
  get_non_roots p <> [Some o] /\ (forall ext m, plan_to_proto p ext <> Ok m).
Proof.
  destruct (C34_with_others_partial "v"%string table [t_i64; t_str] ["a"; "b"]%string [] [] fetched [] eq_refl eq_refl eq_refl)
    as (p & H1 & H2 & H3 & H4 & H5).
  exists "v"%string, table, ["a"; "b"]%string, [], fetched, p. split; auto. split; auto. rewrite H4. discriminate.
Qed.
Example C34_example : exists p m, plan_with_bindings "v"%string (Some fetched_swapped) ["x"; "y"]%string [] [] [] = Ok p /\
  plan_to_proto p (Ok ([], [])) = Ok m.
Proof. eexists _, _. split; reflexivity. Qed.

Print Assumptions C29_remap.
Print Assumptions C29_remaps.
Print Assumptions C30_join_schema.
Print Assumptions C31_remap_builders.
Print Assumptions C34_with_others_partial.
Print Assumptions C35_cube.
Print Assumptions C35_histories.
Print Assumptions C36_aggregate_exprs.
Print Assumptions C36_reader.
Print Assumptions C43_virtual_table.
Print Assumptions C43_misfit.
Print Assumptions C44_in.
Print Assumptions C52_output_schema.
Print Assumptions C36_reader_total.
Print Assumptions C36_reader_merges_values_only.
