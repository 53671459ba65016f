(** C25: loading extension files. *)

From Coq Require Import List ZArith String Ascii Bool Lia.
From Verif Require Import Base FMap FMapFacts ExtSetModel ExtSetSpec ExtSetProofs LoadModel LoadSpec LoadProofs.
Import ListNotations.
Local Open Scope string_scope.

Definition ex_impl (args : list string) (b : Z) : impl := Impl args [] "" "" b.
Definition ex_file : file :=
  File "extension:io.substrait:fn" [] (Some 7%Z) [("point", 1%Z)] [("dict", 2%Z)]
    [Func "add" 0 [ex_impl ["i32"; "i32"] 1; ex_impl ["i64"; "i64"] 2];
     Func "not" 0 [Impl ["bool"] [(None, "point")] "" "" 3]]
    [Func "sum" 0 [ex_impl ["i32"] 4]]
    [Func "ntile" 0 [ex_impl ["i32"] 5]].
Definition ex_file2 : file :=
  File "extension:acme:fn" [("std", "extension:io.substrait:fn")] None [] []
    [Func "add" 9 [ex_impl ["i32"; "i32"] 6]] [] [].

(** Load succeeds exactly on loadable files; otherwise nothing at all changes. *)
Theorem C25_load_all_or_nothing : forall f c,
  (loadable f c /\ snd (load (Some f) c) = true) \/
  (~ loadable f c /\ load (Some f) c = (c, false)).
Proof.
  intros f c. simpl. destruct (load_checks f c) eqn:E.
  - left. split; auto. apply load_checks_iff; auto.
  - right. split; auto. intros H. apply load_checks_iff in H. congruence.
Qed.

(** A file the YAML decoder rejects changes nothing. *)
Theorem C25_undecodable_changes_nothing : forall c, load None c = (c, false).
Proof. reflexivity. Qed.

Example C25_load_nonvacuous :
  loadable ex_file empty_coll /\
  loadable ex_file2 (fst (load (Some ex_file) empty_coll)) /\
  ~ loadable ex_file (fst (load (Some ex_file) empty_coll)) /\
  ~ loadable ex_file2 empty_coll.
Proof.
  rewrite <- !load_checks_iff. vm_compute. repeat split; auto; discriminate.
Qed.

(** After a successful load, on any collection built by loads, every lookup under the
    file's URN answers from the file's declarations alone (the last of equal names
    wins), and every lookup under another URN is as before. *)
Theorem C25_load_exact : forall fs f c,
  c = load_all fs empty_coll -> loadable f c ->
  let c' := fst (load (Some f) c) in
  let here id := String.eqb (id_urn id) (f_urn f) in
  (forall id, get_scalar c' id = if here id then lookup_decl f (decl_scalars f) (id_name id) else get_scalar c id) /\
  (forall id, get_agg c' id = if here id then lookup_decl f (decl_aggs f) (id_name id) else get_agg c id) /\
  (forall id, get_window c' id = if here id then lookup_decl f (decl_windows f) (id_name id) else get_window c id) /\
  (forall id, get_type_def c' id = if here id then last_named (id_name id) (f_types f) else get_type_def c id) /\
  (forall id, get_var_def c' id = if here id then last_named (id_name id) (f_vars f) else get_var_def c id) /\
  (forall u, get_meta c' u = if String.eqb u (f_urn f) then f_meta f else get_meta c u) /\
  (forall u, urn_loaded c' u = (String.eqb u (f_urn f) || urn_loaded c u)%bool).
Proof.
  intros fs f c Hc Hl. cbv zeta.
  assert (Hi : cinv c) by (subst; apply cinv_load_all, cinv_empty).
  pose proof Hl as Hl'. apply load_checks_iff in Hl'. simpl. rewrite Hl'. simpl.
  destruct Hl as (_ & Hn & _).
  destruct Hi as (H1 & H2 & H3 & H4 & H5 & H6 & H7).
  pose proof (load_commit_fields f c) as (E0 & E1 & E2 & E3 & E4 & E5 & E6 & E7).
  unfold get_scalar, get_agg, get_window, get_type_def, get_var_def, get_meta, urn_loaded.
  rewrite E0, E1, E2, E3, E4, E5, E6, E7. unfold lookup_decl. 
  ands; try (intros id; rewrite (check_maps_lookup (c_urns c)) by auto; rewrite last_named_alias; reflexivity);
  try (intros id; apply (table_lookup _ (c_urns c)); auto; fail).
  - intros u. destruct (String.eqb_spec u (f_urn f)) as [->|Hne].
    + destruct (f_meta f); [apply get_set_same, sspec|].
      apply option_iff_none. intros x Hx. apply Hn. eauto.
    + destruct (f_meta f); auto. apply get_set_other; auto. apply sspec.
  - intros u. reflexivity.
Qed.

Example C25_load_exact_nonvacuous :
  let c := fst (load (Some ex_file) empty_coll) in
  let u := "extension:io.substrait:fn" in
  option_map (fun v => i_body (v_impl v)) (get_scalar c (ExtId u "add:i64_i64")) = Some 2%Z /\
  get_scalar c (ExtId u "add") = None /\
  option_map (fun v => i_body (v_impl v)) (get_scalar c (ExtId u "not")) = Some 3%Z /\
  option_map (fun v => (i_wtype (v_impl v))) (get_window c (ExtId u "sum:i32")) = Some "STREAMING" /\
  option_map (fun v => (i_wtype (v_impl v))) (get_window c (ExtId u "ntile")) = Some "PARTITION" /\
  get_type_def c (ExtId u "point") = Some 1%Z.
Proof. vm_compute. repeat split. Qed.

(** A URN, once loaded, is never loaded again, however many loads come between, and
    the lookups under it never change. *)
Theorem C25_urn_loaded_once : forall f c fs g,
  loadable f c -> f_urn g = f_urn f ->
  let c' := load_all fs (fst (load (Some f) c)) in
  load (Some g) c' = (c', false).
Proof.
  intros f c fs g Hl Hu. cbv zeta.
  destruct (C25_load_all_or_nothing g (load_all fs (fst (load (Some f) c)))) as [[Hg _]|[_ H]]; auto.
  exfalso. destruct Hg as (_ & Hg & _). apply Hg. apply load_all_urns_mono.
  apply load_checks_iff in Hl. simpl. rewrite Hl. simpl.
  rewrite (proj1 (load_commit_fields f c)), Hu. left; auto.
Qed.

Theorem C25_lookups_under_loaded_urn_stable : forall fs gs u,
  let c := load_all fs empty_coll in
  urn_loaded c u = true ->
  let c' := load_all gs c in
  forall n, get_scalar c' (ExtId u n) = get_scalar c (ExtId u n) /\
            get_agg c' (ExtId u n) = get_agg c (ExtId u n) /\
            get_window c' (ExtId u n) = get_window c (ExtId u n) /\
            get_type_def c' (ExtId u n) = get_type_def c (ExtId u n) /\
            get_var_def c' (ExtId u n) = get_var_def c (ExtId u n) /\
            get_meta c' u = get_meta c u.
Proof.
  intros fs gs u. cbv zeta. revert fs. induction gs as [|g gs IH]; intros fs Hu n; [repeat split|].
  assert (E : load_all (fs ++ [g])%list empty_coll = fst (load g (load_all fs empty_coll))).
  { unfold load_all. rewrite fold_left_app. auto. }
  assert (Hu' : urn_loaded (load_all (fs ++ [g])%list empty_coll) u = true).
  { rewrite E. apply urn_loaded_iff, load_urns_mono, urn_loaded_iff. auto. }
  pose proof (IH _ Hu' n) as H. rewrite E in H. simpl load_all.
  cut (forall c, c = load_all fs empty_coll -> urn_loaded c u = true ->
     get_scalar (fst (load g c)) (ExtId u n) = get_scalar c (ExtId u n) /\
            get_agg (fst (load g c)) (ExtId u n) = get_agg c (ExtId u n) /\
            get_window (fst (load g c)) (ExtId u n) = get_window c (ExtId u n) /\
            get_type_def (fst (load g c)) (ExtId u n) = get_type_def c (ExtId u n) /\
            get_var_def (fst (load g c)) (ExtId u n) = get_var_def c (ExtId u n) /\
            get_meta (fst (load g c)) u = get_meta c u).
  { intros Hc. destruct (Hc _ eq_refl Hu) as (A1 & A2 & A3 & A4 & A5 & A6).
    destruct H as (B1 & B2 & B3 & B4 & B5 & B6).
    rewrite <- A1, <- A2, <- A3, <- A4, <- A5, <- A6. ands; auto. }
  intros c Hc Hcu. destruct g as [g|]; [|repeat split].
  destruct (C25_load_all_or_nothing g c) as [[Hl _]|[_ ->]]; [|repeat split].
  pose proof (C25_load_exact fs g c Hc Hl) as (X1 & X2 & X3 & X4 & X5 & X6 & _).
  assert (Hne : String.eqb u (f_urn g) = false).
  { apply String.eqb_neq. intros ->. destruct Hl as (_ & Hn & _). apply Hn. apply urn_loaded_iff; auto. }
  rewrite X1, X2, X3, X4, X5, X6. cbn [id_urn]. rewrite Hne. ands; auto.
Qed.

(** A scalar function with one implementation, when no other single-implementation
    function of the file shares its name, is found under its simple name. *)
Theorem C25_simple_name_finds_scalar : forall fs f c fn i,
  c = load_all fs empty_coll -> loadable f c ->
  In fn (f_scalars f) -> fn_impls fn = [i] -> ~ In ":"%char (chars (fn_name fn)) ->
  filter (fun p => String.eqb (fst p) (fn_name fn)) (simple_mentions f) = [(fn_name fn, reg_name (fn_name fn) i)] ->
  get_scalar (fst (load (Some f) c)) (ExtId (f_urn f) (fn_name fn)) =
  get_scalar (fst (load (Some f) c)) (ExtId (f_urn f) (reg_name (fn_name fn) i)) /\
  get_scalar (fst (load (Some f) c)) (ExtId (f_urn f) (fn_name fn)) <> None.
Proof.
  intros fs f c fn i Hc Hl Hfn Hi Hnc Hone.
  destruct (C25_load_exact fs f c Hc Hl) as (X & _). rewrite !X. cbn [id_urn id_name].
  rewrite String.eqb_refl. unfold lookup_decl.
  rewrite (no_colon_not_registered _ (fn_name fn) (decl_scalars f)); auto; [|apply decl_scalars_reg].
  assert (A : alias_of f (fn_name fn) = Some (reg_name (fn_name fn) i)).
  { unfold alias_of. rewrite Hone. simpl. unfold last_named. simpl. rewrite String.eqb_refl. auto. }
  rewrite A.
  assert (L : last_named (reg_name (fn_name fn) i) (decl_scalars f) <> None).
  { assert (Hin : In (reg_name (fn_name fn) i, Variant (f_urn f) (fn_name fn) (fn_desc fn) i) (decl_scalars f)).
    { unfold decl_scalars. apply in_flat_map. exists fn. split; auto. rewrite Hi. left; auto. }
    intros Hnone. unfold last_named in Hnone.
    destruct (find _ (rev (decl_scalars f))) eqn:F; [discriminate|].
    apply find_none with (x := (reg_name (fn_name fn) i, Variant (f_urn f) (fn_name fn) (fn_desc fn) i)) in F.
    - simpl in F. rewrite String.eqb_refl in F. discriminate.
    - apply -> in_rev; auto. }
  destruct (last_named (reg_name (fn_name fn) i) (decl_scalars f)); [|congruence]. split; auto; discriminate.
Qed.

Example C25_simple_name_finds_scalar_nonvacuous :
  loadable ex_file empty_coll /\
  filter (fun p => String.eqb (fst p) "not") (simple_mentions ex_file) = [("not", "not:bool")].
Proof. rewrite <- load_checks_iff. vm_compute. auto. Qed.

(** Finding: an aggregate function with one implementation and a name of its own is
    never found under its simple name, neither as an aggregate nor as a window
    function, although the loader's comment promises it: registering it a second time
    as a window function removes the alias again. *)
Theorem C25_simple_name_of_aggregate_refuted : forall fs f c fn i,
  c = load_all fs empty_coll -> loadable f c ->
  In fn (f_aggs f) -> fn_impls fn = [i] -> ~ In ":"%char (chars (fn_name fn)) ->
  filter (fun p => String.eqb (fst p) (fn_name fn)) (single_names (f_scalars f ++ f_aggs f ++ f_windows f)%list)
    = [(fn_name fn, reg_name (fn_name fn) i)] ->
  get_agg (fst (load (Some f) c)) (ExtId (f_urn f) (fn_name fn)) = None /\
  get_window (fst (load (Some f) c)) (ExtId (f_urn f) (fn_name fn)) = None /\
  get_agg (fst (load (Some f) c)) (ExtId (f_urn f) (reg_name (fn_name fn) i)) <> None.
Proof.
  intros fs f c fn i Hc Hl Hfn Hi Hnc Hone.
  destruct (C25_load_exact fs f c Hc Hl) as (_ & X & Y & _). rewrite !X, !Y. cbn [id_urn id_name].
  rewrite String.eqb_refl. unfold lookup_decl.
  rewrite (no_colon_not_registered _ (fn_name fn) (decl_aggs f)); auto; [|apply decl_aggs_reg].
  rewrite (no_colon_not_registered _ (fn_name fn) (decl_windows f)); auto; [|apply decl_windows_reg].
  assert (A : alias_of f (fn_name fn) = None).
  { unfold alias_of. cbv zeta.
    assert (E : List.length (filter (fun p => String.eqb (fst p) (fn_name fn)) (simple_mentions f)) = 2%nat).
    { unfold simple_mentions, single_names in *. rewrite !flat_map_app in *. rewrite !filter_app in *.
      rewrite !app_length.
      assert (Hlen := f_equal (@List.length _) Hone). rewrite !app_length in Hlen. simpl in Hlen.
      assert (Hag : (1 <= List.length (filter (fun p => String.eqb (fst p) (fn_name fn))
          (flat_map (fun fn0 => match fn_impls fn0 with
                      | [i0] => [(fn_name fn0, reg_name (fn_name fn0) i0)] | _ => [] end) (f_aggs f))))%nat).
      { assert (Hin : In (fn_name fn, reg_name (fn_name fn) i) (filter (fun p => String.eqb (fst p) (fn_name fn))
          (flat_map (fun fn0 => match fn_impls fn0 with
                      | [i0] => [(fn_name fn0, reg_name (fn_name fn0) i0)] | _ => [] end) (f_aggs f)))).
        { apply filter_In. split; [|simpl; apply String.eqb_refl]. apply in_flat_map. exists fn.
          split; auto. rewrite Hi. left; auto. }
        destruct (filter _ (flat_map _ (f_aggs f))); [destruct Hin|simpl; lia]. }
      lia. }
    rewrite E. auto. }
  rewrite A. split; auto. split; auto.
  assert (Hin : exists v, In (reg_name (fn_name fn) i, v) (decl_aggs f)).
  { eexists. unfold decl_aggs. apply in_flat_map. exists fn. split; auto. rewrite Hi. left; reflexivity. }
  destruct Hin as [v Hin].
  destruct (last_named (reg_name (fn_name fn) i) (decl_aggs f)) eqn:L; [discriminate|].
  exfalso. unfold last_named in L. destruct (find _ (rev (decl_aggs f))) eqn:F; [discriminate|].
  apply find_none with (x := (reg_name (fn_name fn) i, v)) in F.
  - simpl in F. rewrite String.eqb_refl in F. discriminate.
  - apply -> in_rev; auto.
Qed.

Example C25_simple_name_of_aggregate_nonvacuous :
  loadable ex_file empty_coll /\
  filter (fun p => String.eqb (fst p) "sum")
    (single_names (f_scalars ex_file ++ f_aggs ex_file ++ f_windows ex_file)%list) = [("sum", "sum:i32")].
Proof. rewrite <- load_checks_iff. vm_compute. auto. Qed.

(** Looking a declaration up through an anchor of an extension set is decoding the
    anchor and looking the id up in the collection; an anchor the set does not know
    finds nothing. *)
Theorem C25_lookup_by_anchor : forall a s c,
  (decode KFunc a s = None -> lookup_scalar a s c = None /\ lookup_agg a s c = None /\ lookup_window a s c = None) /\
  (forall id, decode KFunc a s = Some id ->
     lookup_scalar a s c = get_scalar c id /\ lookup_agg a s c = get_agg c id /\ lookup_window a s c = get_window c id) /\
  (forall id, decode KType a s = Some id -> lookup_type a s c = get_type_def c id) /\
  (forall id, decode KVar a s = Some id -> lookup_var a s c = get_var_def c id) /\
  (decode KType a s = None -> lookup_type a s c = None) /\
  (decode KVar a s = None -> lookup_var a s c = None).
Proof.
  intros a s c. unfold decode, lookup_scalar, lookup_agg, lookup_window, lookup_type, lookup_var.
  ands; try (intros H; rewrite H; auto); intros id H; rewrite H; auto.
Qed.

Print Assumptions C25_load_all_or_nothing.
Print Assumptions C25_load_exact.
Print Assumptions C25_urn_loaded_once.
Print Assumptions C25_lookups_under_loaded_urn_stable.
Print Assumptions C25_simple_name_finds_scalar.
Print Assumptions C25_simple_name_of_aggregate_refuted.
Print Assumptions C25_lookup_by_anchor.
