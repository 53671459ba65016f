(** Proofs about loading extension files. *)

From Coq Require Import List ZArith String Ascii Bool Lia Permutation.
From Verif Require Import Base FMap FMapFacts ExtSetModel ExtSetSpec ExtSetProofs LoadModel LoadSpec.
Import ListNotations.
Local Open Scope string_scope.

(** ** strings *)
Lemma chars_app : forall a b, chars (a ++ b) = (chars a ++ chars b)%list.
Proof. induction a; simpl; intros; auto. f_equal; auto. Qed.

Lemma append_assoc' : forall a b c : string, (a ++ b) ++ c = a ++ (b ++ c).
Proof. induction a; simpl; intros; auto. f_equal; auto. Qed.

Lemma cut_colon_some : forall s a b, cut_colon s = Some (a, b) ->
  s = a ++ ":" ++ b /\ ~ In ":"%char (chars a).
Proof.
  induction s as [|c s IH]; simpl; intros a b H; [discriminate|].
  destruct (Ascii.eqb c colon) eqn:E.
  - apply Ascii.eqb_eq in E. inversion H; subst. simpl. auto.
  - apply Ascii.eqb_neq in E. destruct (cut_colon s) as [[a' b']|]; [|discriminate].
    inversion H; subst. destruct (IH a' b eq_refl) as [-> Hn]. simpl. split; auto.
    intros [->|Hi]; auto.
Qed.

Lemma cut_colon_none : forall s, cut_colon s = None <-> ~ In ":"%char (chars s).
Proof.
  induction s as [|c s IH]; simpl; [tauto|].
  destruct (Ascii.eqb c colon) eqn:E.
  - apply Ascii.eqb_eq in E. subst. split; [discriminate|]. intros H; exfalso; apply H; left; auto.
  - apply Ascii.eqb_neq in E. destruct (cut_colon s) as [[a' b']|].
    + split; [discriminate|]. intros H. exfalso. 
      assert (~ In ":"%char (chars s)) by tauto. apply IH in H0. discriminate.
    + split; auto. intros _ [->|Hi]; auto. apply IH in Hi; auto.
Qed.

Lemma cut_colon_app : forall a b, ~ In ":"%char (chars a) -> cut_colon (a ++ ":" ++ b) = Some (a, b).
Proof.
  induction a as [|c a IH]; simpl; intros b H; auto.
  destruct (Ascii.eqb c colon) eqn:E.
  - apply Ascii.eqb_eq in E. subst. exfalso; apply H; left; auto.
  - simpl in IH. rewrite IH by tauto. auto.
Qed.

Lemma strip_prefix_some : forall p s r, strip_prefix p s = Some r <-> s = p ++ r.
Proof.
  induction p as [|a p IH]; simpl; intros s r.
  - split; intros H; inversion H; auto.
  - destruct s as [|b s]; [split; discriminate|].
    destruct (Ascii.eqb a b) eqn:E.
    + apply Ascii.eqb_eq in E; subst. rewrite IH. split; intros H; [subst; auto|inversion H; auto].
    + apply Ascii.eqb_neq in E. split; intros H; [discriminate|inversion H; congruence].
Qed.

Lemma nonempty_iff : forall s, nonempty s = true <-> s <> "".
Proof. intros [|c s]; simpl; split; intros; auto; try discriminate; congruence. Qed.

Lemma validate_urn_iff : forall u, validate_urn u = true <-> urn_format u.
Proof.
  intros u. unfold validate_urn, urn_format. split.
  - destruct (strip_prefix "extension:" u) as [r|] eqn:E; [|discriminate].
    apply strip_prefix_some in E. subst u.
    destruct (cut_colon r) as [[a b]|] eqn:C; [|discriminate].
    destruct (cut_colon_some _ _ _ C) as [-> Hn]. rewrite !andb_true_iff, !nonempty_iff.
    intros [[H1 H2] H3]. exists a, b. split; auto. split; auto. split; auto. split; auto.
    apply cut_colon_none. destruct (cut_colon b); [discriminate|auto].
  - intros (a & b & -> & H1 & H2 & H3 & H4).
    rewrite (proj2 (strip_prefix_some "extension:" _ _) eq_refl).
    rewrite cut_colon_app by auto. apply cut_colon_none in H4. rewrite H4.
    apply nonempty_iff in H1. apply nonempty_iff in H2. rewrite H1, H2. auto.
Qed.

(** ** folds *)
Lemma last_named_snoc : forall A n (l : list (string * A)) k v,
  last_named n (l ++ [(k, v)]) = if String.eqb k n then Some v else last_named n l.
Proof. intros. unfold last_named. rewrite rev_unit. simpl. destruct (String.eqb k n); auto. Qed.

Lemma add_named_get : forall A urn (l : list (string * A)) m id,
  fm_get ext_id_eqb id (fold_left (fun m t => fm_set ext_id_eqb (ExtId urn (fst t)) (snd t) m) l m) =
  if String.eqb (id_urn id) urn then
    match last_named (id_name id) l with Some v => Some v | None => fm_get ext_id_eqb id m end
  else fm_get ext_id_eqb id m.
Proof.
  induction l as [|[k v] l IH] using rev_ind; intros m id.
  - simpl. destruct (String.eqb (id_urn id) urn); auto.
  - rewrite fold_left_app. cbn [fold_left fst snd]. rewrite last_named_snoc.
    destruct id as [u n]; cbn [id_urn id_name] in *.
    destruct (String.eqb_spec u urn) as [->|Hu].
    + destruct (String.eqb_spec k n) as [->|Hk].
      * apply get_set_same. apply ext_id_eqb_spec.
      * rewrite get_set_other; [|apply ext_id_eqb_spec|congruence].
        rewrite IH. cbn [id_urn id_name]. rewrite String.eqb_refl. auto.
    + rewrite get_set_other; [|apply ext_id_eqb_spec|congruence].
      rewrite IH. cbn [id_urn]. destruct (String.eqb_spec u urn); [contradiction|auto].
Qed.

Definition toggle (m : fmap string string) (p : string * string) : fmap string string :=
  match fm_get String.eqb (fst p) m with
  | Some _ => fm_del String.eqb (fst p) m
  | None => fm_set String.eqb (fst p) (snd p) m
  end.

Definition single_of (vs : list variant) : list (string * string) :=
  match vs with [v] => [(v_name v, compound_name v)] | _ => [] end.

Lemma add_to_maps_split : forall urn vs st,
  add_to_maps urn vs st =
  (fold_left (fun m t => fm_set ext_id_eqb (ExtId urn (fst t)) (snd t) m)
      (map (fun v => (compound_name v, v)) vs) (fst st),
   fold_left toggle (single_of vs) (snd st)).
Proof.
  intros urn vs [m s]. unfold add_to_maps. simpl fst; simpl snd.
  assert (E : fold_left (fun m v => fm_set ext_id_eqb (ExtId urn (compound_name v)) v m) vs m =
    fold_left (fun m t => fm_set ext_id_eqb (ExtId urn (fst t)) (snd t) m)
      (map (fun v => (compound_name v, v)) vs) m).
  { revert m. induction vs; simpl; auto. }
  rewrite E. destruct vs as [|v [|w vs]]; auto. simpl. unfold toggle. simpl.
  destruct (fm_get String.eqb (v_name v) s); auto.
Qed.

Lemma add_all_split : forall urn variants fs st,
  add_all urn variants fs st =
  (fold_left (fun m t => fm_set ext_id_eqb (ExtId urn (fst t)) (snd t) m)
      (flat_map (fun f => map (fun v => (compound_name v, v)) (variants f)) fs) (fst st),
   fold_left toggle (flat_map (fun f => single_of (variants f)) fs) (snd st)).
Proof.
  unfold add_all. induction fs as [|f fs IH]; intros st; simpl.
  - destruct st; auto.
  - rewrite IH, add_to_maps_split. simpl. rewrite !fold_left_app. auto.
Qed.

Lemma flat_map_ext' : forall A B (f g : A -> list B) l, (forall x, f x = g x) -> flat_map f l = flat_map g l.
Proof. intros. induction l; simpl; auto. rewrite H, IHl. auto. Qed.

Lemma default_or : forall d s, default_str d s = or_default d s.
Proof. intros d [|c s]; auto. Qed.

Lemma decl_scalars_eq : forall f,
  flat_map (fun fn => map (fun v => (compound_name v, v)) (scalar_variants (f_urn f) fn)) (f_scalars f) = decl_scalars f.
Proof. intros. unfold decl_scalars. apply flat_map_ext'. intros fn. unfold scalar_variants. rewrite map_map. auto. Qed.

Lemma decl_aggs_eq : forall f,
  flat_map (fun fn => map (fun v => (compound_name v, v)) (agg_variants (f_urn f) fn)) (f_aggs f) = decl_aggs f.
Proof.
  intros. unfold decl_aggs. apply flat_map_ext'. intros fn. unfold agg_variants. rewrite map_map.
  apply map_ext. intros i. rewrite default_or. auto.
Qed.

Lemma flat_map_map' : forall A B C (f : B -> list C) (g : A -> B) l, flat_map f (map g l) = flat_map (fun x => f (g x)) l.
Proof. induction l; simpl; auto. rewrite IHl. auto. Qed.

Lemma decl_windows_eq : forall f,
  (flat_map (fun fn => map (fun v => (compound_name v, v)) (window_variants (f_urn f) fn)) (f_windows f) ++
   flat_map (fun fn => map (fun v => (compound_name v, v)) (window_variants (f_urn f) fn)) (map agg_as_window (f_aggs f)))%list
  = decl_windows f.
Proof.
  intros. unfold decl_windows. f_equal.
  - apply flat_map_ext'. intros fn. unfold window_variants. rewrite map_map.
    apply map_ext. intros i. rewrite !default_or. auto.
  - rewrite flat_map_map'. apply flat_map_ext'. intros fn. unfold window_variants, agg_as_window.
    simpl. rewrite !map_map. apply map_ext. intros i. simpl. rewrite !default_or. auto.
Qed.

Lemma single_eq : forall f,
  (flat_map (fun fn => single_of (scalar_variants (f_urn f) fn)) (f_scalars f) ++
   flat_map (fun fn => single_of (agg_variants (f_urn f) fn)) (f_aggs f) ++
   flat_map (fun fn => single_of (window_variants (f_urn f) fn)) (f_windows f) ++
   flat_map (fun fn => single_of (window_variants (f_urn f) fn)) (map agg_as_window (f_aggs f)))%list
  = simple_mentions f.
Proof.
  intros. unfold simple_mentions, single_names. rewrite !flat_map_app, flat_map_map'.
  apply f_equal2; [|apply f_equal2; [|apply f_equal2]]; apply flat_map_ext'; intros fn;
  unfold scalar_variants, agg_variants, window_variants, agg_as_window; simpl;
  destruct (fn_impls fn) as [|i [|j is_]]; auto.
Qed.

Lemma get_toggle_other : forall n p m, fst p <> n ->
  fm_get String.eqb n (toggle m p) = fm_get String.eqb n m.
Proof.
  intros n p m H. unfold toggle. destruct (fm_get String.eqb (fst p) m).
  - apply get_del_other; auto. apply sspec.
  - apply get_set_other; auto. apply sspec.
Qed.

Lemma get_toggle_same : forall p m, fm_get String.eqb (fst p) (toggle m p) =
  match fm_get String.eqb (fst p) m with Some _ => None | None => Some (snd p) end.
Proof.
  intros p m. unfold toggle. destruct (fm_get String.eqb (fst p) m) eqn:E.
  - apply get_del_same.
  - apply get_set_same. apply sspec.
Qed.

Lemma toggle_nodup : forall l m, NoDup (fm_keys m) -> NoDup (fm_keys (fold_left toggle l m)).
Proof.
  induction l as [|p l IH]; simpl; intros m H; auto. apply IH. unfold toggle.
  destruct (fm_get String.eqb (fst p) m); [apply nodup_del|apply nodup_set]; auto; apply sspec.
Qed.

Lemma toggle_get : forall l n,
  fm_get String.eqb n (fold_left toggle l []) =
  let ms := filter (fun p => String.eqb (fst p) n) l in
  if Nat.odd (List.length ms) then last_named n ms else None.
Proof.
  induction l as [|p l IH] using rev_ind; intros n; auto.
  rewrite fold_left_app, filter_app. cbn [fold_left]. destruct p as [k cn]. cbn [filter fst].
  destruct (String.eqb_spec k n) as [->|Hne].
  - pose proof (get_toggle_same (n, cn) (fold_left toggle l [])) as H. simpl fst in H. rewrite H. clear H.
    rewrite IH. cbv zeta. rewrite app_length. simpl List.length.
    set (ms := filter (fun p : string * string => String.eqb (fst p) n) l) in *.
    rewrite Nat.add_1_r, Nat.odd_succ, <- Nat.negb_odd.
    rewrite last_named_snoc, String.eqb_refl. simpl snd.
    destruct (Nat.odd (List.length ms)) eqn:O; simpl; auto.
    assert (Hl : exists v, last_named n ms = Some v).
    { assert (Hall : forall q, In q ms -> fst q = n).
      { intros q Hq. apply filter_In in Hq as [_ Hq]. apply String.eqb_eq; auto. }
      destruct ms as [|q ms'] using rev_ind; [discriminate|].
      destruct q as [a b]. rewrite last_named_snoc.
      assert (a = n) by (apply (Hall (a, b)); apply in_or_app; right; left; auto).
      subst. rewrite String.eqb_refl. eauto. }
    destruct Hl as [v ->]. auto.
  - rewrite get_toggle_other by auto. rewrite IH. rewrite app_nil_r. auto.
Qed.

(** ** invariant of collections *)
Definition keys_in {V} (us : list string) (m : fmap ext_id V) : Prop :=
  forall id v, fm_get ext_id_eqb id m = Some v -> In (id_urn id) us.

Definition cinv (c : coll) : Prop :=
  keys_in (c_urns c) (c_simple c) /\ keys_in (c_urns c) (c_scalar c) /\
  keys_in (c_urns c) (c_agg c) /\ keys_in (c_urns c) (c_window c) /\
  keys_in (c_urns c) (c_types c) /\ keys_in (c_urns c) (c_vars c) /\
  (forall u m, fm_get String.eqb u (c_meta c) = Some m -> In u (c_urns c)).

Lemma load_commit_fields : forall f c,
  let c' := load_commit f c in let urn := f_urn f in
  c_urns c' = urn :: c_urns c /\
  c_simple c' = fold_left (fun m t => fm_set ext_id_eqb (ExtId urn (fst t)) (snd t) m)
     (fold_left toggle (simple_mentions f) []) (c_simple c) /\
  c_scalar c' = fold_left (fun m t => fm_set ext_id_eqb (ExtId urn (fst t)) (snd t) m) (decl_scalars f) (c_scalar c) /\
  c_agg c' = fold_left (fun m t => fm_set ext_id_eqb (ExtId urn (fst t)) (snd t) m) (decl_aggs f) (c_agg c) /\
  c_window c' = fold_left (fun m t => fm_set ext_id_eqb (ExtId urn (fst t)) (snd t) m) (decl_windows f) (c_window c) /\
  c_types c' = fold_left (fun m t => fm_set ext_id_eqb (ExtId urn (fst t)) (snd t) m) (f_types f) (c_types c) /\
  c_vars c' = fold_left (fun m t => fm_set ext_id_eqb (ExtId urn (fst t)) (snd t) m) (f_vars f) (c_vars c) /\
  c_meta c' = match f_meta f with Some m => fm_set String.eqb urn m (c_meta c) | None => c_meta c end.
Proof.
  intros f c. unfold load_commit. rewrite !add_all_split. cbn [fst snd].
  rewrite <- decl_scalars_eq, <- decl_aggs_eq, <- decl_windows_eq, <- single_eq.
  rewrite !fold_left_app. cbn. repeat split.
Qed.

Lemma last_named_alias : forall f n,
  last_named n (fold_left toggle (simple_mentions f) []) = alias_of f n.
Proof.
  intros f n.
  assert (H : forall (m : fmap string string), NoDup (fm_keys m) -> last_named n m = fm_get String.eqb n m).
  { intros m. induction m as [|[k v] m IH] using rev_ind; intros Hn; auto.
    rewrite last_named_snoc. unfold fm_keys in Hn. rewrite map_app in Hn. simpl in Hn.
    assert (Hn2 : NoDup (fm_keys m)) by (apply NoDup_remove_1 with (l' := []) in Hn; rewrite app_nil_r in Hn; auto).
    assert (Hni : ~ In k (fm_keys m)) by (apply NoDup_remove_2 with (l' := []) in Hn; rewrite app_nil_r in Hn; auto).
    assert (G : forall m', fm_get String.eqb n (m' ++ [(k, v)])%list =
       match fm_get String.eqb n m' with Some x => Some x | None => if String.eqb n k then Some v else None end).
    { induction m' as [|[a b] m' IHm]; simpl; auto. destruct (String.eqb n a); auto. }
    rewrite G, IH by auto. rewrite (String.eqb_sym n k). destruct (String.eqb_spec k n) as [->|].
    - apply get_none_notin with (eqb := String.eqb) in Hni; [|apply sspec]. rewrite Hni. auto.
    - destruct (fm_get String.eqb n m); auto. }
  rewrite H by (apply toggle_nodup; constructor). apply toggle_get.
Qed.

Lemma keys_in_none : forall V us (m : fmap ext_id V) id, keys_in us m -> ~ In (id_urn id) us ->
  fm_get ext_id_eqb id m = None.
Proof. intros V us m id H Hn. apply option_iff_none. intros v Hv. apply Hn. eapply H; eauto. Qed.

Lemma table_lookup : forall V us (l : list (string * V)) (m : fmap ext_id V) urn id,
  keys_in us m -> ~ In urn us ->
  fm_get ext_id_eqb id (fold_left (fun m t => fm_set ext_id_eqb (ExtId urn (fst t)) (snd t) m) l m) =
  if String.eqb (id_urn id) urn then last_named (id_name id) l else fm_get ext_id_eqb id m.
Proof.
  intros V us l m urn id Hk Hn. rewrite add_named_get.
  destruct (String.eqb_spec (id_urn id) urn) as [<-|]; auto.
  rewrite (keys_in_none _ us m id) by auto. destruct (last_named (id_name id) l); auto.
Qed.

Lemma check_maps_lookup : forall us l m al simple urn id,
  keys_in us m -> keys_in us simple -> ~ In urn us ->
  check_maps id
    (fold_left (fun m t => fm_set ext_id_eqb (ExtId urn (fst t)) (snd t) m) l m)
    (fold_left (fun m t => fm_set ext_id_eqb (ExtId urn (fst t)) (snd t) m) al simple) =
  if String.eqb (id_urn id) urn then
    match last_named (id_name id) l with
    | Some v => Some v
    | None => match last_named (id_name id) al with Some cn => last_named cn l | None => None end
    end
  else check_maps id m simple.
Proof.
  intros us l m al simple urn id Hm Hs Hn. unfold check_maps.
  rewrite !(table_lookup _ us) by auto.
  destruct (String.eqb (id_urn id) urn) eqn:E; auto.
  - destruct (last_named (id_name id) l); auto.
    destruct (last_named (id_name id) al); auto.
    rewrite (table_lookup _ us) by auto. simpl. rewrite E. auto.
  - destruct (fm_get ext_id_eqb id m); auto. destruct (fm_get ext_id_eqb id simple); auto.
    rewrite (table_lookup _ us) by auto. simpl. rewrite E. auto.
Qed.

Lemma keys_in_commit : forall V us urn (l : list (string * V)) (m : fmap ext_id V),
  keys_in us m ->
  keys_in (urn :: us) (fold_left (fun m t => fm_set ext_id_eqb (ExtId urn (fst t)) (snd t) m) l m).
Proof.
  intros V us urn l m H id v Hg. rewrite add_named_get in Hg.
  destruct (String.eqb_spec (id_urn id) urn) as [->|]; [left; auto|right]. eapply H; eauto.
Qed.

Lemma cinv_empty : cinv empty_coll.
Proof. unfold cinv, keys_in; simpl; repeat split; intros; discriminate. Qed.

Lemma cinv_load : forall f c, cinv c -> cinv (fst (load f c)).
Proof.
  intros [f|] c H; simpl; auto. destruct (load_checks f c); simpl; auto.
  destruct H as (H1 & H2 & H3 & H4 & H5 & H6 & H7).
  pose proof (load_commit_fields f c) as (E0 & E1 & E2 & E3 & E4 & E5 & E6 & E7).
  unfold cinv. rewrite E0, E1, E2, E3, E4, E5, E6, E7.
  ands; try (apply keys_in_commit; assumption).
  intros u m Hg. destruct (f_meta f) as [x|].
  - destruct (string_dec u (f_urn f)) as [->|]; [left; auto|].
    rewrite get_set_other in Hg by (auto; apply sspec). right. eauto.
  - right. eauto.
Qed.

Lemma cinv_load_all : forall fs c, cinv c -> cinv (load_all fs c).
Proof. induction fs; simpl; intros c H; auto. apply IHfs. apply cinv_load; auto. Qed.

Lemma urn_loaded_iff : forall c u, urn_loaded c u = true <-> In u (c_urns c).
Proof.
  intros c u. unfold urn_loaded. rewrite existsb_exists. split.
  - intros (x & Hi & He). apply String.eqb_eq in He. subst; auto.
  - intros H. exists u. split; auto. apply String.eqb_refl.
Qed.

Lemma refs_declared_iff : forall f, refs_declared f = true <-> local_types_declared f.
Proof.
  intros f. unfold refs_declared, local_types_declared, file_funcs. rewrite forallb_forall. split.
  - intros H fn i n Hfn Hi Hr. specialize (H fn Hfn). rewrite forallb_forall in H.
    specialize (H i Hi). rewrite forallb_forall in H. specialize (H _ Hr). simpl in H.
    apply existsb_exists in H as ([n' d] & Hin & He). apply String.eqb_eq in He. simpl in He. subst. eauto.
  - intros H fn Hfn. apply forallb_forall. intros i Hi. apply forallb_forall. intros [[a|] n] Hr; auto.
    destruct (H fn i n Hfn Hi Hr) as [d Hd]. apply existsb_exists. exists (n, d). split; auto. apply String.eqb_refl.
Qed.

Definition ascii_in (l : list ascii) (c : ascii) : bool := existsb (Ascii.eqb c) l.
Lemma ascii_in_iff : forall l c, ascii_in l c = true <-> In c l.
Proof.
  intros l c. unfold ascii_in. rewrite existsb_exists. split.
  - intros [x [H E]]. apply Ascii.eqb_eq in E. subst; auto.
  - intros H. exists c. split; auto. apply Ascii.eqb_refl.
Qed.
Lemma alias_start_iff : forall c, alias_start c = true <-> In c alias_letters.
Proof.
  intros c. rewrite <- ascii_in_iff.
  enough (alias_start c = ascii_in alias_letters c) as -> by reflexivity.
  destruct c as [[|] [|] [|] [|] [|] [|] [|] [|]]; vm_compute; reflexivity.
Qed.
Lemma alias_char_iff : forall c, alias_char c = true <-> In c (alias_letters ++ chars "0123456789")%list.
Proof.
  intros c. rewrite <- ascii_in_iff.
  enough (alias_char c = ascii_in (alias_letters ++ chars "0123456789")%list c) as -> by reflexivity.
  destruct c as [[|] [|] [|] [|] [|] [|] [|] [|]]; vm_compute; reflexivity.
Qed.
Lemma validate_alias_iff : forall a, validate_alias a = true <-> alias_format a.
Proof.
  intros a. unfold alias_format. destruct a as [|c s]; simpl.
  - split; [discriminate|]. intros (c & s & H & _). discriminate.
  - assert (E : all_chars alias_char s = true <->
                Forall (fun d => In d (alias_letters ++ chars "0123456789")%list) (chars s)).
    { induction s as [|d s IH]; cbn [all_chars chars].
      - split; auto.
      - rewrite andb_true_iff, IH, alias_char_iff. split; [intros []; constructor; auto|].
        intros H. inversion H; auto. }
    rewrite andb_true_iff, E, alias_start_iff. split.
    + intros [H1 H2]. exists c, s. auto.
    + intros (c' & s' & H & H1 & H2). inversion H; subst. auto.
Qed.

Lemma load_checks_iff : forall f c, load_checks f c = true <-> loadable f c.
Proof.
  intros f c. unfold load_checks, loadable. rewrite !andb_true_iff, validate_urn_iff, refs_declared_iff, forallb_forall.
  split.
  - intros ((((H1 & H2) & H3) & H4) & H5). split; auto. split.
    + intros Hi. apply urn_loaded_iff in Hi. rewrite Hi in H3. discriminate.
    + split; auto. intros a d Hi. specialize (H4 _ Hi). simpl in H4. apply andb_true_iff in H4 as [H4 H4'].
      split; [apply validate_alias_iff; auto|apply urn_loaded_iff; auto].
  - intros (H2 & H3 & H4 & H5). split; auto. split; [split; [split|]|]; auto.
    + apply nonempty_iff. destruct H2 as (a & b & -> & _). discriminate.
    + destruct (urn_loaded c (f_urn f)) eqn:E; auto. apply urn_loaded_iff in E. contradiction.
    + intros [a d] Hi. simpl. destruct (H4 _ _ Hi) as [Ha Hd]. apply validate_alias_iff in Ha. rewrite Ha. simpl. apply urn_loaded_iff; auto.
Qed.

Lemma load_urns_mono : forall f c u, In u (c_urns c) -> In u (c_urns (fst (load f c))).
Proof.
  intros [f|] c u H; simpl; auto. destruct (load_checks f c); simpl; auto.
  rewrite (proj1 (load_commit_fields f c)). right; auto.
Qed.

Lemma load_all_urns_mono : forall fs c u, In u (c_urns c) -> In u (c_urns (load_all fs c)).
Proof. induction fs; simpl; intros; auto. apply IHfs. apply load_urns_mono; auto. Qed.

Lemma reg_name_colon : forall fn i, In ":"%char (chars (reg_name fn i)).
Proof. intros. unfold reg_name. rewrite chars_app. apply in_or_app. right. simpl. auto. Qed.

Lemma last_named_in : forall A n (l : list (string * A)) v, last_named n l = Some v -> In (n, v) l.
Proof.
  intros A n l v H. unfold last_named in H. destruct (find _ (rev l)) as [[k x]|] eqn:E; [|discriminate].
  apply find_some in E as [Hi He]. apply String.eqb_eq in He. simpl in *. inversion H; subst. apply in_rev; auto.
Qed.

Lemma no_colon_not_registered : forall A n (l : list (string * A)),
  ~ In ":"%char (chars n) -> (forall k v, In (k, v) l -> exists fn i, k = reg_name fn i) -> last_named n l = None.
Proof.
  intros A n l Hn Hl. destruct (last_named n l) as [v|] eqn:E; auto.
  apply last_named_in in E. apply Hl in E as (fn & i & ->). exfalso. apply Hn, reg_name_colon.
Qed.

Ltac reg_tac := match goal with H : In _ (flat_map _ _) |- _ =>
  apply in_flat_map in H as (fn & _ & H); apply in_map_iff in H as (i & E & _); inversion E; eauto end.

Lemma decl_scalars_reg : forall f k v, In (k, v) (decl_scalars f) -> exists fn i, k = reg_name fn i.
Proof. intros f k v H. unfold decl_scalars in H. reg_tac. Qed.
Lemma decl_aggs_reg : forall f k v, In (k, v) (decl_aggs f) -> exists fn i, k = reg_name fn i.
Proof. intros f k v H. unfold decl_aggs in H. reg_tac. Qed.
Lemma decl_windows_reg : forall f k v, In (k, v) (decl_windows f) -> exists fn i, k = reg_name fn i.
Proof. intros f k v H. unfold decl_windows in H. apply in_app_or in H as [H|H]; reg_tac. Qed.
