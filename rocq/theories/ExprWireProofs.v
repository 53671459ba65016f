(** Lemmas for C18: the wire form of expressions. *)

From Coq Require Import List ZArith String Ascii Bool Lia.
From Verif Require Import Base FMap FMapFacts TypesModel TypesSpec TypesProofs ExtSetModel ExtSetProofs
  LoadModel LoadSpec LoadProofs LitModel LitSpec LitProofs ExprModel ExprSpec ExprProofs.
Import ListNotations.
Local Open Scope Z_scope.

(** ** the type of an expression *)

Lemma all_typed_some : forall l ts, all_typed l = Some ts <-> l = map XTy ts.
Proof.
  induction l as [|x l IH]; intros ts; cbn.
  - split; [intros H; inversion H; auto|]. destruct ts; [auto|discriminate].
  - change (fold_right _ (Some []) l) with (all_typed l). destruct x; try (split; [discriminate|]; destruct ts; discriminate).
    destruct (all_typed l) as [us|] eqn:E.
    + split.
      * intros H; inversion H; subst. cbn. f_equal. apply IH; auto.
      * destruct ts; [discriminate|]. cbn. intros H; inversion H; subst. f_equal. f_equal.
        specialize (proj2 (IH ts) eq_refl). congruence.
    + split; [discriminate|]. destruct ts as [|u ts]; [discriminate|]. cbn. intros H; inversion H; subst.
      specialize (proj2 (IH ts) eq_refl). discriminate.
Qed.

Lemma x_struct_spec : forall n v l y, x_struct n v l = y <-> struct_type n v l y.
Proof.
  intros n v l y. unfold x_struct. destruct (all_typed l) as [ts|] eqn:E.
  - apply all_typed_some in E. subst. split.
    + intros <-. constructor.
    + intros H. inversion H as [us E E'|us N E E']; subst.
      * assert (us = ts); [|congruence].
        revert E. clear. revert us. induction ts; destruct us; cbn; intros H; inversion H; subst; auto. f_equal; auto.
      * exfalso. eapply N; reflexivity.
  - assert (N : forall ts, l <> map XTy ts) by (intros ts H; apply all_typed_some in H; congruence).
    split.
    + intros <-. constructor; auto.
    + intros H. inversion H; subst; auto. exfalso. eapply N; reflexivity.
Qed.
Lemma x_list_spec : forall n v x y, x_list n v x = y <-> list_type n v x y.
Proof.
  intros n v x y. unfold x_list. split.
  - intros <-. destruct x; constructor; intros; discriminate.
  - intros H; inversion H as [t E1 E|z N E1 E]; subst; auto. destruct x; auto. exfalso. eapply N; reflexivity.
Qed.
Lemma x_map_spec : forall n v k x y, x_map n v k x = y <-> map_type n v k x y.
Proof.
  intros n v k x y. unfold x_map. split.
  - intros <-. destruct k, x; constructor; intros ? ? [? ?]; discriminate.
  - intros H; inversion H as [t u E1 E2 E|z z' N E1 E2 E]; subst; auto. destruct k; auto. destruct x; auto. exfalso. eapply N; split; reflexivity.
Qed.
Lemma x_func_spec : forall ps x y, x_func NullRequired ps x = y <-> func_type ps x y.
Proof.
  intros ps x y. unfold x_func, NullRequired. split.
  - intros <-. destruct x; constructor; intros; discriminate.
  - intros H; inversion H as [t E1 E|z N E1 E]; subst; auto. destruct x; auto. exfalso. eapply N; reflexivity.
Qed.
Lemma x_nullability_spec : forall x n, x_nullability x = Ok n <-> outer_null x n.
Proof.
  intros x n. split.
  - destruct x; cbn; intros H; inversion H; subst; constructor.
  - intros H; inversion H; subst; reflexivity.
Qed.
Lemma x_with_nullability_spec : forall n x y, x_with_nullability n x = Ok y <-> with_null n x y.
Proof.
  intros n x y. split.
  - destruct x; cbn; intros H; inversion H; subst; constructor.
  - intros H; inversion H; subst; reflexivity.
Qed.

Lemma is_nil_spec : forall R (e : expr R), is_nil_expr e = true <-> e = ELit LNil.
Proof. intros R e. destruct e; cbn; try (split; discriminate). destruct l; split; congruence. Qed.
Lemma is_nil_false : forall R (e : expr R), is_nil_expr e = false <-> e <> ELit LNil.
Proof. intros R e. rewrite <- is_nil_spec. destruct (is_nil_expr e); split; congruence. Qed.

Section Typing.
Context {R : Type}.
Variable rel_schema : R -> res (list xtype).
Notation typ := (expr_type rel_schema).
Notation has := (has_type rel_schema).

Definition branch_fix : list (lit * expr R) -> xtype -> res xtype :=
  fix go (l : list (lit * expr R)) (acc : xtype) : res xtype :=
    match l with
    | [] => Ok acc
    | (_, th) :: l' =>
        let! x := typ th in
        let! n := x_nullability x in
        if n =? NullNullable then Ok x else go l' x
    end.

Lemma typ_switch : forall m ifs els, typ (ESwitch m ifs els) =
  (let! t := branch_fix ifs XNil in
   if is_nil_expr els then x_with_nullability NullNullable t
   else let! n := x_nullability t in if n =? NullNullable then Ok t else typ els).
Proof. reflexivity. Qed.

Definition ty_ok (e : expr R) : Prop := forall x, typ e = Ok x <-> has e x.

Lemma branch_spec : forall ifs, Forall (fun p => ty_ok (snd p)) ifs ->
  forall b, branch_fix ifs XNil = Ok b <-> branch_type rel_schema ifs b.
Proof.
  intros ifs H.
  assert (G : match ifs with [] => True | _ :: _ =>
    forall acc b, branch_fix ifs acc = Ok b <-> branch_type rel_schema ifs b end).
  { induction H as [|[k e] ifs He Hl IH]; auto. intros acc b. cbn [branch_fix]. cbn [snd] in He.
    split.
    - intros E. destruct (typ e) as [x| |] eqn:Ex; cbn [bind] in E; try discriminate.
      destruct (x_nullability x) as [n| |] eqn:En; cbn [bind] in E; try discriminate.
      apply He in Ex. apply x_nullability_spec in En. destruct (Z.eqb_spec n NullNullable).
      + inversion E; subst. apply BT_nullable; auto.
      + destruct ifs as [|p ifs].
        * inversion E; subst. eapply BT_last; eauto.
        * eapply BT_next; eauto. apply (IH x). exact E.
    - intros E. inversion E as [|? ? ? n Hx Hn|? ? ? ? Hx Hn|? ? x n ? ? ? Hx Hn Hne Hb]; subst.
      + apply He in Hx. apply x_nullability_spec in Hn. rewrite Hx. cbn [bind]. rewrite Hn. cbn [bind branch_fix].
        destruct (n =? NullNullable); reflexivity.
      + apply He in Hx. apply x_nullability_spec in Hn. rewrite Hx. cbn [bind]. rewrite Hn. reflexivity.
      + apply He in Hx. apply x_nullability_spec in Hn. rewrite Hx. cbn [bind]. rewrite Hn. cbn [bind].
        destruct (Z.eqb_spec n NullNullable); [contradiction|]. apply (IH x). exact Hb. }
  intros b. destruct ifs; [|apply G]. cbn. split.
  - intros E; inversion E; constructor.
  - intros E; inversion E; reflexivity.
Qed.

Lemma have_types_spec : forall fs, Forall ty_ok fs ->
  forall xs, mapM typ fs = Ok xs <-> have_types rel_schema fs xs.
Proof.
  intros fs H. induction H as [|e fs He Hl IH]; intros xs.
  - cbn. split; intros E; inversion E; subst; constructor.
  - cbn [mapM]. split.
    + intros E. destruct (typ e) as [x| |] eqn:Ex; try discriminate.
      destruct (mapM typ fs) as [ys| |] eqn:Ey; inversion E; subst. constructor; [apply He|apply IH]; auto.
    + intros E. inversion E as [|? ? ? ? Hx Hxs]; subst. apply He in Hx. apply IH in Hxs. rewrite Hx, Hxs. reflexivity.
Qed.

Lemma has_type_spec : forall e x, typ e = Ok x <-> has e x.
Proof.
  intros e. change (ty_ok e). revert e. apply expr_ind'. intros e IH. unfold ty_ok.
  destruct e; cbn [children] in IH; intros y.
  - cbn [expr_type]. split.
    + destruct (lit_type l) as [t| |] eqn:E; cbn; intros H; inversion H; subst. constructor. apply lit_type_typed; auto.
    + intros H; inversion H; subst. apply lit_type_typed in H1. rewrite H1. reflexivity.
  - cbn. split; intros H; inversion H; subst; constructor.
  - cbn. split; intros H; inversion H; subst; constructor.
  - cbn. split; intros H; inversion H; subst; constructor.
  - cbn [expr_type]. apply Forall_app in IH. destruct IH as [_ IH]. inversion IH as [|? ? He _]; subst. rewrite (He y). split.
    + intros H; constructor; auto.
    + intros H; inversion H; auto.
  - rewrite typ_switch. inversion IH as [|? ? _ IH']; subst. apply Forall_app in IH'. destruct IH' as [IH1 IH2].
    apply ch_map in IH1. inversion IH2 as [|? ? He _]; subst. split.
    + intros H. destruct (branch_fix ifs XNil) as [b| |] eqn:Eb; cbn [bind] in H; try discriminate.
      apply branch_spec in Eb; auto. eapply HT_switch; eauto.
      destruct (is_nil_expr e2) eqn:En.
      * apply is_nil_spec in En. subst. constructor. apply x_with_nullability_spec. exact H.
      * apply is_nil_false in En. destruct (x_nullability b) as [n| |] eqn:Ebn; cbn [bind] in H; try discriminate.
        apply x_nullability_spec in Ebn. destruct (Z.eqb_spec n NullNullable).
        -- inversion H; subst. apply ET_branch; auto.
        -- eapply ET_else; eauto. apply He; auto.
    + intros H. inversion H as [| | | | |? ? ? b ? Hb He'| | | | | | | | | | | |]; subst. apply branch_spec in Hb; auto.
      rewrite Hb. cbn [bind]. inversion He' as [? ? Hw|? ? Hne Hn|? n ? ? Hne Hn Hn' Hx]; subst.
      * cbn [is_nil_expr]. apply x_with_nullability_spec; auto.
      * apply is_nil_false in Hne. rewrite Hne. apply x_nullability_spec in Hn. rewrite Hn. reflexivity.
      * apply is_nil_false in Hne. rewrite Hne. apply x_nullability_spec in Hn. rewrite Hn. cbn [bind].
        destruct (Z.eqb_spec n NullNullable); [contradiction|]. apply He; auto.
  - cbn. split; intros H; inversion H; subst; constructor.
  - cbn. split; intros H; inversion H; subst; constructor.
  - cbn. split; intros H; inversion H; subst; constructor.
  - cbn [expr_type]. destruct kvs as [|[k x] kvs]; [split; [discriminate|intros H; inversion H]|].
    apply ch_pairs in IH. inversion IH as [|? ? Hkx _]; subst. cbn [fst snd] in Hkx. destruct Hkx as [Hk Hx]. split.
    + intros H. destruct (typ k) as [kt| |] eqn:Ek; cbn [bind] in H; try discriminate.
      destruct (typ x) as [xt| |] eqn:Ex; cbn [bind] in H; inversion H; subst.
      econstructor; [apply Hk; exact Ek|apply Hx; exact Ex|]. rewrite nullability_val. apply x_map_spec. reflexivity.
    + intros H. inversion H as [| | | | | | | | |? ? ? ? ? kt xt ? H1 H2 H3| | | | | | | |]; subst.
      apply Hk in H1. apply Hx in H2. rewrite H1. cbn [bind]. rewrite H2. cbn [bind]. f_equal.
      rewrite nullability_val. apply x_map_spec. exact H3.
  - cbn [expr_type]. split.
    + intros H. destruct (mapM typ fields) as [xs| |] eqn:E; cbn [bind] in H; inversion H; subst.
      econstructor; [apply have_types_spec; [exact IH|exact E]|]. rewrite nullability_val. apply x_struct_spec. reflexivity.
    + intros H. inversion H as [| | | | | | | | | |? ? ? xs ? H1 H2| | | | | | |]; subst.
      apply have_types_spec in H1; auto. rewrite H1. cbn [bind]. f_equal. rewrite nullability_val. apply x_struct_spec. exact H2.
  - cbn [expr_type]. destruct vals as [|e vals]; [split; [discriminate|intros H; inversion H]|].
    inversion IH as [|? ? He _]; subst. split.
    + intros H. destruct (typ e) as [x| |] eqn:E; cbn [bind] in H; inversion H; subst.
      econstructor; [apply He; exact E|]. rewrite nullability_val. apply x_list_spec. reflexivity.
    + intros H. inversion H as [| | | | | | | | | | |? ? ? ? x ? H1 H2| | | | | |]; subst.
      apply He in H1. rewrite H1. cbn [bind]. f_equal. rewrite nullability_val. apply x_list_spec. exact H2.
  - cbn. split; intros H; inversion H; subst; constructor.
  - cbn [expr_type]. inversion IH as [|? ? He _]; subst. split.
    + intros H. destruct (typ e) as [x| |] eqn:E; cbn [bind] in H; inversion H; subst.
      econstructor; [apply He; exact E|]. apply x_func_spec. reflexivity.
    + intros H. inversion H as [| | | | | | | | | | | | |? ? ? ? x ? H1 H2| | | |]; subst.
      apply He in H1. rewrite H1. cbn [bind]. f_equal. apply x_func_spec. exact H2.
  - cbn [expr_type]. split.
    + intros H. destruct (rel_schema r) as [ts| |] eqn:E; cbn [bind] in H; try discriminate.
      destruct ts as [|t [|]]; inversion H; subst. constructor; auto.
    + intros H. inversion H as [| | | | | | | | | | | | | |? ? H1| | |]; subst. rewrite H1. reflexivity.
  - cbn. split; intros H; inversion H; subst; constructor.
  - cbn. split; intros H; inversion H; subst; constructor.
  - cbn. split; intros H; inversion H; subst; constructor.
Qed.
End Typing.

(** ** function names *)

Lemma chars_inj : forall a b, chars a = chars b -> a = b.
Proof. induction a; destruct b; cbn; intros H; inversion H; subst; auto. f_equal; auto. Qed.

Lemma split_us_nonempty : forall s, split_us s <> [].
Proof. destruct s as [|ch s]; cbn; [discriminate|]. destruct (Ascii.eqb ch "_"); [discriminate|]. destruct (split_us s); discriminate. Qed.

Lemma concat_cons : forall sep x l, l <> [] -> String.concat sep (x :: l) = (x ++ sep ++ String.concat sep l)%string.
Proof. intros sep x [|y l] H; [contradiction|reflexivity]. Qed.

Lemma split_us_spells : forall s, spells s (split_us s).
Proof.
  induction s as [|ch s IH].
  - split; [discriminate|]. split; [constructor; [intros []|constructor]|reflexivity].
  - destruct IH as (H1 & H2 & H3). cbn [split_us]. destruct (Ascii.eqb_spec ch "_"%char).
    + subst ch. split; [discriminate|]. split; [constructor; [intros []|auto]|].
      rewrite concat_cons by auto. cbn. congruence.
    + destruct (split_us s) as [|w ws]; [contradiction|]. split; [discriminate|]. split.
      * inversion H2; subst. constructor; auto. intros [E|E]; [congruence|contradiction].
      * destruct ws; cbn in *; congruence.
Qed.

Lemma split_us_word : forall w, no_char "_" w -> split_us w = [w].
Proof.
  induction w as [|ch w IH]; intros H; [reflexivity|]. cbn [split_us]. unfold no_char in *. cbn [chars] in H.
  destruct (Ascii.eqb_spec ch "_"%char); [exfalso; apply H; left; auto|].
  rewrite IH; [reflexivity|]. intros Hi. apply H. right; auto.
Qed.
Lemma split_us_app : forall w s, no_char "_" w -> split_us (w ++ "_" ++ s)%string = w :: split_us s.
Proof.
  induction w as [|ch w IH]; intros s H; [reflexivity|]. cbn [append split_us]. unfold no_char in *. cbn [chars] in H.
  destruct (Ascii.eqb_spec ch "_"%char); [exfalso; apply H; left; auto|].
  cbn [append] in IH. rewrite IH; [reflexivity|]. intros Hi. apply H. right; auto.
Qed.
Lemma spells_split : forall text words, spells text words <-> words = split_us text.
Proof.
  intros text words. split; [|intros ->; apply split_us_spells].
  intros (H1 & H2 & ->). induction H2 as [|w ws Hw Hl IH]; [contradiction|].
  destruct ws as [|w' ws].
  - cbn. rewrite split_us_word; auto.
  - rewrite concat_cons by discriminate. rewrite split_us_app by auto. f_equal. apply IH. discriminate.
Qed.

Lemma mapM_canon : forall (canon : string -> option string) ws args,
  mapM (fun a => match canon a with Some x => Ok x | None => Panic end) ws = Ok args <->
  map canon ws = map Some args.
Proof.
  intros canon. induction ws as [|w ws IH]; intros args; cbn [mapM map].
  - split; intros H; [inversion H; reflexivity|]. destruct args; [reflexivity|discriminate].
  - destruct (canon w) as [x|].
    + destruct (mapM _ ws) as [ys| |] eqn:E.
      * split; intros H.
        -- inversion H; subst. cbn. f_equal. apply IH; auto.
        -- destruct args as [|a args]; [discriminate|]. cbn in H. inversion H; subst. f_equal. f_equal.
           specialize (proj2 (IH args) H2). congruence.
      * split; [discriminate|]. destruct args as [|a args]; [discriminate|]. cbn. intros H; inversion H; subst.
        specialize (proj2 (IH args) H2). discriminate.
      * split; [discriminate|]. destruct args as [|a args]; [discriminate|]. cbn. intros H; inversion H; subst.
        specialize (proj2 (IH args) H2). discriminate.
    + split; [discriminate|]. destruct args; discriminate.
Qed.

Lemma custom_spec : forall canon d w id v,
  custom_variant canon d w id = Ok v <->
  exists name words args, name_parts (id_name id) name words /\ map canon words = map Some args /\
    v = Variant (id_urn id) name 0 (Impl args [] d w 0).
Proof.
  intros canon d w id v. unfold custom_variant. split.
  - destruct (cut_colon (id_name id)) as [[name args]|] eqn:C.
    + apply cut_colon_some in C. destruct C as [C HN]. rewrite C. destruct args as [|ch text].
      * intros H; inversion H; subst. exists name, [], []. split; [apply NP_empty; auto|auto].
      * intros H. destruct (mapM _ (split_us (String ch text))) as [l| |] eqn:EM; cbn [bind] in H; inversion H; subst.
        exists name, (split_us (String ch text)), l. split; [|split; auto].
        -- apply NP_args; auto; [discriminate|]. apply spells_split; auto.
        -- apply mapM_canon; auto.
    + intros H; inversion H; subst. exists (id_name id), [], []. split; [|auto].
      apply NP_bare. apply cut_colon_none; auto.
  - intros (name & words & args & HP & HC & ->). inversion HP as [n HN E1 E2|n HN E1 E2|n text ws HN HT HS E1 E2]; subst.
    + apply cut_colon_none in HN. rewrite HN. destruct args; [reflexivity|discriminate].
    + replace (name ++ ":")%string with (name ++ ":" ++ "")%string by reflexivity.
      rewrite cut_colon_app by auto. destruct args; [reflexivity|discriminate].
    + assert (HC' : cut_colon (name ++ String ":" text) = Some (name, text)) by (apply (cut_colon_app name text); auto).
      rewrite HC'. destruct text as [|ch text]; [contradiction|].
      apply spells_split in HS. subst words. apply mapM_canon in HC. rewrite HC. reflexivity.
Qed.

(** ** growth of the extension set *)

(** the set is unchanged or has more functions *)
Definition extends (s s' : eset) : Prop := s' = s \/ fm_len (s_funcs s) < fm_len (s_funcs s').
Lemma extends_refl : forall s, extends s s.
Proof. left; auto. Qed.
Lemma extends_trans : forall a b c, extends a b -> extends b c -> extends a c.
Proof. intros a b c [->|H] [->|H']; unfold extends; auto. right; lia. Qed.
Lemma extends_antisym : forall a b, extends a b -> extends b a -> b = a.
Proof. intros a b [->|H] [H'|H']; auto. lia. Qed.

Lemma func_anchor_extends : forall id s s' a, get_func_anchor id s = Ok (s', a) -> extends s s'.
Proof.
  intros id s s' a H. unfold get_func_anchor in H. destruct (fm_get ext_id_eqb id (s_funcs s)) eqn:E.
  - inversion H; subst. apply extends_refl.
  - destruct (add_or_get_urn (id_urn id) (s_urns s)) as [[u k]| |]; inversion H; subst. right.
    unfold encode_func, with_urns. cbn [s_funcs]. rewrite len_set_fresh; auto. lia.
Qed.

Lemma func_anchor_same : forall id s a, get_func_anchor id s = Ok (s, a) <-> fm_get ext_id_eqb id (s_funcs s) = Some a.
Proof.
  intros id s a. unfold get_func_anchor. destruct (fm_get ext_id_eqb id (s_funcs s)) eqn:E.
  - split; intros H; inversion H; auto.
  - split; [|discriminate]. intros H.
    destruct (add_or_get_urn (id_urn id) (s_urns s)) as [[u k]| |]; try discriminate.
    exfalso. assert (H0 := f_equal (fun r => match r with Ok (x, _) => fm_len (s_funcs x) | _ => 0 end) H).
    cbv beta iota in H0. unfold encode_func, with_urns in H0. cbn [s_funcs] in H0.
    rewrite len_set_fresh in H0; auto. lia.
Qed.

Definition looks_up (lookup : Z -> eset -> coll -> option variant) (get : coll -> ext_id -> option variant) : Prop :=
  forall a s c, lookup a s c = match decode_func a s with Some id => get c id | None => None end.
Lemma looks_scalar : looks_up lookup_scalar get_scalar. Proof. intros a s c. reflexivity. Qed.
Lemma looks_agg : looks_up lookup_agg get_agg. Proof. intros a s c. reflexivity. Qed.
Lemma looks_window : looks_up lookup_window get_window. Proof. intros a s c. reflexivity. Qed.

Lemma resolve_extends : forall lookup canon d w c ref s r v b s',
  resolve_func lookup canon d w c ref s = Ok (r, v, b, s') -> extends s s'.
Proof.
  intros lookup canon d w c ref s r v b s' H. unfold resolve_func in H.
  destruct (decode_func ref s); [|discriminate]. destruct (lookup ref s c).
  - inversion H; subst. apply extends_refl.
  - destruct (custom_variant canon d w e) as [v'| |]; cbn [bind] in H; try discriminate.
    destruct (get_func_anchor (variant_id v') s) as [[s1 a]| |] eqn:E; cbn [bind] in H; inversion H; subst.
    eapply func_anchor_extends; eauto.
Qed.

Lemma resolve_spec : forall lookup get canon d w c ref s v, looks_up lookup get ->
  ((exists b, resolve_func lookup canon d w c ref s = Ok (ref, v, b, s)) <-> resolves (get c) canon d w s ref v).
Proof.
  intros lookup get canon d w c ref s v L. unfold resolve_func. rewrite (L ref s c). split.
  - intros [b H]. destruct (decode_func ref s) as [id|] eqn:D; [|discriminate].
    destruct (get c id) as [v'|] eqn:G.
    + inversion H; subst. eapply RF_known; eauto.
    + destruct (custom_variant canon d w id) as [v'| |] eqn:C; cbn [bind] in H; try discriminate.
      destruct (get_func_anchor (variant_id v') s) as [[s1 a]| |] eqn:E; cbn [bind] in H; inversion H; subst.
      apply func_anchor_same in E. apply custom_spec in C. destruct C as (name & words & args & HP & HC & ->).
      eapply RF_custom; eauto.
  - intros H. inversion H as [id v' D G|id name words args D G HP HC HA]; subst; rewrite D, G.
    + eauto.
    + assert (C : custom_variant canon d w id = Ok (Variant (id_urn id) name 0 (Impl args [] d w 0)))
        by (apply custom_spec; eauto 10).
      rewrite C. cbn [bind].
      assert (E : get_func_anchor (variant_id (Variant (id_urn id) name 0 (Impl args [] d w 0))) s = Ok (s, ref))
        by (apply func_anchor_same; exact HA).
      rewrite E. cbn [bind]. eauto.
Qed.

(** the known flag tells which of the two *)
Lemma resolve_flag : forall lookup canon d w c ref s r v b s',
  resolve_func lookup canon d w c ref s = Ok (r, v, b, s') ->
  (b = true <-> lookup ref s c = Some v) /\ (b = false <-> lookup ref s c = None).
Proof.
  intros lookup canon d w c ref s r v b s' H. unfold resolve_func in H.
  destruct (decode_func ref s); [|discriminate]. destruct (lookup ref s c) eqn:L.
  - inversion H; subst. split; split; congruence.
  - destruct (custom_variant canon d w e) as [v'| |]; cbn [bind] in H; try discriminate.
    destruct (get_func_anchor (variant_id v') s) as [[s1 a]| |] eqn:E; cbn [bind] in H; inversion H; subst.
    split; split; congruence.
Qed.

(** ** loops that thread the set *)

Definition grows {A B} (g : A -> eset -> res (B * eset)) : Prop :=
  forall m s y s', g m s = Ok (y, s') -> extends s s'.
Definition grows_at {A B} (g : A -> eset -> res (B * eset)) (m : A) : Prop :=
  forall s y s', g m s = Ok (y, s') -> extends s s'.

Lemma mapS_grows_at : forall A B (g : A -> eset -> res (B * eset)) l, Forall (grows_at g) l -> grows_at (mapS g) l.
Proof.
  intros A B g l H. induction H as [|m l Hm Hl IH]; intros s y s' E; cbn [mapS] in E.
  - inversion E; subst. apply extends_refl.
  - destruct (g m s) as [[y1 s1]| |] eqn:E1; try discriminate. fold (mapS g) in E.
    destruct (mapS g l s1) as [[y2 s2]| |] eqn:E2; inversion E; subst.
    eapply extends_trans; [eapply Hm; eauto|eapply IH; eauto].
Qed.
Lemma mapS_grows : forall A B (g : A -> eset -> res (B * eset)), grows g -> grows (mapS g).
Proof. intros A B g H l. apply mapS_grows_at. apply Forall_forall. intros m _ s. apply H. Qed.

Lemma pairS_grows_at : forall A B C D (f : A -> eset -> res (C * eset)) (g : B -> eset -> res (D * eset)) p,
  grows_at f (fst p) -> grows_at g (snd p) -> grows_at (pairS f g) p.
Proof.
  intros A B C D f g [a b] Hf Hg s y s' E. cbn [pairS fst snd] in *.
  destruct (f a s) as [[y1 s1]| |] eqn:E1; try discriminate.
  destruct (g b s1) as [[y2 s2]| |] eqn:E2; inversion E; subst.
  eapply extends_trans; [eapply Hf; eauto|eapply Hg; eauto].
Qed.
Lemma liftS_grows : forall A B (f : A -> res B), grows (liftS f (S:=eset)).
Proof. intros A B f a s y s' E. unfold liftS in E. destruct (f a); inversion E; subst. apply extends_refl. Qed.

Lemma mapS_inverse : forall A B (f : A -> res B) (g : B -> eset -> res (A * eset)) (W : A -> Prop) s l,
  grows g ->
  Forall (fun x => W x <-> exists m, f x = Ok m /\ g m s = Ok (x, s)) l ->
  (All W l <-> exists ms, mapM f l = Ok ms /\ mapS g ms s = Ok (l, s)).
Proof.
  intros A B f g W s l G H. induction H as [|x l Hx Hl IH].
  - split; [intros _; exists []; auto|intros _; exact I].
  - cbn [All mapM]. rewrite Hx, IH. split.
    + intros [(m & E1 & E2) (ms & E3 & E4)]. rewrite E1, E3. eexists; split; [reflexivity|]. cbn [mapS].
      rewrite E2. fold (mapS g). rewrite E4. reflexivity.
    + intros (ms & E & E'). destruct (f x) as [m| |] eqn:Ex; try discriminate.
      destruct (mapM f l) as [ms'| |] eqn:El; inversion E; subst. cbn [mapS] in E'.
      destruct (g m s) as [[y1 s1]| |] eqn:E1; try discriminate. fold (mapS g) in E'.
      destruct (mapS g ms' s1) as [[y2 s2]| |] eqn:E2; inversion E'; subst.
      assert (s1 = s). { apply extends_antisym; [eapply G; eauto|]. eapply (mapS_grows _ _ g G); eauto. }
      subst. split; eauto.
Qed.

Lemma pairS_inverse : forall A B C D (f : A -> res C) (f' : B -> res D)
  (g : C -> eset -> res (A * eset)) (g' : D -> eset -> res (B * eset)) (W : A -> Prop) (W' : B -> Prop) s p,
  grows g -> grows g' ->
  (W (fst p) <-> exists m, f (fst p) = Ok m /\ g m s = Ok (fst p, s)) ->
  (W' (snd p) <-> exists m, f' (snd p) = Ok m /\ g' m s = Ok (snd p, s)) ->
  ((let (a, b) := p in W a /\ W' b) <-> exists m, pairM f f' p = Ok m /\ pairS g g' m s = Ok (p, s)).
Proof.
  intros A B C D f f' g g' W W' s [a b] G G' H H'. cbn [fst snd] in *. rewrite H, H'. split.
  - intros [(m & E1 & E2) (m' & E3 & E4)]. exists (m, m'). split.
    + apply pairM_ok. auto.
    + cbn [pairS]. rewrite E2, E4. reflexivity.
  - intros ([m m'] & E & E'). apply pairM_ok in E. cbn [fst snd] in E. destruct E as [E1 E2]. cbn [pairS] in E'.
    destruct (g m s) as [[y1 s1]| |] eqn:Eg; try discriminate.
    destruct (g' m' s1) as [[y2 s2]| |] eqn:Eg'; inversion E'; subst.
    assert (s1 = s) by (apply extends_antisym; [eapply G; eauto|eapply G'; eauto]). subst. split; eauto.
Qed.

Lemma liftS_inverse : forall A B (f : A -> res B) (g : B -> res A) (W : A -> Prop) (s : eset) x,
  (W x <-> exists m, f x = Ok m /\ g m = Ok x) ->
  (W x <-> exists m, f x = Ok m /\ liftS g m s = Ok (x, s)).
Proof.
  intros A B f g W s x H. rewrite H. unfold liftS. split; intros (m & E1 & E2); exists m; split; auto.
  - rewrite E2. reflexivity.
  - destruct (g m); inversion E2; subst; auto.
Qed.

(** ** induction on messages *)

Definition pfarg_sub {E} (a : pfarg E) : list E := match a with PA_value e => [e] | _ => [] end.
Definition pchildren {PR} (e : pexpr PR) : list (pexpr PR) :=
  match e with
  | PX_nil | PX_unset | PX_lit _ | PX_nested_unset _ _ | PX_param _ | PX_enum | PX_sub_unset | PX_sub_scalar _
  | PX_sub_set _ _ => []
  | PX_sel r _ => match r with PRt_expr e => [e] | _ => [] end
  | PX_scalar _ args _ _ => flat_map pfarg_sub args
  | PX_window _ args _ _ _ _ parts sorts _ _ _ => flat_map pfarg_sub args ++ parts ++ map fst sorts
  | PX_if ifs els => flat_map (fun p => [fst p; snd p]) ifs ++ [els]
  | PX_switch m ifs els => m :: map snd ifs ++ [els]
  | PX_or v opts => v :: opts
  | PX_multi v opts => v ++ List.concat opts
  | PX_cast _ e _ => [e]
  | PX_map _ _ kvs => flat_map (fun p => [fst p; snd p]) kvs
  | PX_struct _ _ fs | PX_list _ _ fs | PX_sub_in fs _ => fs
  | PX_lambda _ b => [b]
  | PX_sub_cmp _ _ l _ => [l]
  end%list.

Lemma pexpr_ind' : forall PR (P : pexpr PR -> Prop), (forall e, Forall P (pchildren e) -> P e) -> forall e, P e.
Proof.
  intros PR P H. fix IH 1. intros e. apply H.
  assert (HA : forall args, Forall P (flat_map pfarg_sub args)).
  { fix go 1. intros [|a args]; [constructor|]. cbn [flat_map]. apply Forall_app2; [|exact (go args)].
    destruct a; constructor; [exact (IH e0)|constructor]. }
  assert (HL : forall l, Forall P l) by (exact (Forall_fix IH)).
  assert (HF : forall B (l : list (pexpr PR * B)), Forall P (map fst l)).
  { fix go 2. intros B [|a l]; [constructor|]. cbn [map]. constructor; [destruct a as [a b]; exact (IH a)|exact (go B l)]. }
  assert (HS : forall B (l : list (B * pexpr PR)), Forall P (map snd l)).
  { fix go 2. intros B [|a l]; [constructor|]. cbn [map]. constructor; [destruct a as [a b]; exact (IH b)|exact (go B l)]. }
  assert (HP : forall l : list (pexpr PR * pexpr PR), Forall P (flat_map (fun p => [fst p; snd p]) l)).
  { fix go 1. intros [|p l]; [constructor|]. cbn [flat_map]. apply Forall_app2; [|exact (go l)].
    destruct p as [a b]. constructor; [exact (IH a)|constructor; [exact (IH b)|constructor]]. }
  assert (HC : forall l : list (list (pexpr PR)), Forall P (List.concat l)).
  { fix go 1. intros [|p l]; [constructor|]. cbn [List.concat]. apply Forall_app2; [exact (HL p)|exact (go l)]. }
  destruct e; cbn [pchildren]; try (constructor; fail).
  - destruct r; constructor; [exact (IH e)|constructor].
  - exact (HA args).
  - apply Forall_app2; [exact (HA args)|]. apply Forall_app2; [exact (HL parts)|exact (HF _ sorts)].
  - apply Forall_app2; [exact (HP ifs)|]. constructor; [exact (IH e)|constructor].
  - constructor; [exact (IH e1)|]. apply Forall_app2; [exact (HS _ ifs)|]. constructor; [exact (IH e2)|constructor].
  - constructor; [exact (IH e)|exact (HL opts)].
  - apply Forall_app2; [exact (HL v)|exact (HC opts)].
  - constructor; [exact (IH e)|constructor].
  - exact (HP kvs).
  - exact (HL fields).
  - exact (HL vals).
  - constructor; [exact (IH e)|constructor].
  - exact (HL needles).
  - constructor; [exact (IH e)|constructor].
Qed.

Lemma pch_args : forall PR (P : pexpr PR -> Prop) args, Forall P (flat_map pfarg_sub args) ->
  Forall (fun a => match a with PA_value e => P e | _ => True end) args.
Proof.
  intros PR P args. induction args as [|a args IH]; cbn; intros H; constructor.
  - destruct a; auto. cbn in H. inversion H; auto.
  - apply IH. apply Forall_app in H. tauto.
Qed.
Lemma pch_pairs : forall PR (P : pexpr PR -> Prop) l, Forall P (flat_map (fun p => [fst p; snd p]) l) ->
  Forall (fun p => P (fst p) /\ P (snd p)) l.
Proof.
  intros PR P l. induction l as [|a l IH]; cbn; intros H; constructor.
  - inversion H as [|? ? H1 H2]; subst. inversion H2; auto.
  - apply IH. inversion H as [|? ? H1 H2]; subst. inversion H2; auto.
Qed.

(** ** round trip *)

Lemma wire_plain : (forall t, wire_type t -> plain t) /\ (forall p, wire_param p -> plain_param p).
Proof.
  apply ty_tparam_ind.
  - intros t H. destruct t; try contradiction; cbn; auto.
  - intros n v fs IH H. cbn in *. rewrite All_Forall in *. rewrite Forall_forall in *. auto.
  - intros n ps r IH IHr H. cbn in *. destruct H as [H1 H2]. split; auto. rewrite All_Forall in *. rewrite Forall_forall in *. auto.
  - intros n v e IH H. cbn in *. auto.
  - intros n v k x IHk IHx H. cbn in *. tauto.
  - intros n v r ps IH H. cbn in *. rewrite All_Forall in *. rewrite Forall_forall in *. auto.
  - intros p H. destruct p; cbn in *; try contradiction; auto.
  - intros t IH H. cbn in *. auto.
Qed.

Lemma supported_plain : forall l t, supported l -> typed l t -> plain t.
Proof.
  assert (W := proj1 wire_plain).
  refine (lit_ind' (fun l => forall t, supported l -> typed l t -> plain t) _ _ _ _).
  - intros l Hl t HS HT. inversion HT; subst; cbn in HS; try contradiction.
    + auto.
    + destruct t; cbn in HS; try contradiction; exact I.
    + destruct t; destruct k; cbn in HS; try contradiction; try exact I; try tauto.
    + destruct t; destruct v; cbn in HS; try contradiction; try exact I; try tauto.
      destruct HS as (_ & HS & _). cbn. rewrite All_Forall in *. eapply Forall_impl; [|exact HS]. apply wire_plain.
    + exact I.
    + exact I.
  - intros fs t IH u [HS HT] HU. inversion HU; subst. destruct u; try contradiction. destruct HT as [_ HT].
    cbn. rewrite All_Forall in *. clear HU. revert HS IH. induction HT; intros HS IH; constructor; inversion HS; subst; inversion IH; subst; auto.
  - intros fs t IH u [HS HT] HU. inversion HU; subst. destruct u; try contradiction. destruct HT as [_ HT].
    cbn. rewrite All_Forall in *. destruct fs; auto. inversion IH; subst; inversion HS; subst; auto.
  - intros kvs t IH u [HS HT] HU. inversion HU; subst. destruct u; try contradiction. destruct HT as [_ HT].
    cbn. rewrite All_Forall in *. destruct kvs as [|[k x] kvs]; [destruct HT; auto|]. inversion IH as [|? ? [Hk Hx] _]; subst.
    inversion HS as [|? ? HKX _]; subst. cbn [fst snd] in *. destruct HT, HKX; eauto.
Qed.

Lemma supported_key_plain : forall l, Forall key_supported l -> Forall key_plain l.
Proof.
  intros l H. eapply Forall_impl; [|exact H]. intros [i|k|i] HS; cbn in *; auto.
  assert (HN : exists t, typed k t) by (destruct k; cbn in HS; try contradiction; eexists; constructor).
  destruct HN as [t HT]. exists t. split; auto. eapply supported_plain; eauto.
Qed.

(** types in type arguments *)
Lemma arg_type_iff : forall t, arg_wire_type t <-> exists m, arg_type_to_proto t = Ok m /\ type_from_proto m = Ok t.
Proof.
  intros t. unfold arg_wire_type. split.
  - intros [H|(n & v & p & -> & H)].
    + assert (H' := H). apply wire_iff in H'. destruct t; cbn in H; try contradiction; exact H'.
    + eexists; split; [reflexivity|]. cbn. rewrite (ptp_ok _ H). reflexivity.
  - intros (m & E1 & E2). destruct t; try (left; apply wire_iff; eauto; fail).
    + cbn in E1. inversion E1; subst. cbn in E2.
      destruct (prec_dec prec) as [HP|HP].
      * rewrite (ptp_ok _ HP) in E2. cbn in E2. inversion E2; subst. right. eauto.
      * rewrite (ptp_bad _ HP) in E2. discriminate.
    + cbn in E1. inversion E1; subst. cbn in E2. discriminate.
Qed.

(** taking a read apart *)
Ltac unb H :=
  match type of H with
  | bind ?a _ = Ok _ =>
      let E := fresh "E" in
      destruct a eqn:E; cbn [bind] in H; [|discriminate H|discriminate H];
      repeat match type of H with context [match ?p with pair _ _ => _ end] => is_var p; destruct p end
  end.

(** a property of every relation of the subqueries of a message *)
Definition All_fix {A} {P : A -> Prop} (f : forall x, P x) : forall l, All P l :=
  fix go (l : list A) : All P l := match l with [] => I | x :: l' => conj (f x) (go l') end.
Fixpoint each_prel {PR} (P : PR -> Prop) (m : pexpr PR) : Prop :=
  match m with
  | PX_nil | PX_unset | PX_lit _ | PX_nested_unset _ _ | PX_param _ | PX_enum | PX_sub_unset => True
  | PX_sel r _ => match r with PRt_expr e => each_prel P e | _ => True end
  | PX_scalar _ args _ _ => All (fun a => match a with PA_value e => each_prel P e | _ => True end) args
  | PX_window _ args _ _ _ _ parts sorts _ _ _ =>
      All (fun a => match a with PA_value e => each_prel P e | _ => True end) args /\
      All (each_prel P) parts /\ All (fun p => match p with (e, _) => each_prel P e end) sorts
  | PX_if ifs els => All (fun p => match p with (a, b) => each_prel P a /\ each_prel P b end) ifs /\ each_prel P els
  | PX_switch m ifs els =>
      each_prel P m /\ All (fun p => match p with (_, b) => each_prel P b end) ifs /\ each_prel P els
  | PX_or v opts => each_prel P v /\ All (each_prel P) opts
  | PX_multi v opts => All (each_prel P) v /\ All (All (each_prel P)) opts
  | PX_cast _ e _ => each_prel P e
  | PX_map _ _ kvs => All (fun p => match p with (a, b) => each_prel P a /\ each_prel P b end) kvs
  | PX_struct _ _ fs | PX_list _ _ fs => All (each_prel P) fs
  | PX_lambda _ b => each_prel P b
  | PX_sub_scalar r | PX_sub_set _ r => P r
  | PX_sub_in ns r => All (each_prel P) ns /\ P r
  | PX_sub_cmp _ _ l r => each_prel P l /\ P r
  end.
Definition own_prel {PR} (P : PR -> Prop) (m : pexpr PR) : Prop :=
  match m with PX_sub_scalar r | PX_sub_set _ r | PX_sub_in _ r | PX_sub_cmp _ _ _ r => P r | _ => True end.

Lemma each_prel_intro : forall PR (P : PR -> Prop), (forall r, P r) -> forall m, each_prel P m.
Proof.
  intros PR P H. fix IH 1. intros m.
  assert (HA : forall args, All (fun a => match a with PA_value e => each_prel P e | _ => True end) args).
  { fix go 1. intros [|a args]; [exact I|]. split; [|exact (go args)]. destruct a; try exact I. exact (IH e). }
  assert (HL : forall l, All (each_prel P) l) by (exact (All_fix IH)).
  assert (HF : forall B (l : list (pexpr PR * B)), All (fun p => match p with (e, _) => each_prel P e end) l).
  { fix go 2. intros B [|a l]; [exact I|]. split; [destruct a as [a b]; exact (IH a)|exact (go B l)]. }
  assert (HS : forall B (l : list (B * pexpr PR)), All (fun p => match p with (_, e) => each_prel P e end) l).
  { fix go 2. intros B [|a l]; [exact I|]. split; [destruct a as [a b]; exact (IH b)|exact (go B l)]. }
  assert (HP : forall l : list (pexpr PR * pexpr PR), All (fun p => match p with (a, b) => each_prel P a /\ each_prel P b end) l).
  { fix go 1. intros [|p l]; [exact I|]. split; [|exact (go l)]. destruct p as [a b]. split; [exact (IH a)|exact (IH b)]. }
  assert (HC : forall l, All (All (each_prel P)) l).
  { fix go 1. intros [|p l]; [exact I|]. split; [exact (HL p)|exact (go l)]. }
  destruct m; try exact I.
  - destruct r; try exact I. exact (IH e).
  - exact (HA args).
  - split; [exact (HA args)|]. split; [exact (HL parts)|exact (HF _ sorts)].
  - split; [exact (HP ifs)|exact (IH m)].
  - split; [exact (IH m1)|]. split; [exact (HS _ ifs)|exact (IH m2)].
  - split; [exact (IH m)|exact (HL opts)].
  - split; [exact (HL v)|exact (HC opts)].
  - exact (IH m).
  - exact (HP kvs).
  - exact (HL fields).
  - exact (HL vals).
  - exact (IH m).
  - exact (H r).
  - split; [exact (HL needles)|exact (H r)].
  - exact (H r).
  - split; [exact (IH m)|exact (H r)].
Defined.

Lemma each_prel_down : forall PR (P : PR -> Prop) m, each_prel P m -> own_prel P m /\ Forall (each_prel P) (pchildren m).
Proof.
  intros PR P m H.
  assert (HA : forall args, All (fun a => match a with PA_value e => each_prel P e | _ => True end) args -> Forall (each_prel P) (flat_map pfarg_sub args)).
  { induction args as [|a args IHa]; cbn; intros X; [constructor|]. destruct X as [X1 X2]. apply Forall_app. split; [|auto].
    destruct a; constructor; auto. }
  assert (HP : forall l, All (fun p => match p with (a, b) => each_prel P a /\ each_prel P b end) l ->
    Forall (each_prel P) (flat_map (fun p => [fst p; snd p]) l)).
  { induction l as [|[a b] l IHl]; cbn; intros X; [constructor|]. destruct X as [[X1 X2] X3]. auto. }
  assert (HF : forall B (l : list (pexpr PR * B)), All (fun p => match p with (e, _) => each_prel P e end) l -> Forall (each_prel P) (map fst l)).
  { induction l as [|[a b] l IHl]; cbn; intros X; constructor; tauto. }
  assert (HS : forall B (l : list (B * pexpr PR)), All (fun p => match p with (_, e) => each_prel P e end) l -> Forall (each_prel P) (map snd l)).
  { induction l as [|[a b] l IHl]; cbn; intros X; constructor; tauto. }
  assert (HL : forall l, All (each_prel P) l -> Forall (each_prel P) l) by (intros l; apply All_Forall).
  assert (HC : forall l, All (All (each_prel P)) l -> Forall (each_prel P) (List.concat l)).
  { induction l as [|a l IHl]; cbn; intros X; [constructor|]. apply Forall_app. destruct X. split; auto. }
  destruct m; cbn [each_prel own_prel pchildren] in *; repeat match goal with H : _ /\ _ |- _ => destruct H end;
    split; auto; repeat (first [apply Forall_app; split | apply Forall_cons]); auto.
  destruct r; auto.
Qed.

Section RoundTrip.
Context {R PR : Type}.
Variable rel_to_proto : R -> res PR.
Variable rel_schema : R -> res (list xtype).
Variable conv : option (PR -> eset -> res (R * eset)).
Variable canon : string -> option string.
Variable c : coll.
Variable base : option (list xtype).
Hypothesis conv_grows : forall f, conv = Some f -> grows f.
Notation enc := (expr_to_proto rel_to_proto).
Notation dec := (expr_from_proto rel_schema conv canon c base).

Lemma farg_grows_at : forall (a : pfarg (pexpr PR)),
  match a with PA_value e => grows_at dec e | _ => True end -> grows_at (farg_from_proto dec) a.
Proof.
  intros a H s y s' E. destruct a; cbn [farg_from_proto] in E; try discriminate.
  - inversion E; subst. apply extends_refl.
  - destruct (type_from_proto t); inversion E; subst. apply extends_refl.
  - destruct (dec e s) as [[e' s1]| |] eqn:Ed; inversion E; subst. eapply H; eauto.
Qed.

Lemma dec_grows_at : forall m, each_prel (fun p => forall f, conv = Some f -> grows_at f p) m -> grows_at dec m.
Proof.
  clear conv_grows.
  apply (pexpr_ind' PR (fun m => each_prel (fun p => forall f, conv = Some f -> grows_at f p) m -> grows_at dec m)).
  intros m IH' HE. apply each_prel_down in HE as [conv_here HE].
  assert (IH : Forall (grows_at dec) (pchildren m)).
  { clear conv_here. induction HE as [|x l Hx Hl IHl]; [constructor|]. inversion IH'; subst. constructor; auto. }
  clear IH' HE. intros s y s' E.
  assert (SK : forall l : list (pexpr PR * psortkind), Forall (fun p => grows_at dec (fst p)) l ->
    grows_at (mapS (pairS dec (liftS sortkind_from_proto))) l).
  { intros l H. apply mapS_grows_at. eapply Forall_impl; [|exact H]. intros p Hp. apply pairS_grows_at; auto.
    intros s0. apply liftS_grows. }
  assert (LK : forall l : list (plit * pexpr PR), Forall (fun p => grows_at dec (snd p)) l ->
    grows_at (mapS (pairS (liftS lit_from_proto) dec)) l).
  { intros l H. apply mapS_grows_at. eapply Forall_impl; [|exact H]. intros p Hp. apply pairS_grows_at; auto.
    intros s0. apply liftS_grows. }
  assert (PK : forall l : list (pexpr PR * pexpr PR), Forall (fun p => grows_at dec (fst p) /\ grows_at dec (snd p)) l ->
    grows_at (mapS (pairS dec dec)) l).
  { intros l H. apply mapS_grows_at. eapply Forall_impl; [|exact H]. intros p [Hp Hq]. apply pairS_grows_at; auto. }
  assert (AK : forall l : list (pfarg (pexpr PR)), Forall (grows_at dec) (flat_map pfarg_sub l) ->
    grows_at (mapS (farg_from_proto dec)) l).
  { intros l H. apply mapS_grows_at. apply pch_args in H. eapply Forall_impl; [|exact H]. apply farg_grows_at. }
  destruct m; cbn [pchildren expr_from_proto] in *; try discriminate.
  - unb E. inversion E; subst. apply extends_refl.
  - unb E. unb E. inversion E; subst. destruct r; cbn [root_from_proto] in E0; try (inversion E0; subst; apply extends_refl).
    destruct (dec e s) as [[e' s2]| |] eqn:Ed; inversion E0; subst. inversion IH; subst. eauto.
  - unb E. destruct out; [|discriminate]. unb E. unb E. inversion E; subst.
    eapply extends_trans; [eapply AK; eauto|eapply resolve_extends; eauto].
  - apply Forall_app in IH. destruct IH as [IH1 IH]. apply Forall_app in IH. destruct IH as [IH2 IH3]. apply ch_map in IH3.
    unb E. unb E. unb E. destruct out; [|discriminate]. unb E. unb E. inversion E; subst.
    eapply extends_trans; [eapply AK; eauto|]. eapply extends_trans; [eapply mapS_grows_at; eauto|].
    eapply extends_trans; [eapply SK; eauto|]. eapply resolve_extends; eauto.
  - apply Forall_app in IH. destruct IH as [IH1 IH2]. apply pch_pairs in IH1. inversion IH2; subst.
    unb E. unb E. inversion E; subst. eapply extends_trans; [eauto|eapply PK; eauto].
  - inversion IH as [|? ? IH0 IH']; subst. apply Forall_app in IH'. destruct IH' as [IH1 IH2]. apply ch_map in IH1.
    inversion IH2; subst. unb E. unb E. unb E. inversion E; subst.
    eapply extends_trans; [eauto|]. eapply extends_trans; [eauto|]. eapply LK; eauto.
  - inversion IH; subst. unb E. unb E. inversion E; subst. eapply extends_trans; [eauto|eapply mapS_grows_at; eauto].
  - apply Forall_app in IH. destruct IH as [IH1 IH2]. apply ch_concat in IH2. unb E. unb E. inversion E; subst.
    eapply extends_trans; [eapply mapS_grows_at; eauto|]. eapply mapS_grows_at; [|eauto].
    eapply Forall_impl; [|exact IH2]. intros. apply mapS_grows_at; auto.
  - destruct t; [|discriminate]. inversion IH; subst. unb E. unb E. inversion E; subst. eauto.
  - destruct kvs; [discriminate|]. apply pch_pairs in IH. unb E. inversion E; subst. eapply PK; eauto.
  - unb E. inversion E; subst. eapply mapS_grows_at; eauto.
  - destruct vals; [discriminate|]. unb E. inversion E; subst. eapply mapS_grows_at; eauto.
  - destruct p as [[t ref]|]; [|discriminate]. unb E. inversion E; subst. apply extends_refl.
  - destruct params as [[[ps var] n]|]; [|discriminate]. inversion IH; subst.
    assert (E' : (let! ps' := mapM type_from_proto ps in
              if negb (n =? NullRequired) then Err
              else let! (b, s1) := dec m s in Ok (ELambda n var ps' b, s1)) = Ok (y, s')).
    { destruct m; try discriminate; exact E. }
    clear E. unb E'. destruct (negb (n =? NullRequired)); [discriminate|]. unb E'. inversion E'; subst. eauto.
  - destruct conv as [f|] eqn:EC; [|discriminate]. unb E. inversion E; subst. eapply conv_here; eauto.
  - destruct conv as [f|] eqn:EC; [|discriminate]. rewrite <- EC in *. unb E. unb E. inversion E; subst.
    eapply extends_trans; [eapply mapS_grows_at; eauto|eapply conv_here; eauto].
  - destruct conv as [f|] eqn:EC; [|discriminate]. unb E. inversion E; subst. eapply conv_here; eauto.
  - destruct conv as [f|] eqn:EC; [|discriminate]. rewrite <- EC in *. inversion IH; subst. unb E. unb E. inversion E; subst.
    eapply extends_trans; [eauto|eapply conv_here; eauto].
Qed.
Lemma dec_grows : grows dec.
Proof. intros m. apply dec_grows_at. apply each_prel_intro. intros p f E s. apply (conv_grows f E). Qed.

Lemma farg_grows : grows (farg_from_proto dec).
Proof. intros a. apply farg_grows_at. destruct a; auto. intros s. apply dec_grows. Qed.
Lemma pairs_grows : grows (pairS dec dec).
Proof. intros a. apply pairS_grows_at; intros s; apply dec_grows. Qed.
Lemma cases_grows : grows (pairS (liftS lit_from_proto) dec).
Proof. intros a. apply pairS_grows_at; intros s; [apply liftS_grows|apply dec_grows]. Qed.
Lemma sorts_grows : grows (pairS dec (liftS sortkind_from_proto)).
Proof. intros a. apply pairS_grows_at; intros s; [apply dec_grows|apply liftS_grows]. Qed.

Lemma enc_not_nil : forall e m, enc e = Ok m -> m <> PX_nil.
Proof. intros e m E. destruct e; cbn [expr_to_proto] in E; repeat unb E; inversion E; discriminate. Qed.

Variable s : eset.
Variable rel_ok : R -> Prop.
Hypothesis rel_ok_spec : forall r, rel_ok r <-> exists p f, rel_to_proto r = Ok p /\ conv = Some f /\ f p s = Ok (r, s).
Notation sv := (survives rel_schema canon c base s rel_ok).
Definition rt (e : expr R) : Prop := sv e <-> exists m, enc e = Ok m /\ dec m s = Ok (e, s).

Lemma sortkind_rt : forall k, k <> SK_nil <-> exists m, Ok (sortkind_to_proto k) = Ok m /\ sortkind_from_proto m = Ok k.
Proof.
  intros k. split.
  - intros H. eexists; split; [reflexivity|]. destruct k; [contradiction|reflexivity|reflexivity].
  - intros (m & E1 & E2) ->. inversion E1; subst. discriminate.
Qed.

Lemma farg_rt : forall a, match a with AExpr e => rt e | _ => True end ->
  (match a with AEnum _ => True | AType t => arg_wire_type t | AExpr e => sv e end <->
   exists m, farg_to_proto enc a = Ok m /\ farg_from_proto dec m s = Ok (a, s)).
Proof.
  intros a H. destruct a; cbn [farg_to_proto].
  - split; auto. intros _. eexists; split; reflexivity.
  - rewrite arg_type_iff. split.
    + intros (m & E1 & E2). rewrite E1. eexists; split; [reflexivity|]. cbn. rewrite E2. reflexivity.
    + intros (m & E1 & E2). destruct (arg_type_to_proto t) as [p| |]; inversion E1; subst. cbn in E2.
      destruct (type_from_proto p) eqn:E; inversion E2; subst. eauto.
  - unfold rt in H. rewrite H. split.
    + intros (m & E1 & E2). rewrite E1. eexists; split; [reflexivity|]. cbn. rewrite E2. reflexivity.
    + intros (m & E1 & E2). destruct (enc e) as [p| |]; inversion E1; subst. cbn in E2.
      destruct (dec p s) as [[e' s']| |] eqn:E; inversion E2; subst. eauto.
Qed.

Lemma args_rt : forall args, Forall rt (flat_map farg_sub args) ->
  (All (fun a => match a with AEnum _ => True | AType t => arg_wire_type t | AExpr e => sv e end) args <->
   exists ms, mapM (farg_to_proto enc) args = Ok ms /\ mapS (farg_from_proto dec) ms s = Ok (args, s)).
Proof.
  intros args H. apply ch_args in H. apply mapS_inverse; [apply farg_grows|].
  eapply Forall_impl; [|exact H]. intros a Ha. apply farg_rt. exact Ha.
Qed.
Lemma list_rt : forall l, Forall rt l ->
  (All sv l <-> exists ms, mapM enc l = Ok ms /\ mapS dec ms s = Ok (l, s)).
Proof. intros l H. apply mapS_inverse; [apply dec_grows|exact H]. Qed.
Lemma pairs_rt : forall l, Forall rt (flat_map (fun p => [fst p; snd p]) l) ->
  (All (fun p => match p with (a, b) => sv a /\ sv b end) l <->
   exists ms, mapM (pairM enc enc) l = Ok ms /\ mapS (pairS dec dec) ms s = Ok (l, s)).
Proof.
  intros l H. apply ch_pairs in H. apply mapS_inverse; [apply pairs_grows|].
  eapply Forall_impl; [|exact H]. intros p [H1 H2].
  apply (pairS_inverse _ _ _ _ enc enc dec dec sv sv); auto using dec_grows.
Qed.
Lemma cases_rt : forall l : list (lit * expr R), Forall rt (map snd l) ->
  (All (fun p => match p with (k, b) => supported k /\ sv b end) l <->
   exists ms, mapM (pairM lit_to_proto enc) l = Ok ms /\ mapS (pairS (liftS lit_from_proto) dec) ms s = Ok (l, s)).
Proof.
  intros l H. apply ch_map in H. apply mapS_inverse; [apply cases_grows|].
  eapply Forall_impl; [|exact H]. intros p H1.
  apply (pairS_inverse _ _ _ _ lit_to_proto enc (liftS lit_from_proto) dec supported sv); auto using dec_grows.
  - apply liftS_grows.
  - apply liftS_inverse. apply enc_dec_all_lit.
Qed.
Lemma sorts_rt : forall l : list (expr R * sortkind), Forall rt (map fst l) ->
  (All (fun p => match p with (e, k) => sv e /\ k <> SK_nil end) l <->
   exists ms, mapM (pairM enc (fun k => Ok (sortkind_to_proto k))) l = Ok ms /\
              mapS (pairS dec (liftS sortkind_from_proto)) ms s = Ok (l, s)).
Proof.
  intros l H. apply ch_map in H. apply mapS_inverse; [apply sorts_grows|].
  eapply Forall_impl; [|exact H]. intros p H1.
  apply (pairS_inverse _ _ _ _ enc (fun k => Ok (sortkind_to_proto k)) dec (liftS sortkind_from_proto) sv
           (fun k => k <> SK_nil)); auto using dec_grows.
  - apply liftS_grows.
  - apply (liftS_inverse _ _ (fun k => Ok (sortkind_to_proto k)) sortkind_from_proto (fun k => k <> SK_nil) s (snd p)). apply sortkind_rt.
Qed.

Lemma reference_rt : forall r f known,
  known_ok rel_schema base r f known <->
  exists m, reference_to_proto f = Ok m /\ reference_from_proto rel_schema base r m = Ok (f, known).
Proof.
  intros r f known. destruct f as [l|m]; unfold known_ok.
  - destruct l as [|st l].
    + cbn. split.
      * intros ->. eexists; split; reflexivity.
      * intros (m & E1 & E2). inversion E1; subst. cbn in E2. inversion E2; auto.
    + set (l0 := st :: l). assert (HN : l0 <> []) by discriminate.
      assert (EQ : reference_to_proto (RefSeg l0) = (let! x := seg_to_proto l0 in Ok (PRef_direct x))) by reflexivity.
      rewrite EQ. clearbody l0. clear EQ st l. rewrite seg_round_trip. split.
      * intros [HS HK]. assert (HS' := HS). apply seg_round_trip in HS'. apply supported_key_plain in HS'.
        destruct HS as (p & E1 & E2). rewrite E1. cbn [bind]. eexists; split; [reflexivity|].
        cbn [reference_from_proto]. rewrite E2. cbn [bind].
        destruct r; try (rewrite HK; reflexivity).
        -- destruct base as [ts|]; [|rewrite HK; reflexivity]. destruct HK as (x & HX & HF).
           apply x_struct_spec in HX. apply seg_type_iff in HF; auto. unfold NullRequired. rewrite HX, HF. reflexivity.
        -- destruct HK as (x & HX & HF). apply has_type_spec in HX. apply seg_type_iff in HF; auto.
           rewrite HX. cbn [bind]. rewrite HF. reflexivity.
      * intros (m & E1 & E2). destruct (seg_to_proto l0) as [p| |] eqn:EP; cbn [bind] in E1; inversion E1; subst.
        cbn [reference_from_proto] in E2. destruct (ref_segment_from_proto p) as [l1| |] eqn:E3; cbn [bind] in E2; try discriminate.
        assert (l1 = l0).
        { destruct r; cbn [bind] in E2; try (inversion E2; auto; fail).
          - destruct base; [|inversion E2; auto].
            destruct (seg_type l1 _); cbn [bind] in E2; inversion E2; auto.
          - destruct (expr_type rel_schema e); cbn [bind] in E2; try discriminate.
            destruct (seg_type l1 _); cbn [bind] in E2; inversion E2; auto. }
        subst l1. assert (HS : Forall key_supported l0) by (apply seg_round_trip; eauto). split; [eauto|].
        apply supported_key_plain in HS. destruct r; try (inversion E2; auto; fail).
        -- destruct base as [ts|]; [|inversion E2; auto].
           destruct (seg_type l0 (x_struct NullRequired 0 ts)) as [t| |] eqn:ET; cbn [bind] in E2; inversion E2; subst.
           exists (x_struct 2 0 ts). split; [apply x_struct_spec; reflexivity|]. apply seg_type_iff; auto.
        -- destruct (expr_type rel_schema e) as [x| |] eqn:EX; cbn [bind] in E2; try discriminate.
           destruct (seg_type l0 x) as [t| |] eqn:ET; cbn [bind] in E2; inversion E2; subst.
           exists x. split; [apply has_type_spec; auto|]. apply seg_type_iff; auto.
  - destruct (mask_char m) as [[HM (p & E1 & E2)]|[HM E1]]; cbn [reference_to_proto]; rewrite E1; cbn [bind].
    + split.
      * intros [_ ->]. eexists; split; [reflexivity|]. cbn [reference_from_proto]. rewrite E2. reflexivity.
      * intros (q & H1 & H2). inversion H1; subst. cbn [reference_from_proto] in H2. rewrite E2 in H2. cbn in H2.
        inversion H2; auto.
    + split; [tauto|]. intros (q & H1 & _). discriminate.
Qed.

Lemma resolve_rt : forall lookup get d w ref v, looks_up lookup get ->
  (resolves (get c) canon d w s ref v <-> exists b, resolve_func lookup canon d w c ref s = Ok (ref, v, b, s)).
Proof. intros. symmetry. apply resolve_spec. auto. Qed.

(** a chain of reads that ends in the set it started from never left it *)
Ltac chain :=
  repeat match goal with H : extends _ _ |- _ => destruct H as [H|H]; [try subst|] end; try (exfalso; lia).
Ltac posed H := match goal with _ : H |- _ => fail 1 | _ => idtac end.
Ltac facts :=
  repeat match goal with
  | H : mapS (farg_from_proto dec) _ ?a = Ok (_, ?b) |- _ => posed (extends a b); pose proof (mapS_grows _ _ _ farg_grows _ _ _ _ H)
  | H : mapS dec _ ?a = Ok (_, ?b) |- _ => posed (extends a b); pose proof (mapS_grows _ _ _ dec_grows _ _ _ _ H)
  | H : mapS (mapS dec) _ ?a = Ok (_, ?b) |- _ => posed (extends a b); pose proof (mapS_grows _ _ _ (mapS_grows _ _ _ dec_grows) _ _ _ _ H)
  | H : mapS (pairS dec dec) _ ?a = Ok (_, ?b) |- _ => posed (extends a b); pose proof (mapS_grows _ _ _ pairs_grows _ _ _ _ H)
  | H : mapS (pairS (liftS lit_from_proto) dec) _ ?a = Ok (_, ?b) |- _ => posed (extends a b); pose proof (mapS_grows _ _ _ cases_grows _ _ _ _ H)
  | H : mapS (pairS dec (liftS sortkind_from_proto)) _ ?a = Ok (_, ?b) |- _ => posed (extends a b); pose proof (mapS_grows _ _ _ sorts_grows _ _ _ _ H)
  | H : dec _ ?a = Ok (_, ?b) |- _ => posed (extends a b); pose proof (dec_grows _ _ _ _ H)
  | H : resolve_func _ _ _ _ _ _ ?a = Ok (_, _, _, ?b) |- _ => posed (extends a b); pose proof (resolve_extends _ _ _ _ _ _ _ _ _ _ _ H)
  | C : conv = Some ?f, H : ?f _ ?a = Ok (_, ?b) |- _ => posed (extends a b); pose proof (conv_grows f C _ _ _ _ H)
  end.

Lemma lit_rt : forall l, supported l <-> exists m, lit_to_proto l = Ok m /\ lit_from_proto m = Ok l.
Proof. apply enc_dec_all_lit. Qed.

Lemma else_rt : forall e, rt e ->
  (sv e <-> exists m, (if is_nil_expr e then Ok PX_nil else enc e) = Ok m /\ dec m s = Ok (e, s)).
Proof.
  intros e H. unfold rt in H. destruct (is_nil_expr e) eqn:N; [|exact H]. apply is_nil_spec in N. subst.
  split; [intros []|]. intros (m & E1 & E2). inversion E1; subst. discriminate.
Qed.

Theorem round_trip : forall e, rt e.
Proof.
  apply expr_ind'. intros e IH. unfold rt. destruct e; cbn [children survives expr_to_proto] in *.
  - rewrite (lit_rt l). split.
    + intros (m & E1 & E2). rewrite E1. cbn [bind]. eexists; split; [reflexivity|]. cbn. rewrite E2. reflexivity.
    + intros (m & E1 & E2). unb E1. inversion E1; subst. cbn in E2. unb E2. inversion E2; subst. eauto.
  - rewrite reference_rt. split.
    + intros [Hr (m & E1 & E2)]. rewrite E1. cbn [bind].
      assert (HR : exists p, root_to_proto enc r = Ok p /\ root_from_proto dec p s = Ok (r, s) /\ nil_root r = r).
      { destruct r; try (eexists; split; [reflexivity|split; reflexivity]).
        inversion IH as [|? ? He _]; subst. assert (HS := Hr). apply He in Hr. destruct Hr as (p & F1 & F2). cbn [root_to_proto]. rewrite F1.
        eexists; split; [reflexivity|]. cbn [root_from_proto]. rewrite F2. split; [reflexivity|].
        destruct e; auto. destruct l; auto. contradiction. }
      destruct HR as (p & F1 & F2 & F3). rewrite F1. cbn [bind]. eexists; split; [reflexivity|].
      cbn [expr_from_proto]. rewrite F2. cbn [bind]. rewrite F3, E2. reflexivity.
    + intros (m & E1 & E2). unb E1. rename a into q. destruct r; cbn [root_to_proto bind] in E1.
      1-3: inversion E1; subst; cbn [expr_from_proto root_from_proto bind nil_root] in E2; unb E2; inversion E2; subst;
           split; [exact I|eauto].
      destruct (enc e) as [p| |] eqn:Ee; inversion E1; subst. cbn [expr_from_proto root_from_proto] in E2.
      destruct (dec p s) as [[e' s1]| |] eqn:Ed; cbn [bind] in E2; try discriminate. unb E2.
      assert (HN : e' = e /\ nil_root (RExpr e') = RExpr e').
      { assert (E3 := f_equal (fun r => match r with Ok (ERef x _ _, _) => x | _ => RRoot end) E2). cbv beta iota in E3.
        destruct e'; try (inversion E3; auto; fail). destruct l; inversion E3; auto. }
      assert (s1 = s) by congruence. assert (known = x) by congruence. assert (f = r) by congruence. subst.
      destruct HN as [-> HN]. rewrite HN in *. split; [|eauto]. inversion IH as [|? ? He _]; subst. apply He. eauto.
  - rewrite (args_rt _ IH), wire_iff, (resolve_rt _ _ _ _ _ _ looks_scalar). split.
    + intros ([b Hb] & (ms & E1 & E2) & (t & E3 & E4)). rewrite E1. cbn [bind]. rewrite E3. cbn [bind].
      eexists; split; [reflexivity|]. cbn [expr_from_proto]. rewrite E2. cbn [bind]. rewrite Hb. cbn [bind]. rewrite E4. reflexivity.
    + intros (m & E1 & E2). unb E1. unb E1. inversion E1; subst. cbn [expr_from_proto] in E2. unb E2. unb E2. unb E2.
      inversion E2; subst. facts. chain. eauto 10.
  - apply Forall_app in IH. destruct IH as [IH1 IH]. apply Forall_app in IH. destruct IH as [IH2 IH3].
    rewrite (args_rt _ IH1), wire_iff, (resolve_rt _ _ _ _ _ _ looks_window), (list_rt _ IH2), (sorts_rt _ IH3). split.
    + intros ([b Hb] & (ms & E1 & E2) & (t & E3 & E4) & (ps & E5 & E6) & (ss & E7 & E8)).
      rewrite E1. cbn [bind]. rewrite E7. cbn [bind]. rewrite E5. cbn [bind]. rewrite E3. cbn [bind].
      eexists; split; [reflexivity|]. cbn [expr_from_proto]. rewrite E2. cbn [bind]. rewrite E6. cbn [bind].
      rewrite E8. cbn [bind]. rewrite Hb. cbn [bind]. rewrite E4. cbn [bind].
      destruct lo as [[]|], hi as [[]|]; reflexivity.
    + intros (m & E1 & E2). unb E1. unb E1. unb E1. unb E1. inversion E1; subst. cbn [expr_from_proto] in E2.
      unb E2. unb E2. unb E2. unb E2. unb E2. inversion E2; subst. facts. chain. eauto 20.
  - apply Forall_app in IH. destruct IH as [IH1 IH2]. inversion IH2 as [|? ? He _]; subst.
    rewrite (pairs_rt _ IH1), (else_rt _ He). split.
    + intros [(ms & E1 & E2) (m & E3 & E4)]. rewrite E1. cbn [bind]. rewrite E3. cbn [bind]. eexists; split; [reflexivity|].
      cbn [expr_from_proto]. rewrite E4. cbn [bind]. rewrite E2. reflexivity.
    + intros (m & E1 & E2). unb E1. unb E1. inversion E1; subst. cbn [expr_from_proto] in E2. unb E2. unb E2.
      inversion E2; subst. facts. chain. eauto 10.
  - inversion IH as [|? ? Hm IH']; subst. apply Forall_app in IH'. destruct IH' as [IH1 IH2]. inversion IH2 as [|? ? He _]; subst.
    rewrite (cases_rt _ IH1), (else_rt _ He). unfold rt in Hm. rewrite Hm. split.
    + intros [(k & E5 & E6) [(ms & E1 & E2) (m & E3 & E4)]]. rewrite E3. cbn [bind]. rewrite E1. cbn [bind]. rewrite E5. cbn [bind].
      eexists; split; [reflexivity|].
      cbn [expr_from_proto]. rewrite E6. cbn [bind]. rewrite E4. cbn [bind]. rewrite E2. reflexivity.
    + intros (m & E1 & E2). unb E1. unb E1. unb E1. inversion E1; subst. cbn [expr_from_proto] in E2. unb E2. unb E2. unb E2.
      inversion E2; subst. facts. chain. eauto 10.
  - inversion IH as [|? ? Hm IH']; subst. rewrite (list_rt _ IH'). unfold rt in Hm. rewrite Hm. split.
    + intros [(k & E5 & E6) (ms & E1 & E2)]. rewrite E1. cbn [bind]. rewrite E5. cbn [bind]. eexists; split; [reflexivity|].
      cbn [expr_from_proto]. rewrite E6. cbn [bind]. rewrite E2. reflexivity.
    + intros (m & E1 & E2). unb E1. unb E1. inversion E1; subst. cbn [expr_from_proto] in E2. unb E2. unb E2.
      inversion E2; subst. facts. chain. eauto 10.
  - apply Forall_app in IH. destruct IH as [IH1 IH2]. apply ch_concat in IH2.
    assert (H2 : All (All sv) opts <->
      exists ms, mapM (mapM enc) opts = Ok ms /\ mapS (mapS dec) ms s = Ok (opts, s)).
    { apply mapS_inverse; [apply mapS_grows, dec_grows|]. eapply Forall_impl; [|exact IH2]. intros l Hl. apply list_rt; auto. }
    rewrite (list_rt _ IH1), H2. split.
    + intros [(k & E5 & E6) (ms & E1 & E2)]. rewrite E1. cbn [bind]. rewrite E5. cbn [bind]. eexists; split; [reflexivity|].
      cbn [expr_from_proto]. rewrite E6. cbn [bind]. rewrite E2. reflexivity.
    + intros (m & E1 & E2). unb E1. unb E1. inversion E1; subst. cbn [expr_from_proto] in E2. unb E2. unb E2.
      inversion E2; subst. facts. chain. eauto 10.
  - inversion IH as [|? ? He _]; subst. unfold rt in He. rewrite He, wire_iff. split.
    + intros [(k & E5 & E6) (ms & E1 & E2)]. rewrite E5. cbn [bind]. rewrite E1. cbn [bind]. eexists; split; [reflexivity|].
      cbn [expr_from_proto]. rewrite E2. cbn [bind]. rewrite E6. reflexivity.
    + intros (m & E1 & E2). unb E1. unb E1. inversion E1; subst. cbn [expr_from_proto] in E2. unb E2. unb E2.
      inversion E2; subst. eauto 10.
  - rewrite (pairs_rt _ IH). split.
    + intros [HN (ms & E1 & E2)]. rewrite E1. cbn [bind]. eexists; split; [reflexivity|]. cbn [expr_from_proto].
      destruct ms as [|p ms]; [cbn [mapS] in E2; inversion E2; subst; contradiction|]. rewrite E2. reflexivity.
    + intros (m & E1 & E2). unb E1. inversion E1; subst. cbn [expr_from_proto] in E2.
      destruct a as [|p a]; [discriminate|]. unb E2. inversion E2; subst. split; [|eauto].
      intros ->. discriminate.
  - rewrite (list_rt _ IH). split.
    + intros (ms & E1 & E2). rewrite E1. cbn [bind]. eexists; split; [reflexivity|]. cbn [expr_from_proto]. rewrite E2. reflexivity.
    + intros (m & E1 & E2). unb E1. inversion E1; subst. cbn [expr_from_proto] in E2. unb E2. inversion E2; subst. eauto.
  - rewrite (list_rt _ IH). split.
    + intros [HN (ms & E1 & E2)]. rewrite E1. cbn [bind]. eexists; split; [reflexivity|]. cbn [expr_from_proto].
      destruct ms as [|p ms]; [cbn [mapS] in E2; inversion E2; subst; contradiction|]. rewrite E2. reflexivity.
    + intros (m & E1 & E2). unb E1. inversion E1; subst. cbn [expr_from_proto] in E2.
      destruct a as [|p a]; [discriminate|]. unb E2. inversion E2; subst. split; [|eauto].
      intros ->. discriminate.
  - rewrite wire_iff. split.
    + intros (t & E1 & E2). rewrite E1. cbn [bind]. eexists; split; [reflexivity|]. cbn [expr_from_proto]. rewrite E2. reflexivity.
    + intros (m & E1 & E2). unb E1. inversion E1; subst. cbn [expr_from_proto] in E2. unb E2. inversion E2; subst. eauto.
  - inversion IH as [|? ? He _]; subst. unfold rt in He. rewrite He.
    rewrite (mapM_inverse _ _ type_to_proto type_from_proto wire_type params)
      by (apply Forall_forall; intros; apply wire_iff).
    assert (HB : forall ps b v n0, b <> PX_nil -> dec (PX_lambda (Some (ps, v, n0)) b) s =
       (let! ps' := mapM type_from_proto ps in
        if negb (n0 =? NullRequired) then Err
        else let! (b', s1) := dec b s in Ok (ELambda n0 v ps' b', s1))).
    { intros ps b v n0 Hb. destruct b; try contradiction; reflexivity. }
    split.
    + intros (-> & (ps & E1 & E2) & (b & E3 & E4)). rewrite E1. cbn [bind]. rewrite E3. cbn [bind]. eexists; split; [reflexivity|].
      rewrite HB by (eapply enc_not_nil; eauto). rewrite E2. cbn [bind]. cbn [negb Z.eqb NullRequired Pos.eqb]. rewrite E4. reflexivity.
    + intros (m & E1 & E2). unb E1. unb E1. inversion E1; subst. rewrite HB in E2 by (eapply enc_not_nil; eauto). unb E2.
      destruct (Z.eqb_spec n NullRequired) as [HE|HE]; cbn [negb] in E2; [|discriminate]. unb E2. inversion E2; subst. eauto 10.
  - rewrite rel_ok_spec. split.
    + intros (p & f & E1 & E2 & E3). rewrite E1. cbn [bind]. eexists; split; [reflexivity|]. cbn [expr_from_proto].
      rewrite E2. rewrite E3. reflexivity.
    + intros (m & E1 & E2). unb E1. inversion E1; subst. cbn [expr_from_proto] in E2. destruct conv as [f|]; [|discriminate].
      unb E2. inversion E2; subst. eauto 10.
  - rewrite (list_rt _ IH), rel_ok_spec. split.
    + intros [(ms & F1 & F2) (p & f & E1 & E2 & E3)]. rewrite F1. cbn [bind]. rewrite E1. cbn [bind].
      eexists; split; [reflexivity|]. cbn [expr_from_proto]. rewrite E2. rewrite <- E2. rewrite F2. cbn [bind]. rewrite E3. reflexivity.
    + intros (m & E1 & E2). unb E1. unb E1. inversion E1; subst. cbn [expr_from_proto] in E2.
      destruct conv as [f|] eqn:EC; [|discriminate]. rewrite <- EC in *. 
      unb E2. unb E2. inversion E2; subst. facts. chain. eauto 10.
  - rewrite rel_ok_spec. split.
    + intros (p & f & E1 & E2 & E3). rewrite E1. cbn [bind]. eexists; split; [reflexivity|]. cbn [expr_from_proto].
      rewrite E2. rewrite E3. reflexivity.
    + intros (m & E1 & E2). unb E1. inversion E1; subst. cbn [expr_from_proto] in E2. destruct conv as [f|]; [|discriminate].
      unb E2. inversion E2; subst. eauto 10.
  - inversion IH as [|? ? He _]; subst. unfold rt in He. rewrite He, rel_ok_spec. split.
    + intros [(ms & F1 & F2) (p & f & E1 & E2 & E3)]. rewrite F1. cbn [bind]. rewrite E1. cbn [bind].
      eexists; split; [reflexivity|]. cbn [expr_from_proto]. rewrite E2. rewrite <- E2. rewrite F2. cbn [bind]. rewrite E3. reflexivity.
    + intros (m & E1 & E2). unb E1. unb E1. inversion E1; subst. cbn [expr_from_proto] in E2.
      destruct conv as [f|] eqn:EC; [|discriminate]. rewrite <- EC in *.
      unb E2. unb E2. inversion E2; subst. facts. chain. eauto 10.
Qed.

Lemma agg_round_trip : forall a,
  agg_survives rel_schema canon c base s rel_ok a <->
  exists m, agg_to_proto rel_to_proto a = Ok m /\ agg_from_proto rel_schema conv canon c base m s = Ok (a, s).
Proof.
  intros a. unfold agg_survives.
  assert (HA := args_rt (ag_args a) ltac:(apply Forall_forall; intros; apply round_trip)).
  assert (HS := sorts_rt (ag_sorts a) ltac:(apply Forall_forall; intros; apply round_trip)).
  rewrite All_Forall in HA, HS.
  assert (HA' : Forall (arg_survives rel_schema canon c base s rel_ok) (ag_args a) <->
     exists ms, mapM (farg_to_proto enc) (ag_args a) = Ok ms /\ mapS (farg_from_proto dec) ms s = Ok (ag_args a, s))
    by exact HA.
  assert (HS' : Forall (fun p => sv (fst p) /\ snd p <> SK_nil) (ag_sorts a) <->
     exists ms, mapM (pairM enc (fun k => Ok (sortkind_to_proto k))) (ag_sorts a) = Ok ms /\
              mapS (pairS dec (liftS sortkind_from_proto)) ms s = Ok (ag_sorts a, s)).
  { rewrite <- HS. rewrite !Forall_forall. split; intros H [e k] Hi; exact (H _ Hi). }
  rewrite HA', HS', wire_iff. clear HA HS HA' HS'. unfold agg_to_proto, agg_from_proto.
  destruct a as [ref decl args opts out ph inv sorts]; cbn [ag_ref ag_decl ag_args ag_opts ag_out ag_phase ag_inv ag_sorts].
  split.
  - intros (HD & (ms & E1 & E2) & (t & E3 & E4) & (ss & E5 & E6)). rewrite E1. cbn [bind]. rewrite E5. cbn [bind].
    rewrite E3. cbn [bind]. eexists; split; [reflexivity|]. cbn [pa_ref pa_args pa_opts pa_out pa_phase pa_inv pa_sorts].
    rewrite E2. cbn [bind]. rewrite E6. cbn [bind]. destruct decl as [v|].
    + destruct HD as (id & D & G). unfold resolve_func. rewrite D. unfold lookup_agg. rewrite D, G. cbn [bind]. rewrite E4. reflexivity.
    + destruct HD as (id & v & D & G & HR). apply (resolve_rt _ _ _ _ _ _ looks_agg) in HR. destruct HR as [b HR].
      assert (HF := resolve_flag _ _ _ _ _ _ _ _ _ _ _ HR). unfold lookup_agg in HF. rewrite D, G in HF.
      assert (b = false) by (apply HF; auto). subst b. rewrite HR. cbn [bind]. rewrite E4. reflexivity.
  - intros (m & E1 & E2). unb E1. unb E1. unb E1. inversion E1; subst. cbn [pa_ref pa_args pa_opts pa_out pa_phase pa_inv pa_sorts] in E2.
    unb E2. unb E2. unb E2. unb E2. inversion E2; subst. facts. chain. split; [|eauto 20].
    match goal with E : resolve_func _ _ _ _ _ _ _ = Ok _ |- _ => assert (HF := resolve_flag _ _ _ _ _ _ _ _ _ _ _ E) end.
    unfold lookup_agg in HF.
    match goal with E : resolve_func _ _ _ _ _ _ ?x = Ok _ |- _ => rename x into s0 end.
    assert (HR : resolves (get_agg c) canon "NONE" "" s0 ref v) by (apply (resolve_spec lookup_agg get_agg); [exact looks_agg|eauto]).
    destruct (decode_func ref s0) as [id|] eqn:D; [|inversion HR; congruence].
    destruct b.
    + exists id. split; auto. apply HF; auto.
    + exists id, v. split; auto. split; auto. apply HF; auto.
Qed.
End RoundTrip.

