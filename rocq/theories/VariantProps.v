(** C76: function variants made on the fly, and those of declared functions. *)

From Coq Require Import ZArith String Ascii Bool Lia List.
From Verif Require Import Base FMap ExtSetModel TypesModel LoadModel LoadSpec LoadProofs SigModel DeclModel ExprModel
  ExprSpec ExprWireProofs VariantModel VariantSpec VariantProofs.
Import ListNotations.
Local Open Scope string_scope.
Local Open Scope Z_scope.

(** A scalar variant made on the fly has the name, arguments and properties asked for. *)
Theorem C76_scalar : forall parse id vb session det v,
  new_scalar_with parse id vb session det = Ok v <->
  exists name ts, says parse (id_name id) name ts /\ bare v (id_urn id) name ts /\
    has_props v vb session det /\ has_agg_props v false 0 "" None /\ im_window (fv_impl v) = "".
Proof.
  intros parse id vb session det v. unfold new_scalar_with. split.
  - intros H. destruct (parse_func_name parse (id_name id)) as [[name args]| |] eqn:E; cbn [bind] in H; inversion H; subst.
    apply parse_name_ok in E. destruct E as (ts & Hs & ->). exists name, ts. unfold bare, has_props, has_agg_props. cbn. auto 20.
  - intros (name & ts & Hs & (B1 & B2 & B3 & B4 & B5 & B6 & B7) & (P1 & P2 & P3) & (A1 & A2 & A3 & A4) & W).
    assert (E : parse_func_name parse (id_name id) = Ok (name, map (fun t => (name, PValue t)) ts))
      by (apply parse_name_ok; eauto).
    rewrite E. cbn [bind]. destruct v as [vn vu va [a1 a2 a3 a4 a5 a6 a7 a8 a9 a10 a11 a12]]. cbn in *. subst. reflexivity.
Qed.

(** An aggregate variant likewise; the decomposition is NONE unless one is given, and one
    other than NONE comes with a readable type of the intermediate state. *)
Theorem C76_aggregate : forall parse id o v, 0 <= o_max o < 2 ^ 64 ->
  (new_agg_opts parse id o = Ok v <->
   exists name ts decomp inter, says parse (id_name id) name ts /\ bare v (id_urn id) name ts /\
     has_props v (o_variadic o) (o_session o) (o_det o) /\
     or_else "NONE" (o_decomp o) decomp /\ state_type parse (o_decomp o) (o_inter o) inter /\
     has_agg_props v (o_ordered o) (signed64 (o_max o)) decomp inter /\ im_window (fv_impl v) = "").
Proof.
  intros parse id o v HM. unfold new_agg_opts. rewrite signed64_spec by auto. split.
  - intros H. destruct (intermediate_type parse _ (o_inter o)) as [inter| |] eqn:EI; cbn [bind] in H; try discriminate.
    destruct (parse_func_name parse (id_name id)) as [[name args]| |] eqn:E; cbn [bind] in H; inversion H; subst.
    apply parse_name_ok in E. destruct E as (ts & Hs & ->). apply inter_ok in EI.
    exists name, ts, (if String.eqb (o_decomp o) "" then "NONE" else o_decomp o)%string, inter.
    unfold bare, has_props, has_agg_props. cbn. repeat split; auto. apply or_else_spec.
  - intros (name & ts & decomp & inter & Hs & (B1 & B2 & B3 & B4 & B5 & B6 & B7) & (P1 & P2 & P3) & HD & HI & (A1 & A2 & A3 & A4) & W).
    assert (E : parse_func_name parse (id_name id) = Ok (name, map (fun t => (name, PValue t)) ts))
      by (apply parse_name_ok; eauto).
    apply inter_ok in HI. rewrite HI. cbn [bind]. rewrite E. cbn [bind]. apply or_else_fun in HD. subst decomp.
    destruct v as [vn vu va [a1 a2 a3 a4 a5 a6 a7 a8 a9 a10 a11 a12]]. cbn in *. subst. reflexivity.
Qed.

(** A window variant likewise; the window type is PARTITION unless one is given. *)
Theorem C76_window : forall parse id o v, 0 <= o_max o < 2 ^ 64 ->
  (new_window_opts parse id o = Ok v <->
   exists name ts decomp inter, says parse (id_name id) name ts /\ bare v (id_urn id) name ts /\
     has_props v (o_variadic o) (o_session o) (o_det o) /\
     or_else "NONE" (o_decomp o) decomp /\ state_type parse (o_decomp o) (o_inter o) inter /\
     has_agg_props v (o_ordered o) (signed64 (o_max o)) decomp inter /\
     or_else "PARTITION" (o_window o) (im_window (fv_impl v))).
Proof.
  intros parse id o v HM. unfold new_window_opts. rewrite signed64_spec by auto. split.
  - intros H. destruct (intermediate_type parse _ (o_inter o)) as [inter| |] eqn:EI; cbn [bind] in H; try discriminate.
    destruct (parse_func_name parse (id_name id)) as [[name args]| |] eqn:E; cbn [bind] in H; inversion H; subst.
    apply parse_name_ok in E. destruct E as (ts & Hs & ->). apply inter_ok in EI.
    exists name, ts, (if String.eqb (o_decomp o) "" then "NONE" else o_decomp o)%string, inter.
    unfold bare, has_props, has_agg_props. cbn [fv_name fv_urn fv_about fv_impl im_args im_variadic im_session im_det im_null
      im_return im_inter im_ordered im_max im_decomp im_window im_rest]. repeat split; auto; apply or_else_spec.
  - intros (name & ts & decomp & inter & Hs & (B1 & B2 & B3 & B4 & B5 & B6 & B7) & (P1 & P2 & P3) & HD & HI & (A1 & A2 & A3 & A4) & W).
    assert (E : parse_func_name parse (id_name id) = Ok (name, map (fun t => (name, PValue t)) ts))
      by (apply parse_name_ok; eauto).
    apply inter_ok in HI. rewrite HI. cbn [bind]. rewrite E. cbn [bind]. apply or_else_fun in HD. subst decomp.
    apply or_else_fun in W.
    destruct v as [vn vu va [a1 a2 a3 a4 a5 a6 a7 a8 a9 a10 a11 a12]].
    cbn [fv_name fv_urn fv_about fv_impl im_args im_variadic im_session im_det im_null
      im_return im_inter im_ordered im_max im_decomp im_window im_rest] in *. subst. reflexivity.
Qed.

(** The short constructors are the long ones with nothing asked for. *)
Theorem C76_plain : forall parse id,
  new_scalar parse id = new_scalar_with parse id None false false /\
  new_agg parse id = new_agg_opts parse id (VOpts None false false false 0 "" "" "") /\
  new_window parse id = new_window_opts parse id (VOpts None false false false 0 "" "" "").
Proof. intros parse id. repeat split; reflexivity. Qed.

(** They never return an error: they panic, exactly if an argument type of the name cannot be
    read, or the function is decomposable without a readable intermediate type. *)
Theorem C76_panics : forall parse id,
  (forall vb s d, new_scalar_with parse id vb s d <> Err /\
     (new_scalar_with parse id vb s d = Panic <-> misspelt parse (id_name id))) /\
  (forall o, new_agg_opts parse id o <> Err /\
     (new_agg_opts parse id o = Panic <->
      misspelt parse (id_name id) \/ no_state_type parse (o_decomp o) (o_inter o))) /\
  (forall o, new_window_opts parse id o <> Err /\
     (new_window_opts parse id o = Panic <->
      misspelt parse (id_name id) \/ no_state_type parse (o_decomp o) (o_inter o))).
Proof.
  intros parse id. pose proof (parse_name_not_err parse (id_name id)) as HN.
  pose proof (parse_name_panic parse (id_name id)) as HP.
  split; [|split].
  - intros vb s d. unfold new_scalar_with.
    destruct (parse_func_name parse (id_name id)) as [[n a]| |]; cbn [bind]; (split; [congruence|]); rewrite <- HP; split; congruence.
  - intros o. unfold new_agg_opts. pose proof (inter_not_err parse (if String.eqb (o_decomp o) "" then "NONE" else o_decomp o)%string (o_inter o)) as IN.
    rewrite <- inter_panic, <- HP. destruct (intermediate_type parse _ (o_inter o)) as [i| |]; cbn [bind]; [|congruence|].
    + destruct (parse_func_name parse (id_name id)) as [[n a]| |]; cbn [bind]; (split; [congruence|]); (split; [intros HX; left; congruence|intros [HX|HX]; congruence]).
    + split; [discriminate|]. split; auto.
  - intros o. unfold new_window_opts. pose proof (inter_not_err parse (if String.eqb (o_decomp o) "" then "NONE" else o_decomp o)%string (o_inter o)) as IN.
    rewrite <- inter_panic, <- HP. destruct (intermediate_type parse _ (o_inter o)) as [i| |]; cbn [bind]; [|congruence|].
    + destruct (parse_func_name parse (id_name id)) as [[n a]| |]; cbn [bind]; (split; [congruence|]); (split; [intros HX; left; congruence|intros [HX|HX]; congruence]).
    + split; [discriminate|]. split; auto.
Qed.

(** Every variant made on the fly is bare: see [bare] for what that means. *)
Theorem C76_bare : forall parse v, on_the_fly parse v ->
  exists compound name ts, says parse compound name ts /\ bare v (fv_urn v) name ts.
Proof.
  intros parse v H. unfold bare.
  inversion H as [id ? E|id vb s d ? E|id ? E|id o ? E|id ? E|id o ? E]; subst;
    unfold new_scalar, new_scalar_with, new_agg, new_agg_opts, new_window, new_window_opts in E;
    try (destruct (intermediate_type parse _ (o_inter o)) as [inter| |]; cbn [bind] in E; try discriminate);
    destruct (parse_func_name parse (id_name id)) as [[name args]| |] eqn:EP; cbn [bind] in E; inversion E; subst;
    apply parse_name_ok in EP; destruct EP as (ts & Hs & ->); exists (id_name id), name, ts; cbn; auto 12.
Qed.

(** What it answers: its compound name spells the types by their short names, it takes as many
    arguments as there are types (with the variadic behaviour added), and it has an
    intermediate type if one was given. *)
Theorem C76_answers : forall v urn name ts, bare v urn name ts ->
  fv_id v = ExtId urn (name ++ ":" ++ String.concat "_" (map fdt_short ts)) /\
  (im_variadic (fv_impl v) = None -> fv_min v = Z.of_nat (List.length ts) /\ fv_max v = Z.of_nat (List.length ts)) /\
  (forall b, im_variadic (fv_impl v) = Some b ->
     fv_min v = Z.of_nat (List.length ts) + v_min b /\ fv_max v = Z.of_nat (List.length ts) + v_max b) /\
  (forall f, fv_intermediate v = Ok f <-> im_inter (fv_impl v) = Some f) /\
  fv_intermediate v <> Panic.
Proof.
  intros v urn name ts (B1 & B2 & B3 & B4 & B5 & B6 & B7).
  assert (HL : List.length (fparams v) = List.length ts) by (unfold fparams; rewrite B4, !map_length; reflexivity).
  split; [|split; [|split; [|split]]].
  - unfold fv_id, fparams. rewrite B1, B2, B4. do 4 f_equal. rewrite !map_map. reflexivity.
  - intros HV. unfold fv_min, fv_max, min_argument_count, max_argument_count. rewrite HV, HL. auto.
  - intros b HV. unfold fv_min, fv_max, min_argument_count, max_argument_count. rewrite HV, HL. auto.
  - intros f. unfold fv_intermediate. destruct (im_inter (fv_impl v)); split; congruence.
  - unfold fv_intermediate. destruct (im_inter (fv_impl v)); discriminate.
Qed.

(** Its ID is the one it was made from exactly if that has a colon and spells every type by
    its short name. *)
Theorem C76_id_kept : forall parse v compound name ts, says parse compound name ts ->
  bare v (fv_urn v) name ts ->
  (fv_id v = ExtId (fv_urn v) compound <-> compound = name ++ ":" ++ String.concat "_" (map fdt_short ts))
  /\ (fv_id v = ExtId (fv_urn v) compound <->
      In ":"%char (chars compound) /\ exists words, name_parts compound name words /\ words = map fdt_short ts).
Proof.
  intros parse v compound name ts (words & HP & HM) HB. destruct (C76_answers _ _ _ _ HB) as (HID & _). rewrite HID.
  assert (E1 : ExtId (fv_urn v) (name ++ ":" ++ String.concat "_" (map fdt_short ts))%string = ExtId (fv_urn v) compound <->
    compound = (name ++ ":" ++ String.concat "_" (map fdt_short ts))%string) by (split; [intros H; injection H; auto|intros <-; auto]).
  split; [exact E1|]. rewrite E1. clear E1.
  assert (HL : List.length (map fdt_short ts) = List.length words).
  { rewrite map_length. rewrite <- (map_length parse words), HM, map_length. reflexivity. }
  inversion HP as [n HN X1 X2|n HN X1 X2|n text ws HN HT HS X1 X2]; subst.
  - split; [|intros [H _]; contradiction]. intros H. apply app_longer in H. discriminate.
  - destruct ts; [|discriminate]. cbn [map String.concat]. split; [|reflexivity]. intros _. split.
    + apply in_chars_colon.
    + exists []. auto.
  - split.
    + intros H. apply app_inv_l in H. apply app_inv_l in H. destruct HS as (S1 & S2 & S3).
      split; [apply in_chars_colon|]. exists words. split; [exact HP|]. symmetry. apply concat_words; auto. congruence.
    + intros (_ & ws' & HP' & ->). apply name_parts_cut in HP'. apply name_parts_cut in HP.
      destruct (match cut_colon _ with Some p => p | None => _ end) as [n rest]. destruct HP as [_ ->]. destruct HP' as [_ ->].
      destruct HS as (_ & _ & ->). reflexivity.
Qed.

(** A name without a colon gets one. *)
Theorem C76_id_refuted : exists parse id v, new_scalar parse id = Ok v /\ fv_id v <> id.
Proof.
  exists (fun _ => None), (ExtId "urn" "now"), (FVariant "now" "urn" 0 (FImpl [] None false false NHNone None None false 0 "" "" 0)).
  split; [reflexivity|]. unfold fv_id. cbn. discriminate.
Qed.

(** The limit of the number of values is kept below 2^63 only: above, it becomes negative. *)
Theorem C76_max_set : forall parse id o v, 0 <= o_max o < 2 ^ 64 ->
  new_agg_opts parse id o = Ok v \/ new_window_opts parse id o = Ok v ->
  (o_max o < 2 ^ 63 -> im_max (fv_impl v) = o_max o) /\
  (2 ^ 63 <= o_max o -> im_max (fv_impl v) = o_max o - 2 ^ 64 /\ im_max (fv_impl v) < 0).
Proof.
  intros parse id o v HM H.
  assert (HX : im_max (fv_impl v) = int_of_uint (o_max o)).
  { unfold new_agg_opts, new_window_opts in H.
    destruct H as [H|H]; destruct (intermediate_type parse _ (o_inter o)) as [inter| |]; cbn [bind] in H; try discriminate;
      destruct (parse_func_name parse (id_name id)) as [[name args]| |]; cbn [bind] in H; inversion H; reflexivity. }
  rewrite HX. unfold int_of_uint. destruct (Z.ltb_spec (o_max o) (2 ^ 63)); split; intros; lia.
Qed.

Theorem C76_max_set_refuted : exists parse id o v,
  0 <= o_max o < 2 ^ 64 /\ new_agg_opts parse id o = Ok v /\ im_max (fv_impl v) <> o_max o.
Proof.
  exists (fun _ => None), (ExtId "urn" "f"), (VOpts None false false false (2 ^ 64 - 1) "" "" ""),
    (FVariant "f" "urn" 0 (FImpl [] None false false NHNone None None false (-1) "NONE" "" 0)).
  split; [cbn; lia|]. split; [reflexivity|]. cbn. discriminate.
Qed.

(** Having no nullability rule, a variant made on the fly matches no arguments: without
    variadic behaviour it matches the empty list if it has no arguments, rejects lists of
    another length, and fails on every list of the right length, whatever its types. *)
Theorem C76_match : forall parse v, on_the_fly parse v ->
  (forall ts, fv_match v ts = Ok true -> ts = []) /\
  (forall t pos, fv_match_at v t pos <> Ok true) /\
  (im_variadic (fv_impl v) = None ->
     (forall ts, fv_match v ts =
        (if Nat.eqb (List.length ts) (List.length (im_args (fv_impl v)))
         then match ts with [] => Ok true | _ => Err end else Ok false)) /\
     (forall t pos, fv_match_at v t pos =
        (if Z.ltb pos (Z.of_nat (List.length (im_args (fv_impl v)))) then Err else Ok false))).
Proof.
  intros parse v H. destruct (C76_bare _ _ H) as (c & name & fs & _ & (B1 & B2 & B3 & B4 & B5 & B6 & B7)).
  unfold fv_match, fv_match_at, fparams. rewrite B5. split; [|split].
  - intros ts. apply no_rule_match.
  - intros t pos. unfold match_at. destruct (Z.ltb pos 0); [discriminate|].
    destruct (func_defs _) as [ds| |]; try discriminate. apply no_rule_at.
  - intros HV. rewrite HV, B4. rewrite map_length. split.
    + intros ts. unfold match_arguments. rewrite values_defs, !map_length. cbn [bind].
      destruct (Nat.eqb_spec (List.length ts) (List.length fs)) as [HL|HL]; cbn [negb]; [|reflexivity].
      destruct ts as [|a ts].
      * destruct fs; [|discriminate]. reflexivity.
      * cbn [match_each]. unfold match_argument_at. replace (Nat.leb (List.length fs) 0) with false
          by (symmetry; apply Nat.leb_gt; cbn in HL; lia).
        destruct (declared_in_range fs 0%nat) as [f Hf]; [cbn in HL; lia|]. rewrite Hf. reflexivity.
    + intros t pos. unfold match_at. rewrite values_defs. destruct (Z.ltb_spec pos 0) as [Hp|Hp].
      * destruct (Z.ltb_spec pos (Z.of_nat (List.length fs))); [reflexivity|lia].
      * unfold match_argument_at. destruct (Z.ltb_spec pos (Z.of_nat (List.length fs))) as [Hq|Hq].
        -- replace (Nat.leb (List.length fs) (Z.to_nat pos)) with false by (symmetry; apply Nat.leb_gt; lia).
           destruct (declared_in_range fs (Z.to_nat pos)) as [f Hf]; [lia|]. rewrite Hf. reflexivity.
        -- replace (Nat.leb (List.length fs) (Z.to_nat pos)) with true by (symmetry; apply Nat.leb_le; lia). reflexivity.
Qed.

Definition reads_i32 (s : string) : option fdt := if String.eqb s "i32" then Some (FPrim PrimI32 NullRequired 0) else None.

(** Arguments of just the declared types are not matched. *)
Theorem C76_match_refuted : exists parse id v, new_scalar parse id = Ok v /\
  parse = reads_i32 /\ id = ExtId "urn" "neg:i32" /\ fv_match v [TPrim PrimI32 NullRequired 0] = Err.
Proof. exists reads_i32, (ExtId "urn" "neg:i32"). eexists. repeat split. Qed.

(** The result type cannot be asked for: that panics for all arguments. *)
Theorem C76_no_result_type : forall parse v, on_the_fly parse v -> forall ts s, fv_resolve_type v ts s = Panic.
Proof.
  intros parse v H ts s. destruct (C76_bare _ _ H) as (c & name & fs & _ & (B1 & B2 & B3 & B4 & B5 & B6 & B7)).
  unfold fv_resolve_type. rewrite B6. reflexivity.
Qed.

(** A declared function has a variant for each implementation, in order, as declared; those
    of aggregate and window functions have the default decomposition and window type filled
    in. *)
Theorem C76_declared : forall urn f,
  Forall2 (fun i v => presents urn f i (im_decomp i) (im_window i) v) (fd_impls f) (scalar_get_variants urn f) /\
  Forall2 (fun i v => exists d, or_else "NONE" (im_decomp i) d /\ presents urn f i d (im_window i) v)
    (fd_impls f) (agg_get_variants urn f) /\
  Forall2 (fun i v => exists d w, or_else "NONE" (im_decomp i) d /\ or_else "PARTITION" (im_window i) w /\
      presents urn f i d w v) (fd_impls f) (window_get_variants urn f).
Proof.
  intros urn f. unfold scalar_get_variants, agg_get_variants, window_get_variants, presents.
  split; [|split]; induction (fd_impls f) as [|i l IH]; cbn [map]; constructor; auto.
  - cbn [fv_name fv_urn fv_about fv_impl]. auto 20.
  - exists (if String.eqb (im_decomp i) "" then "NONE" else im_decomp i)%string. split; [apply or_else_spec|].
    cbn [fv_name fv_urn fv_about fv_impl]. destruct (String.eqb_spec (im_decomp i) ""); repeat split; auto.
  - exists (if String.eqb (im_decomp i) "" then "NONE" else im_decomp i)%string,
      (if String.eqb (im_window i) "" then "PARTITION" else im_window i)%string.
    split; [apply or_else_spec|]. split; [apply or_else_spec|].
    cbn [fv_name fv_urn fv_about fv_impl].
    destruct (String.eqb_spec (im_decomp i) "") as [E|E]; cbn [with_decomp im_window];
      destruct (String.eqb_spec (im_window i) "") as [E'|E']; repeat split; auto.
Qed.

(** [ResolveURN] gives each implementation as declared, without the defaults: the same as
    [GetVariants] exactly if every implementation states its decomposition (and window type). *)
Theorem C76_resolve_urn : forall urn f,
  Forall2 (fun i v => presents urn f i (im_decomp i) (im_window i) v) (fd_impls f) (resolve_urn urn f) /\
  resolve_urn urn f = scalar_get_variants urn f /\
  (resolve_urn urn f = agg_get_variants urn f <-> Forall (fun i => im_decomp i <> "") (fd_impls f)) /\
  (resolve_urn urn f = window_get_variants urn f <->
   Forall (fun i => im_decomp i <> "" /\ im_window i <> "") (fd_impls f)).
Proof.
  intros urn f. split; [|split; [reflexivity|split]].
  - unfold resolve_urn, presents. induction (fd_impls f) as [|i l IH]; cbn [map]; constructor; auto.
    cbn [fv_name fv_urn fv_about fv_impl]. auto 20.
  - unfold resolve_urn, agg_get_variants. induction (fd_impls f) as [|i l IH]; cbn [map]; [split; auto|]. split.
    + intros H. injection H as HI HL. constructor; [|apply IH; auto].
      intros E. rewrite E in HI. cbn in HI. rewrite HI in E. discriminate.
    + intros H. inversion H as [|? ? H1 H2]; subst. f_equal; [|apply IH; auto].
      destruct (String.eqb_spec (im_decomp i) ""); [contradiction|reflexivity].
  - unfold resolve_urn, window_get_variants. induction (fd_impls f) as [|i l IH]; cbn [map]; [split; auto|]. split.
    + intros H. injection H as HI HL. constructor; [|apply IH; auto].
      cbv zeta in HI. destruct (String.eqb_spec (im_decomp i) "") as [E|E].
      * exfalso. assert (E2 : im_decomp i = "NONE").
        { rewrite HI. cbn [with_decomp im_window]. destruct (String.eqb (im_window i) ""); reflexivity. }
        rewrite E in E2. discriminate.
      * split; auto. intros E'. destruct (String.eqb_spec (im_window i) "") as [E3|E3]; [|contradiction].
        assert (E2 : im_window i = "PARTITION") by (rewrite HI; reflexivity). rewrite E' in E2. discriminate.
    + intros H. inversion H as [|? ? [H1 H1'] H2]; subst. f_equal; [|apply IH; auto].
      cbv zeta. destruct (String.eqb_spec (im_decomp i) ""); [contradiction|].
      destruct (String.eqb_spec (im_window i) ""); [contradiction|reflexivity].
Qed.

Theorem C76_resolve_urn_refuted : exists urn f v v',
  In v (resolve_urn urn f) /\ In v' (window_get_variants urn f) /\ fv_id v = fv_id v' /\
  im_window (fv_impl v) = "" /\ im_window (fv_impl v') = "PARTITION".
Proof.
  exists "urn", (FDecl "rank" 0 [FImpl [] None false true NHMirror None None false 0 "" "" 0]). do 2 eexists.
  split; [left; reflexivity|]. split; [left; reflexivity|]. repeat split.
Qed.

(** ** the hypotheses can be met *)

Example C76_ex_agg :
  new_agg_opts reads_i32 (ExtId "urn" "sum:i32") (VOpts (Some (Variadic 1 2 Consistent)) true false true 5 "MANY" "i32" "") =
  Ok (FVariant "sum" "urn" 0 (FImpl [("sum", PValue (FPrim PrimI32 NullRequired 0))] (Some (Variadic 1 2 Consistent)) true false
        NHNone None (Some (FPrim PrimI32 NullRequired 0)) true 5 "MANY" "" 0)).
Proof. reflexivity. Qed.
Example C76_ex_says : says reads_i32 "add:i32_i32" "add" [FPrim PrimI32 NullRequired 0; FPrim PrimI32 NullRequired 0].
Proof.
  exists ["i32"; "i32"]. split; [|reflexivity]. apply (NP_args "add" "i32_i32").
  - intros H. cbn in H. intuition discriminate.
  - discriminate.
  - split; [discriminate|]. split; [|reflexivity]. repeat constructor; intros H; cbn in H; intuition discriminate.
Qed.
Example C76_ex_id : exists v, new_scalar reads_i32 (ExtId "urn" "add:i32_i32") = Ok v /\ fv_id v = ExtId "urn" "add:i32_i32".
Proof. eexists. split; reflexivity. Qed.
Example C76_ex_misspelt : new_window reads_i32 (ExtId "urn" "add:i33") = Panic.
Proof. reflexivity. Qed.
Example C76_ex_no_state : new_agg_opts reads_i32 (ExtId "urn" "sum:i32") (VOpts None false false false 0 "ONE" "" "") = Panic.
Proof. reflexivity. Qed.
Example C76_ex_fly : on_the_fly reads_i32 (FVariant "f" "urn" 0 (FImpl [] None false false NHNone None None false 0 "" "" 0)).
Proof. apply (Fly_scalar _ (ExtId "urn" "f")). reflexivity. Qed.

Print Assumptions C76_scalar.
Print Assumptions C76_aggregate.
Print Assumptions C76_window.
Print Assumptions C76_plain.
Print Assumptions C76_panics.
Print Assumptions C76_bare.
Print Assumptions C76_answers.
Print Assumptions C76_id_kept.
Print Assumptions C76_id_refuted.
Print Assumptions C76_max_set.
Print Assumptions C76_max_set_refuted.
Print Assumptions C76_match.
Print Assumptions C76_match_refuted.
Print Assumptions C76_no_result_type.
Print Assumptions C76_declared.
Print Assumptions C76_resolve_urn.
Print Assumptions C76_resolve_urn_refuted.
