(** Properties of declared functions (C68). *)

From Coq Require Import ZArith String Ascii Bool Lia List.
From Verif Require Import Base FMap TypesModel ExtSetModel LoadModel LoadSpec LoadProofs LoadProps SigModel SigSpec SigProofs SigProps FuncModel ExprModel ExprOpsModel ExprSpec ExprBuildProofs ExprProps TestCaseProofs DeclModel DeclSpec.
Import ListNotations.
Local Open Scope string_scope.

(** ** arguments *)

Lemma text_field_ok : forall k m s, text_field k m = Ok s <-> text_at m k s.
Proof.
  intros k m s. unfold text_field, text_at. destruct (fm_get String.eqb k m) as [v|].
  - destruct v; cbn [as_text]; (split; [intros H; try discriminate|intros [H|[H _]]; try discriminate]).
    + injection H as ->. auto.
    + injection H as ->. reflexivity.
  - split; [intros [= <-]; auto|]. intros [H|[_ ->]]; [discriminate|reflexivity].
Qed.
Lemma text_field_cases : forall k m,
  (exists s, text_field k m = Ok s /\ text_or_missing m k) \/ text_field k m = Panic /\ ~ text_or_missing m k.
Proof.
  intros k m. unfold text_field, text_or_missing. destruct (fm_get String.eqb k m) as [v|].
  - destruct v; cbn [as_text]; try (right; split; [reflexivity|]; intros H; destruct (H _ eq_refl) as [s E]; discriminate).
    left. exists s. split; [reflexivity|]. intros v [= <-]. exists s. reflexivity.
  - left. exists "". split; [reflexivity|discriminate].
Qed.
Lemma texts_ok : forall l ss, mapM as_text l = Ok ss <-> l = map YStr ss.
Proof.
  induction l as [|v l IH]; intros ss; cbn [mapM].
  - split; [intros [= <-]; reflexivity|]. destruct ss; [reflexivity|discriminate].
  - fold (mapM as_text). destruct v; cbn [as_text]; try (split; [discriminate|destruct ss; discriminate]).
    destruct (mapM as_text l) as [ys| |] eqn:E.
    + split; [intros [= <-]; cbn; f_equal; apply IH; reflexivity|].
      destruct ss as [|s' ss]; [discriminate|]. intros [= -> H]. f_equal. f_equal.
      apply IH in H. congruence.
    + split; [discriminate|]. destruct ss as [|s' ss]; [discriminate|]. intros [= _ H]. apply IH in H. discriminate.
    + split; [discriminate|]. destruct ss as [|s' ss]; [discriminate|]. intros [= _ H]. apply IH in H. discriminate.
Qed.
Lemma texts_cases : forall l,
  (exists ss, mapM as_text l = Ok ss /\ Forall is_text l) \/ mapM as_text l = Panic /\ ~ Forall is_text l.
Proof.
  induction l as [|v l IH]; cbn [mapM]; [left; exists []; auto|]. fold (mapM as_text).
  destruct v; cbn [as_text]; try (right; split; [reflexivity|]; intros H; inversion H as [|? ? [s E] _]; discriminate).
  destruct IH as [(ss & -> & F)|(-> & F)].
  - left. exists (s :: ss). split; [reflexivity|]. constructor; [exists s; reflexivity|exact F].
  - right. split; [reflexivity|]. intros H. inversion H; auto.
Qed.
Lemma flag_cases : forall m,
  let r := match fm_get String.eqb "constant" m with None => Ok false | Some (YBool b) => Ok b | Some _ => Panic end in
  (exists b, r = Ok b /\ flag_at m "constant" b /\ flag_or_missing m "constant" /\
     (forall b', flag_at m "constant" b' -> b' = b)) \/
  r = Panic /\ ~ flag_or_missing m "constant" /\ (forall b', ~ flag_at m "constant" b').
Proof.
  intros m. cbn zeta. unfold flag_at, flag_or_missing. destruct (fm_get String.eqb "constant" m) as [v|].
  - destruct v; try (right; split; [reflexivity|]; split;
      [intros H; destruct (H _ eq_refl) as [b' E]; discriminate|intros b' [H|[H _]]; discriminate]).
    left. exists b. split; [reflexivity|]. split; [auto|]. split; [intros v [= <-]; eauto|].
    intros b' [[= <-]|[H _]]; [reflexivity|discriminate].
  - left. exists false. split; [reflexivity|]. split; [auto|]. split; [discriminate|].
    intros b' [H|[_ ->]]; [discriminate|reflexivity].
Qed.
Lemma type_expr_cases : forall parse v,
  (exists s f, v = YStr s /\ parse s = Some f /\ type_expr parse v = Ok f) \/
  type_expr parse v = Err /\ unparsed parse v \/ type_expr parse v = Panic /\ v = YNull.
Proof.
  intros parse v. destruct v; cbn [type_expr]; auto;
    try (right; left; split; [reflexivity|]; split; [discriminate|intros s' E; discriminate]).
  destruct (parse s) as [f|] eqn:E; [left; eauto 6|].
  right. left. split; [reflexivity|]. split; [discriminate|]. intros s' [= <-]. exact E.
Qed.

Definition outcome (parse : string -> option fdt) (m : fmap string yval) (r : res decl) : Prop :=
  match r with
  | Ok d => reads parse m d /\ (forall d', reads parse m d' -> d' = d) /\ ~ refused parse m /\ ~ stops m
  | Err => refused parse m /\ (forall d, ~ reads parse m d) /\ ~ stops m
  | Panic => stops m /\ (forall d, ~ reads parse m d) /\ ~ refused parse m
  end.
Lemma text_or_missing_iff : forall m k, text_or_missing m k <-> exists s, text_at m k s.
Proof.
  intros m k. destruct (text_field_cases k m) as [(s & E & H)|(E & H)].
  - split; [|auto]. exists s. apply text_field_ok. exact E.
  - split; [tauto|]. intros (s & Hs). apply text_field_ok in Hs. congruence.
Qed.
Lemma reads_texts : forall parse m d, reads parse m d -> text_or_missing m "name" /\ text_or_missing m "description".
Proof. intros parse m d H. inversion H; subst; rewrite !text_or_missing_iff; eauto. Qed.
Lemma stops_panic : forall parse m r, stops m -> (forall d, ~ reads parse m d) -> r = Panic -> outcome parse m r.
Proof. intros parse m r H1 H2 ->. cbn. split; [exact H1|]. split; [exact H2|]. intros [H _]. auto. Qed.
Lemma at_unique : forall m k s s', text_at m k s -> text_at m k s' -> s = s'.
Proof. intros m k s s' H H'. apply text_field_ok in H, H'. congruence. Qed.

Lemma decode_outcome : forall parse m, outcome parse m (decode_arg parse m).
Proof.
  intros parse m. unfold decode_arg.
  destruct (text_field_cases "name" m) as [(n & En & Hn)|(En & Hn)]; rewrite En; cbn [bind];
    [|apply stops_panic; auto using St_name; intros d H; apply reads_texts in H; tauto].
  destruct (text_field_cases "description" m) as [(e & Ee & He)|(Ee & He)]; rewrite Ee; cbn [bind];
    [|apply stops_panic; auto using St_desc; intros d H; apply reads_texts in H; tauto].
  apply text_field_ok in En, Ee.
  destruct (fm_get String.eqb "options" m) as [o|] eqn:Eo.
  { assert (NO : ~ (exists l, o = YSeq l /\ Forall is_text l) -> outcome parse m Panic).
    { intros H. apply stops_panic; auto; [eapply St_options; eauto|]. intros d R. inversion R; subst; try congruence.
      apply H. exists (map YStr opts). split; [congruence|]. apply Forall_forall. intros x Hx.
      apply in_map_iff in Hx as (s & <- & _). exists s. reflexivity. }
    destruct o; try (apply NO; intros (l' & E & _); discriminate).
    destruct (texts_cases l) as [(ss & E & F)|(E & F)]; rewrite E; cbn [bind].
    - cbn. apply texts_ok in E. subst l. split; [apply R_enum; auto|]. split; [|split].
      + intros d' R. inversion R; subst; try congruence.
        rewrite (at_unique _ _ _ _ H En), (at_unique _ _ _ _ H0 Ee). rewrite Eo in H1. injection H1 as H1.
        f_equal. f_equal. apply (f_equal (map (fun v => match v with YStr s => s | _ => "" end))) in H1.
        rewrite !map_map, !map_id in H1. auto.
      + intros (_ & H & _). congruence.
      + intros S. inversion S; subst; try tauto; try congruence. apply H0. exists (map YStr ss). split; [congruence|exact F].
    - apply NO. intros (l' & [= <-] & H). auto. }
  assert (NS : forall v, fm_get String.eqb "value" m = Some v -> v <> YNull -> flag_or_missing m "constant" -> ~ stops m).
  { intros v Ev Nv Hf S. inversion S; subst; try tauto; congruence. }
  destruct (fm_get String.eqb "value" m) as [v|] eqn:Ev.
  { destruct (flag_cases m) as [(b & Eb & Fb & Hb & Ub)|(Eb & Hb & Ub)]; rewrite Eb; cbn [bind].
    - destruct (type_expr_cases parse v) as [(s & f & -> & Ps & Et)|[(Et & Hu)|(Et & Hu)]]; rewrite Et; cbn [bind outcome].
      + split; [eapply R_value; eauto|]. split; [|split].
        * intros d' R. inversion R; subst; try congruence.
          rewrite (at_unique _ _ _ _ H En), (at_unique _ _ _ _ H0 Ee). rewrite Ev in H2. injection H2 as <-.
          rewrite Ps in H3. injection H3 as <-. rewrite (Ub _ H4). reflexivity.
        * intros (_ & _ & [(v & Hv & _ & Hu)|(Hv & _)]); [|congruence]. rewrite Ev in Hv. injection Hv as <-.
          rewrite (Hu s eq_refl) in Ps. discriminate.
        * apply (NS _ eq_refl); auto. discriminate.
      + assert (Z : ~ stops m) by (apply (NS _ eq_refl); auto; apply Hu).
        split; [split; [exact Z|]; split; [exact Eo|]; left; eauto|]. split; [|exact Z].
        intros d R. inversion R; subst; try congruence. rewrite Ev in H2. injection H2 as ->.
        destruct Hu as [_ Hu]. rewrite (Hu s eq_refl) in H3. discriminate.
      + subst v. apply (stops_panic parse m Panic); auto using St_value. intros d R. inversion R; subst; congruence.
    - apply stops_panic; auto; [eapply St_constant; eauto|]. intros d R. inversion R; subst; try congruence. eapply Ub; eauto. }
  destruct (fm_get String.eqb "type" m) as [t|] eqn:Et0.
  { assert (NT : t <> YNull -> ~ stops m) by (intros Nt S; inversion S; subst; try tauto; congruence).
    destruct (type_expr_cases parse t) as [(s & f & -> & Ps & Et)|[(Et & Hu)|(Et & Hu)]]; rewrite Et; cbn [bind outcome].
    - split; [eapply R_type; eauto|]. split; [|split].
      + intros d' R. inversion R; subst; try congruence.
        rewrite (at_unique _ _ _ _ H En), (at_unique _ _ _ _ H0 Ee). rewrite Et0 in H3. injection H3 as <-. congruence.
      + intros (_ & _ & [(v & Hv & _)|(_ & v & Hv & _ & Hu)]); [congruence|]. rewrite Et0 in Hv. injection Hv as <-.
        rewrite (Hu s eq_refl) in Ps. discriminate.
      + apply NT. discriminate.
    - assert (Z : ~ stops m) by (apply NT; apply Hu).
      split; [split; [exact Z|]; split; [exact Eo|]; right; eauto|]. split; [|exact Z].
      intros d R. inversion R; subst; try congruence. rewrite Et0 in H3. injection H3 as ->.
      destruct Hu as [_ Hu]. rewrite (Hu s eq_refl) in H4. discriminate.
    - subst t. apply (stops_panic parse m Panic); auto using St_type. intros d R. inversion R; subst; congruence. }
  cbn. split; [eapply R_none; eauto|]. split; [|split].
  - intros d' R. inversion R; subst; try congruence.
  - intros (_ & _ & [(v & Hv & _)|(_ & v & Hv & _)]); congruence.
  - intros S. inversion S; subst; try tauto; congruence.
Qed.

(** One argument: read, refused with an error or stopping the program, exactly as specified. *)
Theorem C68_argument : forall parse m,
  (forall d, decode_arg parse m = Ok d <-> reads parse m d) /\
  (decode_arg parse m = Err <-> refused parse m) /\
  (decode_arg parse m = Panic <-> stops m).
Proof.
  intros parse m. generalize (decode_outcome parse m). destruct (decode_arg parse m) as [d| |]; cbn.
  - intros (R & U & N1 & N2). split; [|split; split; [discriminate|tauto|discriminate|tauto]].
    intros d'. split; [intros [= <-]; exact R|]. intros R'. f_equal. symmetry. auto.
  - intros (R & U & N1). split; [intros d'; split; [discriminate|intros R'; exfalso; eapply U; eauto]|].
    split; split; try discriminate; tauto.
  - intros (R & U & N1). split; [intros d'; split; [discriminate|intros R'; exfalso; eapply U; eauto]|].
    split; split; try discriminate; tauto.
Qed.

(** A list of arguments: all are read, in order, or the first that is not decides. *)
Theorem C68_arguments : forall parse ms,
  (forall ds, decode_args parse ms = Ok ds <-> Forall2 (reads parse) ms ds) /\
  (decode_args parse ms = Err <-> exists l m r, ms = (l ++ m :: r)%list /\ Forall (fun x => exists d, reads parse x d) l /\ refused parse m) /\
  (decode_args parse ms = Panic <-> exists l m r, ms = (l ++ m :: r)%list /\ Forall (fun x => exists d, reads parse x d) l /\ stops m).
Proof.
  intros parse. unfold decode_args. induction ms as [|m ms (IO & IE & IP)]; cbn [mapM].
  - split; [|split].
    + intros ds. split; [intros [= <-]; constructor|]. intros H. inversion H. reflexivity.
    + split; [discriminate|]. intros ([|? ?] & m & r & E & _); discriminate.
    + split; [discriminate|]. intros ([|? ?] & m & r & E & _); discriminate.
  - fold (mapM (decode_arg parse)). generalize (decode_outcome parse m).
    destruct (decode_arg parse m) as [d| |]; cbn [outcome]; intros (R & U).
    + destruct U as (U & N1 & N2).
      assert (Step : forall (Q : fmap string yval -> Prop), ~ Q m ->
        ((exists l x r, ms = (l ++ x :: r)%list /\ Forall (fun x => exists d, reads parse x d) l /\ Q x) <->
         (exists l x r, m :: ms = (l ++ x :: r)%list /\ Forall (fun x => exists d, reads parse x d) l /\ Q x))).
      { intros Q NQ. split.
        - intros (l & x & r & -> & F & Hx). exists (m :: l), x, r. split; [reflexivity|]. split; [|exact Hx]. constructor; eauto.
        - intros ([|y l] & x & r & E & F & Hx); injection E as -> ->; [contradiction|].
          inversion F; subst. exists l, x, r. auto. }
      rewrite (Step _ N1) in IE. rewrite (Step _ N2) in IP.
      destruct (mapM (decode_arg parse) ms) as [ys| |].
      * split; [|split; split; [discriminate|intros H; apply IE in H; discriminate|discriminate|intros H; apply IP in H; discriminate]].
        intros ds. split; [intros [= <-]; constructor; [exact R|apply IO; reflexivity]|].
        intros H. inversion H as [|? d' ? ds' H1 H2]; subst. apply IO in H2. injection H2 as ->. rewrite (U _ H1). reflexivity.
      * split; [|split; split; try discriminate; try (intros _; apply IE; reflexivity); try reflexivity].
        -- intros ds. split; [discriminate|]. intros H. inversion H as [|? d' ? ds' H1 H2]; subst. apply IO in H2. discriminate.
        -- intros H. apply IP in H. discriminate.
      * split; [|split; split; try discriminate; try (intros _; apply IP; reflexivity); try reflexivity].
        -- intros ds. split; [discriminate|]. intros H. inversion H as [|? d' ? ds' H1 H2]; subst. apply IO in H2. discriminate.
        -- intros H. apply IE in H. discriminate.
    + destruct U as (U & N). split; [|split; split; try discriminate; try reflexivity].
      * intros ds. split; [discriminate|]. intros H. inversion H as [|? d' ? ds' H1 H2]; subst. exfalso. eapply U; eauto.
      * intros _. exists [], m, ms. auto.
      * intros ([|y l] & x & r & E & F & Hx); injection E as -> ->; [contradiction|].
        inversion F as [|? ? [d' H] _]; subst. exfalso. eapply U; eauto.
    + destruct U as (U & N). split; [|split; split; try discriminate; try reflexivity].
      * intros ds. split; [discriminate|]. intros H. inversion H as [|? d' ? ds' H1 H2]; subst. exfalso. eapply U; eauto.
      * intros ([|y l] & x & r & E & F & Hx); injection E as -> ->; [contradiction|].
        inversion F as [|? ? [d' H] _]; subst. exfalso. eapply U; eauto.
      * intros _. exists [], m, ms. auto.
Qed.

(** ** words *)

Lemma fdt_short_named : forall f, named f (fdt_short f).
Proof.
  fix IH 1. intros f. destruct f; cbn [fdt_short]; try (constructor; fail).
  - apply N_prim. destruct p; cbn [short_string]; do 14 (try (left; reflexivity); right); left; reflexivity.
  - destruct k as [k| | | |]; [destruct k|..]; apply N_single; cbn [short_string]; do 6 (try (left; reflexivity); right); left; reflexivity.
  - apply N_derived. apply IH.
Qed.
Lemma table_fun : forall A (l : list (A * string)) k s s', NoDup (map fst l) -> In (k, s) l -> In (k, s') l -> s = s'.
Proof.
  induction l as [|[k0 s0] l IH]; intros k s s' N H H'; [contradiction|]. inversion N as [|? ? N1 N2]; subst.
  destruct H as [H|H]; destruct H' as [H'|H'].
  - congruence.
  - injection H as -> ->. apply (in_map fst) in H'. contradiction.
  - injection H' as -> ->. apply (in_map fst) in H. contradiction.
  - eauto.
Qed.
Lemma named_fun : forall f s, named f s -> forall s', named f s' -> s = s'.
Proof.
  intros f s H. induction H; intros s' H'; inversion H'; subst; auto.
  - eapply table_fun; [|eassumption|eassumption]. cbn [map fst]. repeat constructor; cbn [In]; intuition discriminate.
  - eapply table_fun; [|eassumption|eassumption]. cbn [map fst]. repeat constructor; cbn [In]; intuition discriminate.
Qed.

(** The word of a declared argument. *)
Theorem C68_word : forall p s, type_word p = s <-> param_named p s.
Proof.
  intros p s. split.
  - intros <-. destruct p; cbn [type_word]; constructor. apply fdt_short_named.
  - intros H. inversion H; subst; cbn [type_word]; try reflexivity. eapply named_fun; [apply fdt_short_named|assumption].
Qed.

(** An argument of a type the declaration admits is spelled with the declaration's word. *)
Theorem C68_instances_spelled_alike : forall f t, ordinary f -> instance f t -> short_string t = fdt_short f.
Proof.
  intros f t O. revert t. induction O as [l f O IH|f N1 N2 N3]; intros t H.
  - inversion H; subst. cbn [fdt_short]. auto.
  - inversion H; subst; cbn [fdt_short short_string]; try reflexivity.
    + exfalso. eapply N2; reflexivity.
    + exfalso. eapply N3; reflexivity.
    + exfalso. eapply N1; reflexivity.
Qed.

Lemma user_short : forall f w, is_user f w -> fdt_short f = "u!" ++ w.
Proof. intros f w H. induction H; cbn [fdt_short]; auto. Qed.
Lemma instance_not_user : forall f t, ordinary f -> instance f t -> forall n v r ps, t <> TUser n v r ps.
Proof.
  intros f t O. revert t. induction O as [l f O IH|f N1 N2 N3]; intros t H n v r ps ->; inversion H; subst.
  - eapply IH; eauto.
  - eapply N2; reflexivity.
  - eapply N3; reflexivity.
  - eapply N1; reflexivity.
Qed.
Lemma fills_spelled : forall s p t, fills s p t -> spelled short_string s t (type_word p).
Proof.
  intros s p t H. inversion H; subst; cbn [type_word].
  - destruct c; [constructor|]. change "req" with (short_string (TEnum false n v w' l')). apply SP_other; intros; discriminate.
  - rewrite <- (C68_instances_spelled_alike _ _ H0 H1).
    assert (E : (exists n v w l, t0 = TEnum true n v w l) \/ (forall n v w l, t0 <> TEnum true n v w l)).
    { destruct t0; try (right; intros; discriminate). destruct is_common; [left; eauto|right; intros; discriminate]. }
    destruct E as [(n & v & w & l & ->)|E]; [constructor|]. apply SP_other; [exact E|].
    eapply instance_not_user; eauto.
  - rewrite (user_short _ _ H0). constructor. exact H1.
Qed.
Lemma fill_spelled : forall s ps ts, Forall2 (fills s) ps ts -> Forall2 (spelled short_string s) ts (map type_word ps).
Proof. intros s ps ts H. induction H; cbn [map]; constructor; auto using fills_spelled. Qed.

(** A call by the bare name of a function, with arguments that fill the parameters of one of
    its implementations, uses that implementation. *)
Theorem C68_found_by_bare_name : forall (get : ext_id -> option variant) urn name ps ts s v,
  no_char ":" name -> get (ExtId urn name) = None ->
  get (ExtId urn (name ++ ":" ++ String.concat "_" (map type_word ps))) = Some v ->
  Forall2 (fills s) ps ts ->
  chosen short_string get (ExtId urn name) ts s v.
Proof.
  intros get urn name ps ts s v N G1 G2 F. eapply CH_completed; cbn [id_urn id_name]; eauto using fill_spelled.
Qed.

Lemma accepted_instance : forall nh f t, accepts nh f t -> instance f t.
Proof. intros nh f t. destruct nh; cbn; tauto. Qed.
Lemma matched_fill : forall nh s ps ts, Forall arg_type ts -> (forall f, In (PValue f) ps -> ordinary f) ->
  match_arguments nh ps None ts = Ok true -> Forall2 (fills s) ps (map XTy ts).
Proof.
  intros nh s ps ts A O H. apply C06_match_implies in H as (C & _ & _ & fs & F & E); auto. cbn in C.
  assert (L : length ps = length fs) by (clear -F; induction F; cbn; congruence).
  assert (H : Forall2 (fun p t => exists f, SigSpec.param_type p = Some f /\ accepts nh f t) ps ts).
  { clear -C L F E. unfold each_accepted in E.
    assert (E' : forall i a, nth_error ts i = Some a -> exists f, nth_error fs i = Some f /\ accepts nh f a).
    { intros i a Hi. destruct (E i a Hi) as (f & Hf & Ha). unfold declared_for in Hf.
      assert (i < length fs)%nat by (rewrite <- L, <- C; apply nth_error_Some; congruence).
      destruct (nth_error fs i) as [g|] eqn:Eg; [exists f; split; auto|]. apply nth_error_None in Eg. lia. }
    clear E. revert ts C E'. induction F as [|p f ps fs Hp F IH]; intros [|t ts] C E; try discriminate; constructor.
    - destruct (E 0%nat t eq_refl) as (g & [= <-] & Ha). eauto.
    - apply IH; [cbn in L; lia|cbn in C; lia|]. intros i a Hi. exact (E (S i) a Hi). }
  clear -H O. induction H as [|p t ps ts (f & Hp & Ha) H IH]; cbn [map]; constructor.
  - apply accepted_instance in Ha. destruct p as [g|w l|g]; cbn in Hp; try discriminate.
    + injection Hp as ->. apply F_ordinary; auto. apply O. left. reflexivity.
    + injection Hp as <-. inversion Ha; subst; constructor.
  - apply IH. intros g Hg. apply O. right. exact Hg.
Qed.

(** ... in particular arguments that match the implementation, if its parameters are not type
    variables or user-defined types. *)
Theorem C68_matching_call_found : forall (get : ext_id -> option variant) nh urn name ps ts s v,
  no_char ":" name -> get (ExtId urn name) = None ->
  get (ExtId urn (name ++ ":" ++ String.concat "_" (map type_word ps))) = Some v ->
  Forall arg_type ts -> (forall f, In (PValue f) ps -> ordinary f) ->
  match_arguments nh ps None ts = Ok true ->
  chosen short_string get (ExtId urn name) (map XTy ts) s v.
Proof. intros get nh urn name ps ts s v N G1 G2 A O H. eapply C68_found_by_bare_name; eauto using matched_fill. Qed.
Example C68_matching_example : match_arguments NHMirror
    [PValue (FList 2 0 (FAny "any1" 0 2)); PEnum "x" ["A"]] None [TList 2 0 (TPrim PrimI32 2 0); TEnum true 0 0 "" []] = Ok true /\
  ordinary (FList 2 0 (FAny "any1" 0 2)).
Proof. split; [vm_compute; reflexivity|]. apply O_other; intros; discriminate. Qed.

(** ** words tell signatures apart *)

Lemma chars_app : forall a b, chars (a ++ b) = (chars a ++ chars b)%list.
Proof. induction a as [|c a IH]; intros b; cbn; [reflexivity|]. rewrite IH. reflexivity. Qed.
Lemma first_sep : forall a b x y, no_char "_" a -> no_char "_" b -> a ++ "_" ++ x = b ++ "_" ++ y -> a = b /\ x = y.
Proof.
  unfold no_char. induction a as [|c a IH]; intros b x y Ha Hb E; destruct b as [|d b]; cbn in E.
  - injection E as ->. auto.
  - injection E as <- E. exfalso. apply Hb. left. reflexivity.
  - injection E as -> E. exfalso. apply Ha. left. reflexivity.
  - injection E as -> E. destruct (IH b x y) as [-> ->]; auto; intros H; [apply Ha|apply Hb]; right; exact H.
Qed.
Definition sep_word (w : string) : Prop := w <> "" /\ no_char "_" w.
Lemma concat_inj : forall l m, Forall sep_word l -> Forall sep_word m -> String.concat "_" l = String.concat "_" m -> l = m.
Proof.
  assert (Hcons : forall w x l, String.concat "_" (w :: x :: l) = w ++ "_" ++ String.concat "_" (x :: l)) by reflexivity.
  assert (Hone : forall w, String.concat "_" [w] = w) by reflexivity.
  assert (Hsep : forall a x, ~ no_char "_" (a ++ "_" ++ x)).
  { intros a x H. apply H. rewrite chars_app. apply in_or_app. right. left. reflexivity. }
  assert (Hnil : forall w l, sep_word w -> String.concat "_" (w :: l) <> "").
  { intros w l [Hw _]. destruct l; [rewrite Hone; exact Hw|]. rewrite Hcons. destruct w; discriminate. }
  induction l as [|w l IH]; intros [|x m] Hl Hm E; auto.
  - symmetry in E. inversion Hm; subst. eapply Hnil in E; [contradiction|assumption].
  - inversion Hl; subst. eapply Hnil in E; [contradiction|assumption].
  - inversion Hl as [|? ? [_ Hw] Hl']; inversion Hm as [|? ? [_ Hx] Hm']; subst.
    destruct l as [|w' l], m as [|x' m]; rewrite ?Hone, ?Hcons in E.
    + subst. reflexivity.
    + exfalso. subst w. eapply Hsep; eauto.
    + exfalso. rewrite <- E in Hx. eapply Hsep; eauto.
    + apply first_sep in E as [-> E]; auto. f_equal. apply IH; auto.
Qed.
Lemma named_sep : forall f s, named f s -> (forall w, is_user f w -> no_char "_" w) -> sep_word s.
Proof.
  assert (L : forall l s, forallb (fun w => negb (String.eqb w "") && forallb (fun c => negb (Ascii.eqb c "_")) (chars w)) l = true ->
    In s l -> sep_word s).
  { intros l s H Hs. rewrite forallb_forall in H. apply H in Hs. apply andb_prop in Hs as [H1 H2]. split.
    - intros ->. discriminate.
    - intros Hc. rewrite forallb_forall in H2. apply H2 in Hc. discriminate. }
  intros f s H. induction H; intros U; try (apply (L ["req"; "dec"; "any"; "list"; "map"; "struct"; "func"]); [reflexivity|cbn [In]; tauto]).
  - eapply L; [|apply (in_map snd) in H; exact H]. reflexivity.
  - eapply L; [|apply (in_map snd) in H; exact H]. reflexivity.
  - split; [discriminate|]. specialize (U _ (U_user _ _ _ _)). unfold no_char in *. cbn.
    intros [H|[H|H]]; [discriminate|discriminate|auto].
  - apply IHnamed. intros w Hw. apply U. constructor. exact Hw.
Qed.
Definition plain_names (p : fparam) : Prop := forall f w, p = PValue f -> is_user f w -> no_char "_" w.
Lemma plain_sep : forall p, plain_names p -> sep_word (type_word p).
Proof.
  intros p H. assert (N : param_named p (type_word p)) by (apply C68_word; reflexivity).
  inversion N as [| f s Hn E1 E2|].
  - split; [discriminate|]. unfold no_char. cbn. intuition discriminate.
  - eapply named_sep; eauto.
  - split; [discriminate|]. unfold no_char. cbn. intuition discriminate.
Qed.

(** Unless a user-defined type has an underscore in its name, implementations are registered
    under the same compound name only if their arguments have the same words one by one. *)
Theorem C68_names_apart : forall name ps qs, Forall plain_names ps -> Forall plain_names qs ->
  (name ++ ":" ++ String.concat "_" (map type_word ps) = name ++ ":" ++ String.concat "_" (map type_word qs) <->
   map type_word ps = map type_word qs).
Proof.
  intros name ps qs Hp Hq. split; [|intros ->; reflexivity]. intros E.
  assert (A : forall a x y, a ++ x = a ++ y -> x = y) by (induction a; cbn; intros x y H; [auto|injection H; auto]).
  apply A in E. injection E as E. apply concat_inj; auto; apply Forall_map; eapply Forall_impl; eauto using plain_sep.
Qed.

(** With an underscore, two different signatures get the same name. *)
Theorem C68_names_apart_refuted : exists ps qs,
  length ps <> length qs /\
  String.concat "_" (map type_word ps) = String.concat "_" (map type_word qs).
Proof.
  exists [PValue (FUser 2 0 [] "geo"); PValue (FPrim PrimI32 2 0)], [PValue (FUser 2 0 [] "geo_i32")].
  split; [discriminate|reflexivity].
Qed.

(** ** user-defined types *)

(** The user-defined types found in a declared type are exactly those it mentions. *)
Theorem C68_user_types : forall f a w, In (a, w) (user_types f) <-> a = None /\ mentions w f.
Proof.
  intros f a w. revert f. apply (fdt_ind' (fun f => In (a, w) (user_types f) <-> a = None /\ mentions w f)
    (fun p => forall g, p = UData g -> (In (a, w) (user_types g) <-> a = None /\ mentions w g)));
    try (intros; cbn [user_types]; split; [contradiction|intros [_ M]; inversion M]; fail).
  - intros n v e IH. cbn [user_types]. rewrite IH. split; intros [-> M]; (split; [reflexivity|]).
    + apply M_element. exact M.
    + inversion M; auto.
  - intros n v k x IHk IHx. cbn [user_types]. rewrite in_app_iff, IHk, IHx. split.
    + intros [[-> M]|[-> M]]; (split; [reflexivity|]); [apply M_key|apply M_value]; exact M.
    + intros [-> M]. inversion M; auto.
  - intros n v fs F. cbn [user_types]. rewrite in_flat_map. rewrite Forall_forall in F. split.
    + intros (f & Hf & H). apply F in H as [-> M]; auto. split; [reflexivity|]. eapply M_field; eauto.
    + intros [-> M]. inversion M; subst. exists f. split; [assumption|]. apply F; auto.
  - intros n ps r F IHr. cbn [user_types]. rewrite in_app_iff, in_flat_map, IHr. rewrite Forall_forall in F. split.
    + intros [(f & Hf & H)|[-> M]]; [|split; [reflexivity|apply M_func_result; exact M]].
      apply F in H as [-> M]; auto. split; [reflexivity|]. eapply M_func_param; eauto.
    + intros [-> M]. inversion M; subst; [left|right; auto]. exists f. split; [assumption|]. apply F; auto.
  - intros n v ps x F. cbn [user_types]. cbn [In]. rewrite in_flat_map. rewrite Forall_forall in F. split.
    + intros [[= <- ->]|(p & Hp & H)]; [split; [reflexivity|apply M_itself]|].
      destruct p as [g| |]; try contradiction. apply (F _ Hp g eq_refl) in H as [-> M].
      split; [reflexivity|]. eapply M_parameter; eauto.
    + intros [-> M]. inversion M as [|? ? ? ? g Hg Hm| | | | | | |]; subst; [left; reflexivity|]. right. exists (UData g). split; [assumption|].
      apply (F _ Hg g eq_refl). auto.
  - intros l f IH. cbn [user_types]. rewrite IH. split; intros [-> M]; (split; [reflexivity|]).
    + apply M_derived. exact M.
    + inversion M; auto.
  - intros f H g [= <-]. exact H.
  - intros z g E. discriminate.
  - intros z g E. discriminate.
Qed.

Lemma params_ok : forall ds ps, mapM decl_param ds = Ok ps <->
  Forall2 (fun d p => exists n e c, d = DArg n e c p) ds ps.
Proof.
  induction ds as [|d ds IH]; intros ps; cbn [mapM].
  - split; [intros [= <-]; constructor|]. intros H. inversion H. reflexivity.
  - fold (mapM decl_param). destruct d as [|n e c p]; cbn [decl_param].
    + split; [discriminate|]. intros H. inversion H as [|? ? ? ? (n & e & c & E)]. discriminate.
    + split.
      * intros H. destruct (mapM decl_param ds) as [qs| |]; try discriminate. injection H as <-.
        constructor; [eauto|]. apply IH. reflexivity.
      * intros H. inversion H as [|? p' ? qs (n' & e' & c' & E) F]; subst. injection E as <- <- <- <-.
        apply IH in F. rewrite F. reflexivity.
Qed.
Lemma params_no_err : forall ds, mapM decl_param ds <> Err.
Proof.
  induction ds as [|d ds IH]; cbn [mapM]; [discriminate|]. fold (mapM decl_param). destruct d; cbn [decl_param]; [discriminate|].
  destruct (mapM decl_param ds); congruence.
Qed.
Lemma params_panic : forall ds, mapM decl_param ds = Panic <-> In DNone ds.
Proof.
  intros ds. split.
  - intros H. induction ds as [|d ds IH]; cbn [mapM] in H; [discriminate|]. fold (mapM decl_param) in H.
    destruct d; cbn [decl_param] in H; [left; reflexivity|]. right. apply IH.
    destruct (mapM decl_param ds); congruence.
  - intros H. destruct (mapM decl_param ds) as [ps| |] eqn:E; [|exfalso; eapply params_no_err; eauto|reflexivity].
    apply params_ok in E. exfalso. clear -H E. induction E as [|d p ds ps (n & e & c & ->) E IH]; [contradiction|].
    destruct H as [H|H]; [discriminate|auto].
Qed.

(** What is kept of an implementation: its words, and the user-defined types it mentions, all
    of them taken to be the file's own.  An argument without a kind stops the program. *)
Theorem C68_implementation : forall agg d,
  (In DNone (d_args d) -> declare agg d = Panic) /\
  (~ In DNone (d_args d) -> exists i, declare agg d = Ok i /\
     Forall2 (fun a s => exists n e c p, a = DArg n e c p /\ param_named p s) (d_args d) (i_args i) /\
     (forall al w, In (al, w) (i_refs i) <-> al = None /\ impl_mentions agg d w) /\
     i_decomp i = d_decomp d /\ i_wtype i = d_wtype d /\ i_body i = d_body d).
Proof.
  intros agg d. unfold declare. split.
  - intros H. apply params_panic in H. rewrite H. reflexivity.
  - intros H. destruct (mapM decl_param (d_args d)) as [ps| |] eqn:E; cbn [bind];
      [|exfalso; eapply params_no_err; eauto|apply params_panic in E; contradiction].
    eexists. split; [reflexivity|]. cbn [i_args i_refs i_decomp i_wtype i_body]. apply params_ok in E.
    split; [|split; [|auto]].
    { clear -E. induction E as [|a p ds ps (n & e & c & ->) E IH]; cbn [map]; constructor; auto.
      exists n, e, c, p. split; [reflexivity|]. apply C68_word. reflexivity. }
    intros al w. rewrite in_flat_map. unfold impl_types.
    assert (IN : forall p, In p ps <-> exists n e c, In (DArg n e c p) (d_args d)).
    { clear -E. intros p. induction E as [|a q ds ps (n & e & c & ->) E IH]; cbn [In].
      - split; [contradiction|]. intros (n & e & c & []).
      - rewrite IH. split.
        + intros [->|(n' & e' & c' & H)]; [exists n, e, c; auto|exists n', e', c'; auto].
        + intros (n' & e' & c' & [H|H]); [injection H as -> -> -> ->; auto|right; eauto]. }
    split.
    + intros (f & Hf & Hw). apply C68_user_types in Hw as [-> M]. split; [reflexivity|].
      rewrite !in_app_iff, in_map_iff in Hf. destruct Hf as [(p & <- & Hp)|[Hf|Hf]].
      * apply IN in Hp as (n & e & c & Hp). destruct p; cbn [type_expression] in M;
          [eapply IM_value; eauto|inversion M|eapply IM_type; eauto].
      * destruct (d_return d) as [g|] eqn:Er; [|contradiction]. destruct Hf as [->|[]]. eapply IM_result; eauto.
      * destruct agg; [|contradiction]. destruct (d_intermediate d) as [g|] eqn:Er; [|contradiction].
        destruct Hf as [->|[]]. eapply IM_intermediate; eauto.
    + intros [-> M]. inversion M as [n e c f Hf Hm|n e c f Hf Hm|f Hf Hm|f Ha Hf Hm]; exists f; rewrite C68_user_types, !in_app_iff, in_map_iff; (split; [|auto]).
      * left. exists (PValue f). split; [reflexivity|]. apply IN. eauto.
      * left. exists (PType f). split; [reflexivity|]. apply IN. eauto.
      * right. left. rewrite Hf. left. reflexivity.
      * right. right. rewrite Ha, Hf. left. reflexivity.
Qed.

(** A file that loads declares every user-defined type any of its implementations mentions. *)
Theorem C68_types_declared : forall f c fn i d agg w,
  snd (load (Some f) c) = true -> In fn (f_scalars f ++ f_aggs f ++ f_windows f)%list -> In i (fn_impls fn) ->
  declare agg d = Ok i -> impl_mentions agg d w -> exists x, In (w, x) (f_types f).
Proof.
  intros f c fn i d agg w HL Hfn Hi Hd M. destruct (C25_load_all_or_nothing f c) as [((_ & _ & _ & HT) & _)|(_ & E)]; [|rewrite E in HL; discriminate].
  apply (HT fn i w Hfn Hi). destruct (C68_implementation agg d) as [HP HO].
  assert (N : ~ In DNone (d_args d)) by (intros H; apply HP in H; congruence).
  apply HO in N as (i' & Ei & _ & R & _). assert (i' = i) by congruence. subst i'. apply R. auto.
Qed.

(** An implementation is deterministic unless it says otherwise. *)
Theorem C68_deterministic : forall d, deterministic d = false <-> d_det d = Some false.
Proof. intros d. unfold deterministic. destruct (d_det d) as [[|]|]; split; congruence. Qed.

(** An implementation declared with a type variable is not found by the bare name, although it
    takes the arguments: no argument is spelled "any". *)
Theorem C68_any_by_bare_name_refuted : exists (get : ext_id -> option variant) urn name ps ts v,
  no_char ":" name /\ get (ExtId urn name) = None /\
  get (ExtId urn (name ++ ":" ++ String.concat "_" (map type_word ps))) = Some v /\
  match_arguments NHMirror ps None ts = Ok true /\
  forall s v', ~ chosen short_string get (ExtId urn name) (map XTy ts) s v'.
Proof.
  set (v := Variant "extension:a:b" "f" 0 (Impl ["any"] [] "" "" 0)).
  exists (fun id => if String.eqb (id_name id) "f:any" then Some v else None), "extension:a:b", "f",
    [PValue (FAny "any1" 0 2)], [TPrim PrimI32 2 0], v.
  split; [unfold no_char; cbn; intuition discriminate|]. split; [reflexivity|]. split; [reflexivity|].
  split; [vm_compute; reflexivity|]. intros s v' H. inversion H as [? H1|words ? H1 H2 H3 H4]; subst; [discriminate|].
  cbn [map] in H3. inversion H3 as [|? w ? ws S R]; subst. inversion R; subst. inversion S; subst. discriminate.
Qed.

Example C68_nonvacuous :
  let parse s := if String.eqb s "u!geo" then Some (FUser 2 0 [] "geo") else if String.eqb s "i32" then Some (FPrim PrimI32 2 0) else None in
  exists ds i,
  decode_args parse [[("name", YStr "x"); ("value", YStr "u!geo"); ("constant", YBool true)]; [("options", YSeq [YStr "A"; YStr "B"])];
    [("value", YStr "i32"); ("type", YNull)]] = Ok ds /\
  declare false (ImplDecl ds (Some (FList 2 0 (FUser 2 0 [] "geo"))) None None "" "" 7) = Ok i /\
  i = Impl ["u!geo"; "req"; "i32"] [(None, "geo"); (None, "geo")] "" "" 7 /\
  decode_args parse [[("value", YNum 3)]; [("value", YNull)]] = Err /\
  decode_args parse [[("value", YNull)]; [("value", YNum 3)]] = Panic /\
  Forall plain_names [PValue (FUser 2 0 [] "geo"); PEnum "x" []].
Proof.
  cbn zeta. eexists. eexists. split; [vm_compute; reflexivity|]. split; [vm_compute; reflexivity|].
  split; [reflexivity|]. split; [vm_compute; reflexivity|]. split; [vm_compute; reflexivity|].
  repeat constructor; intros f w E U; [|discriminate]. injection E as <-. inversion U; subst. unfold no_char. cbn. intuition discriminate.
Qed.
Example C68_call_example : Forall2 (fills (ESet [] [(1%Z, ExtId "extension:a:b" "geo")] [] [] [] [] []))
  [PValue (FUser 2 0 [] "geo"); PValue (FList 2 0 (FAny "any1" 0 2))]
  [XTy (TUser 2 0 1 []); XTy (TList 2 0 (TPrim PrimI32 2 0))].
Proof.
  constructor; [eapply F_user; [constructor|reflexivity|reflexivity]|]. constructor; [|constructor].
  apply F_ordinary; [apply O_other; intros; discriminate|]. repeat constructor.
Qed.

Print Assumptions C68_argument.
Print Assumptions C68_arguments.
Print Assumptions C68_word.
Print Assumptions C68_instances_spelled_alike.
Print Assumptions C68_found_by_bare_name.
Print Assumptions C68_matching_call_found.
Print Assumptions C68_names_apart.
Print Assumptions C68_names_apart_refuted.
Print Assumptions C68_user_types.
Print Assumptions C68_implementation.
Print Assumptions C68_types_declared.
Print Assumptions C68_deterministic.
Print Assumptions C68_any_by_bare_name_refuted.
