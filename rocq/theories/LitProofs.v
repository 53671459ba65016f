(** Proofs about literals (LitModel.v against LitSpec.v). *)

From Coq Require Import List ZArith String Bool Lia.
From Verif Require Import Base TypesModel TypesSpec TypesProofs TimeModel TimeProofs LitModel LitSpec.
Import ListNotations.
Local Open Scope Z_scope.

(** ** induction principles *)

Definition Forall_fix {A} {P : A -> Prop} (f : forall x, P x) : forall l, Forall P l :=
  fix go l := match l with [] => Forall_nil P | x :: l' => Forall_cons x (f x) (go l') end.

Lemma lit_ind' : forall P : lit -> Prop,
  (forall l, match l with LStruct _ _ | LList _ _ | LMap _ _ => False | _ => True end -> P l) ->
  (forall fs t, Forall P fs -> P (LStruct fs t)) ->
  (forall fs t, Forall P fs -> P (LList fs t)) ->
  (forall kvs t, Forall (fun p => P (fst p) /\ P (snd p)) kvs -> P (LMap kvs t)) ->
  forall l, P l.
Proof.
  intros P H0 Hs Hl Hm. fix IH 1. intros l. destruct l.
  1-3,7-10: apply H0; exact I.
  - apply Hs. apply (Forall_fix IH).
  - apply Hl. apply (Forall_fix IH).
  - apply Hm. induction kvs as [|[k x] kvs IHk]; constructor; [|exact IHk].
    split; simpl; apply IH.
Qed.

(** literal messages directly inside a body *)
Definition subs (b : pbody) : list plit :=
  match b with
  | PB_struct l | PB_list l => l
  | PB_map kvs => flat_map (fun p => [fst p; snd p]) kvs
  | PB_user_defined _ _ (UV_struct l) => l
  | _ => []
  end.

Lemma plit_ind' : forall P : plit -> Prop,
  (forall n v b, Forall P (subs b) -> P (PLit n v b)) -> forall m, P m.
Proof.
  intros P H. fix IH 1. intros [n v b]. apply H. destruct b; simpl; try constructor.
  - apply (Forall_fix IH).
  - induction kvs as [|[k x] kvs IHk]; simpl; constructor; simpl; [apply IH|].
    constructor; [apply IH|apply IHk].
  - apply (Forall_fix IH).
  - destruct val as [| |l]; try constructor. apply (Forall_fix IH).
Qed.

Lemma subs_map : forall (P : plit -> Prop) kvs,
  Forall P (subs (PB_map kvs)) <-> Forall (fun p => P (fst p) /\ P (snd p)) kvs.
Proof.
  intros P kvs. simpl. induction kvs as [|[k x] kvs IH]; simpl; split; intros H; auto.
  - inversion H as [|? ? H1 H2]; subst. inversion H2; subst. constructor; simpl; auto. apply IH; auto.
  - inversion H as [|? ? [H1 H1'] H2]; subst; simpl in *. constructor; auto. constructor; auto. apply IH; auto.
Qed.

(** ** mapM and inverses *)

Lemma mapM_inverse : forall A B (f : A -> res B) (g : B -> res A) (W : A -> Prop) l,
  Forall (fun x => W x <-> exists m, f x = Ok m /\ g m = Ok x) l ->
  (All W l <-> exists ms, mapM f l = Ok ms /\ mapM g ms = Ok l).
Proof.
  intros A B f g W l H. induction H as [|x l Hx Hl IH].
  - simpl. split; auto. intros _. exists []. auto.
  - cbn [All]. rewrite IH, Hx. split.
    + intros [[m [H1 H2]] [ms [H3 H4]]]. exists (m :: ms). cbn. rewrite H1, H2, H3, H4. auto.
    + intros [ms [H1 H2]]. cbn in H1. destruct (f x) as [y| |] eqn:E; try discriminate.
      destruct (mapM f l) as [ys| |] eqn:E2; try discriminate. inversion H1; subst. cbn in H2.
      destruct (g y) as [z| |] eqn:E3; try discriminate. destruct (mapM g ys) as [zs| |] eqn:E4; try discriminate.
      inversion H2; subst. split; eauto.
Qed.

Lemma pairM_ok : forall A B C D (f : A -> res C) (g : B -> res D) p c d,
  pairM f g p = Ok (c, d) <-> f (fst p) = Ok c /\ g (snd p) = Ok d.
Proof.
  intros A B C D f g [a b] c d. cbn.
  destruct (f a); destruct (g b); split; intuition congruence.
Qed.

(** ** types inside literals *)

Lemma wire_char : 
  (forall t, wire_type t <-> exists m, type_to_proto t = Ok m /\ type_from_proto m = Ok t) /\
  (forall p, wire_param p <-> exists m, tparam_to_proto p = Ok m /\ type_param_from_proto m = Ok p).
Proof.
  assert (PREC : forall A p (k : Z -> A) (x : A), (forall q, k q = x -> q = p) -> k p = x ->
            (prec_ok p <-> (let! q := must (proto_to_time_precision p) in Ok (k q)) = Ok x)).
  { intros A p k x Hinj Hk. split; intros H.
    - rewrite (ptp_ok _ H). cbn. congruence.
    - destruct (prec_dec p) as [|Hb]; auto. rewrite (ptp_bad _ Hb) in H. discriminate. }
  apply ty_tparam_ind.
  - intros t Ht. destruct t; try contradiction; cbn [wire_type];
      try (split; [intros []|intros [m [H1 H2]]; discriminate]).
    + split; auto. intros _. eexists. split; [reflexivity|]. destruct p; reflexivity.
    + split; auto. intros _. destruct k; eexists; split; reflexivity.
    + split; auto. intros _. eexists; split; reflexivity.
    + cbn [type_to_proto]. rewrite (PREC _ prec (TPrecTime n v) (TPrecTime n v prec)) by congruence.
      split; [intros H; eexists; split; [reflexivity|exact H]|intros [m [H1 H2]]; inversion H1; subst; exact H2].
    + cbn [type_to_proto]. rewrite (PREC _ prec (TPrecTs n v) (TPrecTs n v prec)) by congruence.
      split; [intros H; eexists; split; [reflexivity|exact H]|intros [m [H1 H2]]; inversion H1; subst; exact H2].
    + cbn [type_to_proto]. rewrite (PREC _ prec (TPrecTsTz n v) (TPrecTsTz n v prec)) by congruence.
      split; [intros H; eexists; split; [reflexivity|exact H]|intros [m [H1 H2]]; inversion H1; subst; exact H2].
    + cbn [type_to_proto]. rewrite (PREC _ prec (TIntervalDay n v) (TIntervalDay n v prec)) by congruence.
      split; [intros H; eexists; split; [reflexivity|exact H]|intros [m [H1 H2]]; inversion H1; subst; exact H2].
    + split; [intros []|]. intros [m [H1 H2]]. destruct is_ptr; [discriminate|].
      inversion H1; subst. cbn in H2. destruct (must (proto_to_time_precision prec)); discriminate.
  - intros n v fs H. cbn [wire_type]. rewrite (mapM_inverse _ _ type_to_proto type_from_proto _ _ H). split.
    + intros [ms [H1 H2]]. cbn. rewrite H1. cbn. eexists; split; [reflexivity|]. cbn. rewrite H2. reflexivity.
    + intros [m [H1 H2]]. cbn in H1. destruct (mapM type_to_proto fs) eqn:E; try discriminate.
      inversion H1; subst. cbn in H2. destruct (mapM type_from_proto a) eqn:E2; try discriminate.
      inversion H2; subst. eauto 8.
  - intros n ps r H Hr. cbn [wire_type]. rewrite (mapM_inverse _ _ type_to_proto type_from_proto _ _ H), Hr. split.
    + intros [[ms [H1 H2]] [m [H3 H4]]]. cbn. rewrite H1, H3. cbn. eexists; split; [reflexivity|]. cbn.
      rewrite H2, H4. reflexivity.
    + intros [m [H1 H2]]. cbn in H1. destruct (mapM type_to_proto ps) eqn:E; try discriminate.
      cbn in H1. destruct (type_to_proto r) eqn:E3; try discriminate.
      inversion H1; subst. cbn in H2. destruct (mapM type_from_proto a) eqn:E2; try discriminate.
      cbn in H2. destruct (type_from_proto a0) eqn:E4; try discriminate.
      inversion H2; subst. eauto 8.
  - intros n v e He. cbn [wire_type]. rewrite He. split.
    + intros [m [H1 H2]]. cbn. rewrite H1. cbn. eexists; split; [reflexivity|]. cbn. rewrite H2. reflexivity.
    + intros [m [H1 H2]]. cbn in H1. destruct (type_to_proto e) eqn:E; try discriminate.
      inversion H1; subst. cbn in H2. destruct (type_from_proto a) eqn:E2; try discriminate.
      inversion H2; subst. eauto 8.
  - intros n v k x Hk Hx. cbn [wire_type]. rewrite Hk, Hx. split.
    + intros [[m [H1 H2]] [m' [H3 H4]]]. cbn. rewrite H1, H3. cbn. eexists; split; [reflexivity|]. cbn.
      rewrite H2, H4. reflexivity.
    + intros [m [H1 H2]]. cbn in H1. destruct (type_to_proto k) eqn:E; try discriminate.
      cbn in H1. destruct (type_to_proto x) eqn:E3; try discriminate.
      inversion H1; subst. cbn in H2. destruct (type_from_proto a) eqn:E2; try discriminate.
      cbn in H2. destruct (type_from_proto a0) eqn:E4; try discriminate.
      inversion H2; subst. eauto 8.
  - intros n v r ps H. cbn [wire_type]. rewrite (mapM_inverse _ _ tparam_to_proto type_param_from_proto _ _ H). split.
    + intros [ms [H1 H2]]. cbn. rewrite H1. cbn. eexists; split; [reflexivity|]. cbn. rewrite H2. reflexivity.
    + intros [m [H1 H2]]. cbn in H1. destruct (mapM tparam_to_proto ps) eqn:E; try discriminate.
      inversion H1; subst. cbn in H2. destruct (mapM type_param_from_proto a) eqn:E2; try discriminate.
      inversion H2; subst. eauto 8.
  - intros p Hp. destruct p; try contradiction; cbn [wire_param].
    + split; [intros []|]. intros [m [H1 _]]; discriminate.
    + split; eauto. intros _. eexists; split; reflexivity.
    + split; eauto. intros _. eexists; split; reflexivity.
    + split; eauto. intros _. eexists; split; reflexivity.
    + split; eauto. intros _. eexists; split; reflexivity.
    + split; eauto. intros _. eexists; split; reflexivity.
  - intros t Ht. cbn [wire_param]. rewrite Ht. split.
    + intros [m [H1 H2]]. cbn. rewrite H1. cbn. eexists; split; [reflexivity|]. cbn. rewrite H2. reflexivity.
    + intros [m [H1 H2]]. cbn in H1. destruct (type_to_proto t) eqn:E; try discriminate.
      inversion H1; subst. cbn in H2. destruct (type_from_proto a) eqn:E2; try discriminate.
      inversion H2; subst. eauto 8.
Qed.

Lemma from_variation : forall m t, type_from_proto m = Ok t -> get_variation t = msg_variation m.
Proof.
  intros m t H. destruct m; cbn in H;
    try (inversion H; subst; reflexivity);
    try (destruct (must (proto_to_time_precision prec)); inversion H; subst; reflexivity).
  - destruct prec as [p|]; cbn in H; [|inversion H; subst; reflexivity].
    destruct (must (proto_to_time_precision p)); inversion H; subst; reflexivity.
  - destruct (mapM type_from_proto types); inversion H; subst; reflexivity.
  - destruct (mapM type_from_proto params); try discriminate.
    cbn in H. destruct (type_from_proto m); inversion H; subst; reflexivity.
  - destruct (type_from_proto m); inversion H; subst; reflexivity.
  - destruct (type_from_proto m1); try discriminate.
    cbn in H. destruct (type_from_proto m2); inversion H; subst; reflexivity.
  - destruct (mapM type_param_from_proto params); inversion H; subst; reflexivity.
Qed.

Lemma lit_type_typed : forall l t, lit_type l = Ok t <-> typed l t.
Proof.
  intros l t. split.
  - destruct l; cbn; intros H; inversion H; subst; constructor.
  - intros H; inversion H; subst; reflexivity.
Qed.

Lemma mapM_lit_type : forall fs ts, mapM lit_type fs = Ok ts <-> Forall2 typed fs ts.
Proof.
  intros fs ts. split; intros H.
  - apply mapM_ok_inv in H. induction H; constructor; auto. apply lit_type_typed; auto.
  - apply mapM_ok. induction H; constructor; auto. apply lit_type_typed; auto.
Qed.

Lemma flagged_of : forall b, flagged (nullability_of b).
Proof. destruct b; [left|right]; reflexivity. Qed.
Lemma flag_back : forall n, flagged n -> nullability_of (n =? NullNullable) = n.
Proof. intros n [->| ->]; reflexivity. Qed.
Lemma flag_iff : forall n, nullability_of (n =? NullNullable) = n <-> flagged n.
Proof. intros n; split; [intros <-; apply flagged_of|apply flag_back]. Qed.

Lemma wrap_iff : forall bits z, 0 < bits -> wrap bits z = z <-> in_int bits z.
Proof.
  intros bits z H. split; intros E; [rewrite <- E; apply wrap_range; auto|apply wrap_id; auto].
Qed.

Lemma wrap_uwrap : forall len, wrap 32 (uwrap 32 len) = wrap 32 len.
Proof.
  intros len. unfold uwrap. rewrite (Z_div_mod_eq_full len (2 ^ 32)) at 2.
  rewrite Z.add_comm, Z.mul_comm. symmetry. apply wrap_eq. lia.
Qed.
Lemma uwrap_wrap : forall len, uwrap 32 (wrap 32 len) = uwrap 32 len.
Proof.
  intros len. destruct (wrap_cong 32 len ltac:(lia)) as [k ->]. unfold uwrap. apply Z_mod_plus_full.
Qed.

Lemma prec_case : forall A p (k : Z -> A) (e : A),
  (prec_ok p /\ match proto_to_time_precision p with Ok q => k q | _ => e end = k p) \/
  (~ prec_ok p /\ match proto_to_time_precision p with Ok q => k q | _ => e end = e).
Proof.
  intros A p k e. destruct (prec_dec p) as [H|H]; [left|right]; split; auto.
  - pose proof (ptp_ok _ H) as E. destruct (proto_to_time_precision p); cbn in E; inversion E; auto.
  - pose proof (ptp_bad _ H) as E. destruct (proto_to_time_precision p); cbn in E; inversion E; auto.
Qed.

Lemma mapM_nil : forall A B (f : A -> res B) l ys, mapM f l = Ok ys -> (ys = [] <-> l = []).
Proof. intros A B f l ys H. apply mapM_length in H. destruct l, ys; cbn in H; split; congruence. Qed.

(** ** encoding then decoding *)

Definition sup_char (l : lit) : Prop :=
  supported l <-> exists m, lit_to_proto l = Ok m /\ lit_from_proto m = Ok l.

Lemma get_list_spec : forall t p, type_to_proto t = Ok p ->
  (exists n v e m, t = TList n v e /\ p = PT_list n v m /\ type_to_proto e = Ok m) \/
  (get_list p = None /\ forall n v e, t <> TList n v e).
Proof.
  intros t p H. destruct t; cbn in H; try discriminate;
    try (inversion H; subst; right; split; [reflexivity|congruence]).
  - inversion H; subst; right; split; [destruct p0; reflexivity|congruence].
  - destruct k; inversion H; subst; right; split; first [reflexivity|congruence].
  - destruct is_ptr; inversion H; subst; right; split; [reflexivity|congruence].
  - destruct (mapM type_to_proto fields); inversion H; subst; right; split; [reflexivity|congruence].
  - destruct (mapM type_to_proto params); try discriminate. cbn in H.
    destruct (type_to_proto t); inversion H; subst; right; split; [reflexivity|congruence].
  - destruct (type_to_proto t) eqn:E; inversion H; subst. left. eauto 10.
  - destruct (type_to_proto t1); try discriminate. cbn in H.
    destruct (type_to_proto t2); inversion H; subst; right; split; [reflexivity|congruence].
  - destruct (mapM tparam_to_proto params); inversion H; subst; right; split; [reflexivity|congruence].
Qed.

Lemma get_map_spec : forall t p, type_to_proto t = Ok p ->
  (exists n v k x m m', t = TMap n v k x /\ p = PT_map n v m m' /\
      type_to_proto k = Ok m /\ type_to_proto x = Ok m') \/
  (get_map p = None /\ forall n v k x, t <> TMap n v k x).
Proof.
  intros t p H. destruct t; cbn in H; try discriminate;
    try (inversion H; subst; right; split; [reflexivity|congruence]).
  - inversion H; subst; right; split; [destruct p0; reflexivity|congruence].
  - destruct k; inversion H; subst; right; split; first [reflexivity|congruence].
  - destruct is_ptr; inversion H; subst; right; split; [reflexivity|congruence].
  - destruct (mapM type_to_proto fields); inversion H; subst; right; split; [reflexivity|congruence].
  - destruct (mapM type_to_proto params); try discriminate. cbn in H.
    destruct (type_to_proto t); inversion H; subst; right; split; [reflexivity|congruence].
  - destruct (type_to_proto t); inversion H; subst; right; split; [reflexivity|congruence].
  - destruct (type_to_proto t1) eqn:E1; try discriminate. cbn in H.
    destruct (type_to_proto t2) eqn:E2; inversion H; subst. left. eauto 12.
  - destruct (mapM tparam_to_proto params); inversion H; subst; right; split; [reflexivity|congruence].
Qed.

Lemma enc_dec_prim : forall v t, sup_char (LPrim v t).
Proof.
  intros v t. unfold sup_char. cbn [supported lit_to_proto]. unfold prim_supported. split.
  - destruct t; try contradiction.
    + intros [Hf Hv]. destruct v, p; try contradiction;
        (eexists; split; [reflexivity|]); unfold nullable_flag; cbn [lit_from_proto get_nullability get_variation];
        rewrite (flag_back _ Hf); try reflexivity.
      * rewrite (wrap_id 8) by (auto; lia). reflexivity.
      * rewrite (wrap_id 16) by (auto; lia). reflexivity.
    + destruct k; try contradiction. intros [Hf Hv]. destruct v; try contradiction. subst.
      eexists; split; [reflexivity|]. unfold nullable_flag; cbn [lit_from_proto get_nullability get_variation].
      rewrite (flag_back _ Hf). reflexivity.
  - intros [m [H1 H2]].
    assert (F : forall b n, nullability_of b = n -> flagged n) by (intros b n <-; apply flagged_of).
    destruct v; cbn [pval_to_proto bind] in H1; inversion H1; subst; clear H1; cbn [lit_from_proto] in H2;
      destruct t; inversion H2; cbn;
      try (split; [first [apply flagged_of|eapply F; eassumption]|]); try exact I; try reflexivity.
    + apply (wrap_iff 8); [lia|congruence].
    + apply (wrap_iff 16); [lia|congruence].
Qed.

Lemma enc_dec_bytes : forall k s t, sup_char (LBytes k s t).
Proof.
  intros k s t. unfold sup_char. cbn [supported lit_to_proto]. unfold bytes_supported. split.
  - destruct k, t; try contradiction.
    + destruct p; try contradiction. intros Hf.
      eexists; split; [reflexivity|]. unfold nullable_flag; cbn [bytes_to_proto lit_from_proto get_nullability get_variation].
      rewrite (flag_back _ Hf). reflexivity.
    + destruct k; try contradiction. intros [Hf ->].
      eexists; split; [reflexivity|]. unfold nullable_flag; cbn [bytes_to_proto lit_from_proto get_nullability get_variation].
      rewrite (flag_back _ Hf). reflexivity.
    + destruct p; try contradiction. intros Hf.
      eexists; split; [reflexivity|]. unfold nullable_flag; cbn [bytes_to_proto lit_from_proto get_nullability get_variation].
      rewrite (flag_back _ Hf). reflexivity.
  - intros [m [H1 H2]].
    assert (F : forall b n, nullability_of b = n -> flagged n) by (intros b n <-; apply flagged_of).
    inversion H1; subst; clear H1. destruct k, t; inversion H2; cbn; auto using flagged_of.
Qed.

Lemma prec_not_bad : forall A p (k : Z -> A) (e x : A), e <> x ->
  match proto_to_time_precision p with Ok q => k q | _ => e end = x -> prec_ok p /\ k p = x.
Proof.
  intros A p k e x Hne H. destruct (prec_case _ p k e) as [[H1 H2]|[H1 H2]]; [split; congruence|congruence].
Qed.

Lemma checked_ok : forall p v mk, prec_ok p -> 0 <= v -> checked_precision p v mk = mk p.
Proof.
  intros p v mk Hp Hv. unfold checked_precision.
  destruct (prec_case _ p (fun p' => if v <? 0 then LNil else mk p') LNil) as [[_ ->]|[H _]]; [|contradiction].
  destruct (Z.ltb_spec v 0); [lia|reflexivity].
Qed.

Lemma checked_inv : forall p v mk l, l <> LNil -> checked_precision p v mk = l ->
  prec_ok p /\ 0 <= v /\ mk p = l.
Proof.
  intros p v mk l Hl H. unfold checked_precision in H.
  apply (prec_not_bad _ p (fun p' => if v <? 0 then LNil else mk p') LNil) in H; [|congruence].
  destruct H as [H1 H2]. destruct (Z.ltb_spec v 0); [congruence|auto].
Qed.

Lemma checked_nil : forall p v mk, (forall q, mk q <> LNil) ->
  (checked_precision p v mk = LNil <-> ~ prec_ok p \/ v < 0).
Proof.
  intros p v mk Hmk. unfold checked_precision.
  destruct (prec_case _ p (fun p' => if v <? 0 then LNil else mk p') LNil) as [[H ->]|[H ->]].
  - destruct (Z.ltb_spec v 0); split; intros HH; auto.
    + destruct (Hmk p HH).
    + destruct HH; [contradiction|lia].
  - split; auto.
Qed.

Lemma enc_dec_proto : forall v t, sup_char (LProto v t).
Proof.
  intros v t. unfold sup_char. cbn [supported lit_to_proto].
  assert (F : forall b n, nullability_of b = n -> flagged n) by (intros b n <-; apply flagged_of).
  split.
  - destruct t; cbn [proto_supported]; try contradiction.
    + destruct k; try contradiction. destruct v; try contradiction. intros [Hf Hl].
      eexists; split; [reflexivity|]. unfold nullable_flag; cbn [lit_from_proto get_nullability get_variation].
      rewrite (flag_back _ Hf), wrap_uwrap, (wrap_id 32) by (auto; lia). reflexivity.
    + destruct v; try contradiction. intros Hf.
      eexists; split; [reflexivity|]. unfold nullable_flag; cbn [lit_from_proto get_nullability get_variation].
      rewrite (flag_back _ Hf). reflexivity.
    + destruct v; try contradiction. intros [Hf [-> [Hp Hz]]].
      eexists; split; [reflexivity|]. unfold nullable_flag; cbn [lit_from_proto get_nullability get_variation].
      rewrite (flag_back _ Hf), checked_ok by auto. reflexivity.
    + destruct v; try contradiction. intros [Hf [-> [Hp Hz]]].
      eexists; split; [reflexivity|]. unfold nullable_flag; cbn [lit_from_proto get_nullability get_variation].
      rewrite (flag_back _ Hf), checked_ok by auto. reflexivity.
    + destruct v; try contradiction. intros [Hf [-> [Hp Hz]]].
      eexists; split; [reflexivity|]. unfold nullable_flag; cbn [lit_from_proto get_nullability get_variation].
      rewrite (flag_back _ Hf), checked_ok by auto. reflexivity.
    + destruct v; try contradiction. intros [Hf Hm].
      eexists; split; [reflexivity|]. unfold nullable_flag; cbn [lit_from_proto get_nullability get_variation].
      rewrite (flag_back _ Hf). destruct d as [dd ds mode dss]; cbn [id_mode] in *.
      destruct mode; try (subst; reflexivity). destruct Hm as [-> Hp].
      destruct (prec_case _ p (fun p' => Ok (LProto (XDaySecond (Idts dd ds (IM_precision p) dss)) (TIntervalDay n v0 p'))) (Ok LNil))
        as [[_ H]|[H _]]; [exact H|contradiction].
    + destruct v; try contradiction. intros [Hf [Hps Hv]].
      apply (mapM_inverse _ _ tparam_to_proto type_param_from_proto wire_param) in Hps;
        [|apply Forall_forall; intros q _; apply wire_char].
      destruct Hps as [ms [H1 H2]]. cbn [protoval_to_proto]. rewrite H1. cbn [bind].
      destruct v; try congruence;
        (eexists; split; [reflexivity|]); unfold nullable_flag; cbn [lit_from_proto get_nullability get_variation];
        rewrite (flag_back _ Hf), H2; reflexivity.
  - intros [m [H1 H2]].
    destruct t; cbn [protoval_to_proto bind] in H1;
      try (inversion H1; subst; discriminate H2).
    + destruct p; try (inversion H1; subst; discriminate H2).
      destruct v; inversion H1; subst; discriminate H2.
    + destruct k; try (inversion H1; subst; discriminate H2).
      destruct v; inversion H1; subst; clear H1. cbn [lit_from_proto] in H2. inversion H2. cbn.
      split; [eauto|]. rewrite wrap_uwrap in *. apply wrap_iff; [lia|congruence].
    + destruct v; inversion H1; subst; clear H1. cbn [lit_from_proto] in H2. inversion H2. cbn. eauto.
    + destruct v; inversion H1; subst; clear H1. cbn [lit_from_proto] in H2. inversion H2 as [H].
      apply checked_inv in H; [|discriminate]. destruct H as [Hp [Hz H]]. inversion H. cbn. eauto.
    + destruct v; inversion H1; subst; clear H1. cbn [lit_from_proto] in H2. inversion H2 as [H].
      apply checked_inv in H; [|discriminate]. destruct H as [Hp [Hz H]]. inversion H. cbn. eauto.
    + destruct v; inversion H1; subst; clear H1. cbn [lit_from_proto] in H2. inversion H2 as [H].
      apply checked_inv in H; [|discriminate]. destruct H as [Hp [Hz H]]. inversion H. cbn. eauto.
    + destruct v; inversion H1; subst; clear H1. cbn [lit_from_proto] in H2.
      destruct d as [dd ds mode dss]; cbn [id_mode] in *. cbn [proto_supported id_mode].
      destruct mode; try (inversion H2; eauto; fail).
      match type of H2 with
      | match proto_to_time_precision ?p with Ok q => @?k q | _ => _ end = _ =>
          apply (prec_not_bad _ p k (Ok LNil)) in H2; [|discriminate]
      end.
      destruct H2 as [Hp H]. inversion H. split; [apply flagged_of|split; congruence].
    + destruct (mapM tparam_to_proto params) as [ps| |] eqn:E; try discriminate. cbn [bind] in H1.
      destruct v; try discriminate. destruct v; try discriminate; cbn in H1; inversion H1; subst; clear H1;
        cbn [lit_from_proto] in H2; destruct (mapM type_param_from_proto ps) eqn:E2; try discriminate;
        cbn in H2; inversion H2; subst; cbn [proto_supported];
        (split; [eauto|split; [|discriminate]]);
        apply (mapM_inverse _ _ tparam_to_proto type_param_from_proto wire_param);
        eauto; apply Forall_forall; intros q _; apply wire_char.
Qed.

Lemma wire_iff : forall t, wire_type t <-> exists m, type_to_proto t = Ok m /\ type_from_proto m = Ok t.
Proof. apply wire_char. Qed.

Lemma enc_dec_all_lit : forall l, sup_char l.
Proof.
  assert (F : forall b n, nullability_of b = n -> flagged n) by (intros b n <-; apply flagged_of).
  apply lit_ind'.
  - intros l Hl. destruct l; try contradiction; auto using enc_dec_prim, enc_dec_bytes, enc_dec_proto; clear Hl.
    + unfold sup_char; cbn. split; [intros []|intros [m [H _]]; discriminate].
    + unfold sup_char. cbn [supported lit_to_proto]. rewrite wire_iff. split.
      * intros [m [H1 H2]]. rewrite H1. cbn. eexists; split; [reflexivity|]. cbn. rewrite H2. reflexivity.
      * intros [m [H1 H2]]. destruct (type_to_proto t) as [p| |]; try discriminate. cbn in H1.
        inversion H1; subst. cbn in H2. destruct (type_from_proto p) as [t'| |] eqn:E; try discriminate.
        inversion H2; subst. eauto.
    + unfold sup_char. cbn [supported lit_to_proto]. split.
      * intros Hf. eexists; split; [reflexivity|]. cbn [lit_from_proto]. rewrite (flag_back _ Hf). reflexivity.
      * intros [m [H1 H2]]. inversion H1; subst. cbn [lit_from_proto] in H2. inversion H2. apply flagged_of.
    + unfold sup_char. cbn [supported lit_to_proto]. unfold compound_to_proto.
      assert (E : negb (days =? 0) || negb (secs =? 0) || negb (sub =? 0)
                  = negb ((days =? 0) && (secs =? 0) && (sub =? 0))) by
        (rewrite !negb_andb; reflexivity).
      rewrite E. clear E.
      assert (YM : (match (if negb (years =? 0) || negb (months =? 0) then Some (years, months) else None) with
                    | Some p => p | None => (0, 0) end) = (years, months)).
      { destruct (Z.eqb_spec years 0), (Z.eqb_spec months 0); subst; reflexivity. }
      destruct ((days =? 0) && (secs =? 0) && (sub =? 0)) eqn:E; cbn [negb].
      * rewrite !andb_true_iff, !Z.eqb_eq in E. destruct E as [[-> ->] ->]. split.
        -- intros [Hf ->]. eexists; split; [reflexivity|]. cbn [lit_from_proto]. unfold compound_from_proto.
           rewrite YM, (flag_back _ Hf). reflexivity.
        -- intros [m [H1 H2]]. inversion H1; subst; clear H1. cbn [lit_from_proto] in H2.
           unfold compound_from_proto in H2. rewrite YM in H2. inversion H2. split; [apply flagged_of|reflexivity].
      * split.
        -- intros [Hf Hp]. eexists; split; [reflexivity|]. cbn [lit_from_proto]. unfold compound_from_proto.
           rewrite YM, (flag_back _ Hf).
           destruct (prec_case _ prec (fun p' => Ok (LCompound years months days secs sub p' n)) (Ok LNil))
             as [[_ H]|[H _]]; [|contradiction].
           destruct (proto_to_time_precision prec); congruence.
        -- intros [m [H1 H2]]. inversion H1; subst; clear H1. cbn [lit_from_proto] in H2.
           unfold compound_from_proto in H2. rewrite YM in H2. inversion H2 as [H].
           match type of H with
           | match proto_to_time_precision ?p with Ok q => @?k q | _ => _ end = _ =>
             apply (prec_not_bad _ p k LNil) in H; [|discriminate]
           end.
           destruct H as [Hp H]. inversion H. split; [apply flagged_of|auto].
  - intros fs t IH. unfold sup_char. cbn [supported lit_to_proto].
    rewrite (mapM_inverse _ _ lit_to_proto lit_from_proto supported _ IH). split.
    + intros [[ms [H1 H2]] Ht]. destruct t; try contradiction. destruct Ht as [Hf Ht].
      rewrite H1. cbn [bind]. eexists; split; [reflexivity|]. cbn [lit_from_proto]. rewrite H2. cbn [bind].
      apply mapM_lit_type in Ht. rewrite Ht. cbn [bind]. unfold nullable_flag; cbn [get_nullability get_variation].
      rewrite (flag_back _ Hf). reflexivity.
    + intros [m [H1 H2]]. destruct (mapM lit_to_proto fs) as [ms| |]; try discriminate.
      cbn [bind] in H1. inversion H1; subst; clear H1. cbn [lit_from_proto] in H2.
      destruct (mapM lit_from_proto ms) as [fs'| |] eqn:E; try discriminate. cbn [bind] in H2.
      destruct (mapM lit_type fs') as [ts| |] eqn:E2; try discriminate. cbn [bind] in H2.
      destruct t; inversion H2; subst. split; [eauto|]. split; [apply flagged_of|]. apply mapM_lit_type; auto.
  - intros fs t IH. unfold sup_char. cbn [supported lit_to_proto].
    rewrite (mapM_inverse _ _ lit_to_proto lit_from_proto supported _ IH). split.
    + intros [[ms [H1 H2]] Ht]. destruct t; try contradiction. destruct Ht as [Hf Ht].
      rewrite H1. cbn [bind]. destruct fs as [|f0 fs].
      * inversion H1; subst. apply wire_iff in Ht. destruct Ht as [p [Hp1 Hp2]].
        cbn. rewrite Hp1. cbn. eexists; split; [reflexivity|]. cbn [lit_from_proto]. rewrite Hp2. cbn [bind].
        unfold nullable_flag; cbn [get_nullability]. rewrite (flag_back _ Hf). reflexivity.
      * destruct ms as [|m0 ms]; [apply mapM_length in H1; discriminate|].
        eexists; split; [reflexivity|]. cbn [lit_from_proto]. rewrite H2. cbn [bind].
        apply lit_type_typed in Ht. rewrite Ht. cbn [bind].
        unfold nullable_flag; cbn [get_nullability get_variation]. rewrite (flag_back _ Hf). reflexivity.
    + intros [m [H1 H2]]. destruct (mapM lit_to_proto fs) as [ms| |] eqn:E0; try discriminate.
      cbn [bind] in H1. destruct ms as [|m0 ms].
      * apply mapM_nil in E0. destruct fs as [|f0 fs]; [|destruct E0 as [E0 _]; discriminate (E0 eq_refl)].
        destruct (type_to_proto t) as [p| |] eqn:Ep; try discriminate. cbn [bind] in H1.
        inversion H1; subst; clear H1. cbn [lit_from_proto] in H2.
        destruct (get_list_spec _ _ Ep) as [[n [v [e [q [-> [-> Hq]]]]]]|[HN _]]; [|rewrite HN in H2; discriminate].
        cbn [get_list] in H2. destruct (type_from_proto q) as [e'| |] eqn:Eq; try discriminate.
        cbn [bind] in H2. inversion H2; subst.
        split; [exists []; auto|]. split; [apply flagged_of|]. apply wire_iff. eauto.
      * inversion H1; subst; clear H1. cbn [lit_from_proto] in H2.
        destruct (mapM lit_from_proto (m0 :: ms)) as [fs'| |] eqn:E; try discriminate. cbn [bind] in H2.
        destruct fs' as [|f0 fs']; try discriminate.
        destruct (lit_type f0) as [t0| |] eqn:E2; try discriminate. cbn [bind] in H2.
        destruct t; inversion H2; subst. split; [eauto|]. split; [apply flagged_of|]. apply lit_type_typed; auto.
  - intros kvs t IH. unfold sup_char. cbn [supported lit_to_proto].
    rewrite (mapM_inverse _ _ (pairM lit_to_proto lit_to_proto) (pairM lit_from_proto lit_from_proto)
       (fun p => match p with (k, x) => supported k /\ supported x end) kvs).
    2: { eapply Forall_impl; [|exact IH]. intros [k x] [Hk Hx]. unfold sup_char in *. cbn [fst snd] in *.
         rewrite Hk, Hx. split.
         - intros [[m [H1 H2]] [m' [H3 H4]]]. exists (m, m'). rewrite !pairM_ok. auto.
         - intros [[m m'] [H1 H2]]. rewrite pairM_ok in H1, H2. cbn in *. destruct H1, H2. split; eauto. }
    split.
    + intros [[ms [H1 H2]] Ht]. destruct t; try contradiction. destruct Ht as [Hf Ht].
      rewrite H1. cbn [bind]. destruct kvs as [|[k0 x0] kvs].
      * inversion H1; subst. destruct Ht as [Hk Hx]. apply wire_iff in Hk. apply wire_iff in Hx.
        destruct Hk as [p [Hp1 Hp2]]. destruct Hx as [p' [Hp1' Hp2']].
        cbn. rewrite Hp1, Hp1'. cbn. eexists; split; [reflexivity|]. cbn [lit_from_proto]. rewrite Hp2, Hp2'. cbn [bind].
        unfold nullable_flag; cbn [get_nullability]. rewrite (flag_back _ Hf). reflexivity.
      * destruct ms as [|m0 ms]; [apply mapM_length in H1; discriminate|].
        eexists; split; [reflexivity|]. cbn [lit_from_proto]. rewrite H2. cbn [bind].
        destruct Ht as [Hk Hx]. apply lit_type_typed in Hk. apply lit_type_typed in Hx. rewrite Hk, Hx. cbn [bind].
        unfold nullable_flag; cbn [get_nullability get_variation]. rewrite (flag_back _ Hf). reflexivity.
    + intros [m [H1 H2]]. destruct (mapM (pairM lit_to_proto lit_to_proto) kvs) as [ms| |] eqn:E0; try discriminate.
      cbn [bind] in H1. destruct ms as [|m0 ms].
      * apply mapM_nil in E0. destruct kvs as [|f0 fs]; [|destruct E0 as [E0 _]; discriminate (E0 eq_refl)].
        destruct (type_to_proto t) as [p| |] eqn:Ep; try discriminate. cbn [bind] in H1.
        inversion H1; subst; clear H1. cbn [lit_from_proto] in H2.
        destruct (get_map_spec _ _ Ep) as [[n [v [k [x [q [q' [-> [-> [Hq Hq']]]]]]]]]|[HN _]]; [|rewrite HN in H2; discriminate].
        cbn [get_map] in H2. destruct (type_from_proto q) as [e1| |] eqn:Eq; try discriminate.
        cbn [bind] in H2. destruct (type_from_proto q') as [e2| |] eqn:Eq2; try discriminate.
        cbn [bind] in H2. inversion H2; subst.
        split; [exists []; auto|]. split; [apply flagged_of|]. rewrite !wire_iff. split; eauto.
      * inversion H1; subst; clear H1. cbn [lit_from_proto] in H2.
        destruct (mapM (pairM lit_from_proto lit_from_proto) (m0 :: ms)) as [fs'| |] eqn:E; try discriminate. cbn [bind] in H2.
        destruct fs' as [|[k0 x0] fs']; try discriminate.
        destruct (lit_type k0) as [t0| |] eqn:E2; try discriminate. cbn [bind] in H2.
        destruct (lit_type x0) as [t1| |] eqn:E3; try discriminate. cbn [bind] in H2.
        destruct t; inversion H2; subst. split; [eauto|]. split; [apply flagged_of|]. split; apply lit_type_typed; auto.
Qed.

(** ** encoding alone *)

Lemma serializable_dec : forall t,
  (serializable t /\ exists m, type_to_proto t = Ok m) \/ (~ serializable t /\ type_to_proto t = Panic).
Proof. apply ser_char_all. Qed.

Definition enc_char (l : lit) : Prop :=
  (encodable l /\ exists m, lit_to_proto l = Ok m) \/ (~ encodable l /\ lit_to_proto l = Panic).

Lemma enc_char_all : forall l, enc_char l.
Proof.
  apply lit_ind'.
  - intros l Hl. unfold enc_char. destruct l; try contradiction; cbn [encodable lit_to_proto]; clear Hl.
    + right; auto.
    + destruct (serializable_dec t) as [[H [m ->]]|[H ->]]; [left|right]; cbn; eauto.
    + destruct v; cbn; eauto.
    + eauto.
    + destruct t; cbn [proto_encodable protoval_to_proto]; try (left; split; [exact I|cbn; eauto]; fail).
      1: destruct p; try (left; split; [exact I|cbn; eauto]; fail).
      2: destruct k; try (left; split; [exact I|cbn; eauto]; fail).
      all: try (destruct v; cbn; eauto; fail).
      assert (D : (All serializable_param params /\ exists ys, mapM tparam_to_proto params = Ok ys) \/
                  (~ All serializable_param params /\ mapM tparam_to_proto params = Panic)).
      { apply mapM_decide. apply Forall_forall. intros p _. apply ser_char_all. }
      destruct D as [[H [ys ->]]|[H ->]]; cbn [bind]; [|right; split; [intros [? _]; contradiction|reflexivity]].
      destruct v; cbn; try (right; split; [intros [_ []]|reflexivity]; fail).
      destruct v; cbn; [right; split; [intros [_ HH]; congruence|reflexivity]|left|left];
        (split; [split; [auto|discriminate]|eauto]).
    + eauto.
    + eauto.
  - intros fs t IH. unfold enc_char. cbn [encodable lit_to_proto].
    destruct (mapM_decide _ _ lit_to_proto encodable fs IH) as [[H [ms ->]]|[H ->]]; [left|right]; cbn; eauto.
  - intros fs t IH. unfold enc_char. cbn [encodable lit_to_proto].
    destruct (mapM_decide _ _ lit_to_proto encodable fs IH) as [[H [ms E]]|[H ->]].
    2: { right. split; [intros [? _]; contradiction|reflexivity]. }
    rewrite E. cbn [bind]. apply mapM_nil in E. destruct ms as [|m0 ms].
    + assert (fs = []) as -> by (apply E; reflexivity).
      destruct (serializable_dec t) as [[Ht [m ->]]|[Ht ->]]; [left|right]; cbn; eauto.
      split; auto. intros [_ HH]. auto.
    + left. split; eauto. split; auto. intros ->. destruct E as [_ E]. discriminate (E eq_refl).
  - intros kvs t IH. unfold enc_char. cbn [encodable lit_to_proto].
    destruct (mapM_decide _ _ (pairM lit_to_proto lit_to_proto)
       (fun p => match p with (k, x) => encodable k /\ encodable x end) kvs) as [[H [ms E]]|[H ->]].
    { eapply Forall_impl; [|exact IH]. intros [k x] [Hk Hx]. unfold enc_char in *. cbn [fst snd] in *.
      cbn [pairM]. destruct Hk as [[Hk [m ->]]|[Hk ->]]; [|right; split; [tauto|reflexivity]].
      destruct Hx as [[Hx [m' ->]]|[Hx ->]]; [left; eauto|right; split; [tauto|reflexivity]]. }
    2: { right. split; [intros [? _]; contradiction|reflexivity]. }
    rewrite E. cbn [bind]. apply mapM_nil in E. destruct ms as [|m0 ms].
    + assert (kvs = []) as -> by (apply E; reflexivity).
      destruct (serializable_dec t) as [[Ht [m ->]]|[Ht ->]]; [left|right]; cbn; eauto.
      split; auto. intros [_ HH]. auto.
    + left. split; eauto. split; auto. intros ->. destruct E as [_ E]. discriminate (E eq_refl).
Qed.

(** ** decoding alone *)

Definition read_char (m : plit) : Prop :=
  (readable m /\ exists l, lit_from_proto m = Ok l /\ (l = LNil <-> rejected m)) \/
  (~ readable m /\ lit_from_proto m = Panic).

Lemma lit_type_nil : forall l, (l = LNil /\ lit_type l = Panic) \/ (l <> LNil /\ exists t, lit_type l = Ok t).
Proof. destruct l; [left; auto|right; cbn; split; [discriminate|eauto]..]. Qed.

Lemma decodable_dec : forall m,
  (decodable m /\ exists t, type_from_proto m = Ok t) \/ (~ decodable m /\ type_from_proto m = Panic).
Proof. apply from_char_all. Qed.

Lemma rejected_dec : forall m, rejected m \/ ~ rejected m.
Proof.
  intros [n v b]. destruct b; cbn; auto.
  - destruct d as [? ? [| |p] ?]; auto. destruct (prec_dec p); auto.
  - destruct ds as [[? ? [| |p] ?]|]; auto.
    + destruct (Z_lt_dec 0 id_sub); auto.
    + destruct (prec_dec p); auto.
  - destruct (prec_dec p), (Z_lt_dec v0 0); tauto.
  - destruct (prec_dec p), (Z_lt_dec v0 0); tauto.
  - destruct (prec_dec p), (Z_lt_dec v0 0); tauto.
Qed.

Lemma mapM_read : forall fs, Forall read_char fs ->
  (All readable fs /\ exists ls, mapM lit_from_proto fs = Ok ls /\
      Forall2 (fun m l => l = LNil <-> rejected m) fs ls) \/
  (~ All readable fs /\ mapM lit_from_proto fs = Panic).
Proof.
  intros fs H. induction H as [|m fs Hm H IH]; cbn [All mapM].
  - left. split; auto. exists []. auto.
  - destruct Hm as [[Hr [l [-> Hl]]]|[Hr ->]]; [|right; tauto].
    destruct IH as [[Ha [ls [E HF]]]|[Ha E]].
    + left. split; auto. unfold mapM in E |- *. rewrite E. exists (l :: ls). auto.
    + right. split; [tauto|]. unfold mapM in E |- *. rewrite E. reflexivity.
Qed.

Lemma mapM_read_pairs : forall kvs,
  Forall (fun p => read_char (fst p) /\ read_char (snd p)) kvs ->
  (All (fun p => match p with (k, x) => readable k /\ readable x end) kvs /\
     exists ls, mapM (pairM lit_from_proto lit_from_proto) kvs = Ok ls /\
      Forall2 (fun m l => (fst l = LNil <-> rejected (fst m)) /\ (snd l = LNil <-> rejected (snd m))) kvs ls) \/
  (~ All (fun p => match p with (k, x) => readable k /\ readable x end) kvs /\
   mapM (pairM lit_from_proto lit_from_proto) kvs = Panic).
Proof.
  intros fs H. induction H as [|[k x] fs [Hk Hx] H IH]; cbn [All mapM].
  - left. split; auto. exists []. auto.
  - cbn [fst snd] in *. cbn [pairM]. destruct Hk as [[Hr [l [-> Hl]]]|[Hr ->]]; [|right; tauto].
    destruct Hx as [[Hr' [l' [-> Hl']]]|[Hr' ->]]; [|right; tauto].
    destruct IH as [[Ha [ls [E HF]]]|[Ha E]].
    + left. split; auto. unfold mapM in E |- *. rewrite E. exists ((l, l') :: ls). auto.
    + right. split; [tauto|]. unfold mapM in E |- *. rewrite E. reflexivity.
Qed.

Lemma read_char_all : forall m, read_char m.
Proof.
  apply plit_ind'. intros n v b IH. unfold read_char.
  destruct b; cbn [readable lit_from_proto rejected];
    try (left; split; [exact I|]; eexists; split; [reflexivity|]; split; [discriminate|intros []]; fail).
  - right; auto.
  - destruct d as [dd ds [| |p] ss]; cbn [id_mode];
      try (left; split; [exact I|]; eexists; split; [reflexivity|]; split; [discriminate|intros []]; fail).
    left; split; [exact I|].
    destruct (prec_case _ p (fun p' => Ok (LProto (XDaySecond (Idts dd ds (IM_precision p) ss)) (TIntervalDay (nullability_of n) v p'))) (Ok LNil))
      as [[H ->]|[H ->]]; eexists; (split; [reflexivity|]); split; auto; try discriminate. tauto.
  - left; split; [exact I|]. eexists; split; [reflexivity|]. unfold compound_from_proto.
    destruct (match ym with Some p => p | None => (0, 0) end) as [y mo].
    destruct ds as [[dd s [| us|p] ss]|]; try (split; [discriminate|intros []]; fail).
    + split; auto.
    + destruct (Z.ltb_spec 0 ss); split; auto; try discriminate. lia.
    + destruct (prec_case _ p (fun p' => LCompound y mo dd s ss p' (nullability_of n)) LNil)
      as [[H ->]|[H ->]]; split; auto; try discriminate. tauto.
  - left; split; [exact I|]. eexists; split; [reflexivity|]. apply checked_nil. discriminate.
  - left; split; [exact I|]. eexists; split; [reflexivity|]. apply checked_nil. discriminate.
  - left; split; [exact I|]. eexists; split; [reflexivity|]. apply checked_nil. discriminate.
  - destruct (decodable_dec t) as [[H [t' ->]]|[H ->]]; [left|right]; auto. split; auto.
    cbn. eexists; split; [reflexivity|]. split; [discriminate|intros []].
  - destruct (mapM_read fields IH) as [[H [ls [-> HF]]]|[H ->]]; cbn [bind]; [|right; tauto].
    assert (D : (All (fun f => ~ rejected f) fields /\ exists ts, mapM lit_type ls = Ok ts) \/
                (~ All (fun f => ~ rejected f) fields /\ mapM lit_type ls = Panic)).
    { clear -HF. induction HF as [|m l ms ls Hm HF IH]; cbn [All mapM].
      - left. eauto.
      - destruct (lit_type_nil l) as [[Hn ->]|[Hn [t ->]]]; [right; tauto|].
        unfold mapM in *. destruct IH as [[Ha [ts ->]]|[Ha ->]]; [left|right]; split; eauto; tauto. }
    destruct D as [[Ha [ts ->]]|[Ha ->]]; cbn [bind]; [left|right]; [|tauto]. split; auto.
    eexists; split; [reflexivity|]. split; [discriminate|intros []].
  - rewrite (subs_map read_char) in IH.
    destruct (mapM_read_pairs _ IH) as [[H [ls [-> HF]]]|[H ->]]; cbn [bind]; [|right; tauto].
    inversion HF as [|[k x] [k' x'] kvs' ls' [Hk Hx] HF' E1 E2]; subst; [right; tauto|].
    cbn [fst snd] in *.
    destruct (lit_type_nil k') as [[Hn ->]|[Hn [t ->]]]; cbn [bind]; [right; tauto|].
    destruct (lit_type_nil x') as [[Hn' ->]|[Hn' [t' ->]]]; cbn [bind]; [right; tauto|].
    left. split; [split; [exact H|]; tauto|]. eexists; split; [reflexivity|]. split; [discriminate|intros []].
  - destruct (mapM_read values IH) as [[H [ls [-> HF]]]|[H ->]]; cbn [bind]; [|right; tauto].
    inversion HF as [|x x' kvs' ls' Hx HF' E1 E2]; subst; [right; tauto|].
    destruct (lit_type_nil x') as [[Hn ->]|[Hn [t ->]]]; cbn [bind]; [right; tauto|].
    left. split; [split; [exact H|]; tauto|]. eexists; split; [reflexivity|]. split; [discriminate|intros []].
  - destruct l as [[[a c] t]|]; [|right; auto].
    destruct (decodable_dec t) as [[H [t' ->]]|[H ->]]; [left|right]; auto. split; auto.
    cbn. eexists; split; [reflexivity|]. split; [discriminate|intros []].
  - destruct m as [[[[a c] k] x]|]; [|right; auto].
    destruct (decodable_dec k) as [[H [t' ->]]|[H ->]]; cbn [bind]; [|right; tauto].
    destruct (decodable_dec x) as [[H' [t'' ->]]|[H' ->]]; [left|right]; [|tauto]. split; auto.
    cbn. eexists; split; [reflexivity|]. split; [discriminate|intros []].
  - assert (D : (All decodable_param params /\ exists ys, mapM type_param_from_proto params = Ok ys) \/
                (~ All decodable_param params /\ mapM type_param_from_proto params = Panic)).
    { apply mapM_decide. apply Forall_forall. intros p _. apply from_char_all. }
    destruct D as [[H [ys ->]]|[H ->]]; [left|right]; auto. split; auto.
    cbn [bind]. eexists; split; [reflexivity|]. split; [discriminate|intros []].
Qed.

(** ** decoding then encoding *)

Definition rt_char (m : plit) : Prop := forall l, lit_from_proto m = Ok l ->
  (complete m /\ lit_to_proto l = Ok (normal m)) \/ (~ complete m /\ lit_to_proto l = Panic).

Lemma wire_msg_dec : forall m t, type_from_proto m = Ok t ->
  (wire_msg m /\ type_to_proto t = Ok (explicit m)) \/ (~ wire_msg m /\ type_to_proto t = Panic).
Proof.
  intros m t H. unfold wire_msg.
  assert (D : decodable m) by (destruct (decodable_dec m) as [[D _]|[_ E]]; [auto|congruence]).
  destruct (proj1 dec_enc_all m t H) as [[H1 H2]|[H1 H2]]; [left|right]; tauto.
Qed.

Lemma wire_params_dec : forall ps ts, mapM type_param_from_proto ps = Ok ts ->
  (All wire_msg_param ps /\ mapM tparam_to_proto ts = Ok (map explicit_param ps)) \/
  (~ All wire_msg_param ps /\ mapM tparam_to_proto ts = Panic).
Proof.
  intros ps ts H. eapply mapM_dec_enc; [|exact H].
  apply Forall_forall. intros p _ t Hp. unfold wire_msg_param.
  assert (D : decodable_param p) by (destruct (proj2 from_char_all p) as [[D _]|[_ E]]; [auto|congruence]).
  destruct (proj2 dec_enc_all p t Hp) as [[H1 H2]|[H1 H2]]; [left|right]; tauto.
Qed.

Lemma flag_of : forall b, (nullability_of b =? NullNullable) = b.
Proof. destruct b; reflexivity. Qed.

Lemma nullability_val : forall b, nullability_of b = if b then 1 else 2.
Proof. destruct b; reflexivity. Qed.

Lemma complete_unfold : forall n v b, complete (PLit n v b) <->
  ~ rejected (PLit n v b) /\
      match b with
      | PB_unset => False
      | PB_null t => wire_msg t
      | PB_struct fs => All complete fs
      | PB_list vs => All complete vs /\ vs <> []
      | PB_map kvs => All (fun p => match p with (k, x) => complete k /\ complete x end) kvs /\ kvs <> []
      | PB_empty_list l => match l with None => False | Some (_, _, t) => wire_msg t end
      | PB_empty_map l => match l with None => False | Some (_, _, k, x) => wire_msg k /\ wire_msg x end
      | PB_user_defined _ ps val => All wire_msg_param ps /\ val <> UV_unset
      | _ => True
      end.
Proof. intros. cbn [complete]. reflexivity. Qed.

Lemma rt_char_all : forall m, rt_char m.
Proof.
  assert (NIL : forall m l, lit_from_proto m = Ok l -> l = LNil \/ ~ rejected m).
  { intros m l H. destruct (read_char_all m) as [[_ [l' [H' E]]]|[_ H']]; [|congruence].
    assert (l' = l) by congruence. subst l'. destruct (rejected_dec m); tauto. }
  apply plit_ind'. intros n v b IH l H.
  destruct (NIL _ _ H) as [->|NR].
  { right. split; [|reflexivity]. destruct (read_char_all (PLit n v b)) as [[_ [l' [H' E]]]|[_ H']]; [|congruence].
    rewrite complete_unfold. intros [HH _]. apply HH. apply E. congruence. }
  rewrite complete_unfold. clear NIL.
  destruct b; cbn [lit_from_proto] in H;
    try (inversion H; subst; left; split; [tauto|]; cbn [lit_to_proto pval_to_proto bytes_to_proto protoval_to_proto bind normal];
         unfold nullable_flag; cbn [get_nullability get_variation]; rewrite flag_of; reflexivity).
  - discriminate.
  - left. split; [tauto|]. cbn [normal]. destruct d as [dd ds [| |p] ss]; cbn [id_mode] in H;
      try (inversion H; subst; cbn [lit_to_proto protoval_to_proto bind]; unfold nullable_flag; cbn [get_nullability get_variation];
           rewrite flag_of; reflexivity).
    destruct (prec_case _ p (fun p' => Ok (LProto (XDaySecond (Idts dd ds (IM_precision p) ss)) (TIntervalDay (nullability_of n) v p'))) (Ok LNil))
      as [[Hp E]|[Hp E]]; [|cbn in NR; tauto].
    rewrite E in H. inversion H; subst. cbn [lit_to_proto protoval_to_proto bind]. unfold nullable_flag; cbn [get_nullability get_variation].
    rewrite flag_of; reflexivity.
  - left. split; [tauto|]. inversion H; subst; clear H. unfold compound_from_proto in *.
    cbn [normal].
    assert (YM : forall y mo, match ym with Some p => p | None => (0, 0) end = (y, mo) ->
       (if negb (y =? 0) || negb (mo =? 0) then Some (y, mo) else None) = match ym with Some (0, 0) => None | _ => ym end).
    { intros y mo E. destruct ym as [[y' mo']|]; inversion E; subst; [|reflexivity].
      destruct y as [|y|y], mo as [|mo|mo]; reflexivity. }
    destruct (match ym with Some p => p | None => (0, 0) end) as [y mo].
    specialize (YM _ _ eq_refl).
    assert (DS : forall d s ss p, (if negb (d =? 0) || negb (s =? 0) || negb (ss =? 0)
        then Some (Idts d s (IM_precision p) ss) else None) =
        if (d =? 0) && (s =? 0) && (ss =? 0) then None else Some (Idts d s (IM_precision p) ss)).
    { intros d s ss p. destruct (d =? 0), (s =? 0), (ss =? 0); reflexivity. }
    destruct ds as [[dd s [| us|p] ss]|].
    + cbn in NR. tauto.
    + cbn in NR. destruct (Z.ltb_spec 0 ss); [tauto|]. cbn [lit_to_proto]. unfold compound_to_proto.
      rewrite flag_of, YM, DS. reflexivity.
    + cbn in NR. destruct (prec_case _ p (fun p' => LCompound y mo dd s ss p' (nullability_of n)) LNil)
      as [[Hp ->]|[Hp ->]]; [|tauto]. cbn [lit_to_proto]. unfold compound_to_proto.
      rewrite flag_of, YM, DS. reflexivity.
    + cbn [lit_to_proto]. unfold compound_to_proto. rewrite flag_of, YM. reflexivity.
  - left. split; [tauto|]. inversion H; subst; clear H. cbn [lit_to_proto protoval_to_proto bind normal].
    unfold nullable_flag; cbn [get_nullability get_variation]. rewrite flag_of, uwrap_wrap. reflexivity.
  - left. split; [tauto|]. inversion H; subst; clear H. cbn in NR.
    rewrite checked_ok by (destruct (prec_dec p); [first [assumption|lia]|tauto]).
    cbn [lit_to_proto protoval_to_proto bind new_precision_time normal].
    unfold nullable_flag; cbn [get_nullability get_variation]. rewrite flag_of; reflexivity.
  - left. split; [tauto|]. inversion H; subst; clear H. cbn in NR.
    rewrite checked_ok by (destruct (prec_dec p); [first [assumption|lia]|tauto]).
    cbn [lit_to_proto protoval_to_proto bind new_precision_timestamp normal].
    unfold nullable_flag; cbn [get_nullability get_variation]. rewrite flag_of; reflexivity.
  - left. split; [tauto|]. inversion H; subst; clear H. cbn in NR.
    rewrite checked_ok by (destruct (prec_dec p); [first [assumption|lia]|tauto]).
    cbn [lit_to_proto protoval_to_proto bind new_precision_timestamp_tz normal].
    unfold nullable_flag; cbn [get_nullability get_variation]. rewrite flag_of; reflexivity.
  - destruct (type_from_proto t) as [t'| |] eqn:E; try discriminate. cbn in H. inversion H; subst.
    cbn [lit_to_proto normal]. rewrite (from_variation _ _ E).
    destruct (wire_msg_dec _ _ E) as [[H1 ->]|[H1 ->]]; [left|right]; cbn; tauto.
  - destruct (mapM lit_from_proto fields) as [fs| |] eqn:E; try discriminate. cbn [bind] in H.
    destruct (mapM lit_type fs) as [ts| |]; try discriminate. cbn [bind] in H. inversion H; subst.
    cbn [lit_to_proto normal].
    destruct (mapM_dec_enc _ _ lit_from_proto lit_to_proto complete normal fields _ IH E) as [[H1 ->]|[H1 ->]]; cbn [bind].
    + left. split; [tauto|]. unfold nullable_flag; cbn [get_nullability get_variation]. rewrite flag_of; reflexivity.
    + right. tauto.
  - destruct (mapM (pairM lit_from_proto lit_from_proto) kvs) as [ls| |] eqn:E; try discriminate. cbn [bind] in H.
    rewrite (subs_map rt_char) in IH.
    assert (D : (All (fun p => match p with (k, x) => complete k /\ complete x end) kvs /\
                 mapM (pairM lit_to_proto lit_to_proto) ls = Ok (map (fun p => match p with (k, x) => (normal k, normal x) end) kvs)) \/
                (~ All (fun p => match p with (k, x) => complete k /\ complete x end) kvs /\
                 mapM (pairM lit_to_proto lit_to_proto) ls = Panic)).
    { eapply mapM_dec_enc; [|exact E]. eapply Forall_impl; [|exact IH]. intros [k x] [Hk Hx] [k' x'] Hp.
      apply pairM_ok in Hp. cbn [fst snd] in *. destruct Hp as [Hp1 Hp2].
      specialize (Hk _ Hp1). specialize (Hx _ Hp2). cbn [pairM].
      destruct Hk as [[Hk ->]|[Hk ->]]; [|right; tauto].
      destruct Hx as [[Hx ->]|[Hx ->]]; [left|right]; tauto. }
    apply mapM_nil in E. destruct ls as [|[k0 x0] ls]; try discriminate.
    assert (NE : kvs <> []) by (intros ->; destruct E as [_ E]; discriminate (E eq_refl)).
    destruct (lit_type k0) as [kt| |]; try discriminate. cbn [bind] in H.
    destruct (lit_type x0) as [xt| |]; try discriminate. cbn [bind] in H. inversion H; subst.
    cbn [lit_to_proto normal]. destruct D as [[H1 ->]|[H1 ->]]; cbn [bind].
    + left. split; [tauto|]. unfold nullable_flag; cbn [get_nullability get_variation]. rewrite flag_of.
      destruct kvs; [congruence|reflexivity].
    + right. tauto.
  - destruct (mapM lit_from_proto values) as [fs| |] eqn:E; try discriminate. cbn [bind] in H.
    pose proof (mapM_nil _ _ _ _ _ E) as EN. destruct fs as [|e0 fs]; try discriminate.
    assert (NE : values <> []) by (intros ->; destruct EN as [_ EN]; discriminate (EN eq_refl)).
    destruct (lit_type e0) as [t| |]; try discriminate. cbn [bind] in H. inversion H; subst.
    cbn [lit_to_proto normal].
    destruct (mapM_dec_enc _ _ lit_from_proto lit_to_proto complete normal values _ IH E) as [[H1 ->]|[H1 ->]]; cbn [bind].
    + left. split; [tauto|]. unfold nullable_flag; cbn [get_nullability get_variation]. rewrite flag_of.
      destruct values; [congruence|reflexivity].
    + right. tauto.
  - destruct l0 as [[[a c] t]|]; try discriminate.
    destruct (type_from_proto t) as [t'| |] eqn:E; try discriminate. cbn [bind] in H. inversion H; subst.
    cbn [lit_to_proto mapM bind normal type_to_proto].
    destruct (wire_msg_dec _ _ E) as [[H1 ->]|[H1 ->]]; [left|right; tauto]. split; [tauto|].
    cbn [bind get_list]. unfold nullable_flag; cbn [get_nullability get_variation].
    rewrite flag_of, nullability_val. reflexivity.
  - destruct m as [[[[a c] k] x]|]; try discriminate.
    destruct (type_from_proto k) as [k'| |] eqn:E; try discriminate. cbn [bind] in H.
    destruct (type_from_proto x) as [x'| |] eqn:E2; try discriminate. cbn [bind] in H. inversion H; subst.
    cbn [lit_to_proto mapM bind normal type_to_proto].
    destruct (wire_msg_dec _ _ E) as [[H1 ->]|[H1 ->]]; [|right; tauto]. cbn [bind].
    destruct (wire_msg_dec _ _ E2) as [[H2 ->]|[H2 ->]]; [left|right; tauto]. split; [tauto|].
    cbn [bind get_map]. unfold nullable_flag; cbn [get_nullability get_variation].
    rewrite flag_of, nullability_val. reflexivity.
  - destruct (mapM type_param_from_proto params) as [ps| |] eqn:E; try discriminate. cbn [bind] in H.
    inversion H; subst. cbn [lit_to_proto protoval_to_proto normal].
    destruct (wire_params_dec _ _ E) as [[H1 ->]|[H1 ->]]; [|right; tauto]. cbn [bind].
    destruct val; [right; split; [intros [_ [_ HH]]; congruence|reflexivity]|left|left];
      (split; [split; [exact NR|split; [exact H1|discriminate]]|]); cbn [bind];
      unfold nullable_flag; cbn [get_nullability get_variation]; rewrite flag_of; reflexivity.
Qed.

Lemma complete_readable : forall m, complete m -> readable m.
Proof.
  apply (plit_ind' (fun m => complete m -> readable m)). intros n v b IH. rewrite complete_unfold. intros [NR H].
  assert (NRJ : forall m, complete m -> ~ rejected m).
  { intros [? ? ?] Hc. apply complete_unfold in Hc. destruct Hc as [Hc _]. exact Hc. }
  destruct b; cbn [readable] in *; auto.
  - destruct H; auto.
  - rewrite !All_Forall in *. rewrite Forall_forall in *. cbn in IH. split; [|apply Forall_forall]; intros x Hx; auto.
  - destruct H as [H NE]. rewrite (subs_map (fun m => complete m -> readable m)) in IH. split.
    + clear NE. induction IH as [|[k x] kvs [Hk Hx] IH IHF]; cbn in *; auto. destruct H as [[H1 H2] H3]. auto.
    + destruct kvs as [|[k x] kvs]; [congruence|]. destruct H as [[H1 H2] _]. auto.
  - destruct H as [H NE]. split.
    + rewrite !All_Forall in *. rewrite Forall_forall in *. auto.
    + destruct values; [congruence|]. destruct H; auto.
  - destruct l as [[[a c] t]|]; auto. destruct H; auto.
  - destruct m as [[[[a c] k] x]|]; auto. destruct H as [[H1 _] [H2 _]]; auto.
  - destruct H as [H _]. rewrite !All_Forall in *. rewrite Forall_forall in *. intros p Hp. apply (H p Hp).
Qed.

(** ** equality *)

Lemma fp_is_nan_spec : forall e m x, fp_is_nan e m x = true <-> is_nan e m x.
Proof.
  intros. unfold fp_is_nan, is_nan. rewrite andb_true_iff, negb_true_iff, Z.eqb_eq, Z.eqb_neq. reflexivity.
Qed.
Lemma fp_eqb_spec : forall e m x y, fp_eqb e m x y = true <-> fp_same e m x y.
Proof.
  intros e m x y. unfold fp_eqb, fp_same, is_zero, fp_is_zero.
  rewrite !andb_true_iff, orb_true_iff, andb_true_iff, !negb_true_iff, !Z.eqb_eq.
  rewrite <- (fp_is_nan_spec e m x), <- (fp_is_nan_spec e m y).
  destruct (fp_is_nan e m x), (fp_is_nan e m y); intuition congruence.
Qed.

Lemma bytes_eqb_spec : forall a b, bytes_eqb a b = true <-> a = b.
Proof.
  induction a as [|x a IH]; destruct b as [|y b]; cbn; try (intuition congruence).
  rewrite andb_true_iff, Z.eqb_eq, IH. intuition congruence.
Qed.

Lemma list_eqb_spec : forall A (f : A -> A -> bool) (R : A -> A -> Prop) l m,
  Forall (fun x => forall y, f x y = true <-> R x y) l -> (list_eqb f l m = true <-> Forall2 R l m).
Proof.
  intros A f R l m H. revert m. induction H as [|x l Hx Hl IH]; destruct m as [|y m]; cbn.
  - split; auto.
  - split; [discriminate|intros H; inversion H].
  - split; [discriminate|intros H; inversion H].
  - rewrite andb_true_iff, Hx, IH. split; [intros []; auto|intros H; inversion H; auto].
Qed.

Lemma Forall2_eq : forall A (l m : list A), Forall2 eq l m <-> l = m.
Proof.
  intros A l m. split.
  - induction 1; congruence.
  - intros <-. induction l; auto.
Qed.

Lemma opt_eqb_spec : forall A (f : A -> A -> bool) (a b : option A),
  (forall x y, f x y = true <-> x = y) -> (opt_eqb f a b = true <-> a = b).
Proof. intros A f [x|] [y|] H; cbn; rewrite ?H; intuition congruence. Qed.

Lemma ptype_eqb_spec :
  (forall a b, ptype_eqb a b = true <-> a = b) /\ (forall a b, pparam_eqb a b = true <-> a = b).
Proof.
  apply ptype_pparam_ind.
  - intros m Hm b. destruct m; try contradiction; destruct b; cbn;
      try (intuition congruence);
      rewrite ?andb_true_iff, ?Z.eqb_eq, ?(opt_eqb_spec _ Z.eqb) by apply Z.eqb_eq; intuition congruence.
  - intros n v fs H b. destruct b; cbn; try (intuition congruence).
    rewrite !andb_true_iff, !Z.eqb_eq, (list_eqb_spec _ _ eq) by exact H. rewrite Forall2_eq. intuition congruence.
  - intros n fs r H Hr b. destruct b; cbn; try (intuition congruence).
    rewrite !andb_true_iff, !Z.eqb_eq, (list_eqb_spec _ _ eq) by exact H. rewrite Forall2_eq, Hr. intuition congruence.
  - intros n v t Ht b. destruct b; cbn; try (intuition congruence).
    rewrite !andb_true_iff, !Z.eqb_eq, Ht. intuition congruence.
  - intros n v k x Hk Hx b. destruct b; cbn; try (intuition congruence).
    rewrite !andb_true_iff, !Z.eqb_eq, Hk, Hx. intuition congruence.
  - intros n v r ps H b. destruct b; cbn; try (intuition congruence).
    rewrite !andb_true_iff, !Z.eqb_eq, (list_eqb_spec _ _ eq) by exact H. rewrite Forall2_eq. intuition congruence.
  - intros p Hp b. destruct p; try contradiction; destruct b; cbn; try (intuition congruence);
      rewrite ?Bool.eqb_true_iff, ?Z.eqb_eq, ?String.eqb_eq; intuition congruence.
  - intros t Ht b. destruct b; cbn; try (intuition congruence). rewrite Ht. intuition congruence.
Qed.

Lemma idts_eqb_spec : forall a b, idts_eqb a b = true <-> a = b.
Proof.
  intros [d s m ss] [d' s' m' ss']. unfold idts_eqb. cbn. rewrite !andb_true_iff, !Z.eqb_eq.
  assert (H : ids_mode_eqb m m' = true <-> m = m').
  { destruct m, m'; cbn; try (intuition congruence); rewrite Z.eqb_eq; intuition congruence. }
  rewrite H. intuition congruence.
Qed.

Lemma plist_eqb_spec : forall a b, plist_eqb a b = true <-> a = b.
Proof.
  intros [[n v] t] [[n' v'] t']. cbn. rewrite !andb_true_iff, !Z.eqb_eq, (proj1 ptype_eqb_spec). intuition congruence.
Qed.
Lemma pmap_eqb_spec : forall a b, pmap_eqb a b = true <-> a = b.
Proof.
  intros [[[n v] t] x] [[[n' v'] t'] x']. cbn. rewrite !andb_true_iff, !Z.eqb_eq, !(proj1 ptype_eqb_spec). intuition congruence.
Qed.
Lemma zpair_eqb_spec : forall a b, zpair_eqb a b = true <-> a = b.
Proof. intros [a1 a2] [b1 b2]. unfold zpair_eqb. cbn. rewrite andb_true_iff, !Z.eqb_eq. intuition congruence. Qed.

Definition msg_char (a : plit) : Prop := forall b, plit_eqb a b = true <-> msg_same a b.

Lemma uval_char : forall v, (match v with UV_struct l => Forall msg_char l | _ => True end) ->
  forall v', uval_eqb v v' = true <-> uval_same v v'.
Proof.
  intros v H v'. destruct v, v'; cbn; try (split; [discriminate|intros HH; inversion HH]).
  - split; auto using US_unset.
  - rewrite andb_true_iff, String.eqb_eq, bytes_eqb_spec. split; [intros [-> ->]; constructor|intros HH; inversion HH; auto].
  - rewrite (list_eqb_spec _ _ msg_same) by exact H. split; [constructor; auto|intros HH; inversion HH; auto].
Qed.

Lemma msg_char_all : forall m, msg_char m.
Proof.
  apply plit_ind'. intros n v b IH [n' v' b']. cbn [plit_eqb].
  rewrite !andb_true_iff, Bool.eqb_true_iff, Z.eqb_eq.
  assert (B : pbody_eqb b b' = true <-> body_same b b').
  2: { rewrite B. split; [intros [[-> ->] H]; constructor; auto|intros H; inversion H; auto]. }
  destruct b, b'; cbn [pbody_eqb];
    try (split; [discriminate|intros HH; inversion HH; fail]);
    try (rewrite ?andb_true_iff, ?Z.eqb_eq, ?Bool.eqb_true_iff, ?String.eqb_eq, ?bytes_eqb_spec, ?idts_eqb_spec,
           ?(proj1 ptype_eqb_spec), ?(opt_eqb_spec _ _ _ _ zpair_eqb_spec), ?(opt_eqb_spec _ _ _ _ idts_eqb_spec),
           ?(opt_eqb_spec _ _ _ _ plist_eqb_spec), ?(opt_eqb_spec _ _ _ _ pmap_eqb_spec);
         split; [intros HH; decompose [and] HH; subst; apply BS_other; exact I
                |intros HH; inversion HH; subst; auto]; fail).
  - rewrite fp_eqb_spec. split; [apply BS_fp32|intros HH; inversion HH; subst; auto; contradiction].
  - rewrite fp_eqb_spec. split; [apply BS_fp64|intros HH; inversion HH; subst; auto; contradiction].
  - rewrite (list_eqb_spec _ _ msg_same) by exact IH. split; [apply BS_struct|intros HH; inversion HH; subst; auto; contradiction].
  - rewrite (subs_map msg_char) in IH.
    rewrite (list_eqb_spec _ _ (fun p q => msg_same (fst p) (fst q) /\ msg_same (snd p) (snd q))).
    + split; [apply BS_map|intros HH; inversion HH; subst; auto; contradiction].
    + eapply Forall_impl; [|exact IH]. intros [k x] [Hk Hx] [k' x']. cbn in *. rewrite andb_true_iff.
      rewrite (Hk k'), (Hx x'). reflexivity.
  - rewrite (list_eqb_spec _ _ msg_same) by exact IH. split; [apply BS_list|intros HH; inversion HH; subst; auto; contradiction].
  - rewrite !andb_true_iff, (opt_eqb_spec _ Z.eqb) by apply Z.eqb_eq.
    rewrite (list_eqb_spec _ _ eq), Forall2_eq by (apply Forall_forall; intros p _ q; apply ptype_eqb_spec).
    rewrite uval_char by (destruct val; auto).
    split; [intros [[-> ->] HH]; constructor; auto|intros HH; inversion HH; subst; auto; contradiction].
Qed.

Lemma protoval_eqb_spec : forall a b, protoval_eqb a b = true <-> protoval_same a b.
Proof.
  destruct a, b; cbn; try (intuition congruence);
    rewrite ?andb_true_iff, ?Z.eqb_eq, ?String.eqb_eq, ?bytes_eqb_spec, ?idts_eqb_spec; try (intuition congruence).
  apply uval_char. destruct v; auto. apply Forall_forall. intros; apply msg_char_all.
Qed.

Lemma pval_eqb_spec : forall a b, pval_eqb a b = true <-> pval_same a b.
Proof.
  intros x y. destruct x, y; cbn; try (intuition congruence);
    rewrite ?Z.eqb_eq, ?String.eqb_eq, ?Bool.eqb_true_iff, ?fp_eqb_spec; try (intuition congruence).
Qed.

Lemma andM_char : forall a b ba bb (P Q : Prop),
  a = Ok ba -> (ba = true <-> P) -> b = Ok bb -> (bb = true <-> Q) ->
  exists c, andM a b = Ok c /\ (c = true <-> P /\ Q).
Proof.
  intros a b ba bb P Q -> Ha -> Hb. unfold andM. cbn. destruct ba.
  - exists bb. split; auto. tauto.
  - exists false. split; auto. intuition congruence.
Qed.

Lemma equal_func_char : forall A (f : A -> A -> res bool) (R : A -> A -> Prop) l m,
  Forall (fun x => forall y, exists b, f x y = Ok b /\ (b = true <-> R x y)) l ->
  exists b, equal_func f l m = Ok b /\ (b = true <-> Forall2 R l m).
Proof.
  intros A f R l m H. unfold equal_func.
  assert (E : forall m, List.length l = List.length m ->
     exists b, all2M f l m = Ok b /\ (b = true <-> Forall2 R l m)).
  { clear m. induction H as [|x l Hx Hl IH]; intros [|y m] Hlen; cbn in *; try discriminate.
    - exists true. split; auto. split; auto.
    - destruct (Hx y) as [b [-> Hb]]. inversion Hlen. destruct b.
      + destruct (IH m H0) as [c [E Hc]]. rewrite E. exists c. split; auto. rewrite Hc.
        split; [intros; constructor; tauto|intros HH; inversion HH; auto].
      + exists false. split; auto. split; [discriminate|]. intros HH; inversion HH; tauto. }
  destruct (Nat.eqb_spec (List.length l) (List.length m)) as [Hl|Hl]; auto.
  exists false. split; auto. split; [discriminate|]. intros HH. exfalso. apply Hl.
  clear -HH. induction HH; cbn; auto.
Qed.

Lemma type_eq_dec : forall t u, plain t -> exists b, type_equals t u = Ok b /\ (b = true <-> same_type t u).
Proof. intros t u H. apply eq_char_all; auto. Qed.

Definition leq_char (a : lit) : Prop := lit_plain a -> forall b,
  exists c, lit_equals a b = Ok c /\ (c = true <-> same_lit a b).

Lemma leq_char_all : forall a, leq_char a.
Proof.
  assert (NO : forall a b, ~ same_lit a b -> exists c, Ok false = Ok c /\ (c = true <-> same_lit a b)).
  { intros a b H. exists false. split; auto. intuition discriminate. }
  apply lit_ind'.
  - intros l Hl Hp b. destruct l; try contradiction; clear Hl; cbn [lit_plain] in Hp; try contradiction.
    + destruct b; cbn [lit_equals]; try (apply NO; intros HH; inversion HH; fail).
      destruct (type_eq_dec t t0 Hp) as [c [-> Hc]]. exists c. split; auto. rewrite Hc.
      split; [constructor; auto|intros HH; inversion HH; auto].
    + destruct b as [| |v' t'| | | | | | |]; cbn [lit_equals]; try (apply NO; intros HH; inversion HH; fail).
      destruct (type_eq_dec t t' Hp) as [c [E Hc]].
      destruct (andM_char _ (Ok (pval_eqb v v')) _ _ _ (pval_same v v') E Hc eq_refl (pval_eqb_spec v v')) as [d [Ed Hd]].
      assert (S : same_lit (LPrim v t) (LPrim v' t') <-> same_type t t' /\ pval_same v v').
      { split; [intros HH; inversion HH; auto|intros []; constructor; auto]. }
      setoid_rewrite S.
      destruct v, v'; try (exists d; split; [exact Ed|exact Hd]; fail);
        (exists false; split; [reflexivity|]; split; [discriminate|intros [_ HH]; cbn in HH; congruence]).
    + destruct b as [| | | | | |k' s' t'| | |]; cbn [lit_equals]; try (apply NO; intros HH; inversion HH; fail).
      destruct (bytesk_eqb k k') eqn:Ek.
      * assert (k = k') as <- by (destruct k, k'; cbn in Ek; congruence).
        destruct (type_eq_dec t t' Hp) as [c [E Hc]].
        destruct (andM_char _ (Ok (bytes_eqb s s')) _ _ _ _ E Hc eq_refl (bytes_eqb_spec s s')) as [d [Ed Hd]].
        exists d. split; auto. rewrite Hd. split; [intros [? ->]; constructor; auto|intros HH; inversion HH; auto].
      * apply NO. intros HH; inversion HH; subst. destruct k'; discriminate.
    + destruct b as [| | | | | | |v' t'| |]; cbn [lit_equals]; try (apply NO; intros HH; inversion HH; fail).
      destruct (type_eq_dec t t' Hp) as [c [E Hc]].
      destruct (andM_char _ (Ok (protoval_eqb v v')) _ _ _ _ E Hc eq_refl (protoval_eqb_spec v v')) as [d [Ed Hd]].
      exists d. split; auto. rewrite Hd. split; [intros []; constructor; auto|intros HH; inversion HH; auto].
    + destruct b as [| | | | | | | |y' m' n'|]; cbn [lit_equals]; try (apply NO; intros HH; inversion HH; fail).
      cbn [type_equals andM bind get_nullability get_variation].
      destruct (type_eq_dec (TIntervalYearToMonth n 0) (TIntervalYearToMonth n' 0) I) as [c [E Hc]].
      destruct (andM_char _ (Ok ((years =? y') && (months =? m') && (n =? n'))) _ _ _ (years = y' /\ months = m' /\ n = n') E Hc eq_refl) as [d [Ed Hd]].
      { rewrite !andb_true_iff, !Z.eqb_eq. tauto. }
      exists d. split; [exact Ed|]. rewrite Hd. split.
      * intros [_ [-> [-> ->]]]. constructor.
      * intros HH; inversion HH; subst. unfold same_type; auto.
    + destruct b as [| | | | | | | | |y' m' d' s' ss' p' n']; cbn [lit_equals]; try (apply NO; intros HH; inversion HH; fail).
      destruct (type_eq_dec (TIntervalCompound false n 0 prec) (TIntervalCompound false n' 0 p') I) as [c [E Hc]].
      destruct (andM_char _ (Ok ((years =? y') && (months =? m') && (days =? d') && (secs =? s') && (sub =? ss') && (prec =? p') && (n =? n')))
         _ _ _ (years = y' /\ months = m' /\ days = d' /\ secs = s' /\ sub = ss' /\ prec = p' /\ n = n') E Hc eq_refl) as [d [Ed Hd]].
      { rewrite !andb_true_iff, !Z.eqb_eq. tauto. }
      exists d. split; [exact Ed|]. rewrite Hd. split.
      * intros [_ [-> [-> [-> [-> [-> [-> ->]]]]]]]. constructor.
      * intros HH; inversion HH; subst. unfold same_type. tauto.
  - intros fs t IH [Hp Ha] b. destruct b as [| | |fs' t'| | | | | |]; cbn [lit_equals]; try (apply NO; intros HH; inversion HH; fail).
    destruct (type_eq_dec t t' Hp) as [c [E Hc]].
    destruct (equal_func_char _ lit_equals same_lit fs fs') as [d [Ed Hd]].
    { apply All_Forall in Ha. rewrite Forall_forall in *. intros x Hx y. apply IH; auto. }
    destruct (andM_char _ _ _ _ _ _ E Hc Ed Hd) as [r [Er Hr]]. exists r. split; auto. rewrite Hr.
    split; [intros []; constructor; auto|intros HH; inversion HH; auto].
  - intros fs t IH [Hp Ha] b. destruct b as [| | | |fs' t'| | | | |]; cbn [lit_equals]; try (apply NO; intros HH; inversion HH; fail).
    destruct (type_eq_dec t t' Hp) as [c [E Hc]].
    destruct (equal_func_char _ lit_equals same_lit fs fs') as [d [Ed Hd]].
    { apply All_Forall in Ha. rewrite Forall_forall in *. intros x Hx y. apply IH; auto. }
    destruct (andM_char _ _ _ _ _ _ E Hc Ed Hd) as [r [Er Hr]]. exists r. split; auto. rewrite Hr.
    split; [intros []; constructor; auto|intros HH; inversion HH; auto].
  - intros kvs t IH [Hp Ha] b. destruct b as [| | | | |kvs' t'| | | |]; cbn [lit_equals]; try (apply NO; intros HH; inversion HH; fail).
    destruct (type_eq_dec t t' Hp) as [c [E Hc]].
    destruct (equal_func_char _ (fun p q => match p, q with
         | (k, x), (k', x') => andM (lit_equals k k') (lit_equals x x') end)
       (fun p q => same_lit (fst p) (fst q) /\ same_lit (snd p) (snd q)) kvs kvs') as [d [Ed Hd]].
    { apply All_Forall in Ha. rewrite Forall_forall in *. intros [k x] Hx [k' x']. cbn [fst snd].
      specialize (IH _ Hx). specialize (Ha _ Hx). cbn in IH, Ha. destruct IH as [IHk IHx], Ha as [Hk Hxx].
      destruct (IHk Hk k') as [b1 [E1 H1]]. destruct (IHx Hxx x') as [b2 [E2 H2]].
      eapply andM_char; eauto. }
    destruct (andM_char _ _ _ _ _ _ E Hc Ed Hd) as [r [Er Hr]]. exists r. split; auto. rewrite Hr.
    split; [intros []; constructor; auto|intros HH; inversion HH; auto].
Qed.

(** reflexivity, symmetry, transitivity of the specification relation *)
Lemma fp_refl : forall e m x, fp_same e m x x <-> ~ is_nan e m x.
Proof. unfold fp_same. tauto. Qed.

Lemma Forall2_refl_iff : forall A (R : A -> A -> Prop) (P : A -> Prop) l,
  Forall (fun x => R x x <-> P x) l -> (Forall2 R l l <-> All P l).
Proof.
  intros A R P l H. induction H as [|x l Hx Hl IH]; cbn; [split; auto|].
  split; [intros HH; inversion HH; subst; tauto|]. intros [H1 H2]. constructor; tauto.
Qed.

Lemma msg_refl : forall m, msg_same m m <-> msg_no_nan m.
Proof.
  apply plit_ind'. intros n v b IH.
  assert (B : msg_same (PLit n v b) (PLit n v b) <-> body_same b b).
  { split; [intros HH; inversion HH; auto|constructor; auto]. }
  rewrite B. destruct b; cbn [msg_no_nan];
    try (split; [auto|intros _; apply BS_other; exact I]; fail).
  - rewrite <- fp_refl. split; [intros HH; inversion HH; auto; contradiction|apply BS_fp32].
  - rewrite <- fp_refl. split; [intros HH; inversion HH; auto; contradiction|apply BS_fp64].
  - rewrite <- (Forall2_refl_iff _ msg_same msg_no_nan fields IH).
    split; [intros HH; inversion HH; auto; contradiction|apply BS_struct].
  - rewrite (subs_map (fun m => msg_same m m <-> msg_no_nan m)) in IH.
    rewrite <- (Forall2_refl_iff _ (fun p q => msg_same (fst p) (fst q) /\ msg_same (snd p) (snd q))
      (fun p => match p with (k, x) => msg_no_nan k /\ msg_no_nan x end) kvs).
    + split; [intros HH; inversion HH; auto; contradiction|apply BS_map].
    + eapply Forall_impl; [|exact IH]. intros [k x] [Hk Hx]. cbn in *. tauto.
  - rewrite <- (Forall2_refl_iff _ msg_same msg_no_nan values IH).
    split; [intros HH; inversion HH; auto; contradiction|apply BS_list].
  - assert (U : body_same (PB_user_defined ref params val) (PB_user_defined ref params val) <-> uval_same val val).
    { split; [intros HH; inversion HH; auto; contradiction|apply BS_user]. }
    rewrite U. destruct val; try (split; [auto|constructor]; fail).
    rewrite <- (Forall2_refl_iff _ msg_same msg_no_nan fields IH).
    split; [intros HH; inversion HH; auto; contradiction|apply US_struct].
Qed.

Lemma lit_refl : forall l, lit_plain l -> (same_lit l l <-> lit_no_nan l).
Proof.
  assert (R : forall t, same_type t t) by reflexivity.
  apply (lit_ind' (fun l => lit_plain l -> (same_lit l l <-> lit_no_nan l))).
  - intros l Hl Hp. destruct l; try contradiction; cbn [lit_no_nan];
      try (split; [auto|intros _; constructor; auto]; fail).
    + assert (S : same_lit (LPrim v t) (LPrim v t) <-> pval_same v v).
      { split; [intros HH; inversion HH; auto|intros; constructor; auto]. }
      rewrite S. destruct v; cbn [pval_same]; try tauto; apply fp_refl.
    + assert (S : same_lit (LProto v t) (LProto v t) <-> protoval_same v v).
      { split; [intros HH; inversion HH; auto|intros; constructor; auto]. }
      rewrite S. destruct v; cbn [protoval_same]; try tauto.
      destruct v; try (split; [auto|constructor]; fail).
      rewrite <- (Forall2_refl_iff _ msg_same msg_no_nan fields) by (apply Forall_forall; intros; apply msg_refl).
      split; [intros HH; inversion HH; auto|apply US_struct].
  - intros fs t IH [Hp Ha]. cbn [lit_no_nan]. rewrite <- (Forall2_refl_iff _ same_lit lit_no_nan fs).
    + split; [intros HH; inversion HH; auto|intros; constructor; auto].
    + apply All_Forall in Ha. rewrite Forall_forall in *. auto.
  - intros fs t IH [Hp Ha]. cbn [lit_no_nan]. rewrite <- (Forall2_refl_iff _ same_lit lit_no_nan fs).
    + split; [intros HH; inversion HH; auto|intros; constructor; auto].
    + apply All_Forall in Ha. rewrite Forall_forall in *. auto.
  - intros kvs t IH [Hp Ha]. cbn [lit_no_nan].
    rewrite <- (Forall2_refl_iff _ (fun p q => same_lit (fst p) (fst q) /\ same_lit (snd p) (snd q))
       (fun p => match p with (k, x) => lit_no_nan k /\ lit_no_nan x end) kvs).
    + split; [intros HH; inversion HH; auto|intros; constructor; auto].
    + apply All_Forall in Ha. rewrite Forall_forall in *. intros [k x] Hx.
      specialize (IH _ Hx). specialize (Ha _ Hx). cbn in *. tauto.
Qed.
