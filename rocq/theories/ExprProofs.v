(** Lemmas about expressions: induction, paths (C16), masks (C17). *)

From Coq Require Import List ZArith String Ascii Bool Lia.
From Verif Require Import Base FMap TypesModel TypesSpec TypesProofs ExtSetModel ExtSetProofs LoadModel
  LitModel LitSpec LitProofs ExprModel ExprSpec.
Import ListNotations.
Local Open Scope Z_scope.

(** ** induction *)

Definition farg_sub {E} (a : farg E) : list E := match a with AExpr e => [e] | _ => [] end.

(** all expressions directly inside an expression *)
Definition children {R} (e : expr R) : list (expr R) :=
  match e with
  | ELit _ | EParam _ _ | ESubScalar _ | ESubSet _ _ => []
  | ERef r _ _ => match r with RExpr e => [e] | _ => [] end
  | EScalar _ _ args _ _ => flat_map farg_sub args
  | EWindow _ _ args _ _ _ _ parts sorts _ _ _ => flat_map farg_sub args ++ parts ++ map fst sorts
  | EIf ifs els => flat_map (fun p => [fst p; snd p]) ifs ++ [els]
  | ESwitch m ifs els => m :: map snd ifs ++ [els]
  | EOr v opts => v :: opts
  | EMultiOr v opts => v ++ List.concat opts
  | ECast _ e _ => [e]
  | EMap _ _ kvs => flat_map (fun p => [fst p; snd p]) kvs
  | EStruct _ _ fs | EList _ _ fs | ESubIn fs _ => fs
  | ELambda _ _ _ b => [b]
  | ESubCmp _ _ l _ => [l]
  end%list.

Lemma Forall_app2 : forall A (P : A -> Prop) l m, Forall P l -> Forall P m -> Forall P (l ++ m)%list.
Proof. intros. apply Forall_app; auto. Qed.

Lemma expr_ind' : forall R (P : expr R -> Prop), (forall e, Forall P (children e) -> P e) -> forall e, P e.
Proof.
  intros R P H. fix IH 1. intros e. apply H.
  assert (HA : forall args, Forall P (flat_map farg_sub args)).
  { fix go 1. intros [|a args]; [constructor|]. cbn [flat_map]. apply Forall_app2; [|exact (go args)].
    destruct a; constructor; [exact (IH e0)|constructor]. }
  assert (HL : forall l, Forall P l) by (exact (Forall_fix IH)).
  assert (HF : forall B (l : list (expr R * B)), Forall P (map fst l)).
  { fix go 2. intros B [|a l]; [constructor|]. cbn [map]. constructor; [destruct a as [a b]; exact (IH a)|exact (go B l)]. }
  assert (HS : forall B (l : list (B * expr R)), Forall P (map snd l)).
  { fix go 2. intros B [|a l]; [constructor|]. cbn [map]. constructor; [destruct a as [a b]; exact (IH b)|exact (go B l)]. }
  assert (HP : forall l : list (expr R * expr R), Forall P (flat_map (fun p => [fst p; snd p]) l)).
  { fix go 1. intros [|p l]; [constructor|]. cbn [flat_map]. apply Forall_app2; [|exact (go l)].
    destruct p as [a b]. constructor; [exact (IH a)|constructor; [exact (IH b)|constructor]]. }
  assert (HC : forall l : list (list (expr R)), Forall P (List.concat l)).
  { fix go 1. intros [|p l]; [constructor|]. cbn [List.concat]. apply Forall_app2; [exact (HL p)|exact (go l)]. }
  destruct e; cbn [children].
  - constructor.
  - destruct r; constructor; [exact (IH e)|constructor].
  - exact (HA args).
  - apply Forall_app2; [exact (HA args)|]. apply Forall_app2; [exact (HL parts)|exact (HF _ sorts)].
  - apply Forall_app2; [exact (HP ifs)|]. constructor; [exact (IH e)|constructor].
  - constructor; [exact (IH e1)|]. apply Forall_app2; [exact (HS _ ifs)|]. constructor; [exact (IH e2)|constructor].
  - constructor; [exact (IH e)|exact (HL opts)].
  - apply Forall_app2; [exact (HL v)|exact (HC opts)].
  - constructor; [exact (IH e)|constructor].
  - exact (HP kvs).
  - exact (HL fields).
  - exact (HL vals).
  - constructor.
  - constructor; [exact (IH e)|constructor].
  - constructor.
  - exact (HL needles).
  - constructor.
  - constructor; [exact (IH e)|constructor].
Qed.

(** the children of each kind, taken apart *)
Lemma ch_args : forall R (P : expr R -> Prop) args, Forall P (flat_map farg_sub args) ->
  Forall (fun a => match a with AExpr e => P e | _ => True end) args.
Proof.
  intros R P args. induction args as [|a args IH]; cbn; intros H; constructor.
  - destruct a; auto. cbn in H. inversion H; auto.
  - apply IH. apply Forall_app in H. tauto.
Qed.
Lemma ch_pairs : forall R (P : expr R -> Prop) l, Forall P (flat_map (fun p => [fst p; snd p]) l) ->
  Forall (fun p => P (fst p) /\ P (snd p)) l.
Proof.
  intros R P l. induction l as [|a l IH]; cbn; intros H; constructor.
  - inversion H as [|? ? H1 H2]; subst. inversion H2; auto.
  - apply IH. inversion H as [|? ? H1 H2]; subst. inversion H2; auto.
Qed.
Lemma ch_map : forall A B (f : A -> B) (P : B -> Prop) l, Forall P (map f l) -> Forall (fun x => P (f x)) l.
Proof. intros A B f P l. rewrite Forall_map. auto. Qed.
Lemma ch_concat : forall A (P : A -> Prop) l, Forall P (List.concat l) -> Forall (Forall P) l.
Proof.
  intros A P l. induction l as [|a l IH]; cbn; intros H; constructor; apply Forall_app in H; tauto.
Qed.

(** ** paths *)

Lemma component_det : forall x s y y', component x s y -> component x s y' -> y = y'.
Proof.
  intros x s y y' H H'. inversion H; subst; inversion H'; subst; congruence.
Qed.

Lemma follows_det : forall l x y y', follows x l y -> follows x l y' -> y = y'.
Proof.
  induction l as [|s l IH]; intros x y y' H H'; inversion H; subst; inversion H'; subst; auto.
  assert (y0 = y1) by (eapply component_det; eauto). subst. eauto.
Qed.

Lemma typed_fun : forall k t t', typed k t -> typed k t' -> t = t'.
Proof. intros k t t' H H'. apply lit_type_typed in H, H'. congruence. Qed.

(** one step of [GetType] *)
Definition seg_step (s : step) (x : xtype) : res xtype := seg_type [s] x.

Lemma seg_type_cons : forall s l x, l <> [] -> 
  seg_type (s :: l) x = match seg_step s x with Ok y => seg_type l y | Err => Err | Panic => Panic end.
Proof.
  intros s l x H. destruct l as [|s' l]; [contradiction|]. unfold seg_step. cbn [seg_type].
  destruct s; destruct (expose x); try reflexivity.
  - destruct ((i <? 0) || (Z.of_nat (List.length fields) <=? i)); [reflexivity|].
    destruct (nth_error fields (Z.to_nat i)); reflexivity.
  - destruct (lit_type k); cbn [bind]; try reflexivity.
    destruct (match x0_1 with XTy kt => type_equals a kt | _ => Ok false end) as [[]| |]; reflexivity.
Qed.

Lemma seg_step_char : forall s x, key_plain s ->
  (exists y, seg_step s x = Ok y /\ component x s y) \/ (seg_step s x = Err /\ forall y, ~ component x s y).
Proof.
  intros s x K. unfold seg_step. cbn [seg_type]. destruct s.
  - assert (F : forall n v xs, expose x = XStruct n v xs ->
      (forall y, component x (SField i) y <-> 0 <= i /\ nth_error xs (Z.to_nat i) = Some y)).
    { intros n v xs E y. split.
      - intros H; inversion H; subst; cbn in E; inversion E; subst; split; auto.
        rewrite nth_error_map. match goal with H : nth_error _ _ = _ |- _ => rewrite H end. reflexivity.
      - intros [H1 H2]. destruct x; cbn in E; try discriminate.
        + destruct t; try discriminate. inversion E; subst. rewrite nth_error_map in H2.
          destruct (nth_error fields (Z.to_nat i)) eqn:EN; inversion H2; subst. constructor; auto.
        + inversion E; subst. constructor; auto. }
    assert (N : (forall n v xs, expose x <> XStruct n v xs) -> forall y, ~ component x (SField i) y).
    { intros HN y H. inversion H; subst; cbn in HN; eapply HN; reflexivity. }
    destruct (expose x) eqn:E; try (right; split; [reflexivity|]; apply N; intros; discriminate).
    specialize (F _ _ _ eq_refl). clear N.
    destruct (Z.ltb_spec i 0); cbn [orb].
    { right. split; auto. intros y Hy. apply F in Hy. lia. }
    destruct (Z.leb_spec (Z.of_nat (List.length fields)) i).
    { right. split; auto. intros y Hy. apply F in Hy. destruct Hy as [_ Hy].
      assert (nth_error fields (Z.to_nat i) <> None) by congruence.
      apply nth_error_Some in H1. lia. }
    destruct (nth_error fields (Z.to_nat i)) eqn:EN.
    + left. eexists; split; [reflexivity|]. apply F. auto.
    + exfalso. apply nth_error_None in EN. lia.
  - destruct K as (t & Ht & Hp).
    assert (LT : lit_type k = Ok t) by (apply lit_type_typed; auto).
    assert (F : forall n v kt vt, expose x = XMap n v kt vt ->
      (forall y, component x (SKey k) y <-> (exists u, kt = XTy u /\ same_type t u) /\ y = vt)).
    { intros n v kt vt E y. split.
      - intros H; inversion H; subst; cbn in E; inversion E; subst; split; auto;
          eexists; split; try reflexivity; match goal with H : typed k ?u |- _ => assert (t = u) by (eapply typed_fun; eauto) end;
          subst; auto.
      - intros [(u & -> & Hs) ->]. destruct x; cbn in E; try discriminate.
        + destruct t0; try discriminate. inversion E; subst. econstructor; eauto.
        + inversion E; subst. econstructor; eauto. }
    assert (N : (forall n v kt vt, expose x <> XMap n v kt vt) -> forall y, ~ component x (SKey k) y).
    { intros HN y H. inversion H; subst; cbn in HN; eapply HN; reflexivity. }
    destruct (expose x) eqn:E; try (right; split; [reflexivity|]; apply N; intros; discriminate).
    specialize (F _ _ _ _ eq_refl). clear N. rewrite LT. cbn [bind].
    destruct x0_1; cbn [bind];
      try (right; split; [reflexivity|]; intros y Hy; apply F in Hy; destruct Hy as [(u & HH & _) _]; discriminate).
    destruct (type_eq_dec t t0 Hp) as (b & -> & Hb). cbn [bind]. destruct b.
    + left. eexists; split; [reflexivity|]. apply F. split; auto. eexists; split; auto. apply Hb; auto.
    + right. split; auto. intros y Hy. apply F in Hy. destruct Hy as [(u & HH & HH') _].
      inversion HH; subst. apply Hb in HH'. discriminate.
  - assert (N : (forall n v t, expose x <> XList n v t) -> forall y, ~ component x (SElem off) y).
    { intros HN y H. inversion H; subst; cbn in HN; eapply HN; reflexivity. }
    destruct (expose x) eqn:E; try (right; split; [reflexivity|]; apply N; intros; discriminate).
    left. eexists; split; [reflexivity|]. destruct x; cbn in E; try discriminate.
    + destruct t; try discriminate. inversion E; subst. constructor.
    + inversion E; subst. constructor.
Qed.

Lemma seg_type_char : forall l x, l <> [] -> Forall key_plain l ->
  (exists y, seg_type l x = Ok y /\ follows x l y) \/ (seg_type l x = Err /\ forall y, ~ follows x l y).
Proof.
  induction l as [|s l IH]; intros x HN HK; [contradiction|].
  inversion HK as [|? ? K1 K2]; subst.
  destruct l as [|s' l].
  - destruct (seg_step_char s x K1) as [(y & E & H)|(E & H)]; unfold seg_step in E.
    + left. exists y. split; auto. econstructor; eauto. constructor.
    + right. split; auto. intros y Hy. inversion Hy as [|? ? z ? ? C F]; subst.
      eapply H; eauto.
  - rewrite seg_type_cons by discriminate.
    destruct (seg_step_char s x K1) as [(y & E & H)|(E & H)]; rewrite E.
    + destruct (IH y) as [(z & Ez & Hz)|(Ez & Hz)]; [discriminate|auto| |].
      * left. exists z. split; auto. econstructor; eauto.
      * right. split; auto. intros w Hw. inversion Hw as [|? ? z ? ? C F]; subst.
        assert (z = y) by (eapply component_det; eauto). subst. eapply Hz; eauto.
    + right. split; auto. intros y Hy. inversion Hy as [|? ? z ? ? C F]; subst. eapply H; eauto.
Qed.

Lemma seg_type_iff : forall l x y, l <> [] -> Forall key_plain l ->
  (seg_type l x = Ok y <-> follows x l y).
Proof.
  intros l x y HN HK. destruct (seg_type_char l x HN HK) as [(z & E & H)|(E & H)]; rewrite E; split; intros HH.
  - inversion HH; subst; auto.
  - f_equal. eapply follows_det; eauto.
  - discriminate.
  - exfalso; eapply H; eauto.
Qed.

Lemma follows_leads : forall l t y, follows (XTy t) l y <-> exists u, y = XTy u /\ leads t l u.
Proof.
  induction l as [|s l IH]; intros t y; split.
  - intros H; inversion H; subst. eexists; split; eauto. constructor.
  - intros (u & -> & H). inversion H; subst. constructor.
  - intros H. inversion H as [|? ? z ? ? C F]; subst. inversion C; subst; apply IH in F; destruct F as (u & -> & F);
      eexists; split; try reflexivity; econstructor; eauto.
  - intros (u & -> & H). inversion H; subst; econstructor; try (apply IH; eexists; split; [reflexivity|eassumption]);
      econstructor; eauto.
Qed.

(** without any condition on the keys: a type that is answered is the one reached *)
Lemma follows_app : forall l m x z, follows x (l ++ m)%list z <-> exists y, follows x l y /\ follows y m z.
Proof.
  induction l as [|s l IH]; intros m x z; cbn; split.
  - intros H. exists x. split; auto. constructor.
  - intros (y & H & H'). inversion H; subst. auto.
  - intros H. inversion H as [|? ? y ? ? C F]; subst. apply IH in F. destruct F as (w & F & F').
    exists w. split; auto. econstructor; eauto.
  - intros (y & H & H'). inversion H as [|? ? w ? ? C F]; subst. econstructor; eauto. apply IH. eauto.
Qed.

(** encoding *)
Lemma seg_round_trip : forall l,
  Forall key_supported l <-> exists m, seg_to_proto l = Ok m /\ ref_segment_from_proto m = Ok l.
Proof.
  induction l as [|s l IH].
  - split; auto. intros _. exists None. auto.
  - split.
    + intros H. inversion H as [|? ? H1 H2]; subst. apply IH in H2. destruct H2 as (m & E & E').
      destruct s; cbn [seg_to_proto]; rewrite E; cbn [bind].
      * eexists; split; [reflexivity|]. cbn. destruct m; cbn in E'; [rewrite E'|inversion E']; reflexivity.
      * cbn in H1. apply enc_dec_all_lit in H1. destruct H1 as (k' & E1 & E2). rewrite E1. cbn [bind].
        eexists; split; [reflexivity|]. cbn. rewrite E2. cbn.
        destruct m; cbn in E'; [rewrite E'|inversion E']; reflexivity.
      * eexists; split; [reflexivity|]. cbn. destruct m; cbn in E'; [rewrite E'|inversion E']; reflexivity.
    + intros (m & E & E').
      assert (T : forall c, match c with None => Ok [] | Some q => seg_from_proto q end = ref_segment_from_proto c)
        by (intros [|]; reflexivity).
      destruct s; cbn [seg_to_proto] in E; destruct (seg_to_proto l) as [c| |] eqn:EL; cbn [bind] in E; try discriminate.
      * inversion E; subst. cbn in E'. rewrite T in E'.
        destruct (ref_segment_from_proto c) eqn:EC; inversion E'; subst.
        constructor; [exact I|]. apply IH. eauto.
      * destruct (lit_to_proto k) as [km| |] eqn:EK; cbn [bind] in E; inversion E; subst. cbn in E'. rewrite T in E'.
        destruct (lit_from_proto km) eqn:EK'; cbn [bind] in E'; try discriminate.
        destruct (ref_segment_from_proto c) eqn:EC; inversion E'; subst.
        constructor; [|apply IH; eauto]. cbn. apply enc_dec_all_lit. eauto.
      * inversion E; subst. cbn in E'. rewrite T in E'.
        destruct (ref_segment_from_proto c) eqn:EC; inversion E'; subst.
        constructor; [exact I|]. apply IH. eauto.
Qed.

Fixpoint pseg_ind' (P : pseg -> Prop) (H0 : P PS_unset)
  (H1 : forall i c, match c with None => True | Some q => P q end -> P (PS_field i c))
  (H2 : forall i c, match c with None => True | Some q => P q end -> P (PS_key i c))
  (H3 : forall i c, match c with None => True | Some q => P q end -> P (PS_elem i c)) (p : pseg) : P p :=
  match p with
  | PS_unset => H0
  | PS_field i c => H1 i c match c with None => I | Some q => pseg_ind' P H0 H1 H2 H3 q end
  | PS_key i c => H2 i c match c with None => I | Some q => pseg_ind' P H0 H1 H2 H3 q end
  | PS_elem i c => H3 i c match c with None => I | Some q => pseg_ind' P H0 H1 H2 H3 q end
  end.

Lemma seg_readable_char : forall p,
  (seg_readable p /\ exists l, seg_from_proto p = Ok l) \/ (~ seg_readable p /\ seg_from_proto p = Panic).
Proof.
  apply (pseg_ind' (fun p =>
   (seg_readable p /\ exists l, seg_from_proto p = Ok l) \/ (~ seg_readable p /\ seg_from_proto p = Panic))).
  - left. split; [exact I|]. eexists; reflexivity.
  - intros i [q|] H; cbn [seg_readable seg_from_proto].
    + destruct H as [[H [l E]]|[H E]]; rewrite E; [left|right]; split; auto. eexists; reflexivity.
    + left. split; [exact I|]. eexists; reflexivity.
  - intros k [q|] H; cbn [seg_readable seg_from_proto];
      (destruct (read_char_all k) as [[Hr [lk [Ek _]]]|[Hr Ek]]; rewrite Ek; cbn [bind]; [|right; split; [tauto|reflexivity]]).
    + destruct H as [[H [l E]]|[H E]]; rewrite E; [left|right]; split; auto; try tauto. eexists; reflexivity.
    + left. split; auto. eexists; reflexivity.
  - intros i [q|] H; cbn [seg_readable seg_from_proto].
    + destruct H as [[H [l E]]|[H E]]; rewrite E; [left|right]; split; auto. eexists; reflexivity.
    + left. split; [exact I|]. eexists; reflexivity.
Qed.

Lemma seg_message_round_trip : forall p l, seg_from_proto p = Ok l ->
  (seg_complete p /\ seg_to_proto l = Ok (seg_normal p)) \/ (~ seg_complete p /\ seg_to_proto l = Panic).
Proof.
  apply (pseg_ind' (fun p => forall l, seg_from_proto p = Ok l ->
    (seg_complete p /\ seg_to_proto l = Ok (seg_normal p)) \/ (~ seg_complete p /\ seg_to_proto l = Panic))).
  - intros l H. inversion H; subst. left. split; [exact I|reflexivity].
  - intros i [q|] H l E; cbn [seg_complete seg_from_proto seg_normal] in *.
    + destruct (seg_from_proto q) eqn:EQ; cbn in E; inversion E; subst.
      destruct (H _ eq_refl) as [[H1 H2]|[H1 H2]]; cbn [seg_to_proto]; rewrite H2; [left|right]; split; auto.
    + inversion E; subst. left. split; [exact I|reflexivity].
  - intros k [q|] H l E; cbn [seg_complete seg_from_proto seg_normal] in *;
      (destruct (lit_from_proto k) as [lk| |] eqn:EK; cbn in E; try discriminate).
    + destruct (seg_from_proto q) eqn:EQ; cbn in E; inversion E; subst.
      destruct (H _ eq_refl) as [[H1 H2]|[H1 H2]]; cbn [seg_to_proto]; rewrite H2; cbn [bind].
      * destruct (rt_char_all k lk EK) as [[K1 K2]|[K1 K2]]; rewrite K2; [left|right]; split; auto. tauto.
      * right. split; auto. tauto.
    + inversion E; subst. cbn [seg_to_proto bind].
      destruct (rt_char_all k lk EK) as [[K1 K2]|[K1 K2]]; rewrite K2; [left|right]; split; auto. tauto.
  - intros i [q|] H l E; cbn [seg_complete seg_from_proto seg_normal] in *.
    + destruct (seg_from_proto q) eqn:EQ; cbn in E; inversion E; subst.
      destruct (H _ eq_refl) as [[H1 H2]|[H1 H2]]; cbn [seg_to_proto]; rewrite H2; [left|right]; split; auto.
    + inversion E; subst. left. split; [exact I|reflexivity].
Qed.

Lemma seg_equals_char : forall a b, a <> [] -> Forall step_plain a ->
  exists c, seg_equals a b = Ok c /\ (c = true <-> Forall2 same_step a b).
Proof.
  induction a as [|s a IH]; intros b HN HP; [contradiction|].
  inversion HP as [|? ? P1 P2]; subst.
  assert (NO : forall b', (forall s', ~ same_step s s') -> False <-> Forall2 same_step (s :: a) b')
   by (intros b' Hs; split; [tauto|]; intros H; inversion H; subst; eapply Hs; eauto).
  assert (STEP : forall s' b0, (forall b0, a <> [] -> exists c, seg_equals a b0 = Ok c /\ (c = true <-> Forall2 same_step a b0)) ->
     same_step s s' ->
     exists c, (match a, b0 with [], [] => Ok true | [], _ | _, [] => Ok false | _, _ => seg_equals a b0 end) = Ok c /\
               (c = true <-> Forall2 same_step (s :: a) (s' :: b0))).
  { intros s' b0 IHa Hs. destruct a as [|x a], b0 as [|y b0].
    - eexists; split; [reflexivity|]. split; auto.
    - eexists; split; [reflexivity|]. split; [discriminate|]. intros H. inversion H; subst. inversion H5.
    - eexists; split; [reflexivity|]. split; [discriminate|]. intros H. inversion H; subst. inversion H5.
    - destruct (IHa (y :: b0)) as (c & E & Hc); [discriminate|]. exists c. split; auto. rewrite Hc. split.
      + intros H; constructor; auto.
      + intros H; inversion H; auto. }
  assert (IH' : forall b0, a <> [] -> exists c, seg_equals a b0 = Ok c /\ (c = true <-> Forall2 same_step a b0)) by auto.
  destruct s, b as [|[] b];
    try (eexists; split; [reflexivity|]; split; [discriminate|]; intros H; inversion H; subst;
         match goal with H : same_step _ _ |- _ => inversion H end; fail);
    try (eexists; split; [reflexivity|]; split; [discriminate|]; intros H; inversion H; fail).
  - cbn [seg_equals]. destruct (Z.eqb_spec i i0); cbn [negb].
    + subst. apply STEP; auto. constructor.
    + eexists; split; [reflexivity|]. split; [discriminate|]. intros H; inversion H; subst.
      match goal with H : same_step _ _ |- _ => inversion H end. congruence.
  - cbn [seg_equals]. cbn in P1. destruct (leq_char_all k P1 k0) as (c & E & Hc). rewrite E. cbn [bind].
    destruct c; cbn [negb].
    + apply STEP; auto. constructor. apply Hc; auto.
    + eexists; split; [reflexivity|]. split; [discriminate|]. intros H; inversion H; subst.
      match goal with H : same_step _ _ |- _ => inversion H; subst end. apply Hc; auto.
  - cbn [seg_equals]. destruct (Z.eqb_spec off off0); cbn [negb].
    + subst. apply STEP; auto. constructor.
    + eexists; split; [reflexivity|]. split; [discriminate|]. intros H; inversion H; subst.
      match goal with H : same_step _ _ |- _ => inversion H end. congruence.
Qed.

Lemma flatten_singles : forall l m, flatten_refs (map (fun s => [s]) l ++ [m])%list = (l ++ m)%list.
Proof.
  induction l as [|s l IH]; intros m; cbn; auto.
  destruct (map (fun s => [s]) l ++ [m])%list eqn:E; [destruct l; discriminate|]. rewrite <- E, IH. reflexivity.
Qed.

(** only the head of every argument but the last is kept *)
Lemma flatten_heads : forall refs m, Forall (fun r => r <> []) refs ->
  flatten_refs (refs ++ [m])%list = (flat_map (fun r => firstn 1 r) refs ++ m)%list.
Proof.
  induction refs as [|r refs IH]; intros m H; cbn [app]; auto.
  inversion H as [|? ? H1 H2]; subst. destruct r as [|s r]; [contradiction|].
  cbn [flatten_refs flat_map firstn]. destruct (refs ++ [m])%list eqn:E; [destruct refs; discriminate|].
  rewrite <- E, IH; auto.
Qed.

(** ** masks *)

Fixpoint msel_ind' (P : msel -> Prop)
  (H1 : forall items, Forall (fun p => match snd p with None => True | Some c => P c end) items -> P (MS_struct items))
  (H2 : forall sel c, P c -> P (MS_list sel c))
  (H3 : forall b k c, match c with None => True | Some x => P x end -> P (MS_map b k c)) (m : msel) : P m.
Proof.
  destruct m.
  - apply H1. revert items. fix go 1. intros [|[i o] items]; constructor.
    + cbn. destruct o; [exact (msel_ind' P H1 H2 H3 m)|exact I].
    + exact (go items).
  - apply H2. exact (msel_ind' P H1 H2 H3 m).
  - apply H3. destruct child; [exact (msel_ind' P H1 H2 H3 m)|exact I].
Defined.

Fixpoint pmsel_ind' (P : pmsel -> Prop) (H0 : P PM_unset)
  (H1 : forall items, Forall (fun p => match snd p with None => True | Some c => P c end) items -> P (PM_struct items))
  (H2 : forall sel c, match c with None => True | Some x => P x end -> P (PM_list sel c))
  (H3 : forall k c, match c with None => True | Some x => P x end -> P (PM_map k c)) (m : pmsel) : P m.
Proof.
  destruct m.
  - exact H0.
  - apply H1. revert items. fix go 1. intros [|[i o] items]; constructor.
    + cbn. destruct o; [exact (pmsel_ind' P H0 H1 H2 H3 p)|exact I].
    + exact (go items).
  - apply H2. destruct child; [exact (pmsel_ind' P H0 H1 H2 H3 p)|exact I].
  - apply H3. destruct child; [exact (pmsel_ind' P H0 H1 H2 H3 p)|exact I].
Defined.

Lemma items_round_trip : forall sel,
  ~ In MI_nil sel <-> exists l, mapM item_to_proto sel = Ok l /\ map item_from_proto l = sel.
Proof.
  induction sel as [|x sel IH]; cbn.
  - split; [intros _; exists []; auto|auto].
  - split.
    + intros H. assert (H' : ~ In MI_nil sel) by tauto. apply IH in H'. destruct H' as (l & E & E').
      rewrite E. destruct x; cbn; [eexists; split; [reflexivity|]; cbn; congruence..|tauto].
    + intros (l & E & E'). destruct x; cbn in E; try discriminate;
        destruct (mapM item_to_proto sel) eqn:EM; inversion E; subst; cbn in E'; inversion E'; subst;
        intros [H|H]; try discriminate; revert H; apply IH; eauto.
Qed.
Lemma items_panic : forall sel, In MI_nil sel -> mapM item_to_proto sel = Panic.
Proof.
  induction sel as [|x sel IH]; cbn; [contradiction|]. intros [->|H]; [reflexivity|].
  rewrite (IH H). destruct x; reflexivity.
Qed.
Lemma in_nil_dec : forall sel, In MI_nil sel \/ ~ In MI_nil sel.
Proof. intros. destruct (in_dec (fun a b : mitem => ltac:(decide equality; apply Z.eq_dec) : {a = b} + {a <> b}) MI_nil sel); auto. Qed.

Definition sel_char (m : msel) : Prop :=
  (sel_ok m /\ exists p, msel_to_proto m = Ok p /\ msel_from_proto p = Ok m) \/
  (~ sel_ok m /\ msel_to_proto m = Panic).

Definition opt_ok (P : msel -> Prop) (p : Z * option msel) : Prop :=
  match p with (_, o) => match o with None => True | Some c => P c end end.

Lemma struct_items_char : forall items,
  Forall (fun p => match snd p with None => True | Some c => sel_char c end) items ->
  (All (opt_ok sel_ok) items /\
     exists l, mapM (itemM msel_to_proto) items = Ok l /\ mapM (itemM msel_from_proto) l = Ok items) \/
  (~ All (opt_ok sel_ok) items /\ mapM (itemM msel_to_proto) items = Panic).
Proof.
  intros items H. induction H as [|[i o] items Hx Hl IH].
  - left. split; [exact I|]. exists []. auto.
  - cbn [All mapM]. change (opt_ok sel_ok (i, o)) with (match o with None => True | Some c => sel_ok c end).
    cbn [snd] in Hx. destruct o as [c|]; cbn [itemM optM].
    + destruct Hx as [[Hc (p & E & E')]|[Hc E]]; rewrite E.
      * destruct IH as [[HA (l & El & El')]|[HA El]]; rewrite El; [left|right]; split; auto; try tauto.
        eexists; split; [reflexivity|]. cbn [mapM]. cbn [itemM optM]. rewrite E', El'. reflexivity.
      * right. split; [tauto|reflexivity].
    + destruct IH as [[HA (l & El & El')]|[HA El]]; rewrite El; [left|right]; split; auto; try tauto.
      eexists; split; [reflexivity|]. cbn [mapM]. cbn [itemM optM]. rewrite El'. reflexivity.
Qed.

Lemma sel_char_all : forall m, sel_char m.
Proof.
  apply msel_ind'.
  - intros items H. apply struct_items_char in H. unfold sel_char. cbn [sel_ok msel_to_proto].
    change (fun p : Z * option msel => let (_, o) := p in match o with Some c => sel_ok c | None => True end)
      with (opt_ok sel_ok).
    destruct H as [[HA (l & El & El')]|[HA El]]; rewrite El; cbn [bind]; [left|right]; split; auto.
    eexists; split; [reflexivity|]. cbn [msel_from_proto]. rewrite El'. reflexivity.
  - intros sel c H. unfold sel_char. cbn [sel_ok msel_to_proto].
    destruct (in_nil_dec sel) as [HI|HI].
    + rewrite (items_panic _ HI). right. split; [tauto|reflexivity].
    + assert (HI' := HI). apply items_round_trip in HI'. destruct HI' as (l & -> & El). cbn [bind].
      destruct H as [[Hc (p & E & E')]|[Hc E]]; rewrite E; cbn [bind]; [left|right]; split; auto; try tauto.
      eexists; split; [reflexivity|]. cbn [msel_from_proto]. rewrite E', El. reflexivity.
  - intros b k [c|] H; unfold sel_char; cbn [sel_ok msel_to_proto].
    + destruct H as [[Hc (p & E & E')]|[Hc E]]; rewrite E; cbn [bind]; [left|right]; split; auto.
      eexists; split; [reflexivity|]. cbn [msel_from_proto optM]. rewrite E'. destruct b; reflexivity.
    + right. split; [tauto|reflexivity].
Qed.

Lemma mask_char : forall m,
  (mask_ok m /\ exists p, mask_to_proto m = Ok p /\ mask_from_proto p = Ok m) \/
  (~ mask_ok m /\ mask_to_proto m = Panic).
Proof.
  intros [sel single]. unfold mask_ok, mask_to_proto. cbn [mk_sel mk_single].
  change (fun p : Z * option msel => let (_, o) := p in match o with Some c => sel_ok c | None => True end)
      with (opt_ok sel_ok).
  destruct (struct_items_char sel) as [[HA (l & El & El')]|[HA El]].
  { apply Forall_forall. intros [i [c|]] _; cbn; auto. apply sel_char_all. }
  - left. split; auto. rewrite El. cbn [bind]. eexists; split; [reflexivity|].
    unfold mask_from_proto. cbn [pk_sel pk_single]. rewrite El'. reflexivity.
  - right. split; auto. rewrite El. reflexivity.
Qed.

(** messages *)
Definition popt (P : pmsel -> Prop) (p : Z * option pmsel) : Prop :=
  match p with (_, o) => match o with None => True | Some c => P c end end.
Definition pitem_normal (p : Z * option pmsel) : Z * option pmsel :=
  match p with (i, o) => (i, match o with None => None | Some c => Some (sel_normal c) end) end.

Definition psel_char (p : pmsel) : Prop :=
  (sel_readable p /\ exists m, msel_from_proto p = Ok m /\
     ((sel_complete p /\ msel_to_proto m = Ok (sel_normal p)) \/ (~ sel_complete p /\ msel_to_proto m = Panic))) \/
  (~ sel_readable p /\ msel_from_proto p = Panic).

Lemma pitems_char : forall items,
  Forall (fun p => match snd p with None => True | Some c => psel_char c end) items ->
  (All (popt sel_readable) items /\ exists l, mapM (itemM msel_from_proto) items = Ok l /\
     ((All (popt sel_complete) items /\ mapM (itemM msel_to_proto) l = Ok (map pitem_normal items)) \/
      (~ All (popt sel_complete) items /\ mapM (itemM msel_to_proto) l = Panic))) \/
  (~ All (popt sel_readable) items /\ mapM (itemM msel_from_proto) items = Panic).
Proof.
  intros items H. induction H as [|[i o] items Hx Hl IH].
  - left. split; [exact I|]. exists []. split; auto. left. split; [exact I|reflexivity].
  - cbn [All mapM map]. cbn [snd] in Hx. change (popt sel_readable (i, o)) with (match o with None => True | Some c => sel_readable c end).
    change (popt sel_complete (i, o)) with (match o with None => True | Some c => sel_complete c end).
    destruct o as [c|]; cbn [itemM optM].
    + destruct Hx as [[HR (m & E & HM)]|[HR E]]; rewrite E; [|right; split; [tauto|reflexivity]].
      destruct IH as [[HA (l & El & HL)]|[HA El]]; rewrite El; [|right; split; [tauto|reflexivity]].
      left. split; auto. eexists; split; [reflexivity|]. cbn [mapM]. cbn [itemM optM].
      destruct HM as [[HC EM]|[HC EM]]; rewrite EM.
      * destruct HL as [[HC' EM']|[HC' EM']]; rewrite EM'; [left|right]; split; auto; tauto.
      * right. split; [tauto|reflexivity].
    + destruct IH as [[HA (l & El & HL)]|[HA El]]; rewrite El; [|right; split; [tauto|reflexivity]].
      left. split; auto. eexists; split; [reflexivity|]. cbn [mapM]. cbn [itemM optM].
      destruct HL as [[HC' EM']|[HC' EM']]; rewrite EM'; [left|right]; split; auto; tauto.
Qed.

Lemma pitem_list_char : forall sel,
  (~ In PI_unset sel /\ mapM item_to_proto (map item_from_proto sel) = Ok sel) \/
  (In PI_unset sel /\ mapM item_to_proto (map item_from_proto sel) = Panic).
Proof.
  induction sel as [|x sel IH].
  - left. split; auto.
  - destruct x; cbn [map item_from_proto mapM item_to_proto].
    + right. split; [left; reflexivity|reflexivity].
    + destruct IH as [[H E]|[H E]]; rewrite E; [left|right]; split; auto; cbn; try tauto.
      intros [HH|HH]; [discriminate|tauto].
    + destruct IH as [[H E]|[H E]]; rewrite E; [left|right]; split; auto; cbn; try tauto.
      intros [HH|HH]; [discriminate|tauto].
Qed.

Lemma psel_char_all : forall p, psel_char p.
Proof.
  apply pmsel_ind'.
  - right. split; auto.
  - intros items H. apply pitems_char in H. unfold psel_char. cbn [sel_readable sel_complete msel_from_proto sel_normal].
    change (fun p : Z * option pmsel => let (_, o) := p in match o with Some c => sel_readable c | None => True end)
      with (popt sel_readable).
    change (fun p : Z * option pmsel => let (_, o) := p in match o with Some c => sel_complete c | None => True end)
      with (popt sel_complete).
    change (fun p : Z * option pmsel => let (i, o) := p in (i, match o with Some c => Some (sel_normal c) | None => None end))
      with pitem_normal.
    destruct H as [[HA (l & El & HL)]|[HA El]]; rewrite El; cbn [bind]; [|right; auto].
    left. split; auto. eexists; split; [reflexivity|]. cbn [msel_to_proto].
    destruct HL as [[HC' EM']|[HC' EM']]; rewrite EM'; [left|right]; split; auto.
  - intros sel [c|] H; unfold psel_char; cbn [sel_readable sel_complete msel_from_proto sel_normal]; [|right; auto].
    destruct H as [[HR (m & E & HM)]|[HR E]]; rewrite E; cbn [bind]; [|right; split; auto].
    left. split; auto. eexists; split; [reflexivity|]. cbn [msel_to_proto].
    destruct (pitem_list_char sel) as [[HI EI]|[HI EI]]; rewrite EI; cbn [bind].
    + destruct HM as [[HC EM]|[HC EM]]; rewrite EM; [left|right]; split; auto; tauto.
    + right. split; [tauto|reflexivity].
  - intros k [c|] H; unfold psel_char; cbn [sel_readable sel_complete msel_from_proto sel_normal optM].
    + destruct H as [[HR (m & E & HM)]|[HR E]]; rewrite E; cbn [bind]; [|right; split; auto].
      left. split; auto. destruct k; (eexists; split; [reflexivity|]); cbn [msel_to_proto];
        (destruct HM as [[HC EM]|[HC EM]]; rewrite EM; [left|right]; split; auto).
    + left. split; auto. destruct k; (eexists; split; [reflexivity|]); cbn [msel_to_proto]; right; auto.
Qed.

Lemma pmask_char : forall p,
  (mask_readable p /\ exists m, mask_from_proto p = Ok m /\
     ((mask_complete p /\ mask_to_proto m = Ok (mask_normal p)) \/ (~ mask_complete p /\ mask_to_proto m = Panic))) \/
  (~ mask_readable p /\ mask_from_proto p = Panic).
Proof.
  intros [[items|] single]; unfold mask_readable, mask_complete, mask_normal, mask_from_proto; cbn [pk_sel pk_single]; [|right; auto].
  change (fun p : Z * option pmsel => let (_, o) := p in match o with Some c => sel_readable c | None => True end)
      with (popt sel_readable).
  change (fun p : Z * option pmsel => let (_, o) := p in match o with Some c => sel_complete c | None => True end)
      with (popt sel_complete).
  change (fun p : Z * option pmsel => let (i, o) := p in (i, match o with Some c => Some (sel_normal c) | None => None end))
      with pitem_normal.
  destruct (pitems_char items) as [[HA (l & El & HL)]|[HA El]].
  { apply Forall_forall. intros [i [c|]] _; cbn; auto. apply psel_char_all. }
  - left. split; auto. rewrite El. cbn [bind]. eexists; split; [reflexivity|]. unfold mask_to_proto. cbn [mk_sel mk_single].
    destruct HL as [[HC' EM']|[HC' EM']]; rewrite EM'; [left|right]; split; auto.
  - right. split; auto. rewrite El. reflexivity.
Qed.
