(** C15: literals on the wire.  C20 (literals): equality.  C42: list and map literals.
    C45: literals re-expressed with another type. *)

From Coq Require Import List ZArith String Bool Lia.
From Verif Require Import Base TypesModel TypesSpec TypesProofs DecimalModel DecimalSpec DecimalProps
  TimeModel TimeSpec TimeProofs TimeProps LitModel LitSpec LitProofs.
Import ListNotations.
Local Open Scope Z_scope.

(** ** C15 *)

(** Encoding and decoding gives back exactly the same literal for the supported
    literals, and for no others. *)
Theorem C15_round_trip_iff : forall l,
  supported l <-> exists m, lit_to_proto l = Ok m /\ lit_from_proto m = Ok l.
Proof. exact enc_dec_all_lit. Qed.

Definition sample_struct : lit :=
  LStruct
    [ LPrim (VI8 (-128)) (TPrim PrimI8 1 7)
    ; LNull (TList 1 0 (TDecimal 2 0 38 10))
    ; LList [LPrim (VFp64 9221120237041090560) (TPrim PrimFp64 2 0)] (TList 1 3 (TPrim PrimFp64 2 0))
    ; LMap [(LPrim (VString "k") (TPrim PrimString 2 0), LProto (XInt64 5) (TPrecTs 1 0 9))]
        (TMap 2 0 (TPrim PrimString 2 0) (TPrecTs 1 0 9))
    ; LList [] (TList 2 0 (TUser 1 0 4 [TPdata (TPrim PrimI64 2 0); TPint 7]))
    ; LBytes BkFixedBinary [1; 2; 3] (TFixed FxBinary 2 0 3)
    ; LCompound 1 2 3 4 5 6 1
    ; LYearMonth 1 11 2
    ; LProto (XUser (UV_any "u" [1])) (TUser 2 0 9 []) ]
    (TStruct 2 1
       [ TPrim PrimI8 1 7; TList 1 0 (TDecimal 2 0 38 10); TList 1 3 (TPrim PrimFp64 2 0)
       ; TMap 2 0 (TPrim PrimString 2 0) (TPrecTs 1 0 9)
       ; TList 2 0 (TUser 1 0 4 [TPdata (TPrim PrimI64 2 0); TPint 7]); TFixed FxBinary 2 0 3
       ; TIntervalCompound false 1 0 6; TIntervalYearToMonth 2 0; TUser 2 0 9 [] ]).

Example C15_round_trip_nonvacuous : supported sample_struct.
Proof.
  unfold flagged, prec_ok, in_int. cbn. unfold flagged, prec_ok, in_int.
  repeat split; try lia; try discriminate; repeat constructor.
Qed.

(** Encoding panics exactly on the other literals, and never returns an error. *)
Theorem C15_encodable_iff : forall l,
  (encodable l <-> exists m, lit_to_proto l = Ok m) /\ (~ encodable l <-> lit_to_proto l = Panic).
Proof.
  intros l. destruct (enc_char_all l) as [[H [m E]]|[H E]]; rewrite E; split; split; intros;
    eauto; try tauto; try discriminate; try (destruct H0 as [? ?]; discriminate).
Qed.

(** Decoding panics exactly on the unreadable messages; it answers nil exactly for the
    readable ones whose value is refused, and never returns an error. *)
Theorem C15_readable_iff : forall m,
  (readable m <-> exists l, lit_from_proto m = Ok l) /\ (~ readable m <-> lit_from_proto m = Panic) /\
  (lit_from_proto m = Ok LNil <-> readable m /\ rejected m).
Proof.
  intros m. destruct (read_char_all m) as [[H [l [E HN]]]|[H E]]; rewrite E.
  - split; [|split]; split; intros HH; eauto; try tauto; try discriminate.
    + inversion HH. tauto.
    + destruct HH as [_ HH]. f_equal. tauto.
  - split; [|split]; split; intros HH; eauto; try tauto; try discriminate. destruct HH; discriminate.
Qed.

(** A message survives decoding and encoding exactly when it is complete, and what
    comes out is its canonical form; encoding what was decoded from any other message
    panics. *)
Theorem C15_message_round_trip : forall m,
  (complete m -> exists l, lit_from_proto m = Ok l /\ lit_to_proto l = Ok (normal m)) /\
  (~ complete m -> forall l, lit_from_proto m = Ok l -> lit_to_proto l = Panic).
Proof.
  intros m. split.
  - intros Hc. destruct (read_char_all m) as [[_ [l [E _]]]|[HN _]]; [|destruct HN; apply complete_readable; auto].
    exists l. split; auto. destruct (rt_char_all m l E) as [[_ H]|[H _]]; [auto|contradiction].
  - intros Hc l E. destruct (rt_char_all m l E) as [[H _]|[_ H]]; [contradiction|auto].
Qed.

Example C15_message_nonvacuous :
  let m := PLit true 3 (PB_struct
    [ PLit false 0 (PB_i8 200); PLit false 9 (PB_null (PT_interval_day 1 2 None))
    ; PLit false 7 (PB_compound (Some (0, 0)) (Some (Idts 1 0 (IM_micros 5) 0)))
    ; PLit true 0 (PB_map [(PLit false 0 (PB_bool true), PLit false 5 (PB_precision_time 3 4))])
    ; PLit true 1 (PB_empty_list (Some (0, 0, PT_i32 2 0))) ]) in
  complete m /\
  normal m = PLit true 3 (PB_struct
    [ PLit false 0 (PB_i8 (-56)); PLit true 2 (PB_null (PT_interval_day 1 2 (Some 6)))
    ; PLit false 0 (PB_compound None (Some (Idts 1 0 (IM_precision 6) 5)))
    ; PLit true 0 (PB_map [(PLit false 0 (PB_bool true), PLit false 0 (PB_precision_time 3 4))])
    ; PLit true 1 (PB_empty_list (Some (1, 1, PT_i32 2 0))) ]).
Proof.
  cbn. unfold wire_msg, prec_ok; cbn. repeat split; try lia; try discriminate; try tauto.
Qed.

(** The canonical form is a fixed point: a second trip changes nothing. *)
Lemma from_explicit :
  (forall m, type_from_proto (explicit m) = type_from_proto m) /\
  (forall p, type_param_from_proto (explicit_param p) = type_param_from_proto p).
Proof.
  assert (M : forall A B (f : A -> res B) (e : A -> A) l, Forall (fun x => f (e x) = f x) l ->
            mapM f (map e l) = mapM f l).
  { intros A B f e l H. induction H as [|x l Hx Hl IH]; cbn; auto. rewrite Hx, IH. reflexivity. }
  apply ptype_pparam_ind; cbn; auto.
  - intros m Hm. destruct m; try contradiction; auto. destruct prec; auto.
  - intros n v fs H. rewrite M; auto.
  - intros n ps r H Hr. rewrite M, Hr; auto.
  - intros n v t ->. auto.
  - intros n v k x -> ->. auto.
  - intros n v r ps H. rewrite M; auto.
  - intros p Hp. destruct p; try contradiction; auto.
  - intros t ->. auto.
Qed.

(** What the generic constructor builds: the value as given, with the type of its kind,
    the nullability asked for and no variation.  (User-defined literals: next.) *)
Theorem C15_new_literal_exact : forall a nullable l,
  (forall r ps v, a <> AUser r ps v) ->
  (new_literal a nullable = Ok l <->
   exists t, arg_typed (if nullable then 1 else 2) a t /\ arg_value a t l).
Proof.
  intros a nullable l Hu. unfold new_literal. rewrite nullability_val. generalize (if nullable then 1 else 2). intros n.
  split.
  - intros H. destruct a.
    + destruct v; cbn in H; inversion H; subst; eexists; split; constructor.
    + destruct k; cbn in H; inversion H; subst; eexists; split; constructor.
    + destruct (mapM lit_type fs) as [ts| |] eqn:E; cbn in H; inversion H; subst.
      apply mapM_lit_type in E. eexists; split; constructor; auto.
    + destruct es as [|e0 es]; try discriminate. destruct (lit_type e0) as [t| |] eqn:E; cbn in H; inversion H; subst.
      apply lit_type_typed in E. eexists; split; constructor; auto.
    + destruct kvs as [|[k0 x0] kvs]; try discriminate. destruct (lit_type k0) as [t| |] eqn:E; try discriminate.
      cbn in H. destruct (lit_type x0) as [t'| |] eqn:E2; cbn in H; inversion H; subst.
      apply lit_type_typed in E. apply lit_type_typed in E2. eexists; split; constructor; auto.
    + inversion H; subst; eexists; split; constructor.
    + destruct d as [dd ds [| |p] ss]; inversion H; subst; eexists; split; constructor.
    + destruct (Nat.eqb_spec (List.length b) 16); inversion H; subst; eexists; split; constructor; auto.
    + destruct (Hu ref params v eq_refl).
    + inversion H; subst; eexists; split; constructor.
    + inversion H; subst; eexists; split; constructor.
    + inversion H; subst; eexists; split; constructor.
    + inversion H; subst; eexists; split; constructor.
  - intros [t [Ht Hv]]. destruct Ht; inversion Hv; subst; try reflexivity.
    + apply mapM_lit_type in H. rewrite H. reflexivity.
    + apply lit_type_typed in H. rewrite H. reflexivity.
    + apply lit_type_typed in H. apply lit_type_typed in H0. rewrite H. cbn. rewrite H0. reflexivity.
    + rewrite H. reflexivity.
Qed.

(** When it fails: an error for a decimal that is not 16 bytes long or an unknown
    primitive type, a panic for an empty list or map or a nil element whose type is
    needed. *)
Theorem C15_new_literal_error : forall a nullable,
  new_literal a nullable = Err <->
  (exists s, a = APrim (VOther s)) \/ (exists b p s, a = ADecimal b p s /\ List.length b <> 16%nat).
Proof.
  intros a nullable. unfold new_literal.
  assert (NE : forall fs, mapM lit_type fs <> Err).
  { intros fs. apply mapM_not_err. apply Forall_forall. intros x _. destruct x; discriminate. }
  assert (NE1 : forall x, lit_type x <> Err) by (intros x; destruct x; discriminate).
  split.
  - destruct a; try discriminate.
    + destruct v; try discriminate. eauto.
    + specialize (NE fs). destruct (mapM lit_type fs); try discriminate; congruence.
    + destruct es as [|e0 es]; try discriminate. specialize (NE1 e0). destruct (lit_type e0); try discriminate; congruence.
    + destruct kvs as [|[k0 x0] kvs]; try discriminate. pose proof (NE1 k0). pose proof (NE1 x0).
      destruct (lit_type k0); cbn; try congruence; try discriminate.
      destruct (lit_type x0); cbn; try congruence; discriminate.
    + destruct (Nat.eqb_spec (List.length b) 16); [discriminate|]. right. eauto 10.
    + assert (D : (All decodable_param params /\ exists ys, mapM type_param_from_proto params = Ok ys) \/
                (~ All decodable_param params /\ mapM type_param_from_proto params = Panic)).
      { apply mapM_decide. apply Forall_forall. intros p _. apply from_char_all. }
      destruct D as [[_ [ys ->]]|[_ ->]]; discriminate.
  - intros [[s ->]|[b [p [s [-> H]]]]]; [reflexivity|].
    destruct (Nat.eqb_spec (List.length b) 16); [contradiction|reflexivity].
Qed.

(** User-defined literals: the type parameters are those of the message; panics when
    one of them cannot be decoded. *)
Theorem C15_new_literal_user : forall ref ps v nullable,
  (All decodable_param ps ->
     exists ts, mapM type_param_from_proto ps = Ok ts /\
       new_literal (AUser ref ps v) nullable =
         Ok (LProto (XUser v)
               (TUser (if nullable then 1 else 2) 0 (match ref with Some r => r | None => 0 end) ts))) /\
  (~ All decodable_param ps -> new_literal (AUser ref ps v) nullable = Panic).
Proof.
  intros ref ps v nullable. unfold new_literal. rewrite nullability_val.
  assert (D : (All decodable_param ps /\ exists ys, mapM type_param_from_proto ps = Ok ys) \/
              (~ All decodable_param ps /\ mapM type_param_from_proto ps = Panic)).
  { apply mapM_decide. apply Forall_forall. intros p _. apply from_char_all. }
  destruct D as [[H [ys E]]|[H E]]; rewrite E; split; intros HH; try contradiction; try reflexivity.
  exists ys. split; reflexivity.
Qed.

Lemma wire_decoded : forall p t, type_param_from_proto p = Ok t ->
  (wire_param t <-> no_compound_no_unset_param p).
Proof.
  intros p t E. rewrite (proj2 wire_char t).
  destruct (proj2 dec_enc_all p t E) as [[H1 H2]|[H1 H2]]; rewrite H2.
  - split; auto. intros _. eexists; split; [reflexivity|]. rewrite (proj2 from_explicit). exact E.
  - split; [intros [m [H _]]; discriminate|contradiction].
Qed.

(** Which constructed literals survive the wire. *)
Theorem C15_constructed_survives_iff : forall a nullable l,
  new_literal a nullable = Ok l ->
  (arg_supported a <-> exists m, lit_to_proto l = Ok m /\ lit_from_proto m = Ok l).
Proof.
  intros a nullable l H. rewrite <- (C15_round_trip_iff l).
  assert (F : flagged (if nullable then 1 else 2)) by (destruct nullable; unfold flagged; auto).
  destruct a as [| | | | | | | |ref ps v| | | |] eqn:Ea.
  9: { destruct (C15_new_literal_user ref ps v nullable) as [H1 H2].
       assert (D : All decodable_param ps \/ ~ All decodable_param ps).
       { assert (D : (All decodable_param ps /\ exists ys, mapM type_param_from_proto ps = Ok ys) \/
                     (~ All decodable_param ps /\ mapM type_param_from_proto ps = Panic)).
         { apply mapM_decide. apply Forall_forall. intros p _. apply from_char_all. }
         tauto. }
       destruct D as [D|D]; [|specialize (H2 D); congruence].
       destruct (H1 D) as [ts [E E2]]. rewrite E2 in H. inversion H; subst. cbn [supported proto_supported arg_supported].
       assert (W : All wire_param ts <-> All no_compound_no_unset_param ps).
       { apply mapM_ok_inv in E. clear -E. induction E as [|p t ps ts Hp E IH]; cbn; [tauto|].
         rewrite IH, (wire_decoded _ _ Hp). reflexivity. }
       rewrite W. tauto. }
  all: apply C15_new_literal_exact in H; [|intros; discriminate];
       destruct H as [t [Ht Hv]]; inversion Hv; subst; inversion Ht; subst;
       cbn [supported prim_supported bytes_supported proto_supported arg_supported id_mode];
       try (tauto).
  - split; [intros []|]. unfold flagged in *. intros [_ H]. lia.
  - split; [intros []|]. unfold flagged in *. intros [_ H]. lia.
  - unfold in_int. pose proof (wrap_range 32 len ltac:(lia)) as W. unfold in_int in W. tauto.
Qed.

Example C15_constructed_nonvacuous :
  (exists l, new_literal (APrecTs 6 1700000000000000) true = Ok l) /\ arg_supported (APrecTs 6 1700000000000000) /\
  (exists l, new_literal (APrecTs 6 (-1)) true = Ok l) /\ ~ arg_supported (APrecTs 6 (-1)).
Proof. cbn. unfold prec_ok. repeat split; eauto; try lia. Qed.

(** A null literal states its type made nullable, with everything else kept. *)
Theorem C15_null_literal : forall t, exists u,
  new_null_literal t = LNull u /\ same_but_nullability t u /\ get_nullability u = 1.
Proof.
  intros t. exists (with_nullability NullNullable t). split; [reflexivity|].
  apply with_nullability_same.
Qed.

(** Findings: literals the constructors build and accept that do not survive. *)
Theorem C15_before_epoch_refuted : exists l m,
  new_literal (APrecTs 6 (-1)) false = Ok l /\ lit_to_proto l = Ok m /\ lit_from_proto m = Ok LNil.
Proof. eexists; eexists; repeat split; reflexivity. Qed.

Theorem C15_year_month_refuted : forall y mo nullable, exists l m l',
  new_literal (AYearMonth y mo) nullable = Ok l /\ lit_to_proto l = Ok m /\
  lit_from_proto m = Ok l' /\ lit_equals l l' = Ok false.
Proof. intros y mo nullable. do 3 eexists. repeat split; reflexivity. Qed.

Theorem C15_day_microseconds_refuted : forall d s us nullable, exists l m l',
  new_literal (ADaySecond (Idts d s (IM_micros us) 0)) nullable = Ok l /\ lit_to_proto l = Ok m /\
  lit_from_proto m = Ok l' /\ lit_type l' <> lit_type l.
Proof.
  intros d s us nullable. do 3 eexists. split; [reflexivity|]. split; [reflexivity|].
  split; [reflexivity|]. cbn. discriminate.
Qed.

Theorem C15_time_variation_refuted : exists l m l',
  typed l (TPrecTime 2 5 3) /\ lit_to_proto l = Ok m /\ lit_from_proto m = Ok l' /\ typed l' (TPrecTime 2 0 3).
Proof.
  exists (LProto (XInt64 1) (TPrecTime 2 5 3)). do 2 eexists. split; [constructor|].
  split; [reflexivity|]. split; [reflexivity|constructor].
Qed.

Theorem C15_compound_null_refuted : exists m l,
  lit_from_proto m = Ok l /\ readable m /\ lit_to_proto l = Panic.
Proof.
  exists (PLit true 0 (PB_null (PT_interval_compound 1 0 3))). eexists. split; [reflexivity|].
  split; [|reflexivity]. cbn. unfold prec_ok. lia.
Qed.

Theorem C15_empty_message_refuted : lit_from_proto (PLit false 0 (PB_list [])) = Panic /\
  lit_from_proto (PLit false 0 (PB_map [])) = Panic /\ lit_from_proto (PLit false 0 PB_unset) = Panic.
Proof. repeat split; reflexivity. Qed.

(** ** C20, literals *)

(** Two literals without nil parts compare equal exactly when they are of the same
    kind, with the same type and the same value (floats as numbers). *)
Theorem C20_literal_equality : forall a b, lit_plain a ->
  exists c, lit_equals a b = Ok c /\ (c = true <-> same_lit a b).
Proof. intros a b H. apply leq_char_all; auto. Qed.

(** A literal equals itself exactly when no float inside it is a NaN. *)
Theorem C20_literal_reflexive_iff : forall a, lit_plain a ->
  (lit_equals a a = Ok true <-> lit_no_nan a).
Proof.
  intros a H. destruct (C20_literal_equality a a H) as [c [E Hc]]. rewrite E, <- (lit_refl a H).
  split; [intros HH; inversion HH; subst; tauto|intros HH; f_equal; tauto].
Qed.

Example C20_literal_nonvacuous :
  lit_plain sample_struct /\ ~ lit_no_nan sample_struct /\
  lit_plain (LPrim (VFp32 2147483648) (TPrim PrimFp32 1 0)) /\
  lit_equals (LPrim (VFp32 2147483648) (TPrim PrimFp32 1 0)) (LPrim (VFp32 0) (TPrim PrimFp32 1 0)) = Ok true.
Proof.
  split; [cbn; tauto|]. split; [|split; [exact I|reflexivity]].
  cbn. unfold is_nan. intros H. decompose [and] H. match goal with X : ~ _ |- _ => apply X end.
  vm_compute. split; [reflexivity|discriminate].
Qed.

(** ** C42 *)

(** [NewList]: accepted exactly when there is a first element, it is not nil and every
    other element states the same type; the list keeps the elements in order and states
    that type as its element type.  Everything else is an error. *)
Definition all_same (t : ty) (l : list lit) : Prop :=
  Forall (fun x => exists u, typed x u /\ same_type t u) l.

Lemma any_mismatch_spec : forall t l, plain t ->
  (all_same t l /\ any_mismatch t l = Ok false) \/ (~ all_same t l /\ any_mismatch t l = Ok true).
Proof.
  intros t l Hp. unfold all_same. induction l as [|x l IH].
  - left. auto.
  - assert (NC : x <> LNil -> any_mismatch t (x :: l) =
       let! u := lit_type x in let! b := type_equals t u in if b then any_mismatch t l else Ok true)
      by (destruct x; auto; congruence).
    destruct (lit_type_nil x) as [[-> _]|[Hx [u Hu]]].
    + right. split; auto. intros H. inversion H as [|? ? [u [Ht _]] _]; subst. inversion Ht.
    + rewrite (NC Hx), Hu. cbn [bind]. destruct (type_eq_dec t u Hp) as [b [-> Hb]]. cbn [bind].
      pose proof Hu as Hu'. apply lit_type_typed in Hu'. destruct b.
      * destruct IH as [[IH1 IH2]|[IH1 IH2]]; [left|right]; split; auto.
        -- constructor; auto. exists u. split; auto. tauto.
        -- intros H; inversion H; auto.
      * right. split; auto. intros H. inversion H as [|? ? [u' [Ht Hs]] _]; subst.
        apply lit_type_typed in Ht. assert (u' = u) by congruence. subst. intuition congruence.
Qed.

Lemma mismatch_spec : forall x l, (forall t, typed x t -> plain t) ->
  ((exists t, typed x t /\ all_same t l) /\ has_type_mismatch (x :: l) = Ok false) \/
  (~ (exists t, typed x t /\ all_same t l) /\ has_type_mismatch (x :: l) = Ok true).
Proof.
  intros x l Hp. unfold has_type_mismatch.
  destruct (lit_type_nil x) as [[-> _]|[Hx [u Hu]]].
  - right. split; auto. intros [t [Ht _]]. inversion Ht.
  - replace (match x with LNil => Ok true | _ => let! t := lit_type x in any_mismatch t l end)
      with (any_mismatch u l) by (destruct x; try congruence; rewrite Hu; reflexivity).
    pose proof Hu as Hu'. apply lit_type_typed in Hu'.
    destruct (any_mismatch_spec u l (Hp _ Hu')) as [[H1 H2]|[H1 H2]]; [left|right]; split; auto.
    + eauto.
    + intros [t [Ht HH]]. apply lit_type_typed in Ht. congruence.
Qed.

Theorem C42_new_list_iff : forall es nullable,
  (forall e t, hd_error es = Some e -> typed e t -> plain t) ->
  new_list es nullable <> Panic /\
  forall l, new_list es nullable = Ok l <->
    exists e0 rest t, es = e0 :: rest /\ typed e0 t /\ all_same t rest /\
      l = LList es (TList (if nullable then 1 else 2) 0 t).
Proof.
  intros es nullable Hp. destruct es as [|e0 rest]; cbn [new_list].
  - split; [discriminate|]. intros l. split; [discriminate|]. intros [e [r [t [H _]]]]. discriminate.
  - destruct (mismatch_spec e0 rest) as [[[t [H1 H2]] H3]|[H1 H3]].
    { intros t Ht. eapply Hp; eauto. reflexivity. }
    + rewrite H3. cbn [bind new_literal].
      pose proof H1 as H1'. apply lit_type_typed in H1'. rewrite H1'. cbn [bind]. split; [discriminate|].
      rewrite nullability_val.
      intros l. split.
      * intros H; inversion H; subst. do 3 eexists. eauto.
      * intros [e [r [t' [HE [HT [HS ->]]]]]]. inversion HE; subst.
        apply lit_type_typed in HT. congruence.
    + rewrite H3. cbn [bind]. split; [discriminate|]. intros l. split; [discriminate|].
      intros [e [r [t' [HE [HT [HS _]]]]]]. inversion HE; subst. destruct H1. eauto.
Qed.

Theorem C42_new_map_iff : forall kvs nullable,
  (forall k x t, hd_error kvs = Some (k, x) -> typed k t \/ typed x t -> plain t) ->
  new_map kvs nullable <> Panic /\
  forall l, new_map kvs nullable = Ok l <->
    exists k0 x0 rest kt xt, kvs = (k0, x0) :: rest /\ typed k0 kt /\ typed x0 xt /\
      all_same kt (map fst rest) /\ all_same xt (map snd rest) /\
      l = LMap kvs (TMap (if nullable then 1 else 2) 0 kt xt).
Proof.
  intros kvs nullable Hp. destruct kvs as [|[k0 x0] rest]; cbn [new_map map fst snd].
  - split; [discriminate|]. intros l. split; [discriminate|]. intros [k [x [r [kt [xt [H _]]]]]]. discriminate.
  - destruct (mismatch_spec k0 (map fst rest)) as [[[kt [H1 H2]] H3]|[H1 H3]].
    { intros t Ht. apply (Hp k0 x0 t); auto. }
    + rewrite H3. cbn [bind].
      destruct (mismatch_spec x0 (map snd rest)) as [[[xt [H4 H5]] H6]|[H4 H6]].
      { intros t Ht. apply (Hp k0 x0 t); auto. }
      * rewrite H6. cbn [bind new_literal].
        pose proof H1 as H1'. apply lit_type_typed in H1'. rewrite H1'. cbn [bind].
        pose proof H4 as H4'. apply lit_type_typed in H4'. rewrite H4'. cbn [bind]. split; [discriminate|].
        rewrite nullability_val. intros l. split.
        -- intros H; inversion H; subst. do 5 eexists. eauto 10.
        -- intros [k [x [r [kt' [xt' [HE [HT [HT' [HS [HS' ->]]]]]]]]]]. inversion HE; subst.
           apply lit_type_typed in HT. apply lit_type_typed in HT'. congruence.
      * rewrite H6. cbn [bind]. split; [discriminate|]. intros l. split; [discriminate|].
        intros [k [x [r [kt' [xt' [HE [HT [HT' [HS [HS' _]]]]]]]]]]. inversion HE; subst. destruct H4. eauto.
    + rewrite H3. cbn [bind]. split; [discriminate|]. intros l. split; [discriminate|].
      intros [k [x [r [kt' [xt' [HE [HT [HT' [HS [HS' _]]]]]]]]]]. inversion HE; subst. destruct H1. eauto.
Qed.

(** Empty lists and maps need their types and state exactly those. *)
Theorem C42_empty_collections : forall k x nullable,
  (new_empty_list x nullable =
     match x with Some t => Ok (LList [] (TList (if nullable then 1 else 2) 0 t)) | None => Err end) /\
  (new_empty_map k x nullable =
     match k, x with
     | Some kt, Some xt => Ok (LMap [] (TMap (if nullable then 1 else 2) 0 kt xt))
     | _, _ => Err
     end).
Proof. intros [k|] [x|] nullable; cbn; rewrite <- ?nullability_val; split; reflexivity. Qed.

(** A collection of supported elements built by these constructors survives the wire. *)
Theorem C42_collections_survive : forall l nullable,
  (forall es, All supported es -> new_list es nullable = Ok l ->
     exists m, lit_to_proto l = Ok m /\ lit_from_proto m = Ok l) /\
  (forall kvs, All (fun p => match p with (k, x) => supported k /\ supported x end) kvs ->
     new_map kvs nullable = Ok l -> exists m, lit_to_proto l = Ok m /\ lit_from_proto m = Ok l) /\
  (forall t, wire_type t -> new_empty_list (Some t) nullable = Ok l ->
     exists m, lit_to_proto l = Ok m /\ lit_from_proto m = Ok l) /\
  (forall k x, wire_type k -> wire_type x -> new_empty_map (Some k) (Some x) nullable = Ok l ->
     exists m, lit_to_proto l = Ok m /\ lit_from_proto m = Ok l).
Proof.
  intros l nullable.
  assert (F : flagged (nullability_of nullable)) by apply flagged_of.
  split; [|split; [|split]].
  - intros es Hs H. unfold new_list in H. destruct es as [|e0 es]; try discriminate.
    destruct (has_type_mismatch (e0 :: es)) as [[|]| |]; try discriminate. cbn [bind] in H.
    apply (C15_constructed_survives_iff _ _ _ H). exact Hs.
  - intros kvs Hs H. unfold new_map in H. destruct kvs as [|e0 es]; try discriminate.
    destruct (has_type_mismatch (map fst (e0 :: es))) as [[|]| |]; try discriminate. cbn [bind] in H.
    destruct (has_type_mismatch (map snd (e0 :: es))) as [[|]| |]; try discriminate. cbn [bind] in H.
    apply (C15_constructed_survives_iff _ _ _ H). exact Hs.
  - intros t Ht H. inversion H; subst. apply C15_round_trip_iff. cbn. auto.
  - intros k x Hk Hx H. inversion H; subst. apply C15_round_trip_iff. cbn. auto.
Qed.

Example C42_nonvacuous :
  let a := LPrim (VI32 1) (TPrim PrimI32 2 0) in
  let b := LPrim (VI32 2) (TPrim PrimI32 2 0) in
  let c := LPrim (VI32 2) (TPrim PrimI32 1 0) in
  new_list [a; b] true = Ok (LList [a; b] (TList 1 0 (TPrim PrimI32 2 0))) /\
  new_list [a; c] true = Err /\ new_list [a; LNil] true = Err /\ new_list [] true = Err /\
  new_map [(a, c); (b, c)] false = Ok (LMap [(a, c); (b, c)] (TMap 2 0 (TPrim PrimI32 2 0) (TPrim PrimI32 1 0))) /\
  new_map [(a, c); (c, c)] false = Err /\ new_map [(a, c); (b, b)] false = Err.
Proof. repeat split; reflexivity. Qed.

(** A user-defined literal built from a struct keeps its fields: they can be read back
    from the stored message. *)
Theorem C42_user_defined : forall ref fs nullable params, All supported fs -> All wire_param params ->
  exists ms, new_user_defined_literal ref fs nullable params =
      Ok (LProto (XUser (UV_struct ms)) (TUser (if nullable then 1 else 2) 0 ref params)) /\
    mapM lit_from_proto ms = Ok fs.
Proof.
  intros ref fs nullable params Hf Hp.
  apply (mapM_inverse _ _ lit_to_proto lit_from_proto supported) in Hf;
    [|apply Forall_forall; intros x _; apply enc_dec_all_lit].
  apply (mapM_inverse _ _ tparam_to_proto type_param_from_proto wire_param) in Hp;
    [|apply Forall_forall; intros x _; apply wire_char].
  destruct Hf as [ms [H1 H2]], Hp as [ps [H3 H4]]. exists ms.
  unfold new_user_defined_literal, new_literal. rewrite H1. cbn [bind]. rewrite H3. cbn [bind]. rewrite H4. cbn [bind].
  rewrite nullability_val. auto.
Qed.

Example C42_user_defined_nonvacuous :
  All supported [sample_struct] /\ All wire_param [TPdata (TPrim PrimI64 1 0); TPstring "x"].
Proof. split; [split; [apply C15_round_trip_nonvacuous|exact I]|]. cbn. auto. Qed.

(** ** C45 *)

(** the type asked for is the type obtained, except that a decimal comes back with no
    variation and never with unspecified nullability *)
Theorem C45_states_target : forall l target l', with_type l target = Some (Ok l') ->
  match target with
  | TDecimal n _ p s => typed l' (TDecimal (if n =? 1 then 1 else 2) 0 p s)
  | _ => typed l' target
  end.
Proof.
  intros l target l' H. destruct l; cbn in H; try discriminate.
  - destruct target; try discriminate. destruct k; try discriminate. destruct v; inversion H; constructor.
  - destruct target; inversion H; constructor.
  - destruct target; inversion H; constructor.
  - destruct target; try discriminate.
    + destruct p; inversion H; constructor.
    + destruct k0; inversion H; constructor.
  - destruct target; try discriminate.
    + destruct k; try discriminate. unfold varchar_with_type in H. destruct t; try discriminate.
      destruct k; try discriminate. destruct v; try discriminate.
      destruct (len <? _); inversion H; constructor.
    + unfold decimal_with_type in H. destruct t; try discriminate. destruct v; try discriminate.
      destruct (Datatypes.length s <? 16)%nat; try discriminate.
      destruct (modify_decimal _ _ _ _) as [[[b' p'] s']| |] eqn:E; try discriminate. cbn [bind new_literal] in H.
      assert (p' = precision /\ s' = scale) as [-> ->].
      { unfold modify_decimal in E. destruct (38 <? precision); try discriminate.
        destruct (reduce _ _) as [c e]. destruct (validate_prec_scale _ _ _ _); try discriminate.
        destruct (quantize _ _ _ _); try discriminate. cbn [bind] in E. destruct (16 <? _); inversion E; auto. }
      destruct (Nat.eqb _ _); inversion H; subst. rewrite nullability_val. constructor.
    + destruct t; try discriminate. destruct v; try discriminate.
      destruct (change_precision z prec0 prec); inversion H; constructor.
    + destruct t; try discriminate. destruct v; try discriminate.
      destruct (change_precision z prec0 prec); inversion H; constructor.
    + destruct t; try discriminate. destruct v; try discriminate.
      destruct (change_precision z prec0 prec); inversion H; constructor.
    + destruct t; try discriminate. destruct v; try discriminate. inversion H; constructor.
Qed.

(** the values of text, binary and list literals are kept as they are *)
Theorem C45_keeps_value : forall target,
  (forall v t, with_type (LPrim v t) target =
     Some (match target, v with TFixed FxChar _ _ _, VFixedChar _ => Ok (LPrim v target) | _, _ => Err end)) /\
  (forall es t, with_type (LList es t) target =
     Some (match target with TList _ _ _ => Ok (LList es target) | _ => Err end)) /\
  (forall k s t, with_type (LBytes k s t) target =
     Some (match target with
           | TFixed FxBinary _ _ _ => Ok (LBytes BkFixedBinary s target)
           | TPrim PrimUUID _ _ => Ok (LBytes BkUuid s target)
           | _ => Err
           end)) /\
  (forall s n v len n' v' len', with_type (LProto (XString s) (TFixed FxVarChar n v len)) (TFixed FxVarChar n' v' len') =
     Some (if Z_le_dec (Z.of_nat (String.length s)) len'
           then Ok (LProto (XString s) (TFixed FxVarChar n' v' len')) else Err)).
Proof.
  intros target. split; [|split; [|split]].
  - intros v t. cbn. destruct target; auto. destruct k; auto. destruct v; auto.
  - intros es t. reflexivity.
  - intros k s t. reflexivity.
  - intros s n v len n' v' len'. cbn. destruct (Z.ltb_spec len' (Z.of_nat (String.length s))), (Z_le_dec (Z.of_nat (String.length s)) len');
      auto; lia.
Qed.

(** decimals: the same number at the new precision and scale *)
Theorem C45_decimal_same_number : forall b n v p s n' v' p' s' l', bytes 16 b ->
  with_type (LProto (XBytes b) (TDecimal n v p s)) (TDecimal n' v' p' s') = Some (Ok l') ->
  exists b', l' = LProto (XBytes b') (TDecimal (if n' =? 1 then 1 else 2) 0 p' s') /\ bytes 16 b' /\
    same_number (signed128 b') (- s') (signed128 b) (- s) /\ Z.abs (signed128 b') < 10 ^ p'.
Proof.
  intros b n v p s n' v' p' s' l' Hb H. cbn [with_type] in H. assert (H0 := f_equal (fun o => match o with Some r => r | None => Err end) H). cbv beta iota in H0. clear H. unfold decimal_with_type in H0. destruct Hb as [HL HB].
  assert (L16 : (Datatypes.length b <? 16)%nat = false) by (apply Nat.ltb_ge; lia).
  rewrite L16 in H0. rewrite firstn_all2 in H0 by lia.
  destruct (modify_decimal b s p' s') as [[[b' q] r]| |] eqn:E; try discriminate.
  destruct (C13_modify_preserves_value _ _ _ _ _ _ _ (conj HL HB) E) as (-> & -> & Hb' & HS & HA).
  cbn [bind new_literal] in H0. destruct (Nat.eqb_spec (Datatypes.length b') 16); inversion H0; subst.
  rewrite nullability_val. exists b'. auto.
Qed.

Theorem C45_decimal_succeeds_iff : forall b n v p s n' v' p' s', bytes 16 b -> signed128 b <> 0 ->
  (exists l', with_type (LProto (XBytes b) (TDecimal n v p s)) (TDecimal n' v' p' s') = Some (Ok l')) <->
  p' <= 38 /\ 0 <= s' <= p' /\
  exists m, same_number m (- s') (signed128 b) (- s) /\ Z.abs m < 10 ^ p'.
Proof.
  intros b n v p s n' v' p' s' Hb Hz.
  rewrite <- (proj2 (C13_modify_succeeds_iff b s p' s' Hb Hz)). destruct Hb as [HL HB].
  assert (L16 : (Datatypes.length b <? 16)%nat = false) by (apply Nat.ltb_ge; lia).
  cbn [with_type]. unfold decimal_with_type. rewrite L16, firstn_all2 by lia. split.
  - intros [l' H]. destruct (modify_decimal b s p' s'); [eauto|discriminate..].
  - intros [[[b' q] r] E]. rewrite E. cbn [bind new_literal].
    destruct (C13_modify_preserves_value _ _ _ _ _ _ _ (conj HL HB) E) as (_ & _ & [Hb' _] & _).
    rewrite Hb'. eexists. reflexivity.
Qed.

(** precision times and timestamps keep their kind and are converted as C14 says *)
Theorem C45_times_finer_exact : forall z n v p n' v' q, in_int 64 z -> precision_ok p -> precision_ok q -> p <= q ->
  in_int 64 (z * 10 ^ (clock_precision q - p)) ->
  with_type (LProto (XInt64 z) (TPrecTime n v p)) (TPrecTime n' v' q) =
    Some (Ok (LProto (XInt64 (z * 10 ^ (q - p))) (TPrecTime n' v' q))) /\
  with_type (LProto (XInt64 z) (TPrecTs n v p)) (TPrecTs n' v' q) =
    Some (Ok (LProto (XInt64 (z * 10 ^ (q - p))) (TPrecTs n' v' q))) /\
  with_type (LProto (XInt64 z) (TPrecTsTz n v p)) (TPrecTsTz n' v' q) =
    Some (Ok (LProto (XInt64 (z * 10 ^ (q - p))) (TPrecTsTz n' v' q))).
Proof.
  intros. cbn [with_type]. rewrite (C14_finer_is_exact z p q) by auto. auto.
Qed.
Theorem C45_times_coarser_rounds_down : forall z n v p n' v' q, 0 <= z -> in_int 64 (z * 10 ^ 2) ->
  precision_ok p -> precision_ok q -> q <= p ->
  with_type (LProto (XInt64 z) (TPrecTime n v p)) (TPrecTime n' v' q) =
    Some (Ok (LProto (XInt64 (z / 10 ^ (p - q))) (TPrecTime n' v' q))) /\
  with_type (LProto (XInt64 z) (TPrecTs n v p)) (TPrecTs n' v' q) =
    Some (Ok (LProto (XInt64 (z / 10 ^ (p - q))) (TPrecTs n' v' q))) /\
  with_type (LProto (XInt64 z) (TPrecTsTz n v p)) (TPrecTsTz n' v' q) =
    Some (Ok (LProto (XInt64 (z / 10 ^ (p - q))) (TPrecTsTz n' v' q))).
Proof.
  intros. cbn [with_type]. rewrite (C14_coarser_rounds_down z p q) by auto. auto.
Qed.

(** intervals that state a precision: days and seconds are kept, subseconds scaled *)
Theorem C45_interval_scaled : forall d s ss p n v p0 n' v' q, precision_ok p -> precision_ok q ->
  exists v2,
    with_type (LProto (XDaySecond (Idts d s (IM_precision p) ss)) (TIntervalDay n v p0)) (TIntervalDay n' v' q) =
      Some (Ok (LProto (XDaySecond (Idts d s (IM_precision q) v2)) (TIntervalDay n' v' q))) /\
    (p <= q -> in_int 64 (ss * 10 ^ (q - p)) -> v2 = ss * 10 ^ (q - p)) /\
    (q < p -> 0 <= ss -> v2 = ss / 10 ^ (p - q)).
Proof.
  intros d s ss p n v p0 n' v' q Hp Hq. cbn [with_type id_days id_secs id_sub get_precision id_mode].
  unfold interval_day_with_precision. eexists. split; [reflexivity|]. unfold precision_ok in *. split.
  - intros Hpq Hin. destruct (Z.eqb_spec (p - q) 0).
    + replace (q - p) with 0 by lia. change (10 ^ 0) with 1. lia.
    + destruct (Z.ltb_spec 0 (p - q)); [lia|]. replace (Z.abs (p - q)) with (q - p) by lia.
      rewrite wrap_id by (auto; lia). reflexivity.
  - intros Hpq Hss. destruct (Z.eqb_spec (p - q) 0); [lia|]. destruct (Z.ltb_spec 0 (p - q)); [|lia].
    replace (Z.abs (p - q)) with (p - q) by lia. apply Z.quot_div_nonneg; auto. apply Z.pow_pos_nonneg; lia.
Qed.

(** Which literals can be asked at all, and a target of another kind is an error. *)
Theorem C45_kinds : forall l target,
  (with_type l target = None <->
     match l with LNil | LNull _ | LMap _ _ | LYearMonth _ _ _ | LCompound _ _ _ _ _ _ _ => True | _ => False end) /\
  (forall v t, l = LProto v t ->
     match target with
     | TDecimal _ _ _ _ => match t with TDecimal _ _ _ _ => False | _ => True end
     | TFixed FxVarChar _ _ _ => match t with TFixed FxVarChar _ _ _ => False | _ => True end
     | TPrecTime _ _ _ => match t with TPrecTime _ _ _ => False | _ => True end
     | TPrecTs _ _ _ => match t with TPrecTs _ _ _ => False | _ => True end
     | TPrecTsTz _ _ _ => match t with TPrecTsTz _ _ _ => False | _ => True end
     | TIntervalDay _ _ _ => match t with TIntervalDay _ _ _ => False | _ => True end
     | _ => True
     end -> with_type l target = Some Err).
Proof.
  intros l target. split.
  - destruct l; cbn; split; auto; try discriminate; try contradiction.
  - intros v t -> H. cbn. destruct target; auto.
    + destruct k; auto. unfold varchar_with_type. destruct t; auto. destruct k; auto; contradiction.
    + unfold decimal_with_type. destruct t; auto; contradiction.
    + destruct t; auto; contradiction.
    + destruct t; auto; contradiction.
    + destruct t; auto; contradiction.
    + destruct t; auto; contradiction.
Qed.

(** A literal whose value does not fit its own type makes the conversion panic; so does a
    decimal of less than 16 bytes.  Bytes after the sixteenth are ignored. *)
Theorem C45_ill_formed_panics : forall v t target,
  (match target, t with
   | TFixed FxVarChar _ _ _, TFixed FxVarChar _ _ _ => ~ exists s, v = XString s
   | TPrecTime _ _ _, TPrecTime _ _ _ | TPrecTs _ _ _, TPrecTs _ _ _ | TPrecTsTz _ _ _, TPrecTsTz _ _ _ =>
       ~ exists z, v = XInt64 z
   | TIntervalDay _ _ _, TIntervalDay _ _ _ => ~ exists d, v = XDaySecond d
   | TDecimal _ _ _ _, TDecimal _ _ _ _ => forall b, v = XBytes b -> (List.length b < 16)%nat
   | _, _ => False
   end) -> with_type (LProto v t) target = Some Panic.
Proof.
  intros v t target H. cbn [with_type]. destruct target; try contradiction.
  - destruct k; try contradiction. destruct t; try contradiction. destruct k; try contradiction.
    cbn [varchar_with_type]. destruct v; try reflexivity. exfalso. eauto.
  - destruct t; try contradiction. cbn [decimal_with_type]. destruct v; try reflexivity.
    specialize (H _ eq_refl). apply Nat.ltb_lt in H. rewrite H. reflexivity.
  - destruct t; try contradiction. destruct v; try reflexivity. exfalso. eauto.
  - destruct t; try contradiction. destruct v; try reflexivity. exfalso. eauto.
  - destruct t; try contradiction. destruct v; try reflexivity. exfalso. eauto.
  - destruct t; try contradiction. destruct v; try reflexivity. exfalso. eauto.
Qed.
Theorem C45_decimal_first_sixteen : forall b more n v p s n' v' p' s', List.length b = 16%nat ->
  with_type (LProto (XBytes (b ++ more)) (TDecimal n v p s)) (TDecimal n' v' p' s') =
  with_type (LProto (XBytes b) (TDecimal n v p s)) (TDecimal n' v' p' s').
Proof.
  intros b more n v p s n' v' p' s' H. cbn [with_type decimal_with_type]. rewrite app_length, H.
  replace (16 + List.length more <? 16)%nat with false by (symmetry; apply Nat.ltb_ge; lia).
  rewrite firstn_app, H, Nat.sub_diag. rewrite (firstn_all2 b) by lia. cbn [firstn]. rewrite app_nil_r. reflexivity.
Qed.

Example C45_nonvacuous :
  with_type (LProto (XInt64 1234567) (TPrecTs 2 0 6)) (TPrecTs 1 0 3) =
    Some (Ok (LProto (XInt64 1234) (TPrecTs 1 0 3))) /\
  with_type (LProto (XDaySecond (Idts 1 2 (IM_precision 3) 5)) (TIntervalDay 2 0 3)) (TIntervalDay 1 0 6) =
    Some (Ok (LProto (XDaySecond (Idts 1 2 (IM_precision 6) 5000)) (TIntervalDay 1 0 6))).
Proof. split; vm_compute; reflexivity. Qed.

(** Findings. *)
(** a decimal target loses its variation *)
Theorem C45_decimal_variation_refuted : exists l target l',
  with_type l target = Some (Ok l') /\ ~ typed l' target.
Proof.
  exists (LProto (XBytes (1 :: repeat 0 15)) (TDecimal 2 0 5 0)), (TDecimal 2 7 6 1). eexists.
  split; [vm_compute; reflexivity|]. intros H; inversion H.
Qed.
(** the microseconds of an interval that does not state a precision are dropped *)
Theorem C45_interval_microseconds_refuted : forall d s us, 
  with_type (LProto (XDaySecond (Idts d s (IM_micros us) 0)) (TIntervalDay 2 0 6)) (TIntervalDay 2 0 6) =
    Some (Ok (LProto (XDaySecond (Idts d s (IM_precision 6) 0)) (TIntervalDay 2 0 6))).
Proof. intros. reflexivity. Qed.
(** lengths of fixed-size types and the element type of lists are not checked *)
Theorem C45_length_unchecked_refuted : exists s es,
  with_type (LPrim (VFixedChar s) (TFixed FxChar 2 0 3)) (TFixed FxChar 2 0 1) =
    Some (Ok (LPrim (VFixedChar s) (TFixed FxChar 2 0 1))) /\ String.length s = 3%nat /\
  with_type (LList es (TList 2 0 (TPrim PrimI32 2 0))) (TList 2 0 (TPrim PrimString 2 0)) =
    Some (Ok (LList es (TList 2 0 (TPrim PrimString 2 0)))) /\ es = [LPrim (VI32 1) (TPrim PrimI32 2 0)].
Proof. exists "abc"%string, [LPrim (VI32 1) (TPrim PrimI32 2 0)]. repeat split; reflexivity. Qed.

Print Assumptions C15_round_trip_iff.
Print Assumptions C15_encodable_iff.
Print Assumptions C15_readable_iff.
Print Assumptions C15_message_round_trip.
Print Assumptions C15_new_literal_exact.
Print Assumptions C15_constructed_survives_iff.
Print Assumptions C20_literal_equality.
Print Assumptions C20_literal_reflexive_iff.
Print Assumptions C42_new_list_iff.
Print Assumptions C42_new_map_iff.
Print Assumptions C42_collections_survive.
Print Assumptions C42_user_defined.
Print Assumptions C45_states_target.
Print Assumptions C45_decimal_same_number.
Print Assumptions C45_times_coarser_rounds_down.
Print Assumptions C45_kinds.
Print Assumptions C45_ill_formed_panics.
Print Assumptions C45_decimal_first_sixteen.
