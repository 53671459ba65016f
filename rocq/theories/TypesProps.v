(** C01-C04: properties of concrete types. *)

From Coq Require Import List ZArith String Bool.
From Verif Require Import Base TypesModel TypesSpec TypesProofs.
Import ListNotations.
Local Open Scope string_scope.

(** A non-trivial message used below to show hypotheses are met. *)
Definition ex_msg : ptype :=
  PT_struct 2 0 [PT_list 1 3 (PT_map 2 0 (PT_string 2 0)
      (PT_struct 1 0 [PT_decimal 1 0 2 10; PT_interval_day 2 0 None]));
    PT_user_defined 1 0 7 [PP_data (PT_precision_timestamp_tz 2 5 9); PP_int 4; PP_null];
    PT_func 2 [PT_i8 1 0] (PT_varchar 2 0 5)].

(** ** C01 *)

(** The decoder accepts exactly the well-formed messages; on any other it panics. *)
Theorem C01_decode_total_iff_wellformed : forall m,
  (decodable m -> exists t, type_from_proto m = Ok t) /\
  (~ decodable m -> type_from_proto m = Panic).
Proof. exact from_iff_decodable. Qed.

(** Decoding then encoding gives the message back (with the default interval_day
    precision made explicit). *)
Theorem C01_decode_encode_roundtrip : forall m,
  decodable m -> no_compound_no_unset m ->
  exists t, type_from_proto m = Ok t /\ type_to_proto t = Ok (explicit m).
Proof.
  intros m Hd Hn. destruct (proj1 (from_iff_decodable m) Hd) as [t Ht].
  exists t. split; auto.
  destruct (proj1 dec_enc_all m t Ht) as [[_ H]|[H _]]; [exact H|contradiction].
Qed.

Example C01_decode_encode_nonvacuous :
  decodable ex_msg /\ no_compound_no_unset ex_msg /\
  (let! t := type_from_proto ex_msg in type_to_proto t) = Ok (explicit ex_msg).
Proof. vm_compute. repeat split; discriminate. Qed.

(** The restriction is exact: on any other decodable message re-encoding panics. *)
Theorem C01_decode_encode_panics_otherwise : forall m t,
  type_from_proto m = Ok t -> ~ no_compound_no_unset m -> type_to_proto t = Panic.
Proof.
  intros m t H Hn. destruct (proj1 dec_enc_all m t H) as [[H1 _]|[_ H1]]; [contradiction|exact H1].
Qed.

(** Finding: the unrestricted property is false. A plain interval_compound column
    decodes but cannot be encoded again. *)
Theorem C01_interval_compound_refuted :
  exists m t, decodable m /\ type_from_proto m = Ok t /\ type_to_proto t = Panic.
Proof.
  exists (PT_interval_compound 2 0 6), (TIntervalCompound true 2 0 6).
  vm_compute. repeat split; discriminate.
Qed.

(** Encoding then decoding gives the same type for every type the encoder
    accepts (and which has legal precisions). *)
Theorem C01_encode_decode_roundtrip : forall t m,
  type_to_proto t = Ok m -> precisions_ok t ->
  exists t', type_from_proto m = Ok t' /\ same_type t' t.
Proof. intros t. exact (proj1 enc_dec_all t). Qed.

(** The encoder accepts exactly the serializable types. *)
Theorem C01_encode_total_iff_serializable : forall t,
  (serializable t -> exists m, type_to_proto t = Ok m) /\
  (~ serializable t -> type_to_proto t = Panic).
Proof.
  intros t. destruct (proj1 ser_char_all t) as [[H1 H2]|[H1 H2]]; split; auto; tauto.
Qed.

Example C01_encode_decode_nonvacuous : exists t m,
  serializable t /\ precisions_ok t /\ type_to_proto t = Ok m /\
  type_from_proto m = Ok (TList 1 2 (TStruct 2 0 [TIntervalCompound true 1 0 3; TPrim PrimI32 2 0])).
Proof.
  exists (TList 1 2 (TStruct 2 0 [TIntervalCompound false 1 0 3; TPrim PrimI32 2 0])).
  eexists. vm_compute. repeat split; try discriminate; reflexivity.
Qed.

(** Named structs (schemas of base tables). *)
Theorem C01_named_struct_roundtrip : forall names n v ts,
  All decodable ts -> All no_compound_no_unset ts ->
  exists s, named_struct_from_proto (Some (PNamedStruct names (Some (n, v, ts)))) = Ok s /\
    named_struct_to_proto s = Ok (PNamedStruct names (Some (n, v, map explicit ts))).
Proof. exact named_struct_roundtrip. Qed.

(** ** C02 *)

(** Equality decides structural identity (and never panics) on plain types. *)
Theorem C02_equals_is_structural : forall t u, plain t ->
  exists b, type_equals t u = Ok b /\ (b = true <-> same_type t u).
Proof. intros t u H. exact (proj1 eq_char_all t H u). Qed.

Theorem C02_equals_refl : forall t, plain t -> type_equals t t = Ok true.
Proof.
  intros t H. destruct (C02_equals_is_structural t t H) as [b [Hb He]].
  rewrite Hb. f_equal. apply He. reflexivity.
Qed.

Theorem C02_equals_sym : forall t u, plain t -> plain u -> type_equals t u = type_equals u t.
Proof.
  intros t u Ht Hu.
  destruct (C02_equals_is_structural t u Ht) as [b [Hb He]].
  destruct (C02_equals_is_structural u t Hu) as [b' [Hb' He']].
  rewrite Hb, Hb'. f_equal. unfold same_type in *.
  destruct b, b'; auto.
  - symmetry; apply He'. symmetry; apply He; reflexivity.
  - apply He. symmetry; apply He'; reflexivity.
Qed.

Theorem C02_equals_trans : forall t u w, plain t -> plain u ->
  type_equals t u = Ok true -> type_equals u w = Ok true -> type_equals t w = Ok true.
Proof.
  intros t u w Ht Hu H1 H2.
  destruct (C02_equals_is_structural t u Ht) as [b [Hb He]].
  destruct (C02_equals_is_structural u w Hu) as [b' [Hb' He']].
  destruct (C02_equals_is_structural t w Ht) as [b'' [Hb'' He'']].
  rewrite H1 in Hb; rewrite H2 in Hb'. inversion Hb; inversion Hb'; subst.
  rewrite Hb''. f_equal. apply He''. unfold same_type in *.
  transitivity (forget_ptr u); [apply He|apply He']; reflexivity.
Qed.

Example C02_nonvacuous : plain (TStruct 2 0 [TUser 1 0 3 [TPdata (TPrim PrimI8 1 0); TPint 3]; TIntervalCompound true 1 0 3]) /\
  type_equals (TStruct 2 0 [TUser 1 0 3 [TPdata (TPrim PrimI8 1 0); TPint 3]; TIntervalCompound true 1 0 3])
              (TStruct 2 0 [TUser 1 0 3 [TPdata (TPrim PrimI8 1 0); TPint 3]; TIntervalCompound false 1 0 3]) = Ok true.
Proof. vm_compute. auto 10. Qed.

(** Record types (schemas) are compared column by column. *)
Theorem C02_record_equals : forall r o, All plain r ->
  exists b, record_equals r o = Ok b /\ (b = true <-> Forall2 same_type r o).
Proof. exact record_equals_spec. Qed.

(** Findings outside plain types: an enum argument type is not equal-symmetric,
    and a user-defined type with an unset parameter makes Equals panic even on
    itself. *)
Theorem C02_enum_symmetry_refuted : exists e c,
  type_equals e c = Ok true /\ type_equals c e = Ok false.
Proof.
  exists (TEnum false 0 0 "mode" ["A"]), (TEnum true 0 0 "" []). vm_compute. auto.
Qed.

Theorem C02_unset_parameter_refuted : exists m t,
  decodable m /\ type_from_proto m = Ok t /\ type_equals t t = Panic.
Proof.
  exists (PT_user_defined 1 0 1 [PP_unset]), (TUser 1 0 1 [TPnil]). vm_compute. auto.
Qed.

(** What enum equality does check. *)
Theorem C02_enum_equals : forall c n v name opts u,
  type_equals (TEnum c n v name opts) u = Ok true <->
  get_nullability u = n /\
  exists c' v' name' opts', u = TEnum c' n v' name' opts' /\
    (c' = true \/ (name' = name /\ opts' = opts)).
Proof.
  intros. simpl. destruct (Z.eqb_spec n (get_nullability u)) as [E|E].
  - split.
    + intros H. split; auto. destruct u; simpl in *; try discriminate.
      subst. exists is_common, v0, name0, opts0. split; auto.
      destruct is_common; auto. injection H as H. apply andb_true_iff in H as [H1 H2].
      apply String.eqb_eq in H1. apply strings_eqb_spec in H2. auto.
    + intros [_ [c' [v' [name' [opts' [-> [->|[-> ->]]]]]]]]; simpl; auto.
      f_equal. destruct c'; auto.
      rewrite String.eqb_refl. simpl. apply strings_eqb_spec. reflexivity.
  - split; [discriminate|]. intros [H _]. congruence.
Qed.

(** ** C03 *)

Theorem C03_with_nullability_changes_only_nullability : forall n t,
  same_but_nullability t (with_nullability n t) /\ get_nullability (with_nullability n t) = n.
Proof. exact with_nullability_same. Qed.

(** ... and it is the only such type. *)
Theorem C03_with_nullability_unique : forall n t u,
  plain t -> same_but_nullability t u -> get_nullability u = n ->
  same_type (with_nullability n t) u.
Proof. exact with_nullability_unique. Qed.

Theorem C03_keeps_variation : forall n t,
  get_variation (with_nullability n t) = get_variation t.
Proof. destruct t; reflexivity. Qed.

Theorem C03_last_write_wins : forall n m t,
  with_nullability n (with_nullability m t) = with_nullability n t.
Proof. destruct t; reflexivity. Qed.

(** Changing the nullability of a type object other than an interval_day leaves
    every existing object as it was and returns a new one. *)
Theorem C03_other_objects_unchanged_partial : forall h a n t h' a',
  nth_error h a = Some t -> (forall n0 v p, t <> TIntervalDay n0 v p) ->
  with_nullability_heap h a n = Ok (h', a') ->
  (forall i x, nth_error h i = Some x -> nth_error h' i = Some x) /\
  nth_error h' a' = Some (with_nullability n t) /\ nth_error h a' = None.
Proof.
  intros h a n t h' a' Ht Hne H. unfold with_nullability_heap in H. rewrite Ht in H.
  assert (H0 : Ok ((h ++ [with_nullability n t])%list, List.length h) = Ok (h', a')).
  { destruct t; try exact H. exfalso; eapply Hne; reflexivity. }
  injection H0 as <- <-. repeat split.
  - intros i x Hi. rewrite nth_error_app1; auto. apply nth_error_Some. congruence.
  - rewrite nth_error_app2 by auto. rewrite Nat.sub_diag. reflexivity.
  - apply nth_error_None. auto.
Qed.

Example C03_other_objects_nonvacuous :
  with_nullability_heap [TPrim PrimI8 2 0; TIntervalDay 2 0 6] 0 1 =
  Ok ([TPrim PrimI8 2 0; TIntervalDay 2 0 6; TPrim PrimI8 1 0], 2%nat).
Proof. reflexivity. Qed.

(** Finding: for interval_day the receiver itself is rewritten. *)
Theorem C03_interval_day_receiver_refuted : forall h a n0 v p n,
  nth_error h a = Some (TIntervalDay n0 v p) ->
  exists h', with_nullability_heap h a n = Ok (h', a) /\
    nth_error h' a = Some (TIntervalDay n v p) /\
    (forall i, i <> a -> nth_error h' i = nth_error h i).
Proof.
  intros h a n0 v p n H.
  assert (a < List.length h)%nat by (apply nth_error_Some; congruence).
  unfold with_nullability_heap. rewrite H. eexists. split; [reflexivity|]. split.
  - apply nth_error_replace_same; auto.
  - intros. apply nth_error_replace_other; auto.
Qed.

(** Finding: [GetType] of a zoned precision timestamp is the zone-less type; for
    every other type it is the type itself. *)
Theorem C03_get_type_identity_except_tz : forall t,
  (forall n v p, t <> TPrecTsTz n v p) -> get_type t = t.
Proof. destruct t; intros H; try reflexivity. exfalso; eapply H; reflexivity. Qed.

Theorem C03_get_type_tz_refuted : forall n v p,
  get_type (TPrecTsTz n v p) = TPrecTs n v p.
Proof. reflexivity. Qed.

(** ** C04 *)

Theorem C04_name_count : forall schema,
  depth_first_name_count schema = List.length (named_fields schema).
Proof. exact depth_first_count_spec. Qed.

(** Printing a named struct attaches name number [i] to the [i]-th field of the
    depth-first order; extra names are ignored; too few names panic. *)
Theorem C04_named_struct_string : forall names schema,
  (List.length (named_fields schema) <= List.length names ->
     named_struct_string names schema =
       Ok (render_schema (fun i => nth i names "") type_string schema)) /\
  (List.length names < List.length (named_fields schema) ->
     named_struct_string names schema = Panic).
Proof. exact named_struct_string_ok. Qed.

Example C04_string_nonvacuous :
  named_struct_string ["a"; "b"; "c"; "d"]
    [TMap 1 0 (TPrim PrimI8 2 0) (TStruct 2 0 [TPrim PrimI32 1 0; TList 2 0 (TPrim PrimI64 2 0)]); TPrim PrimDate 1 0]
  = Ok "NSTRUCT<a: map<i8,struct<b: i32?, c: list<i64>>>?, d: date?>".
Proof. reflexivity. Qed.

(** A root is accepted exactly when it has one name per named field. *)
Theorem C04_root_names : forall schema names,
  validate_root_names schema names = Ok tt <-> List.length names = List.length (named_fields schema).
Proof.
  intros schema names. unfold validate_root_names. rewrite depth_first_count_spec.
  destruct (Nat.eqb_spec (List.length names) (List.length (named_fields schema))); split; intros; auto; try discriminate; contradiction.
Qed.

Theorem C04_root_names_never_panics : forall schema names, validate_root_names schema names <> Panic.
Proof.
  intros. unfold validate_root_names. destruct (Nat.eqb _ _); discriminate.
Qed.

(** Column access of a record type. *)
Theorem C04_record_field : forall r i,
  ((0 <= i < Z.of_nat (List.length r))%Z ->
     exists t, nth_error r (Z.to_nat i) = Some t /\ record_get_field_ref r i = Ok t) /\
  (~ (0 <= i < Z.of_nat (List.length r))%Z -> record_get_field_ref r i = Panic).
Proof. exact record_get_field_ref_spec. Qed.

Print Assumptions C01_decode_encode_roundtrip.
Print Assumptions C01_encode_decode_roundtrip.
Print Assumptions C02_equals_is_structural.
Print Assumptions C04_named_struct_string.
