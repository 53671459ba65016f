(** Wire forms of relations: the properties C32 and C33 (see /verif/properties.jsonl). *)

From Coq Require Import ZArith String Bool Arith Lia List.
From Verif Require Import Base TypesModel TypesSpec ExtSetModel LoadModel LitModel LitSpec ExprModel ExprOpsModel ExprSpec
  ExprWireProofs PlanModel PlanOpsModel PlanSpec PlanProofs PlanProps PlanWireSpec PlanWireProofs.
From Verif Require ExprProps.
Import ListNotations.
Local Open Scope Z_scope.

(** ** C32: the round trip *)

(** A relation is written and read back as itself, leaving the declarations alone, exactly
    if its parts survive ([rel_survives] lists what that takes, kind by kind). *)
Theorem C32_round_trip : forall canon c decoders s r,
  rel_survives canon c decoders s r <->
  exists m, rel_to_proto r = Ok m /\ rel_from_proto canon c decoders m s = Ok (r, s).
Proof. exact rel_rt. Qed.

(** Every field of a written message is the field of the relation ... *)
Theorem C32_written : forall canon c decoders r m, rel_to_proto r = Ok m -> says canon c decoders Writing m r.
Proof. exact write_says. Qed.
(** ... and every field of a relation that was read is the field of the message. *)
Theorem C32_read : forall canon c decoders m s r s',
  rel_from_proto canon c decoders m s = Ok (r, s') -> says canon c decoders Reading m r.
Proof. exact read_says. Qed.

(** Reading adds function declarations at most. *)
Theorem C32_read_declares : forall canon c decoders m s r s',
  rel_from_proto canon c decoders m s = Ok (r, s') -> extends s s'.
Proof. intros canon c decoders m s r s' E. eapply rel_grows; eauto. Qed.

(** *** messages that are refused *)
Inductive malformed : prel -> Prop :=
| Bad_nil : malformed PR_nil
| Bad_unset : malformed PR_unset
| Bad_other : malformed PR_other
| Bad_read_kind : forall cm sm f g p a, malformed (PR_read cm sm f g p a PRd_unset)
| Bad_read_iceberg : forall cm sm f g p a, malformed (PR_read cm sm f g p a (PRd_iceberg None))
| Bad_read_rows : forall cm sm f g p a v vs e es, malformed (PR_read cm sm f g p a (PRd_virtual (v :: vs) (e :: es)))
| Bad_read_schema : forall cm n f g p a k, malformed (PR_read cm (Some (PNamedStruct n None)) f g p a k)
| Bad_project : forall cm i a, malformed (PR_project cm i [] a)
| Bad_join_type : forall cm l r e p a, malformed (PR_join cm l r e p 0 a)
| Bad_join_cond : forall cm l r p jt a, malformed (PR_join cm l r PX_nil p jt a)
| Bad_filter_cond : forall cm i a, malformed (PR_filter cm i PX_nil a)
| Bad_fetch : forall cm i o n a, (forall z, o <> PAm_const z) \/ (forall z, n <> PAm_const z) ->
    malformed (PR_fetch cm i o n a)
| Bad_measure : forall cm i gm gs ms a e, In (None, e) ms -> malformed (PR_agg cm i gm gs ms a)
| Bad_sort : forall cm i a, malformed (PR_sort cm i [] a)
| Bad_sort_kind : forall cm i ss a e, In (e, PSK_unset) ss -> malformed (PR_sort cm i ss a)
| Bad_set_none : forall cm op a, malformed (PR_set cm [] op a)
| Bad_set_one : forall cm i op a, malformed (PR_set cm [i] op a)
| Bad_set_op : forall cm is a, malformed (PR_set cm is 0 a)
| Bad_write_op : forall cm w sm op i o, ~ In op [1; 2; 4] -> malformed (PR_write cm w sm op i o)
| Bad_write_ext : forall cm sm op i o, malformed (PR_write cm PW_ext sm op i o)
| Bad_hash_keys : forall cm l r lk rk p jt a, List.length lk <> List.length rk ->
    malformed (PR_hash cm l r [] lk rk p jt a)
| Bad_merge_keys : forall cm l r lk rk p jt a, List.length lk <> List.length rk ->
    malformed (PR_merge cm l r [] lk rk p jt a)
| Bad_hash_cmp : forall cm l r ks lk rk p jt a k, In k ks -> pk_cmp k = PC_unset ->
    malformed (PR_hash cm l r ks lk rk p jt a)
| Bad_merge_cmp : forall cm l r ks lk rk p jt a k, In k ks -> pk_cmp k = PC_unset ->
    malformed (PR_merge cm l r ks lk rk p jt a)
| Bad_join_common : forall l r e p jt a, malformed (PR_join None l r e p jt a)
| Bad_cross_common : forall l r a, malformed (PR_cross None l r a)
| Bad_agg_common : forall i gm gs ms a, malformed (PR_agg None i gm gs ms a)
| Bad_sort_common : forall i ss a, malformed (PR_sort None i ss a)
| Bad_set_common : forall is op a, malformed (PR_set None is op a)
| Bad_ext1_common : forall i a, malformed (PR_ext1 None i a)
| Bad_ext0_common : forall a, malformed (PR_ext0 None a)
| Bad_extN_common : forall is a, malformed (PR_extN None is a)
| Bad_hash_common : forall l r ks lk rk p jt a, malformed (PR_hash None l r ks lk rk p jt a)
| Bad_merge_common : forall l r ks lk rk p jt a, malformed (PR_merge None l r ks lk rk p jt a).

Lemma F2_in_l : forall A B (P : A -> B -> Prop) l l' x, Forall2 P l l' -> In x l -> exists y, P x y.
Proof. induction 1; cbn; intros []; subst; eauto. Qed.
Lemma F2_in_r' : forall A B (P : A -> B -> Prop) l l' y, Forall2 P l l' -> In y l' -> exists x, P x y.
Proof. induction 1; cbn; intros []; subst; eauto. Qed.

Theorem C32_malformed_refused : forall canon c decoders m, malformed m ->
  forall s r s', rel_from_proto canon c decoders m s <> Ok (r, s').
Proof.
  intros canon c decoders m B s r s' E. assert (S := C32_read _ _ _ _ _ _ _ E).
  destruct B; inversion S; subst; clear S;
    repeat match goal with H : common_says Reading true None _ |- _ => destruct H as (_ & H & _); discriminate end;
    try (match goal with H : kind_says _ _ _ _ _ _ |- _ => inversion H end; fail);
    try (match goal with H : schema_says _ (Some (PNamedStruct _ None)) _ |- _ => destruct H end; fail);
    try (match goal with H : names_say _ PW_ext _ _ |- _ => destruct H end; fail).
  - cbn [rel_from_proto] in E. unb E. unb E. cbn [mapS bind] in E. discriminate.
  - cbn [rel_from_proto] in E. discriminate.
  - match goal with H : expr_says _ _ _ _ _ PX_nil _ |- _ => destruct H as (? & ? & H); discriminate end.
  - match goal with H : expr_says _ _ _ _ _ PX_nil _ |- _ => destruct H as (? & ? & H); discriminate end.
  - match goal with H : _ \/ _ |- _ => destruct H as [H|H]; eapply H; reflexivity end.
  - match goal with F : Forall2 (measure_says _ _ _ _ _) _ _, I : In _ _ |- _ => destruct (F2_in_l _ _ _ _ _ _ F I) as (y & f & a' & X & _); discriminate end.
  - cbn [rel_from_proto] in E. unb E. unb E. cbn [mapS bind] in E. discriminate.
  - match goal with F : Forall2 (sort_says _ _ _ _ _) _ _, I : In _ _ |- _ => destruct (F2_in_l _ _ _ _ _ _ F I) as (y & _ & X) end.
    cbn [snd] in X. destruct (snd y); auto. discriminate.
  - discriminate.
  - discriminate.
  - cbn [rel_from_proto] in E. destruct is as [|? [|? ?]]; try discriminate. unb E. discriminate.
  - cbn [rel_from_proto] in E. unb E. unb E. unfold OpCTAS, OpInsert, OpDelete in E.
    destruct (Z.eqb_spec op 4); [subst; cbn in *; tauto|]. destruct (Z.eqb_spec op 1); [subst; cbn in *; tauto|].
    destruct (Z.eqb_spec op 2); [subst; cbn in *; tauto|]. discriminate.
  - match goal with K : keys_say Reading [] _ _ _ |- _ => destruct K as (K1 & K2 & _) end. congruence.
  - match goal with K : keys_say Reading [] _ _ _ |- _ => destruct K as (K1 & K2 & _) end. congruence.
  - destruct ks as [|k0 ks]; [contradiction|].
    match goal with K : keys_say Reading _ _ _ _, I : In _ _ |- _ => cbn in K; destruct (F2_in_r' _ _ _ _ _ _ K I) as (y & X) end.
    destruct (k_cmp y); cbn in X; congruence.
  - destruct ks as [|k0 ks]; [contradiction|].
    match goal with K : keys_say Reading _ _ _ _, I : In _ _ |- _ => cbn in K; destruct (F2_in_r' _ _ _ _ _ _ K I) as (y & X) end.
    destruct (k_cmp y); cbn in X; congruence.
Qed.
(** How they are refused: what the code checks for is an error, what it takes for granted
    a panic.  (The inputs [i] are messages that read as [x], the declarations in hand
    becoming [s1].) *)
Theorem C32_how_refused : forall canon c decoders s,
  let rd := rel_from_proto canon c decoders in
  (rd PR_unset s = Err /\ rd PR_other s = Err /\ rd PR_nil s = Panic) /\
  (forall cm sm f g p a k v vs e es, In k [PRd_unset; PRd_iceberg None; PRd_virtual (v :: vs) (e :: es)] ->
     rd (PR_read cm sm f g p a k) s = Err) /\
  (forall cm l r e p a, rd (PR_join cm l r e p 0 a) s = Err) /\
  (forall cm i op a, rd (PR_set cm [] op a) s = Err /\ rd (PR_set cm [i] op a) s = Err) /\
  (forall a, match decoders (match a with Some (url, _) => url | None => EmptyString end) with
             | None => rd (PR_ext0 None a) s = Panic
             | Some d => match d a with
                         | Err => forall cm, rd (PR_ext0 cm a) s = Err
                         | _ => rd (PR_ext0 None a) s = Panic
                         end
             end) /\
  (forall i x s1, rd i s = Ok (x, s1) ->
     (forall cm o n a, (forall z, o <> PAm_const z) \/ (forall z, n <> PAm_const z) -> rd (PR_fetch cm i o n a) s = Err) /\
     (forall a j y s2, rd j s1 = Ok (y, s2) -> rd (PR_cross None i j a) s = Panic /\ (forall cm, rd (PR_set cm [i; j] 0 a) s = Err)) /\
     (forall cm w sm op o ns nu v ts, named_struct_from_proto sm = Ok (NamedStruct ns nu v ts) ->
        (~ In op [1; 2; 4] -> rd (PR_write cm w sm op i o) s = Err) /\ rd (PR_write cm PW_ext sm op i o) s = Err) /\
     (forall t, rel_type x = Ok t ->
        (forall cm a, rd (PR_project cm i [] a) s = Err /\ rd (PR_sort cm i [] a) s = Err) /\
        (forall a e e' s2 k, expr_from_proto rel_type (Some rd) canon c (Some t) e s1 = Ok (e', s2) ->
           (forall cm, rd (PR_sort cm i [(e, PSK_unset)] a) s = Err) /\
           (k <> PSK_unset -> rd (PR_sort None i [(e, k)] a) s = Panic)) /\
        (forall cm ms a e, rd (PR_agg cm i [] [] ((None, e) :: ms) a) s = Panic) /\
        (forall a, rd (PR_agg None i [] [] [] a) s = Panic) /\
        (forall cm lk rk p jt a j y s2 u, rd j s1 = Ok (y, s2) -> rel_type y = Ok u -> List.length lk <> List.length rk ->
           rd (PR_hash cm i j [] lk rk p jt a) s = Err /\ rd (PR_merge cm i j [] lk rk p jt a) s = Err) /\
        (forall p jt a j y s2 u, rd j s1 = Ok (y, s2) -> rel_type y = Ok u ->
           rd (PR_hash None i j [] [] [] p jt a) s = Panic /\ rd (PR_merge None i j [] [] [] p jt a) s = Panic /\
           (jt <> 0 -> forall e, rd (PR_join None i j e p jt a) s = Panic)))).
Proof.
  intros canon c decoders s rd.
  split; [repeat split|]. split.
  { intros cm sm f g p a k v vs e es [<- | [<- | [<- | []]]]; reflexivity. }
  split; [reflexivity|]. split; [split; reflexivity|]. split.
  { intros a. unfold rd. cbn [rel_from_proto]. unfold decode_def. destruct (decoders _) as [d|]; [|reflexivity].
    destruct (d a); try reflexivity. }
  intros i x s1 E. unfold rd in *. split.
  { intros cm o n a H. cbn [rel_from_proto]. rewrite E. cbn [bind]. destruct o, n; auto.
    destruct H as [H|H]; exfalso; eapply H; reflexivity. }
  split.
  { intros a j y s2 E2. split; [|intros cm]; cbn [rel_from_proto mapS]; rewrite E; cbn [bind]; rewrite E2; reflexivity. }
  split.
  { intros cm w sm op o ns nu v ts HS. split; [intros N|]; cbn [rel_from_proto]; rewrite E; cbn [bind]; unfold schema_from_proto; rewrite HS; cbn [bind].
    - unfold OpCTAS, OpInsert, OpDelete. destruct (Z.eqb_spec op 4); [subst; cbn in *; tauto|].
      destruct (Z.eqb_spec op 1); [subst; cbn in *; tauto|]. destruct (Z.eqb_spec op 2); [subst; cbn in *; tauto|]. reflexivity.
    - destruct (_ || _); reflexivity. }
  intros t T. split.
  { intros cm a. split; cbn [rel_from_proto]; rewrite E; cbn [bind]; rewrite T; reflexivity. }
  split.
  { intros a e e' s2 k D. split; [intros cm|intros N]; cbn [rel_from_proto]; rewrite E; cbn [bind]; rewrite T; cbn [bind mapS pairS]; rewrite D; [reflexivity|].
    destruct k; try contradiction; reflexivity. }
  split; [intros cm ms a e; cbn [rel_from_proto]; rewrite E; cbn [bind]; rewrite T; reflexivity|].
  split; [intros a; cbn [rel_from_proto]; rewrite E; cbn [bind]; rewrite T; reflexivity|].
  split.
  { intros cm lk rk p jt a j y s2 u E2 T2 L. apply Nat.eqb_neq in L.
    split; cbn [rel_from_proto]; rewrite E; cbn [bind]; rewrite E2; cbn [bind]; rewrite T; cbn [bind]; rewrite T2; cbn [bind keys_from_proto]; rewrite L; reflexivity. }
  { intros p jt a j y s2 u E2 T2. split; [|split; [|intros N e]]; cbn [rel_from_proto].
    - rewrite E; cbn [bind]; rewrite E2; cbn [bind]; rewrite T; cbn [bind]; rewrite T2; reflexivity.
    - rewrite E; cbn [bind]; rewrite E2; cbn [bind]; rewrite T; cbn [bind]; rewrite T2; reflexivity.
    - unfold JoinUnspecified. apply Z.eqb_neq in N. rewrite N. rewrite E; cbn [bind]; rewrite E2; reflexivity. }
Qed.
(** An input or an expression that cannot be read makes the relation unreadable in the same
    way. *)
Theorem C32_failing_input : forall canon c decoders i s k,
  let rd := rel_from_proto canon c decoders in
  ExprProps.fails (rd i s) k ->
  (forall cm e a, ExprProps.fails (rd (PR_filter cm i e a) s) k) /\
  (forall cm o n a, ExprProps.fails (rd (PR_fetch cm i o n a) s) k) /\
  (forall cm gs ns ms a, ExprProps.fails (rd (PR_agg cm i gs ns ms a) s) k) /\
  (forall cm ss a, ExprProps.fails (rd (PR_sort cm i ss a) s) k) /\
  (forall cm r e p jt a, jt <> 0 -> ExprProps.fails (rd (PR_join cm i r e p jt a) s) k) /\
  (forall cm es a, ExprProps.fails (rd (PR_project cm i es a) s) k) /\
  (forall cm j l op a, ExprProps.fails (rd (PR_set cm (i :: j :: l) op a) s) k) /\
  (forall cm d l, ExprProps.fails (rd (PR_ext1 cm i d) s) k /\ ExprProps.fails (rd (PR_extN cm (i :: l) d) s) k) /\
  (forall cm r a, ExprProps.fails (rd (PR_cross cm i r a) s) k) /\
  (forall cm r ks lk rk p jt a, ExprProps.fails (rd (PR_hash cm i r ks lk rk p jt a) s) k /\ ExprProps.fails (rd (PR_merge cm i r ks lk rk p jt a) s) k) /\
  (forall cm w sm op o, ExprProps.fails (rd (PR_write cm w sm op i o) s) k).
Proof.
  intros canon c decoders i s k rd H. unfold rd in *.
  repeat match goal with |- _ /\ _ => split end; intros;
    try match goal with N : ?jt <> 0 |- _ => apply Z.eqb_neq in N end;
    try split; cbn [rel_from_proto mapS];
    try (match goal with N : (?jt =? 0) = false |- _ => unfold JoinUnspecified; rewrite N end);
    destruct H; constructor.
Qed.
(** the second input, where the first is read *)
Theorem C32_failing_second_input : forall canon c decoders i x j s s1 k,
  let rd := rel_from_proto canon c decoders in
  rd i s = Ok (x, s1) -> ExprProps.fails (rd j s1) k ->
  (forall cm e p jt a, jt <> 0 -> ExprProps.fails (rd (PR_join cm i j e p jt a) s) k) /\
  (forall cm l op a, ExprProps.fails (rd (PR_set cm (i :: j :: l) op a) s) k) /\
  (forall cm d l, ExprProps.fails (rd (PR_extN cm (i :: j :: l) d) s) k) /\
  (forall cm a, ExprProps.fails (rd (PR_cross cm i j a) s) k) /\
  (forall cm ks lk rk p jt a, ExprProps.fails (rd (PR_hash cm i j ks lk rk p jt a) s) k /\ ExprProps.fails (rd (PR_merge cm i j ks lk rk p jt a) s) k).
Proof.
  intros canon c decoders i x j s s1 k rd E H. unfold rd in *.
  repeat match goal with |- _ /\ _ => split end; intros;
    try match goal with N : ?jt <> 0 |- _ => apply Z.eqb_neq in N end;
    try split; cbn [rel_from_proto mapS];
    try (match goal with N : (?jt =? 0) = false |- _ => unfold JoinUnspecified; rewrite N end);
    rewrite E; cbn [bind]; destruct H; constructor.
Qed.
(** an expression over the columns of the input *)
Theorem C32_failing_expression : forall canon c decoders i x s s1 t e k,
  let rd := rel_from_proto canon c decoders in
  let rx := fun t => expr_from_proto rel_type (Some rd) canon c (Some t) in
  rd i s = Ok (x, s1) -> rel_type x = Ok t -> ExprProps.fails (rx t e s1) k ->
  (forall cm a, ExprProps.fails (rd (PR_filter cm i e a) s) k) /\
  (forall cm l a, ExprProps.fails (rd (PR_project cm i (e :: l) a) s) k) /\
  (forall cm sk l a, ExprProps.fails (rd (PR_sort cm i ((e, sk) :: l) a) s) k) /\
  (forall cm l ns ms a, ExprProps.fails (rd (PR_agg cm i (e :: l) ns ms a) s) k) /\
  (forall cm l r ns ms a, ExprProps.fails (rd (PR_agg cm i [] ((e :: l, r) :: ns) ms a) s) k).
Proof.
  intros canon c decoders i x s s1 t e k rd rx E T H. unfold rx, rd in *.
  repeat match goal with |- _ /\ _ => split end; intros;
    cbn [rel_from_proto]; rewrite E; cbn [bind]; rewrite T; cbn [bind mapS pairS fst];
    destruct H; constructor.
Qed.
(** the inputs of a set operation that was read have the same columns *)
Theorem C32_set_inputs_agree : forall canon c decoders cm ims op a s r s',
  rel_from_proto canon c decoders (PR_set cm ims op a) s = Ok (r, s') ->
  exists x is t, r = RSet x is op a /\ (2 <= List.length is)%nat /\
    Forall (fun i => exists t', rel_type i = Ok t' /\ (t' = t \/ record_eq t' t = Ok true)) is.
Proof.
  intros canon c decoders cm ims op a s r s' E. cbn [rel_from_proto] in E. destruct ims as [|i1 [|i2 ims]]; try discriminate.
  destruct (mapS (rel_from_proto canon c decoders) (i1 :: i2 :: ims) s) as [[is s1]| |] eqn:M; cbn [bind] in E; try discriminate.
  assert (L := F2_len _ _ _ _ _ (mapS_F2 _ _ _ _ _ _ _ M)).
  destruct (op =? 0); [discriminate|]. destruct is as [|i is]; [discriminate|]. cbn [map] in E. unb E. unb E. unb E. inversion E; subst.
  eexists _, _, _. split; [reflexivity|]. split; [cbn in *; lia|].
  destruct a1. apply all_equal_spec in E1. constructor; [eauto|]. eapply Forall_impl; [|exact E1]. cbn. intros ? (t' & ? & ?). eauto.
Qed.

(** *** what is lost *)

(** the first one whose columns differ from the first's is an error *)
Theorem C32_set_mismatch : forall canon c decoders cm ims op a s s1 i same b l t t',
  mapS (rel_from_proto canon c decoders) ims s = Ok (i :: same ++ b :: l, s1) -> rel_type i = Ok t ->
  Forall (fun x => exists t', rel_type x = Ok t' /\ record_eq t' t = Ok true) same ->
  rel_type b = Ok t' -> record_eq t' t = Ok false ->
  rel_from_proto canon c decoders (PR_set cm ims op a) s = Err.
Proof.
  intros canon c decoders cm ims op a s s1 i same b l t t' M Ti F Tb R. cbn [rel_from_proto].
  assert (L := F2_len _ _ _ _ _ (mapS_F2 _ _ _ _ _ _ _ M)). destruct ims as [|x [|y ims]]; try reflexivity.
  rewrite M. cbn [bind]. destruct (op =? 0); auto. cbn [map]. rewrite Ti. cbn [bind].
  replace (all_equal_to t (map rel_type (same ++ b :: l))) with (@Err unit); [reflexivity|].
  clear -F Tb R. induction F as [|x same (u & E & B) F IH]; cbn [app map all_equal_to].
  - rewrite Tb. cbn [bind]. rewrite R. reflexivity.
  - rewrite E. cbn [bind]. rewrite B. exact IH.
Qed.
(** the output mode of a table write: never written *)
Theorem C32_write_mode_refuted : forall canon c decoders x ns adv sch op i mode m s r s', mode <> 0 ->
  rel_to_proto (RWrite x ns adv sch op i mode) = Ok m -> rel_from_proto canon c decoders m s = Ok (r, s') ->
  r <> RWrite x ns adv sch op i mode /\ exists x' ns' adv' sch' op' i', r = RWrite x' ns' adv' sch' op' i' 0.
Proof.
  intros canon c decoders x ns adv sch op i mode m s r s' HM W E. apply (C32_written canon c decoders) in W. inversion W; subst.
  apply C32_read in E. inversion E; subst. split; [congruence|eauto 10].
Qed.
Example C32_write_mode_example : exists m r, rel_to_proto (RWrite zero_common ["t"]%string None two_cols 1 table 2) = Ok m /\
  rel_from_proto ExprProps.plain_canon ExprProps.no_coll (fun _ => None) m (ESet [] [] [] [] [] [] []) = Ok (r, ESet [] [] [] [] [] [] []) /\
  r = RWrite zero_common ["t"]%string None two_cols 1 table 0.
Proof. eexists _, _. split; [reflexivity|]. split; reflexivity. Qed.

(** an empty output mapping: its message cannot be told from one without columns to emit *)
Theorem C32_mapping_on_the_wire : forall x,
  common_from_proto (wire_common (common_to_proto x)) = x <-> c_map x <> Some [].
Proof.
  intros [h m a]. unfold common_to_proto, wire_common, common_from_proto. cbn [c_map c_hint c_adv pc_hint pc_adv pc_emit].
  destruct m as [[|z l]|]; cbn [pc_emit].
  - split; [intros E; inversion E|congruence].
  - split; [intros _; discriminate|auto].
  - split; [intros _; discriminate|auto].
Qed.
Theorem C32_empty_mapping_refuted : exists r cm im es adv r' s,
  rel_to_proto r = Ok (PR_project (Some cm) im es adv) /\
  rel_from_proto ExprProps.plain_canon ExprProps.no_coll (fun _ => None) (PR_project (Some (wire_common cm)) im es adv) s = Ok (r', s) /\
  rel_type r = Ok [] /\ rel_type r' = Ok [t_i64; t_str; t_i64].
Proof.
  exists (RProject (mapped (Some [])) table [lit_i64 5] None). eexists _, _, _, _, _, (ESet [] [] [] [] [] [] []).
  split; [reflexivity|]. split; [reflexivity|]. split; reflexivity.
Qed.

(** a physical join type over 127 becomes another one *)
Theorem C32_physical_join_type_refuted : exists m r s,
  rel_to_proto (RHash zero_common table fetched [] blank 257 None) = Ok m /\
  rel_from_proto ExprProps.plain_canon ExprProps.no_coll (fun _ => None) m s = Ok (r, s) /\
  r = RHash zero_common table fetched [] blank 1 None.
Proof. eexists _, _, (ESet [] [] [] [] [] [] []). split; [reflexivity|]. split; reflexivity. Qed.
(** an update cannot be read *)
Theorem C32_update_refuted : forall canon c decoders x ns adv sch i mode m s r s',
  rel_to_proto (RWrite x ns adv sch 3 i mode) = Ok m -> rel_from_proto canon c decoders m s <> Ok (r, s').
Proof.
  intros canon c decoders x ns adv sch i mode m s r s' W. apply (C32_written canon c decoders) in W. inversion W; subst.
  apply C32_malformed_refused. constructor. cbn. intuition discriminate.
Qed.

(** *** an example with most kinds, subqueries and a call of a known function *)
Definition col_a : expr rel := ERef RRoot (RefSeg [SField 0]) t_i64.
Definition col_b : expr rel := ERef RRoot (RefSeg [SField 1]) t_str.
Definition files_read : rel :=
  RRead (Common None (Some [1; 0]) (Some "x"%string))
    (RBase two_cols (ESubScalar (RProject (mapped (Some [2])) table [lit_true] None)) blank
       (Some (Mask [(0, None); (1, None)] true)) None)
    (KFiles [File 2 "f.parquet" 3 0 10 None; File 0 "d" 0 5 6 None] None).
Definition wide_plan : rel :=
  RSort zero_common
    (RAgg zero_common
       (RFilter zero_common
          (RJoin (mapped (Some [0; 1])) (RSet zero_common [table; fetched] 1 None) files_read
             (EScalar 1 ExprProps.add_fn [AExpr col_a] [] (TPrim PrimI64 NullRequired 0)) blank 1 None)
          (ESubIn [col_a] (RCross zero_common table (RExt0 (mapped None) (DUndecoded (Some ("u", "p")%string))) None)) None)
       [Measure (Some (AggF 2 None [AExpr col_a] [] (TPrim PrimI64 NullRequired 0) 3 1 [(col_b, SK_dir 2)])) (lit_true)]
       [col_b; col_a] [[0]; [0; 1]; []] None)
    [(ERef RRoot (RefSeg [SField 0]) t_str, SK_dir 1)] None.
Definition phys_plan : rel :=
  RWrite zero_common ["out"%string] None two_cols 1
    (RFetch zero_common
      (RMerge zero_common
        (RHash (mapped (Some [3; 0])) table fetched
           [JKey (FRef RRoot (RefSeg [SField 0]) t_i64) (FRef RRoot (RefSeg [SField 0]) t_i64) (CmpSimple 1);
            JKey (FRef RRoot (RefSeg [SField 1]) t_str) (FRef RRoot (RefSeg [SField 1]) t_str) (CmpCustom 7)]
           (ELit (LPrim (VBool true) (TPrim PrimBool NullRequired 0))) 1 None)
        table [JKey (FRef RRoot (RefSeg [SField 1]) t_i64) (FRef RRoot (RefSeg [SField 0]) t_i64) (CmpSimple 1)]
        blank 2 None) 1 2 None) 0.
Example C32_example :
  rel_survives ExprProps.plain_canon ExprProps.one_func (fun _ => None) ExprProps.two_funcs wide_plan /\
  rel_survives ExprProps.plain_canon ExprProps.one_func (fun _ => None) ExprProps.two_funcs phys_plan.
Proof. split; apply C32_round_trip; eexists; (split; [reflexivity|reflexivity]). Qed.

(** ** C33: join keys *)

(** hash joins and merge joins treat their keys alike *)
Definition pmsg (merge : bool) := if merge then PR_merge else PR_hash.
Definition pjoin (merge : bool) := if merge then RMerge else RHash.

(** The message lists every key with its comparison; beside it the two deprecated lists of
    references are filled if all keys are equalities, and empty otherwise. *)
Theorem C33_written : forall merge x l r ks p jt adv m,
  rel_to_proto (pjoin merge x l r ks p jt adv) = Ok m ->
  exists cm lm rm ps lk rk pm, m = pmsg merge cm lm rm ps lk rk pm jt adv /\
    Forall2 key_form ks ps /\ legacy_form ks ps lk rk.
Proof.
  intros merge x l r ks p jt adv m E. apply (C32_written (fun _ => None) ExprProps.no_coll (fun _ => None)) in E.
  destruct merge; inversion E; subst;
    match goal with K : keys_say Writing _ _ _ _ |- _ => destruct K as (K1 & K2) end;
    match goal with J : phys_says Writing _ _ |- _ => cbn in J; subst end; unfold pmsg; eexists _, _, _, _, _, _, _; eauto.
Qed.

(** A reader that knows only the deprecated lists gets the same relation. *)
Theorem C33_legacy_reads_same : forall canon c decoders merge cm lm rm ps pm jt adv s,
  Forall (fun p => pk_cmp p = PC_simple 1) ps ->
  rel_from_proto canon c decoders (pmsg merge cm lm rm [] (map pk_left ps) (map pk_right ps) pm jt adv) s =
  rel_from_proto canon c decoders (pmsg merge cm lm rm ps (map pk_left ps) (map pk_right ps) pm jt adv) s.
Proof.
  intros canon c decoders merge cm lm rm ps pm jt adv s H. destruct merge; cbn [pmsg rel_from_proto];
    (destruct (rel_from_proto canon c decoders lm s) as [[l s1]| |]; cbn [bind]; auto);
    (destruct (rel_from_proto canon c decoders rm s1) as [[r s2]| |]; cbn [bind]; auto);
    (destruct (rel_type l) as [lt| |]; cbn [bind]; auto); (destruct (rel_type r) as [rt| |]; cbn [bind]; auto);
    rewrite legacy_same by auto; reflexivity.
Qed.
Theorem C33_legacy_round_trip : forall canon c decoders merge x l r ks p jt adv cm lm rm ps lk rk pm s, Forall equality_key ks ->
  rel_to_proto (pjoin merge x l r ks p jt adv) = Ok (pmsg merge cm lm rm ps lk rk pm jt adv) ->
  rel_from_proto canon c decoders (pmsg merge cm lm rm [] lk rk pm jt adv) s =
  rel_from_proto canon c decoders (pmsg merge cm lm rm ps lk rk pm jt adv) s.
Proof.
  intros canon c decoders merge x l r ks p jt adv cm lm rm ps lk rk pm s HE E. apply C33_written in E.
  destruct E as (cm' & lm' & rm' & ps' & lk' & rk' & pm' & E & F & L). assert (ps' = ps /\ lk' = lk /\ rk' = rk) as (-> & -> & ->).
  { destruct merge; inversion E; auto. }
  destruct L as (L & _). destruct (L HE) as (-> & ->). apply C33_legacy_reads_same. clear - F HE.
  induction F as [|k q ks ps (_ & _ & C) F IH]; inversion HE; subst; constructor; auto.
  unfold equality_key in *. destruct (k_cmp k); inversion H1; subst. exact C.
Qed.
(** Where the keys are there, the deprecated lists do not matter. *)
Theorem C33_legacy_ignored : forall canon c decoders merge cm lm rm k ps lk rk pm jt adv s,
  rel_from_proto canon c decoders (pmsg merge cm lm rm (k :: ps) lk rk pm jt adv) s =
  rel_from_proto canon c decoders (pmsg merge cm lm rm (k :: ps) [] [] pm jt adv) s.
Proof. intros canon c decoders [] *; reflexivity. Qed.
(** What is read from the deprecated lists: one equality for each pair; lists of different lengths are refused. *)
Theorem C33_legacy_means_equality : forall canon c decoders merge cm lm rm lk rk pm jt adv s q s',
  rel_from_proto canon c decoders (pmsg merge cm lm rm [] lk rk pm jt adv) s = Ok (q, s') ->
  exists x l r ks p jt', q = pjoin merge x l r ks p jt' adv /\ Forall equality_key ks /\
    List.length ks = List.length lk /\ List.length ks = List.length rk.
Proof.
  intros canon c decoders merge cm lm rm lk rk pm jt adv s q s' E. apply C32_read in E.
  destruct merge; inversion E; subst;
    match goal with K : keys_say Reading _ _ _ _ |- _ => destruct K as (K1 & K2 & K3) end; eexists _, _, _, _, _, _; (split; [reflexivity|]); auto.
Qed.
Theorem C33_legacy_lengths : forall canon c decoders merge cm lm rm lk rk pm jt adv s q s',
  List.length lk <> List.length rk ->
  rel_from_proto canon c decoders (pmsg merge cm lm rm [] lk rk pm jt adv) s <> Ok (q, s').
Proof. intros canon c decoders [] * H; apply C32_malformed_refused; constructor; auto. Qed.
(** A key without one of its references panics, in either form. *)
Theorem C33_missing_reference : forall canon c decoders merge cm i j x y s s1 s2 t u p jt adv,
  let rd := rel_from_proto canon c decoders in
  rd i s = Ok (x, s1) -> rd j s1 = Ok (y, s2) -> rel_type x = Ok t -> rel_type y = Ok u ->
  (forall r cmp ks lk rk, rd (pmsg merge cm i j (PKey None r cmp :: ks) lk rk p jt adv) s = Panic) /\
  (forall lk rk r, List.length lk = List.length rk -> rd (pmsg merge cm i j [] (None :: lk) (r :: rk) p jt adv) s = Panic).
Proof.
  intros canon c decoders merge cm i j x y s s1 s2 t u p jt adv rd E1 E2 T1 T2. unfold rd in *.
  split; intros; destruct merge; cbn [pmsg rel_from_proto]; rewrite E1; cbn [bind]; rewrite E2; cbn [bind]; rewrite T1; cbn [bind]; rewrite T2; cbn [bind keys_from_proto];
    try reflexivity; cbn [List.length Nat.eqb]; rewrite H, Nat.eqb_refl; reflexivity.
Qed.
(** Comparisons survive, whatever they are. *)
Theorem C33_comparisons_kept : forall canon c decoders merge x l r ks p jt adv m s q s',
  rel_to_proto (pjoin merge x l r ks p jt adv) = Ok m -> rel_from_proto canon c decoders m s = Ok (q, s') ->
  exists x' l' r' ks' p' jt' adv', q = pjoin merge x' l' r' ks' p' jt' adv' /\ map k_cmp ks' = map k_cmp ks.
Proof.
  intros canon c decoders merge x l r ks p jt adv m s q s' W E. apply C33_written in W.
  destruct W as (cm & lm & rm & ps & lk & rk & pm & -> & F & L).
  assert (K : exists x' l' r' ks' p' jt' adv', q = pjoin merge x' l' r' ks' p' jt' adv' /\ keys_say Reading ps lk rk ks').
  { apply C32_read in E. destruct merge; inversion E; subst; eexists _, _, _, _, _, _, _; (split; [reflexivity|auto]). }
  destruct K as (x' & l' & r' & ks' & p' & jt' & adv' & -> & K). eexists _, _, _, ks', _, _, _. split; [reflexivity|].
  unfold keys_say in K. destruct ps as [|p0 ps].
  - inversion F; subst. destruct L as (L & _). destruct (L (Forall_nil _)) as (-> & ->). destruct K as (K & _). destruct ks'; [reflexivity|discriminate].
  - remember (p0 :: ps) as qs. clear - F K. revert ks' K. induction F as [|k q ks qs (_ & _ & C) F IH]; intros ks' K; inversion K; subst; [reflexivity|].
    cbn [map]. f_equal; [|auto]. destruct (k_cmp x), (k_cmp k); cbn in *; congruence.
Qed.

Definition eq_keys : list (jkey rel) :=
  [JKey (FRef RRoot (RefSeg [SField 0]) t_i64) (FRef RRoot (RefSeg [SField 0]) t_i64) (CmpSimple 1);
   JKey (FRef RRoot (RefSeg [SField 1]) t_str) (FRef RRoot (RefSeg [SField 1]) t_str) (CmpSimple 1)].
Definition mixed_keys : list (jkey rel) :=
  JKey (FRef RRoot (RefSeg [SField 0]) t_i64) (FRef RRoot (RefSeg [SField 0]) t_i64) (CmpSimple 3) :: eq_keys.
Example C33_example_equality : exists cm lm rm ps lk rk pm,
  rel_to_proto (RMerge zero_common table fetched eq_keys blank 1 None) = Ok (PR_merge cm lm rm ps lk rk pm 1 None) /\
  List.length lk = 2%nat /\
  rel_from_proto ExprProps.plain_canon ExprProps.one_func (fun _ => None) (PR_merge cm lm rm [] lk rk pm 1 None) ExprProps.two_funcs =
  Ok (RMerge zero_common table fetched eq_keys blank 1 None, ExprProps.two_funcs).
Proof. eexists _, _, _, _, _, _, _. split; [reflexivity|]. split; reflexivity. Qed.
Example C33_example_mixed : exists cm lm rm ps pm,
  rel_to_proto (RHash zero_common table fetched mixed_keys blank 1 None) = Ok (PR_hash cm lm rm ps [] [] pm 1 None) /\
  rel_from_proto ExprProps.plain_canon ExprProps.one_func (fun _ => None) (PR_hash cm lm rm ps [] [] pm 1 None) ExprProps.two_funcs =
  Ok (RHash zero_common table fetched mixed_keys blank 1 None, ExprProps.two_funcs).
Proof. eexists _, _, _, _, _. split; reflexivity. Qed.

Print Assumptions C32_round_trip.
Print Assumptions C32_written.
Print Assumptions C32_read.
Print Assumptions C32_read_declares.
Print Assumptions C32_malformed_refused.
Print Assumptions C32_how_refused.
Print Assumptions C32_set_inputs_agree.
Print Assumptions C32_set_mismatch.
Print Assumptions C32_write_mode_refuted.
Print Assumptions C32_mapping_on_the_wire.
Print Assumptions C32_empty_mapping_refuted.
Print Assumptions C32_physical_join_type_refuted.
Print Assumptions C32_update_refuted.
Print Assumptions C33_written.
Print Assumptions C33_legacy_reads_same.
Print Assumptions C33_legacy_round_trip.
Print Assumptions C33_legacy_ignored.
Print Assumptions C33_legacy_means_equality.
Print Assumptions C33_legacy_lengths.
Print Assumptions C33_comparisons_kept.
Print Assumptions C32_failing_input.
Print Assumptions C32_failing_second_input.
Print Assumptions C32_failing_expression.
Print Assumptions C33_missing_reference.
