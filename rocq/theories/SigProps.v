(** C05-C10: function signatures.  Vocabulary in SigSpec.v, model in SigModel.v. *)

From Coq Require Import List ZArith String Bool Lia.
From Verif Require Import Base FMap TypesModel TypesSpec TypesProofs ExtSetModel ExtSetSpec ExtSetProofs ExtSetProps
  SigModel SigSpec SigProofs SigMatchProofs SigEvalProofs SigResultProofs.
Import ListNotations.
Local Open Scope string_scope.

Definition i32t (n : nullability) : ty := TPrim PrimI32 n 0.
Definition strt (n : nullability) : ty := TPrim PrimString n 0.
Definition i32f : fdt := FPrim PrimI32 NullRequired 0.

(** * C05: matching a declared type *)

(** An argument type matches, nullability aside, exactly when it has the declared
    shape. *)
Theorem C05_match_ignoring_nullability : forall f t, match_without f t = true <-> instance f t.
Proof. exact match_without_instance. Qed.

Theorem C05_match_with_nullability : forall f t,
  match_with f t = true <-> instance f t /\ nulls false f t.
Proof. exact match_with_spec. Qed.

(** Away from function types, composite parameters of user-defined types and
    derivations, the nullability is compared at every level. *)
Theorem C05_match_with_nullability_deep : forall f t, checked_everywhere f ->
  (match_with f t = true <-> instance f t /\ nulls true f t).
Proof. intros f t H. rewrite match_with_spec, (nulls_checked_everywhere f t H). reflexivity. Qed.

Theorem C05_with_nullability_is_stricter : forall f t, match_with f t = true -> match_without f t = true.
Proof. intros f t H. apply match_with_spec in H. apply match_without_instance. tauto. Qed.

(** A type variable takes every type, an integer variable every number. *)
Theorem C05_variables_take_anything : forall x v n n' v' x' y' t p s,
  match_without (FAny x v n) t = true /\
  match_without (FDecimal n v (IVar x') (IVar y')) (TDecimal n' v' p s) = true.
Proof. intros; split; reflexivity. Qed.

(** Finding: the nullability of the parameters of a function type is ignored. *)
Theorem C05_nested_nullability_refuted : exists f t, match_with f t = true /\ ~ nulls true f t.
Proof.
  exists (FFunc NullRequired [i32f] i32f), (TFunc NullRequired [i32t NullNullable] (i32t NullRequired)).
  split; [reflexivity|]. simpl. intros [_ H]. destruct (H eq_refl) as [[[H' _] _] _]. discriminate.
Qed.

(** Finding: the name of a user-defined type is ignored, so every user-defined type
    with the right parameters matches. *)
Theorem C05_user_type_name_refuted : forall n v ps name name' t,
  match_without (FUser n v ps name) t = match_without (FUser n v ps name') t /\
  match_with (FUser n v ps name) t = match_with (FUser n v ps name') t.
Proof. intros; split; reflexivity. Qed.

(** Finding: integer parameters of user-defined types are compared as int32. *)
Theorem C05_user_integer_refuted : exists z z', z <> z' /\
  match_without (FUser NullRequired 0 [UInt z] "u!p") (TUser NullRequired 0 1 [TPint z']) = true.
Proof. exists 5%Z, (2 ^ 32 + 5)%Z. split; [lia|]. reflexivity. Qed.

Example C05_example : instance
  (FMap NullRequired 0 (FAny "any1" 0 NullRequired) (FList NullNullable 0 (FDecimal NullRequired 0 (IConc 38) (IVar "S"))))
  (TMap NullNullable 0 (strt NullNullable) (TList NullRequired 0 (TDecimal NullNullable 0 38 7))).
Proof. repeat constructor. Qed.

(** * C06: number of arguments *)

Theorem C06_count_accepted : forall nparams nargs vb,
  (check_count nparams nargs vb = Ok tt <-> count_ok nparams vb nargs) /\
  (~ count_ok nparams vb nargs -> check_count nparams nargs vb = Err).
Proof.
  intros. destruct (check_count_spec nparams nargs vb) as [H1 [H2|H2]]; split; auto.
  intros Hn. exfalso; apply Hn, H1; auto.
Qed.

Theorem C06_result_needs_count : forall urn nh ret params vb args s s' t,
  evaluate_type_expression urn nh ret params vb args s = Ok (s', t) ->
  count_ok (List.length params) vb (List.length args).
Proof.
  intros. apply evaluate_inv in H as (b & u & t1 & H & _). apply check_count_spec; auto.
Qed.

(** A call matches a signature exactly when the count is right, the variadic rules
    hold, every argument is accepted at its position, and the type variables can be
    given types (signatures in which no two parameters mention the same integer
    parameter). *)
Theorem C06_match_exact : forall nh params vb args fs,
  Forall2 (fun p f => param_type p = Some f) params fs ->
  (params <> [] \/ vb = None) -> Forall arg_type args ->
  All no_user_var fs -> ~ shares_text fs ->
  (match_arguments nh params vb args = Ok true <->
   count_ok (List.length params) vb (List.length args) /\
   consistent_args (List.length params) vb args /\
   positions_ok vb (List.length args) /\
   each_accepted nh fs args /\
   exists sigma, forall i f a, declared_for fs i = Some f -> nth_error args i = Some a ->
     any_fits false sigma f a).
Proof. exact match_arguments_any. Qed.

(** With shared integer parameters it is the values of those that must agree. *)
Theorem C06_match_exact_shared : forall nh params vb args fs,
  Forall2 (fun p f => param_type p = Some f) params fs ->
  (params <> [] \/ vb = None) -> Forall arg_type args ->
  All no_user_var fs -> shares_text fs -> fits_params fs args ->
  (match_arguments nh params vb args = Ok true <->
   count_ok (List.length params) vb (List.length args) /\
   consistent_args (List.length params) vb args /\
   positions_ok vb (List.length args) /\
   each_accepted nh fs args /\
   forall x v w, bound fs args x v -> bound fs args x w -> v = w).
Proof.
  intros nh params vb args fs H1 H2 H3 H4 H5 H6.
  rewrite (match_arguments_shared nh params vb args fs) by auto.
  assert (E : (exists s, build_symtab fs args [] = Ok s) <->
              (forall x v w, bound fs args x v -> bound fs args x w -> v = w)).
  { pose proof (build_symtab_env fs args H6) as B. destruct (build_symtab fs args []) as [s| |]; split; try contradiction.
    - intros _ x v w Hv Hw. apply B in Hv. apply B in Hw. congruence.
    - eauto.
    - intros [s E]; discriminate.
    - intros Hf. destruct B as (x & v & w & Hne & Hv & Hw). exfalso. eauto. }
  rewrite E. reflexivity.
Qed.

(** Without any condition on the signature, a match implies all but the last part. *)
Theorem C06_match_implies : forall nh params vb args, Forall arg_type args -> (params <> [] \/ vb = None) ->
  match_arguments nh params vb args = Ok true ->
  count_ok (List.length params) vb (List.length args) /\ consistent_args (List.length params) vb args /\
  positions_ok vb (List.length args) /\
  exists fs, Forall2 (fun p f => param_type p = Some f) params fs /\ each_accepted nh fs args.
Proof. exact match_sound. Qed.

(** Asking about one position. *)
Theorem C06_match_at : forall a pos nh params vb fs,
  Forall2 (fun p f => param_type p = Some f) params fs ->
  (match_at a pos nh params vb = Ok true <->
   (0 <= pos)%Z /\
   match vb with
   | None => (pos < Z.of_nat (List.length params))%Z
   | Some v => (v_max v = 0 \/ pos <= v_max v)%Z
   end /\ exists f, declared_for fs (Z.to_nat pos) = Some f /\ accepts nh f a).
Proof.
  intros a pos nh params vb fs Hfs. unfold match_at.
  rewrite (Forall2_len _ _ _ _ _ Hfs). apply func_defs_spec in Hfs. rewrite Hfs.
  destruct (Z.ltb pos 0) eqn:E.
  - apply Z.ltb_lt in E. split; [discriminate|]. lia.
  - apply Z.ltb_ge in E. rewrite match_argument_spec. unfold in_range.
    assert (Z.of_nat (Z.to_nat pos) = pos) by (apply Z2Nat.id; auto).
    destruct vb as [v|].
    + rewrite H. tauto.
    + split; intros [H1 H2]; (split; [|split] || split); auto; try lia; try tauto. 
Qed.

(** Too few arguments for the fixed parameters of a variadic signature: asking
    whether they match panics instead of answering no. *)
Theorem C06_too_few_panics : forall nh params v args, params <> [] ->
  (List.length args < List.length params - 1)%nat -> match_arguments nh params (Some v) args = Panic.
Proof.
  intros nh [|p fixed] v args Hne Hl; [congruence|]. simpl in Hl.
  rewrite match_arguments_unfold. unfold count_stage.
  assert (E : Nat.ltb (List.length args) (List.length fixed) = true) by (apply Nat.ltb_lt; lia).
  rewrite E. reflexivity.
Qed.

(** Finding: positions are compared with the maximum number of *variadic* arguments,
    so a call with an allowed number of arguments is refused when there are at least
    two fixed parameters. *)
Theorem C06_positions_refuted : exists nh params v args,
  count_ok (List.length params) (Some v) (List.length args) /\
  each_accepted nh [i32f; i32f; i32f] args /\
  Forall2 (fun p f => param_type p = Some f) params [i32f; i32f; i32f] /\
  match_arguments nh params (Some v) args = Ok false.
Proof.
  exists NHMirror, [PValue i32f; PValue i32f; PValue i32f], (Variadic 1 2 Consistent),
    [i32t 2; i32t 2; i32t 2; i32t 2].
  split; [simpl; lia|]. split.
  - intros [|[|[|[|[|i]]]]] a Ha; inversion Ha; subst; (eexists; split; [reflexivity|]; constructor).
  - split; [repeat constructor | reflexivity].
Qed.

(** Finding: MinArgumentCount of a variadic signature is one more than the smallest
    count, and MaxArgumentCount one more than the largest (or the parameter count
    when there is no largest). *)
Theorem C06_argument_count_bounds_refuted : forall nparams v, (1 <= nparams)%nat -> (0 <= v_min v)%Z ->
  (v_max v = 0 \/ v_min v <= v_max v)%Z ->
  count_ok nparams (Some v) (Z.to_nat (min_argument_count nparams (Some v) - 1)) /\
  (v_max v <> 0%Z -> ~ count_ok nparams (Some v) (Z.to_nat (max_argument_count nparams (Some v)))) /\
  (v_max v = 0%Z -> count_ok nparams (Some v) (Z.to_nat (max_argument_count nparams (Some v) + v_min v + 1))).
Proof.
  intros nparams v H1 H2 H3. unfold count_ok, min_argument_count, max_argument_count. lia.
Qed.

Theorem C06_argument_count_fixed : forall nparams n,
  count_ok nparams None n <-> (min_argument_count nparams None <= Z.of_nat n <= max_argument_count nparams None)%Z.
Proof. intros. unfold count_ok, min_argument_count, max_argument_count. lia. Qed.

(** Finding: with CONSISTENT and a minimum of at least two, the first variadic
    arguments are not compared. *)
Theorem C06_consistency_refuted : exists params v args,
  v_consistency v = Consistent /\ match_arguments NHMirror params (Some v) args = Ok true /\
  ~ uniform_from (List.length params - 1) args.
Proof.
  exists [PValue (FAny "any" 0 NullRequired)], (Variadic 2 0 Consistent), [i32t 2; strt 2].
  split; [reflexivity|]. split; [reflexivity|].
  intros H. specialize (H 0%nat 1%nat (i32t 2) (strt 2)). simpl in H.
  assert (same_base (i32t 2) (strt 2)) by (apply H; auto). inversion H0.
Qed.

(** With a minimum of at most one they all are. *)
Theorem C06_consistency : forall nh params v args, Forall arg_type args -> params <> [] ->
  v_consistency v = Consistent -> (v_min v <= 1)%Z ->
  match_arguments nh params (Some v) args = Ok true -> uniform_from (List.length params - 1) args.
Proof.
  intros nh params [mn mx c] args Ha Hne Hc Hm H. simpl in Hc, Hm. subst c.
  apply match_sound in H; auto. destruct H as (_ & H & _). simpl in H.
  replace (Z.to_nat (Z.max (mn - 1) 0)) with 0%nat in H by lia. rewrite Nat.add_0_r in H. exact H.
Qed.

Example C06_example : match_arguments NHMirror [PValue i32f; PEnum "e" ["A"]; PValue (FAny "any1" 0 NullRequired)]
  (Some (Variadic 1 3 Consistent)) [i32t 1; TEnum true 0 0 "" []; strt 1; strt 2] = Ok true.
Proof. reflexivity. Qed.

Example C06_shared_example :
  let d := FDecimal NullRequired 0 (IVar "P") (IVar "S") in
  match_arguments NHMirror [PValue d; PValue d] None [TDecimal 2 0 10 2; TDecimal 2 0 10 2] = Ok true /\
  match_arguments NHMirror [PValue d; PValue d] None [TDecimal 2 0 10 2; TDecimal 2 0 10 3] = Ok false /\
  shares_text [d; d] /\ fits_params [d; d] [TDecimal 2 0 10 2; TDecimal 2 0 10 2].
Proof.
  split; [reflexivity|]. split; [reflexivity|]. split.
  - exists 0%nat, 1%nat. do 3 eexists. split; [lia|]. split; [reflexivity|]. split; [reflexivity|].
    assert (forall n v, text (FDecimal n v (IVar "P") (IVar "S")) "P").
    { intros. eapply T_decimal with (i := IVar "P"); eauto. }
    auto.
  - split; [simpl; lia|]. intros [|[|i]] p a Hp Ha; try (destruct i; discriminate);
      inversion Hp; inversion Ha; subst; (split; [exact I|left; repeat constructor]).
Qed.

(** * C07: numbered type variables *)

(** The consistency check of type variables accepts exactly the calls in which the
    visible variables can be given types. *)
Theorem C07_any_check_exact : forall fs args vb, Forall arg_type args ->
  (fs <> [] \/ vb = None) -> (List.length fs <= List.length args + 1)%nat ->
  (vb = None -> List.length args = List.length fs) ->
  (validate_any fs args vb = Ok tt <->
   exists sigma, forall i f a, declared_for fs i = Some f -> nth_error args i = Some a ->
     any_fits false sigma f a) /\
  (validate_any fs args vb = Ok tt \/ validate_any fs args vb = Err).
Proof. exact validate_any_spec. Qed.

(** When no numbered variable hides in a function type, user-defined type or
    derivation, all occurrences are covered. *)
Theorem C07_any_check_all_occurrences : forall fs args vb, Forall arg_type args ->
  (fs <> [] \/ vb = None) -> (List.length fs <= List.length args + 1)%nat ->
  (vb = None -> List.length args = List.length fs) -> Forall any_in_sight fs ->
  (validate_any fs args vb = Ok tt <->
   exists sigma, forall i f a, declared_for fs i = Some f -> nth_error args i = Some a ->
     any_fits true sigma f a).
Proof.
  intros fs args vb Ha Hne Hle Hn Hs. destruct (validate_any_spec fs args vb Ha Hne Hle Hn) as [-> _].
  assert (E : forall sigma i f a, declared_for fs i = Some f ->
    (any_fits false sigma f a <-> any_fits true sigma f a)).
  { intros sigma i f a Hf. apply any_in_sight_deep. apply declared_for_in in Hf.
    rewrite Forall_forall in Hs. auto. }
  split; intros [sigma H]; exists sigma; intros i f a Hf Hia; apply (E sigma i f a Hf); eauto.
Qed.

(** Two arguments declared with the same variable have the same base type in every
    matching call. *)
Theorem C07_same_variable_same_type : forall nh params vb args fs i j x v w n m a b,
  Forall2 (fun p f => param_type p = Some f) params fs ->
  (params <> [] \/ vb = None) -> Forall arg_type args ->
  All no_user_var fs -> ~ shares_text fs ->
  match_arguments nh params vb args = Ok true -> x <> "any" ->
  declared_for fs i = Some (FAny x v n) -> declared_for fs j = Some (FAny x w m) ->
  nth_error args i = Some a -> nth_error args j = Some b -> same_base a b.
Proof.
  intros nh params vb args fs i j x v w n m a b Hfs Hne Ha Hu Hs Hm Hx Hi Hj Hia Hjb.
  apply (match_arguments_any nh params vb args fs Hfs Hne Ha Hu Hs) in Hm.
  destruct Hm as (_ & _ & _ & _ & sigma & H).
  pose proof (H _ _ _ Hi Hia) as H1. pose proof (H _ _ _ Hj Hjb) as H2.
  assert (H1' : x = "any" \/ same_base (sigma x) a) by (destruct a; exact H1).
  assert (H2' : x = "any" \/ same_base (sigma x) b) by (destruct b; exact H2).
  destruct H1' as [?|H1']; [contradiction|]. destruct H2' as [?|H2']; [contradiction|].
  eapply same_base_trans; [apply same_base_sym|]; eauto.
Qed.

(** The unnumbered variable puts no constraint on its arguments. *)
Theorem C07_plain_any_unconstrained : forall args v n m, Forall arg_type args ->
  List.length args = m -> validate_any (repeat (FAny "any" v n) m) args None = Ok tt.
Proof.
  intros args v n m Ha Hl.
  assert (H1 : repeat (FAny "any" v n) m <> [] \/ (None : option variadic) = None) by auto.
  destruct (validate_any_spec (repeat (FAny "any" v n) m) args None Ha H1) as [E _].
  - rewrite repeat_length. lia.
  - rewrite repeat_length. auto.
  - apply E. exists (fun _ => i32t 0). intros i f a Hf _. apply declared_for_in, repeat_spec in Hf. subst f.
    destruct a; left; reflexivity.
Qed.

(** Finding: variables inside function types are not checked. *)
Theorem C07_function_types_refuted : exists f a, arg_type a /\
  validate_any [f] [a] None = Ok tt /\ match_arguments NHMirror [PValue f] None [a] = Ok true /\
  forall sigma, ~ any_fits true sigma f a.
Proof.
  exists (FFunc NullRequired [FAny "any1" 0 NullRequired] (FAny "any1" 0 NullRequired)),
    (TFunc NullRequired [i32t 2] (strt 2)).
  split; [left; simpl; auto|]. split; [reflexivity|]. split; [reflexivity|].
  intros sigma H. simpl in H. destruct (H eq_refl eq_refl) as [[[H1|H1] _] [H2|H2]]; try discriminate.
  assert (E : same_base (i32t 2) (strt 2)).
  { eapply same_base_trans; [apply same_base_sym; exact H1 | exact H2]. }
  inversion E.
Qed.

(** Finding: when two parameters share an integer parameter the type variables are
    not checked at all. *)
Theorem C07_shared_integers_refuted : exists fs args,
  match_arguments NHMirror (map PValue fs) None args = Ok true /\
  forall sigma, ~ (forall i f a, declared_for fs i = Some f -> nth_error args i = Some a -> any_fits false sigma f a).
Proof.
  exists [FDecimal 2 0 (IVar "P") (IVar "S"); FDecimal 2 0 (IVar "P") (IVar "S");
          FAny "any1" 0 2; FAny "any1" 0 2],
         [TDecimal 2 0 10 2; TDecimal 2 0 10 2; i32t 2; strt 2].
  split; [reflexivity|]. intros sigma H.
  pose proof (H 2%nat _ _ eq_refl eq_refl) as H1. pose proof (H 3%nat _ _ eq_refl eq_refl) as H2. simpl in H1, H2.
  destruct H1 as [H1|H1]; [discriminate|]. destruct H2 as [H2|H2]; [discriminate|].
  assert (E : same_base (i32t 2) (strt 2)).
  { eapply same_base_trans; [apply same_base_sym; exact H1 | exact H2]. }
  inversion E.
Qed.

Example C07_example :
  validate_any [FAny "any1" 0 2; FList 2 0 (FAny "any1" 0 2)] [i32t 1; TList 2 0 (i32t 2)] None = Ok tt /\
  validate_any [FAny "any1" 0 2; FList 2 0 (FAny "any1" 0 2)] [i32t 1; TList 2 0 (strt 2)] None = Err /\
  validate_any [FAny "any1" 0 2] [i32t 1; i32t 2; strt 2] (Some (Variadic 1 0 Inconsistent)) = Err.
Proof. repeat split. Qed.

(** * C08: nullability of the result *)

(** MIRROR: the result is nullable exactly when some value argument is not
    required. *)
Theorem C08_mirror : forall urn ret params vb args s s' t,
  all_looked_at params vb args ->
  evaluate_type_expression urn NHMirror ret params vb args s = Ok (s', t) ->
  (value_args_required params args -> outer_nullability t = NullRequired) /\
  (~ value_args_required params args -> outer_nullability t = NullNullable).
Proof.
  intros urn ret params vb args s s' t Hl H.
  apply evaluate_inv in H as (b & u & t1 & _ & Hb & _ & _ & _ & ->).
  pose proof (all_non_null_spec _ _ _ _ _ Hl Hb) as E. unfold result_nullability.
  rewrite <- outer_nullability_eq, (proj2 (with_nullability_same _ t1)).
  destruct b; split; intros H; auto; exfalso.
  - apply H, E; auto.
  - apply E in H. discriminate.
Qed.

(** Finding: extra arguments of an INCONSISTENT variadic signature are not looked at. *)
Theorem C08_mirror_inconsistent_refuted : exists params v args t,
  evaluate_type_expression "u" NHMirror i32f params (Some v) args new_set = Ok (new_set, t) /\
  outer_nullability t = NullRequired /\ ~ value_args_required params args.
Proof.
  exists [PValue i32f], (Variadic 1 0 Inconsistent), [i32t 2; i32t 1], (i32t 2).
  split; [reflexivity|]. split; [reflexivity|]. intros H.
  assert (E : outer_nullability (i32t 1) = NullRequired) by (apply (H 1%nat i32f); reflexivity). discriminate.
Qed.

(** DECLARED_OUTPUT and DISCRETE: the result has the declared nullability (for a
    result declared as a type variable see C10). *)
Theorem C08_declared : forall urn nh ret params vb args s s' t,
  nh = NHDeclared \/ nh = NHDiscrete -> not_any ret ->
  evaluate_type_expression urn nh ret params vb args s = Ok (s', t) ->
  outer_nullability t = declared_nullability ret.
Proof.
  intros urn nh ret params vb args s s' t Hnh Hany H.
  apply evaluate_inv in H as (b & u & t1 & _ & _ & _ & Hr & Hs & ->).
  apply set_reference_nullability in Hs. apply return_type_nullability in Hr; auto.
  destruct Hnh as [-> | ->]; simpl; congruence.
Qed.

(** DISCRETE: every argument has the declared nullability (for parameters whose
    nullability is visible, at every level). *)
Theorem C08_discrete_arguments : forall params vb args i p a f,
  Forall arg_type args -> (params <> [] \/ vb = None) ->
  match_arguments NHDiscrete params vb args = Ok true ->
  declared_for params i = Some p -> param_type p = Some f -> nth_error args i = Some a ->
  declared_nullability f = outer_nullability a /\ (checked_everywhere f -> nulls true f a).
Proof.
  intros params vb args i p a f Ha Hne Hm Hp Hf Hia.
  apply match_sound in Hm; auto. destruct Hm as (_ & _ & _ & fs & Hfs & Hacc).
  destruct (Hacc i a Hia) as [g [Hg Hacg]].
  destruct (declared_param params fs i g Hfs Hg) as [p' [Hp' Ht]].
  assert (g = f) by congruence. subst g.
  split; [eapply accepts_null; eauto|]. intros Hc. destruct Hacg as [_ Hn].
  apply (nulls_checked_everywhere f a Hc); auto.
Qed.

(** A signature without a known mode accepts no call with arguments. *)
Theorem C08_unknown_mode : forall nh params vb args, nh = NHNone \/ nh = NHOther ->
  Forall arg_type args -> (params <> [] \/ vb = None) -> args <> [] ->
  match_arguments nh params vb args <> Ok true.
Proof.
  intros nh params vb args Hnh Ha Hne Hargs H. apply match_sound in H; auto.
  destruct H as (_ & _ & _ & fs & _ & Hacc). destruct args as [|a args]; [congruence|].
  destruct (Hacc 0%nat a eq_refl) as [f [_ Hf]]. destruct Hnh; subst; exact Hf.
Qed.

(** In every mode the result is the declared result type, up to its outermost
    nullability and the reference of a user-defined type. *)
Theorem C08_only_outer_nullability_changes : forall urn nh ret params vb args s s' t,
  evaluate_type_expression urn nh ret params vb args s = Ok (s', t) ->
  exists u, return_type ret (map type_expression params) args = Ok u /\
    ((s' = s /\ (same_but_nullability u t)) \/
     (exists n v l name a, ret = FUser n v l name /\ get_type_anchor (ExtId urn name) s = Ok (s', a) /\ referred a u t)).
Proof.
  intros urn nh ret params vb args s s' t H.
  apply evaluate_inv in H as (b & u & t1 & _ & _ & _ & Hr & Hs & ->).
  exists u. split; auto. apply set_reference_spec in Hs.
  destruct Hs as [(-> & -> & _)|(n & v & l & name & n' & v' & r & qs & a & -> & -> & Hg & ->)].
  - left. split; auto. unfold result_nullability. destruct nh; try apply sb_refl; apply with_nullability_same.
  - right. do 5 eexists. split; [reflexivity|]. split; [eauto|].
    unfold result_nullability. destruct nh; simpl; constructor.
Qed.

(** The reference of a user-defined result type stands for that type in the plan's
    extension set, for every set built by requests. *)
Theorem C08_user_type_reference : forall urn nh ret params vb args rs s l s' t n v ul name,
  (Z.of_nat (List.length rs) + 1 < 2 ^ 32)%Z -> run rs new_set = Ok (s, l) ->
  ret = FUser n v ul name ->
  evaluate_type_expression urn nh ret params vb args s = Ok (s', t) ->
  exists n' v' a qs, t = TUser n' v' a qs /\ decode KType a s' = Some (ExtId urn name).
Proof.
  intros urn nh ret params vb args rs s l s' t n v ul name Hb Hrun Hret H.
  apply evaluate_inv in H as (b & u & t1 & _ & _ & _ & Hr & Hs & ->).
  apply set_reference_spec in Hs.
  destruct Hs as [(-> & -> & Hno)|(n1 & v1 & l1 & name1 & n' & v' & r & qs & a & Hret' & -> & Hg & ->)].
  - exfalso. subst ret. cbn [return_type] in Hr.
    match type of Hr with (let! ts := ?x in _) = _ => destruct x; simpl in Hr; inversion Hr; subst end.
    eapply Hno; eauto.
  - assert (name1 = name) by congruence. subst name1.
    assert (Hrun' : run (rs ++ [Req KType (ExtId urn name)])%list new_set = Ok (s', (l ++ [a])%list)).
    { rewrite run_app, Hrun. simpl. unfold get_anchor. simpl. rewrite Hg. reflexivity. }
    assert (Hdec : decode KType a s' = Some (ExtId urn name)).
    { apply (C22_decode_exactly_requested _ _ _ KType a (ExtId urn name)) in Hrun'.
      - apply Hrun'. exists (List.length rs).
        assert (Hl : List.length rs = List.length l).
        { clear -Hrun. revert Hrun. generalize new_set. revert s l. induction rs as [|r rs IH]; intros s l s0 H.
          - inversion H; auto.
          - cbn [run] in H. destruct (get_anchor r s0) as [[s1 a1]| |]; cbn [bind] in H; try discriminate.
            destruct (run rs s1) as [[s2 l2]| |] eqn:E; cbn [bind] in H; try discriminate.
            inversion H; subst. simpl. f_equal. eapply IH; eauto. }
        split; [rewrite nth_error_app2, Nat.sub_diag by lia; reflexivity|].
        rewrite Hl, nth_error_app2, Nat.sub_diag by lia; reflexivity.
      - rewrite app_length. simpl. lia. }
    unfold result_nullability. destruct nh; simpl; eauto 10.
Qed.

(** An accepted call has a type as soon as its declared result type has one. *)
Theorem C08_accepted_calls_have_a_type : forall urn nh ret params vb args s u,
  Forall arg_type args -> (params <> [] \/ vb = None) ->
  match_arguments nh params vb args = Ok true -> enum_args_ok params args ->
  (forall i f a, declared_for params i = Some (PValue f) -> nth_error args i = Some a ->
     outer_nullability a = NullNullable \/ outer_nullability a = NullRequired) ->
  return_type ret (map type_expression params) args = Ok u ->
  (forall n v l name, ret <> FUser n v l name) ->
  exists t, evaluate_type_expression urn nh ret params vb args s = Ok (s, t) /\ same_but_nullability u t.
Proof.
  intros urn nh ret params vb args s u Ha Hne Hm He Hs Hr Hu.
  destruct (evaluate_complete urn nh ret params vb args s u Ha Hne Hm He Hs Hr Hu) as [b Hb].
  eexists. split; [eauto|]. unfold result_nullability. destruct nh; try apply sb_refl; apply with_nullability_same.
Qed.

Example C08_example :
  evaluate_type_expression "u" NHMirror (FPrim PrimString 2 0) [PValue i32f; PValue i32f] None
    [i32t 2; i32t 1] new_set = Ok (new_set, strt 1) /\
  evaluate_type_expression "u" NHDeclared (FPrim PrimString 2 0) [PValue i32f; PValue i32f] None
    [i32t 2; i32t 1] new_set = Ok (new_set, strt 2) /\
  evaluate_type_expression "u" NHDiscrete (FPrim PrimString 2 0) [PValue i32f; PValue i32f] None
    [i32t 2; i32t 1] new_set = Err /\
  exists s', evaluate_type_expression "u" NHMirror (FUser 2 0 [] "point") [PValue i32f] None [i32t 1] new_set
    = Ok (s', TUser 1 0 1 []).
Proof. repeat split. eexists. reflexivity. Qed.

(** * C09: derivation programs *)

(** Evaluation computes the arithmetic value of an expression... *)
Theorem C09_evaluation_complete : forall s e v, denotes (fun x => st_get x s) e v -> eval s e = Ok v.
Proof. exact eval_denotes. Qed.

(** ... and nothing else, unless some operation leaves the int64 range. *)
Theorem C09_evaluation_sound : forall s e v, eval s e = Ok v ->
  denotes (fun x => st_get x s) e v \/ overflows (fun x => st_get x s) e.
Proof. exact denotes_eval. Qed.

(** A well-typed expression without division always has a value of its type. *)
Theorem C09_typed_expressions_evaluate : forall s g e t,
  (forall x t, g x = Some t -> exists v, st_get x s = Some v /\ has_dtype v t) ->
  typed g e t -> no_division e -> exists v, eval s e = Ok v /\ has_dtype v t.
Proof. exact eval_typed. Qed.

(** Programs run their assignments in order, later ones seeing earlier ones. *)
Theorem C09_program_complete : forall l s g', runs (fun x => st_get x s) l g' ->
  exists s', run_assignments l s = Ok s' /\ forall x, st_get x s' = g' x.
Proof. intros l s g' R. apply (run_runs l _ g' R s). intros; reflexivity. Qed.

Theorem C09_program_sound : forall l s s', run_assignments l s = Ok s' ->
  (exists g', runs (fun x => st_get x s) l g' /\ forall x, st_get x s' = g' x) \/
  overflows_in (fun x => st_get x s) l.
Proof. intros l s s' H. apply (runs_run l s s' H). intros; reflexivity. Qed.

(** The variables of a call hold what the arguments give them, and it is an error
    (never a panic) when two arguments disagree. *)
Theorem C09_variables_bound : forall ps args s, fits_params ps args ->
  build_symtab ps args [] = Ok s -> variables_of ps args (fun x => st_get x s).
Proof.
  intros ps args s Hf E. pose proof (build_symtab_env ps args Hf) as B. rewrite E in B. exact B.
Qed.

Theorem C09_variables_conflict : forall ps args, fits_params ps args ->
  ((exists x v w, bound ps args x v /\ bound ps args x w /\ v <> w) <-> build_symtab ps args [] = Err) /\
  build_symtab ps args [] <> Panic.
Proof.
  intros ps args Hf. split.
  - split.
    + intros (x & v & w & Hv & Hw & Hne). apply (conflict_error ps args x v w); auto.
    + intros E. pose proof (build_symtab_env ps args Hf) as B. rewrite E in B.
      destruct B as (x & v & w & H1 & H2 & H3). eauto 10.
  - intros E. pose proof (build_symtab_env ps args Hf) as B. rewrite E in B. exact B.
Qed.

(** The type of a call's result is the declared one with its integer variables
    (after the derivation program) and type variables filled in; exactly so when
    there is no program. *)
Theorem C09_result_complete : forall ps args g f t,
  fits_params ps args -> variables_of ps args g -> (forall name, fits_any name ps args) -> numbers32 f ->
  result g (first_occurrence ps args) f t -> return_type f ps args = Ok t.
Proof. intros ps args g f t H1 H2 H3 H4. apply (return_type_result ps args g H1 H2 H3 f t H4). Qed.

Theorem C09_result_exact : forall ps args g f t,
  fits_params ps args -> variables_of ps args g -> (forall name, fits_any name ps args) -> numbers32 f ->
  no_program f ->
  (return_type f ps args = Ok t <-> result g (first_occurrence ps args) f t).
Proof.
  intros ps args g f t H1 H2 H3 H4 H5. destruct (return_type_result ps args g H1 H2 H3 f t H4). split; auto.
Qed.

(** With a program the result is what the program says, unless it overflows. *)
Theorem C09_program_result_sound : forall ps args g l f t,
  fits_params ps args -> variables_of ps args g -> (forall name, fits_any name ps args) -> numbers32 f ->
  match f with FPrim _ _ _ | FSingle _ _ _ _ | FDecimal _ _ _ _ => True | _ => False end ->
  return_type (FDeriv l f) ps args = Ok t ->
  result g (first_occurrence ps args) (FDeriv l f) t \/ overflows_in g l.
Proof. intros ps args g l f t H1 H2 H3 H4 H5. apply (derivation_sound ps args g H1 H2); auto. Qed.

(** Finding: a time precision cannot take part in arithmetic; the program panics. *)
Theorem C09_precision_arithmetic_refuted :
  return_type (FDeriv [("Q", DBin OpPlus (DName "P") (DNum 1))] (FSingle SPrecTs 2 0 (IVar "Q")))
    [FSingle SPrecTs 2 0 (IVar "P")] [TPrecTs 2 0 3] = Panic.
Proof. reflexivity. Qed.

(** Finding: a variable shared by a time precision and a length "conflicts" even when
    both are the same number. *)
Theorem C09_precision_length_conflict_refuted :
  build_symtab [FSingle SPrecTs 2 0 (IVar "P"); FSingle (SFixed FxVarChar) 2 0 (IVar "P")]
    [TPrecTs 2 0 3; TFixed FxVarChar 2 0 3] [] = Err.
Proof. reflexivity. Qed.

(** Finding: a program whose final type is a list, or a struct with variables, has no
    result whatever the program and the arguments. *)
Theorem C09_composite_final_type_refuted : forall l n v e ps args t,
  return_type (FDeriv l (FList n v e)) ps args <> Ok t.
Proof.
  intros l n v e ps args t H.
  change (return_type (FDeriv l (FList n v e)) ps args) with
        (let! vs := derivation_params ps args l (get_params (FList n v e)) in with_parameters (FList n v e) vs) in H.
  unfold derivation_params in H.
  destruct (build_symtab ps args []) as [s| |]; simpl bind in H; try discriminate.
  destruct (run_assignments l s) as [s'| |]; simpl bind in H; try discriminate.
  simpl get_params in H. destruct (has_param e); simpl in H; discriminate.
Qed.

(** Finding: integer variables inside a list parameter are never bound. *)
Theorem C09_nested_variable_refuted :
  return_type (FDecimal 2 0 (IVar "P") (IVar "S")) [FList 2 0 (FDecimal 2 0 (IVar "P") (IVar "S"))]
    [TList 2 0 (TDecimal 2 0 10 2)] = Err.
Proof. reflexivity. Qed.

Definition sum_program : list (string * dexpr) :=
  [("init_scale", DCall "max" [DName "S1"; DName "S2"]);
   ("init_prec", DBin OpPlus (DName "init_scale")
      (DBin OpPlus (DCall "max" [DBin OpMinus (DName "P1") (DName "S1"); DBin OpMinus (DName "P2") (DName "S2")]) (DNum 1)));
   ("min_scale", DCall "min" [DName "init_scale"; DNum 6]);
   ("delta", DBin OpMinus (DName "init_prec") (DNum 38));
   ("prec", DCall "min" [DName "init_prec"; DNum 38]);
   ("scale_after_borrow", DCall "max" [DBin OpMinus (DName "init_scale") (DName "delta"); DName "min_scale"]);
   ("scale", DIf false (DBin OpGT (DName "init_prec") (DNum 38)) (DName "scale_after_borrow") (DName "init_scale"))].
Definition sum_params : list fdt :=
  [FDecimal 2 0 (IVar "P1") (IVar "S1"); FDecimal 2 0 (IVar "P2") (IVar "S2")].
Definition sum_result : fdt := FDeriv sum_program (FDecimal 2 0 (IVar "prec") (IVar "scale")).

(** the addition of decimals of functions_arithmetic_decimal.yaml *)
Example C09_example :
  return_type sum_result sum_params [TDecimal 2 0 38 10; TDecimal 1 0 38 4] = Ok (TDecimal 2 0 38 6) /\
  return_type sum_result sum_params [TDecimal 2 0 10 2; TDecimal 1 0 12 4] = Ok (TDecimal 2 0 13 4).
Proof. split; reflexivity. Qed.

Example C09_example_hypotheses :
  fits_params sum_params [TDecimal 2 0 38 10; TDecimal 1 0 38 4] /\
  (exists s, build_symtab sum_params [TDecimal 2 0 38 10; TDecimal 1 0 38 4] [] = Ok s) /\
  (forall name, fits_any name sum_params [TDecimal 2 0 38 10; TDecimal 1 0 38 4]) /\ numbers32 sum_result.
Proof.
  split; [|split; [|split]].
  - split; [simpl; lia|]. intros [|[|i]] p a Hp Ha; try (destruct i; discriminate);
      inversion Hp; inversion Ha; subst; (split; [exact I|left; repeat constructor]).
  - eexists; reflexivity.
  - intros name. simpl. repeat split; left; repeat constructor.
  - simpl. auto.
Qed.

(** * C10: results declared as a type variable *)

(** The result is the first part of the arguments standing where the variable is
    declared, made nullable if so declared; it is an error if there is none. *)
Theorem C10_any_result : forall x v n ps args, fits_any x ps args ->
  return_type (FAny x v n) ps args =
  match first_occurrence ps args x with
  | Some t => Ok (if Z.eqb n NullNullable then with_nullability NullNullable t else t)
  | None => Err
  end.
Proof.
  intros x v n ps args H. cbn [return_type]. unfold any_return_type. rewrite any_lookup by auto. reflexivity.
Qed.

(** If the variable is itself a parameter, and the first, the result is that argument. *)
Theorem C10_any_result_is_argument : forall x v n w m i ps args a, fits_any x ps args ->
  nth_error ps i = Some (FAny x w m) -> nth_error args i = Some a ->
  (forall j p, (j < i)%nat -> nth_error ps j = Some p -> absent x p) ->
  exists t, return_type (FAny x v n) ps args = Ok t /\ same_but_nullability a t /\
    outer_nullability t = (if Z.eqb n NullNullable then NullNullable else outer_nullability a).
Proof.
  intros x v n w m i ps args a Hf Hp Ha Hj. rewrite C10_any_result by auto.
  assert (E : first_occurrence ps args x = Some a).
  { unfold first_occurrence. clear Hf. revert ps args Hp Ha Hj. induction i as [|i IH]; intros ps args Hp Ha Hj.
    - destruct ps as [|p ps]; [discriminate|]. destruct args as [|a0 args]; [discriminate|].
      inversion Hp; inversion Ha; subst. simpl. destruct a; simpl; rewrite String.eqb_refl; reflexivity.
    - destruct ps as [|p ps]; [discriminate|]. destruct args as [|a0 args]; [discriminate|].
      simpl in Hp, Ha. simpl. rewrite absent_occurrences by (apply (Hj 0%nat); [lia|reflexivity]). simpl.
      apply IH; auto. intros j q Hlt Hq. apply (Hj (S j)); [lia|auto]. }
  rewrite E. eexists; split; [reflexivity|]. destruct (Z.eqb n NullNullable).
  - rewrite <- outer_nullability_eq. apply with_nullability_same.
  - split; auto. apply sb_refl.
Qed.

(** Finding: a variable inside a user-defined type is not found. *)
Theorem C10_user_type_refuted : exists p a, instance p a /\ occurrences "any1" p a = [i32t 2] /\
  return_type (FAny "any1" 0 2) [p] [a] = Err.
Proof.
  exists (FUser 2 0 [UData (FAny "any1" 0 2)] "box"), (TUser 2 0 1 [TPdata (i32t 2)]).
  split; [|split; reflexivity]. repeat constructor.
Qed.

Example C10_example :
  return_type (FAny "any1" 0 1) [i32f; FMap 2 0 (FAny "any2" 0 2) (FAny "any1" 0 2)]
    [i32t 2; TMap 2 0 (i32t 2) (strt 2)] = Ok (strt 1) /\
  fits_any "any1" [i32f; FMap 2 0 (FAny "any2" 0 2) (FAny "any1" 0 2)] [i32t 2; TMap 2 0 (i32t 2) (strt 2)].
Proof. split; [reflexivity|]. simpl. repeat split; left; repeat constructor. Qed.

Print Assumptions C05_match_with_nullability.
Print Assumptions C06_match_exact.
Print Assumptions C06_match_exact_shared.
Print Assumptions C07_any_check_all_occurrences.
Print Assumptions C08_user_type_reference.
Print Assumptions C08_accepted_calls_have_a_type.
Print Assumptions C09_evaluation_sound.
Print Assumptions C09_result_exact.
Print Assumptions C09_program_result_sound.
Print Assumptions C10_any_result.
