(** Extended expressions: the property C59 (see /verif/properties.jsonl). *)

From Coq Require Import ZArith String Bool Arith Lia Permutation List.
From Verif Require Import Base FMap TypesModel TypesSpec TypesProofs ExtSetModel ExtSetSpec ExtSetProofs LoadModel LitModel LitSpec
  ExprModel ExprOpsModel ExprSpec ExprProofs ExprWireProofs ExprDeclProofs PlanModel PlanOpsModel PlanSpec PlanProofs PlanProps PlanWireSpec
  PlanWireProofs PlanTripSpec PlanTripProofs ExtendedModel ExtendedSpec.
From Verif Require ExtSetProps ExprProps.
Import ListNotations.
Local Open Scope Z_scope.

(** ** lemmas *)

Notation noconv := (None : option (prel -> eset -> res (rel * eset))).
Lemma noconv_extends : forall f p s (r : rel) s', noconv = Some f -> f p s = Ok (r, s') -> extends s s'.
Proof. discriminate. Qed.
Lemma no_rel_survives : forall s r, ExprProps.rel_survives rel_to_proto noconv s r <-> False.
Proof. intros s r. split; [|intros []]. intros (p & f & _ & H & _). discriminate. Qed.
Lemma lives_iff : forall canon c s base e,
  expr_lives canon c s base e <-> exists m, expr_to_proto rel_to_proto e = Ok m /\
    expr_from_proto rel_type None canon c (Some base) m s = Ok (e, s).
Proof.
  intros canon c s base e. unfold expr_lives. apply ExprWireProofs.round_trip; [intros f H; discriminate|].
  intros r. split; [intros []|]. intros (p & f & _ & H & _). discriminate.
Qed.
Lemma agg_lives_iff : forall canon c s base a,
  agg_lives canon c s base a <-> exists m, agg_to_proto rel_to_proto a = Ok m /\
    agg_from_proto rel_type None canon c (Some base) m s = Ok (a, s).
Proof.
  intros canon c s base e. unfold agg_lives. apply agg_round_trip; [intros f H; discriminate|].
  intros r. split; [intros []|]. intros (p & f & _ & H & _). discriminate.
Qed.

Lemma is_nil_iff : forall e : expr rel, is_nil_expr e = true <-> e = blank.
Proof. intros e. destruct e; cbn; try (split; discriminate). destruct l; cbn; split; try discriminate; auto. Qed.
Lemma blank_dies : forall canon c s base, ~ expr_lives canon c s base blank.
Proof. intros canon c s base H. apply lives_iff in H as (m & E & _). discriminate. Qed.
Lemma eref_grows : forall canon c base, grows (eref_from_proto canon c base).
Proof.
  intros canon c base [names t] s y s' E. unfold eref_from_proto in E. cbn [pr_type pr_names] in E. destruct t.
  - inversion E; subst. apply extends_refl.
  - unb E. inversion E; subst. eapply dec_grows; [|eassumption]. intros f H; discriminate.
  - unb E. inversion E; subst. refine (proj1 (agg_good rel_type noconv canon c (Some base) (fun _ _ => True) (fun _ _ _ _ _ => I) _ m s a s' E0)).
    intros f p H; discriminate.
Qed.
Lemma eref_rt : forall canon c s base r, ref_survives canon c s base r <->
  exists m, eref_to_proto r = Ok m /\ eref_from_proto canon c base m s = Ok (r, s).
Proof.
  intros canon c s base [names e m]. unfold ref_survives, eref_to_proto. cbn [er_names er_expr er_measure].
  destruct (is_nil_expr e) eqn:N.
  - apply is_nil_iff in N. subst e. destruct m as [m|].
    + rewrite agg_lives_iff. split.
      * intros (_ & p & E1 & E2). rewrite E1. cbn [bind]. eexists; split; [reflexivity|]. unfold eref_from_proto. cbn [pr_type pr_names].
        rewrite E2. reflexivity.
      * intros (p & E1 & E2). unb E1. inversion E1; subst. unfold eref_from_proto in E2. cbn [pr_type pr_names] in E2.
        unb E2. inversion E2; subst. split; eauto.
    + split; [|auto]. intros _. eexists; split; reflexivity.
  - assert (NB : e <> blank) by (intros ->; discriminate). destruct m as [m|].
    + split; [intros [-> _]; contradiction|]. intros (p & E1 & E2). unb E1. inversion E1; subst. unfold eref_from_proto in E2. cbn [pr_type pr_names] in E2.
      unb E2. inversion E2.
    + rewrite lives_iff. split.
      * intros [->|(p & E1 & E2)]; [contradiction|]. rewrite E1. cbn [bind]. eexists; split; [reflexivity|]. unfold eref_from_proto. cbn [pr_type pr_names].
        rewrite E2. reflexivity.
      * intros (p & E1 & E2). unb E1. inversion E1; subst. unfold eref_from_proto in E2. cbn [pr_type pr_names] in E2.
        unb E2. inversion E2; subst. right; eauto.
Qed.
Lemma extended_rt : forall canon c us ds s x, get_extension_set (urn_loaded c) us ds = Ok s ->
  ex_set x = Some s -> ex_reg x = Some s ->
  (extended_survives canon c s x <->
   exists m, extended_to_proto (fun _ => Ok (us, ds)) x = Ok m /\ extended_from_proto canon c m = Ok x).
Proof.
  intros canon c us ds s [v st rs sch adv urls rg] E0 H1 H2. cbn [ex_set ex_reg] in *. subst.
  unfold extended_survives, extended_to_proto, extended_from_proto. cbn [ex_schema ex_refs ex_reg ex_version ex_adv ex_urls bind].
  rewrite schema_rt, <- All_Forall.
  rewrite (mapS_inverse _ _ eref_to_proto (eref_from_proto canon c (sc_types sch)) (ref_survives canon c s (sc_types sch)) s rs (eref_grows _ _ _)).
  2: { apply Forall_forall. intros x _. apply eref_rt. }
  split.
  - intros [(sm & E1 & E2) (ms & E3 & E4)]. rewrite E3. cbn [bind]. rewrite E1. cbn [bind]. eexists; split; [reflexivity|].
    cbn [px_urns px_decls px_schema px_refs px_version px_adv px_urls]. rewrite E0. cbn [bind]. rewrite E2. cbn [bind]. rewrite E4. reflexivity.
  - intros (m & E & E'). unb E. unb E. inversion E; subst. cbn [px_urns px_decls px_schema px_refs px_version px_adv px_urls] in E'.
    rewrite E0 in E'. cbn [bind] in E'. unb E'. unb E'. inversion E'; subst. split; eexists; split; eauto.
Qed.
Lemma survives_at : forall canon c s s' x, same_answers s s' -> extended_survives canon c s x <-> extended_survives canon c s' x.
Proof.
  intros canon c s s' x (HD & _ & _ & HF & _). unfold extended_survives.
  assert (HE : forall base e, expr_lives canon c s base e <-> expr_lives canon c s' base e).
  { intros base e. apply (survives_same canon c (fun _ => None) s s' (HD KFunc) HF). apply each_rel_intro. tauto. }
  assert (HA : forall base a, agg_lives canon c s base a <-> agg_lives canon c s' base a).
  { intros base a. unfold agg_lives, agg_survives.
    assert (H1 : Forall (arg_survives rel_type canon c (Some base) s (fun _ => False)) (ag_args a) <->
                 Forall (arg_survives rel_type canon c (Some base) s' (fun _ => False)) (ag_args a)).
    { split; apply Forall_impl; intros [| |e]; cbn; auto; apply HE. }
    assert (H2 : Forall (fun p => survives rel_type canon c (Some base) s (fun _ => False) (fst p) /\ snd p <> SK_nil) (ag_sorts a) <->
                 Forall (fun p => survives rel_type canon c (Some base) s' (fun _ => False) (fst p) /\ snd p <> SK_nil) (ag_sorts a)).
    { split; apply Forall_impl; intros p [H H']; split; auto; apply (HE base); exact H. }
    assert (HR := HD KFunc (ag_ref a)). cbn in HR. rewrite H1, H2, HR.
    destruct (ag_decl a); [tauto|]. setoid_rewrite (resolves_same canon s s' (HD KFunc) HF). tauto. }
  split; intros [H1 H2]; split; auto; (eapply Forall_impl; [|exact H2]); intros r; unfold ref_survives;
    destruct (er_measure r); rewrite HE || rewrite HA; tauto.
Qed.

(** ** C59 *)

(** Write an extended expression with the set it was read with, or one that answers like it,
    and read the message: it comes back as itself exactly if its schema survives and every
    entry is empty, an expression that survives or a measure that survives. *)
Theorem C59_round_trip : forall canon c x s iu it iv jf shuf us ds,
  ex_set x = Some s -> ex_reg x = Some s ->
  consistent s -> (forall a u, fm_get Z.eqb a (s_urns s) = Some u -> urn_loaded c u = true) ->
  Permutation (s_urns s) iu -> Permutation (s_types s) it -> Permutation (s_vars s) iv ->
  Permutation (s_funcs s) jf -> (forall x, Permutation (shuf x) x) ->
  to_proto iu it iv jf shuf = Ok (us, ds) ->
  exists s', get_extension_set (urn_loaded c) us ds = Ok s' /\ same_answers s s' /\
    (extended_survives canon c s x <->
     exists m, extended_to_proto (fun _ => Ok (us, ds)) x = Ok m /\
       extended_from_proto canon c m =
         Ok (Extended (ex_version x) (Some s') (ex_refs x) (ex_schema x) (ex_adv x) (ex_urls x) (Some s'))).
Proof.
  intros canon c [v st rs sch adv urls rg] s iu it iv jf shuf us ds Hs Hr (H1 & H2 & H3 & H4 & H5) H6 P1 P2 P3 P4 P5 E.
  cbn [ex_set ex_reg] in *. subst.
  destruct (ExtSetProps.C23_write_read_roundtrip_consistent (urn_loaded c) s iu it iv jf shuf us ds H1 H2 H3 H4 H5 H6 P1 P2 P3 P4 P5 E)
    as (s' & E' & SA).
  exists s'. split; auto. split; auto. rewrite (survives_at canon c s s' _ SA).
  exact (extended_rt canon c us ds s' (Extended v (Some s') rs sch adv urls (Some s')) E' eq_refl eq_refl).
Qed.

Definition a_schema : schema := Schema ["a"; "b"]%string 2 0 [XTy (TPrim PrimI32 2 0); XTy (TPrim PrimString 1 0)].
Definition an_entry : eref :=
  new_expression_reference ["sum"]%string
    (EScalar 1 ExprProps.add_fn [AExpr (ERef RRoot (RefSeg [SField 0]) (XTy (TPrim PrimI32 2 0))); AExpr (ELit ExprProps.five)] [] (TPrim PrimI32 2 0)).
Example C59_round_trip_nonvacuous : exists us ds m s',
  let c := Coll ["extension:x"%string] [] [(ExprProps.add_id, ExprProps.add_fn)] [] [] [] [] [] in
  let s := ExprProps.two_funcs in
  let x := fun s => Extended (Some "v"%string) (Some s) [an_entry; ExprRef [] blank None] a_schema None ["url"%string] (Some s) in
  to_proto (s_urns s) [] [] (s_funcs s) (fun x => x) = Ok (us, ds) /\
  extended_to_proto (fun _ => Ok (us, ds)) (x s) = Ok m /\ extended_from_proto ExprProps.plain_canon c m = Ok (x s').
Proof. eexists _, _, _, _. cbv zeta. split; [reflexivity|]. split; reflexivity. Qed.

(** What a written message says: everything in its place. *)
Theorem C59_written : forall write x m, extended_to_proto write x = Ok m ->
  (exists s, ex_reg x = Some s /\ write s = Ok (px_urns m, px_decls m)) /\
  px_version m = ex_version x /\ px_adv m = ex_adv x /\ px_urls m = ex_urls x /\
  (exists sm, px_schema m = Some sm /\ schema_says Writing (Some sm) (ex_schema x)) /\
  Forall2 entry_written (ex_refs x) (px_refs m).
Proof.
  intros write x m E. unfold extended_to_proto in E. destruct (ex_reg x) as [s|]; [|discriminate]. unb E. unb E. unb E. inversion E; subst.
  cbn [px_urns px_decls px_version px_adv px_urls px_schema px_refs]. split; [eauto|]. split; auto. split; auto. split; auto. split.
  - eexists; split; [reflexivity|]. apply schema_w; auto.
  - apply mapM_F2 in E1. eapply Forall2_impl'; [|exact E1]. intros [names e f] y H. unfold eref_to_proto in H. unfold entry_written.
    cbn [er_names er_expr er_measure] in *. destruct (is_nil_expr e) eqn:N.
    + apply is_nil_iff in N. destruct f; [unb H|]; inversion H; subst; cbn [pr_names pr_type]; eauto 6.
    + unb H. inversion H; subst. cbn [pr_names pr_type]. split; auto. split; auto. intros ->. discriminate.
Qed.
(** What was read says the same; the declarations grow only. *)
Theorem C59_read : forall canon c m x, extended_from_proto canon c m = Ok x ->
  (exists s s', get_extension_set (urn_loaded c) (px_urns m) (px_decls m) = Ok s /\ extends s s' /\
     ex_set x = Some s' /\ ex_reg x = Some s') /\
  ex_version x = px_version m /\ ex_adv x = px_adv m /\ ex_urls x = px_urls m /\
  schema_says Reading (px_schema m) (ex_schema x) /\
  Forall2 (entry_read canon c (sc_types (ex_schema x))) (px_refs m) (ex_refs x).
Proof.
  intros canon c m x E. unfold extended_from_proto in E. unb E. unb E. unb E. inversion E; subst.
  cbn [ex_set ex_reg ex_version ex_adv ex_urls ex_schema ex_refs]. split.
  { eexists _, _. split; [reflexivity|]. split; auto. revert E2. apply mapS_grows, eref_grows. }
  split; auto. split; auto. split; auto. split; [apply schema_r; auto|].
  apply mapS_F2 in E2. eapply Forall2_impl'; [|exact E2]. intros [names t] r (s1 & s2 & H). unfold eref_from_proto in H. unfold entry_read.
  cbn [pr_names pr_type] in *. destruct t; [|unb H|unb H]; inversion H; subst; cbn; eauto 8.
Qed.
(** ... and says it where the parts can be read: the declarations are looked at first, then the
    schema, then the entries in order; the first that fails decides how. *)
Theorem C59_refused : forall canon c m,
  (~ Forall (usable (urn_loaded c) (px_urns m)) (px_decls m) -> extended_from_proto canon c m = Err) /\
  (forall s, get_extension_set (urn_loaded c) (px_urns m) (px_decls m) = Ok s ->
     (forall names, px_schema m = Some (PNamedStruct names None) -> extended_from_proto canon c m = Panic) /\
     (forall sch rs r rest e s' x k, schema_from_proto (px_schema m) = Ok sch -> px_refs m = (rs ++ r :: rest)%list ->
        mapS (eref_from_proto canon c (sc_types sch)) rs s = Ok (x, s') -> pr_type r = PER_expr e ->
        ExprProps.fails (expr_from_proto rel_type None canon c (Some (sc_types sch)) e s') k ->
        ExprProps.fails (extended_from_proto canon c m) k) /\
     (forall sch rs r rest a s' x k, schema_from_proto (px_schema m) = Ok sch -> px_refs m = (rs ++ r :: rest)%list ->
        mapS (eref_from_proto canon c (sc_types sch)) rs s = Ok (x, s') -> pr_type r = PER_measure a ->
        ExprProps.fails (agg_from_proto rel_type None canon c (Some (sc_types sch)) a s') k ->
        ExprProps.fails (extended_from_proto canon c m) k)).
Proof.
  intros canon c m. split.
  { intros H. destruct (ExtSetProps.C23_read_exact (urn_loaded c) (px_urns m) (px_decls m)) as [[H1 _]|[_ H1]]; [contradiction|].
    unfold extended_from_proto. rewrite H1. reflexivity. }
  intros s E. unfold extended_from_proto. rewrite E. cbn [bind].
  assert (HM : forall (f : peref -> eset -> res (eref * eset)) rs r rest s x s' k, mapS f rs s = Ok (x, s') -> ExprProps.fails (f r s') k ->
    ExprProps.fails (mapS f (rs ++ r :: rest) s) k).
  { clear. intros f rs r rest. induction rs as [|y rs IH]; intros s x s' k H F; cbn in H |- *.
    - inversion H; subst. destruct F; constructor.
    - destruct (f y s) as [[z s1]| |]; try discriminate. fold (mapS f) in *. destruct (mapS f rs s1) as [[zs s2]| |] eqn:E2; try discriminate.
      inversion H; subst. destruct (IH _ _ _ _ E2 F); constructor. }
  split; [intros names ->; reflexivity|]. split.
  - intros sch rs r rest e s' x k ES -> EM ET F. rewrite ES. cbn [bind]. apply ExprProps.fails_bind. eapply HM; [exact EM|].
    unfold eref_from_proto. rewrite ET. apply ExprProps.fails_bind, F.
  - intros sch rs r rest e s' x k ES -> EM ET F. rewrite ES. cbn [bind]. apply ExprProps.fails_bind. eapply HM; [exact EM|].
    unfold eref_from_proto. rewrite ET. apply ExprProps.fails_bind, F.
Qed.

(** Every function an entry calls is declared in the set, where the message numbers the
    functions from 1. *)
Theorem C59_calls_are_declared : forall canon c m x s',
  functions_numbered (px_urns m) (px_decls m) ->
  extended_from_proto canon c m = Ok x -> ex_set x = Some s' -> fm_len (s_funcs s') < 2 ^ 32 ->
  Forall (entry_declared c s') (ex_refs x).
Proof.
  intros canon c m x s' N E HS HL. unfold extended_from_proto in E. unb E. unb E. unb E. inversion E; subst. cbn [ex_set ex_refs] in *.
  injection HS as ->. assert (C := numbered_compact _ _ _ _ E0 N).
  assert (KE : forall s s' r, keeps s s' -> entry_declared c s r -> entry_declared c s' r).
  { intros s1 s2 [names e f] K [H1 H2]. split; cbn [er_expr er_measure] in *.
    - revert H1. apply every_call_impl; [intros n v; apply names_keeps; auto..|tauto].
    - destruct f as [f|]; auto. destruct H2 as (H2 & H3 & H4). split; [|split].
      + destruct (ag_decl f); [eapply names_keeps; eauto|]. destruct H2 as [v H2]. exists v. eapply names_keeps; eauto.
      + apply All_Forall. apply All_Forall in H3. eapply Forall_impl; [|exact H3]. intros [| |y]; auto.
        apply every_call_impl; [intros n v; apply names_keeps; auto..|tauto].
      + apply All_Forall. apply All_Forall in H4. eapply Forall_impl; [|exact H4]. intros [y k].
        apply every_call_impl; [intros n v; apply names_keeps; auto..|tauto]. }
  assert (G : forall r, good (eref_from_proto canon c (sc_types a0) r) (entry_declared c)).
  { intros [names t] s1 y s2 H. unfold eref_from_proto in H. cbn [pr_type pr_names] in H. destruct t as [|e|f].
    - inversion H; subst. split; [apply extends_refl|]. intros C1 _. split; auto. split; [apply keeps_refl|]. split; cbn; auto.
    - unb H. inversion H; subst. clear H. refine (match dec_good rel_type noconv canon c (Some (sc_types a0)) (fun _ _ => False) (fun _ _ _ _ x => x) _ e s1 _ _ E3 with conj X1 X2 => conj X1 _ end).
      { intros f0 p H; discriminate. }
      intros C1 L1. destruct (X2 C1 L1) as (Q1 & Q2 & Q3). split; auto. split; auto. split; cbn; auto.
    - unb H. inversion H; subst. clear H. refine (match agg_good rel_type noconv canon c (Some (sc_types a0)) (fun _ _ => False) (fun _ _ _ _ x => x) _ f s1 _ _ E3 with conj X1 X2 => conj X1 _ end).
      { intros f0 p H; discriminate. }
      intros C1 L1. destruct (X2 C1 L1) as (Q1 & Q2 & Q3 & Q4 & Q5). split; auto. split; auto. split; cbn [set_measure er_expr er_measure].
      + exact I.
      + split; [exact Q5|]. split; apply All_Forall.
        * eapply Forall_impl; [|exact Q3]. intros [| |y]; auto.
        * eapply Forall_impl; [|exact Q4]. intros [y k]. auto. }
  destruct (mapS_good _ _ _ _ (px_refs m) KE ltac:(apply Forall_forall; intros r _; apply G) _ _ _ E2) as [_ H].
  exact (proj2 (proj2 (H C HL))).
Qed.

(** An entry holds one thing at a time: whatever is set last, and nothing else. *)
Definition apply_op (r : eref) (o : entry_op) : eref :=
  match o with Put_expr e => set_expr r e | Put_measure m => set_measure r m end.
Theorem C59_one_at_a_time : forall names e m ops o,
  (let r := new_expression_reference names e in er_names r = names /\ er_expr r = e /\ er_measure r = None) /\
  (let r := new_measure_reference names m in er_names r = names /\ er_expr r = blank /\ er_measure r = m) /\
  forall r, let r' := fold_left apply_op (ops ++ [o]) r in
    er_names r' = er_names r /\
    match o with
    | Put_expr e => er_expr r' = e /\ er_measure r' = None
    | Put_measure m => er_expr r' = blank /\ er_measure r' = m
    end.
Proof.
  intros names e m ops o. split; [cbn; auto|]. split; [cbn; auto|]. intros r. cbv zeta. rewrite fold_left_app. cbn [fold_left].
  assert (H : er_names (fold_left apply_op ops r) = er_names r).
  { revert r. induction ops as [|p ops IH]; intros r; cbn; auto. rewrite IH. destruct p; reflexivity. }
  destruct o; cbn; auto.
Qed.

(** *** what does not survive *)

(** A subquery can be written but not read: the reader has no converter for relations. *)
Theorem C59_subquery_refuted : exists x m s, ex_set x = Some s /\ ex_reg x = Some s /\
  extended_to_proto (fun _ => Ok ([], [])) x = Ok m /\ forall canon c, extended_from_proto canon c m = Err.
Proof.
  exists (Extended None (Some new_set) [new_expression_reference [] (ESubScalar (RProject (mapped (Some [2])) table [lit_true] None))] a_schema None [] (Some new_set)).
  eexists _, new_set. split; [reflexivity|]. split; [reflexivity|]. split; [reflexivity|]. intros canon c. reflexivity.
Qed.
(** A value assembled by hand cannot be written, whatever set it is given: the registry it is
    written with is only there after reading. *)
Theorem C59_assembled_by_hand_refuted : forall write version s refs sch adv urls,
  extended_to_proto write (Extended version (Some s) refs sch adv urls None) = Panic.
Proof. reflexivity. Qed.
(** ... and the public set of a value that was read is not what is written. *)
Theorem C59_set_ignored_refuted : forall write x s,
  extended_to_proto write (Extended (ex_version x) s (ex_refs x) (ex_schema x) (ex_adv x) (ex_urls x) (ex_reg x)) =
  extended_to_proto write x.
Proof. reflexivity. Qed.

Print Assumptions C59_round_trip.
Print Assumptions C59_written.
Print Assumptions C59_read.
Print Assumptions C59_refused.
Print Assumptions C59_calls_are_declared.
Print Assumptions C59_one_at_a_time.
Print Assumptions C59_subquery_refuted.
Print Assumptions C59_assembled_by_hand_refuted.
Print Assumptions C59_set_ignored_refuted.
