(** Whole plans: the properties C53 and C54 (see /verif/properties.jsonl). *)

From Coq Require Import ZArith String Bool Arith Lia Permutation List.
From Verif Require Import Base FMap TypesModel TypesSpec TypesProofs ExtSetModel ExtSetSpec ExtSetProofs LoadModel LitModel LitSpec
  ExprModel ExprOpsModel ExprSpec ExprWireProofs PlanModel PlanOpsModel PlanSpec PlanProofs PlanProps PlanWireSpec
  PlanWireProofs PlanWireProps PlanTripSpec PlanTripProofs.
From Verif Require ExtSetProps ExprProps.
Import ListNotations.
Local Open Scope Z_scope.

(** ** C53: the round trip of a plan *)

(** Write a plan together with its extension set and read the message with a collection that
    has the URNs of the set: the declarations read answer like the set, and the plan comes back
    as itself, exactly if every relation of it survives, every root has a name for every
    column, and every binding is a literal that survives. *)
Theorem C53_plan_round_trip : forall canon c decoders s iu it iv jf shuf us ds p,
  consistent s -> (forall a u, fm_get Z.eqb a (s_urns s) = Some u -> urn_loaded c u = true) ->
  Permutation (s_urns s) iu -> Permutation (s_types s) it -> Permutation (s_vars s) iv ->
  Permutation (s_funcs s) jf -> (forall x, Permutation (shuf x) x) ->
  to_proto iu it iv jf shuf = Ok (us, ds) ->
  exists s', get_extension_set (urn_loaded c) us ds = Ok s' /\ same_answers s s' /\
    (plan_survives canon c decoders s p <->
     exists m, plan_to_proto p (Ok (us, ds)) = Ok m /\ plan_from_proto canon c decoders m = Ok (p, s')).
Proof.
  intros canon c decoders s iu it iv jf shuf us ds p (H1 & H2 & H3 & H4 & H5) H6 P1 P2 P3 P4 P5 E.
  destruct (ExtSetProps.C23_write_read_roundtrip_consistent (urn_loaded c) s iu it iv jf shuf us ds H1 H2 H3 H4 H5 H6 P1 P2 P3 P4 P5 E)
    as (s' & E' & SA).
  exists s'. split; auto. split; auto. rewrite (plan_survives_same canon c decoders s s' p SA). apply plan_rt; auto.
Qed.
(** The same at a set just read. *)
Theorem C53_reread_round_trip : forall canon c decoders us ds s p, get_extension_set (urn_loaded c) us ds = Ok s ->
  (plan_survives canon c decoders s p <->
   exists m, plan_to_proto p (Ok (us, ds)) = Ok m /\ plan_from_proto canon c decoders m = Ok (p, s)).
Proof. intros. apply plan_rt; auto. Qed.
Example C53_round_trip_nonvacuous : exists us ds m s',
  let p := Plan (Some "v"%string) (Some "adv"%string) ["url"%string]
             [Relation (Some (wide_plan, ["b"; "a"; "g"; "m"]%string)) None; Relation None (Some phys_plan)]
             [(7, LPrim (VI64 5) (TPrim PrimI64 NullRequired 0))] in
  let c := Coll ["extension:x"%string] [] [(ExprProps.add_id, ExprProps.add_fn)] [] [] [] [] [] in
  consistent ExprProps.two_funcs /\
  to_proto (s_urns ExprProps.two_funcs) [] [] (s_funcs ExprProps.two_funcs) (fun x => x) = Ok (us, ds) /\
  plan_to_proto p (Ok (us, ds)) = Ok m /\ plan_from_proto ExprProps.plain_canon c (fun _ => None) m = Ok (p, s').
Proof.
  eexists _, _, _, _. cbv zeta. split; [|split; [reflexivity|split; [reflexivity|reflexivity]]].
  split; [repeat constructor; cbn; intuition|]. split.
  { intros a b u. cbn. destruct (Z.eqb_spec a 1); [|discriminate]. destruct (Z.eqb_spec b 1); [|discriminate]. congruence. }
  assert (N : ExprProps.add_id <> ExprProps.rank_id) by discriminate.
  split; [intros []; repeat constructor; cbn; intuition|].
  destruct ExprProps.C18_read_calls_nonvacuous as (_ & [C1 _] & _). split.
  - intros [] a id; [split; discriminate|split; discriminate|]. apply C1.
  - intros [] id a; [discriminate|discriminate|]. intros H. apply C1 in H. exists 1. unfold decode_func in H. cbn in H |- *.
    destruct (a =? 1); [inversion H; reflexivity|]. destruct (a =? 2); inversion H; reflexivity.
Qed.

(** What a written plan says: version, advanced extension and expected URLs as they are, the
    tables of the set, every relation and every binding in order. *)
Theorem C53_written : forall p ext m, plan_to_proto p ext = Ok m ->
  ext = Ok (pp_urns m, pp_decls m) /\
  pp_version m = pl_version p /\ pp_adv m = pl_adv p /\ pp_urls m = pl_urls p /\
  Forall2 relation_written (pl_relations p) (pp_relations m) /\
  Forall2 binding_written (pl_bindings p) (pp_bindings m).
Proof.
  intros p ext m E. unfold plan_to_proto in E. unb E. unb E. unb E. inversion E; subst.
  cbn [pp_urns pp_decls pp_version pp_adv pp_urls pp_relations pp_bindings]. split; auto. split; auto. split; auto. split; auto. split.
  - apply mapM_F2 in E1. eapply Forall2_impl'; [|exact E1]. intros [root i] x H. unfold relation_to_proto, relation_written in *. cbn [rl_root rl_rel] in *.
    destruct root as [[r names]|]; [|destruct i as [i|]; [|discriminate]]; unb H; inversion H; subst; auto.
  - apply mapM_F2 in E2. eapply Forall2_impl'; [|exact E2]. intros [an v] [bn x] H. unfold binding_written. cbn [pairM fst snd] in *.
    destruct (lit_to_proto v); inversion H; subst; auto.
Qed.
(** What a plan that was read says; a root without enough names is not read, nor is an entry
    that is neither a root nor a relation. *)
Theorem C53_read : forall canon c decoders m p s', plan_from_proto canon c decoders m = Ok (p, s') ->
  (exists s, get_extension_set (urn_loaded c) (pp_urns m) (pp_decls m) = Ok s /\ extends s s') /\
  pl_version p = pp_version m /\ pl_adv p = pp_adv m /\ pl_urls p = pp_urls m /\
  Forall2 (relation_read canon c decoders) (pp_relations m) (pl_relations p) /\
  Forall2 binding_read (pp_bindings m) (pl_bindings p).
Proof.
  intros canon c decoders m p s' E. unfold plan_from_proto in E. unb E. unb E. unb E. inversion E; subst.
  cbn [pl_version pl_adv pl_urls pl_relations pl_bindings]. split.
  { exists a. split; auto. revert E1. apply mapS_grows, relation_grows. }
  split; auto. split; auto. split; auto. split.
  - apply mapS_F2 in E1. eapply Forall2_impl'; [|exact E1]. intros x r (s1 & s2 & H). destruct x; cbn [relation_from_proto relation_read] in *; [discriminate| |].
    + unb H. inversion H; subst. cbn. split; auto. eauto 8.
    + unb H. unb H. inversion H; subst. cbn. split; auto. eexists _, _, _. split; [reflexivity|]. split; [eassumption|].
      apply root_check. match goal with u : unit |- _ => destruct u end. assumption.
  - apply mapM_F2 in E2. eapply Forall2_impl'; [|exact E2]. intros [an v] [bn y] H. unfold binding_read. cbn [pairM fst snd] in *.
    destruct (lit_from_proto v); inversion H; subst; auto.
Qed.

(** Messages with a declaration that cannot be used, or with an entry that is neither a root nor
    a relation, are not read. *)
Theorem C53_refused : forall canon c decoders m,
  (exists us ds, (us, ds) = (pp_urns m, pp_decls m) /\ ~ Forall (usable (urn_loaded c) us) ds) \/
  In PPR_unset (pp_relations m) -> forall p s, plan_from_proto canon c decoders m <> Ok (p, s).
Proof.
  intros canon c decoders m H p s E. apply C53_read in E as ((s0 & E & _) & _ & _ & _ & F & _).
  destruct H as [(us & ds & H1 & H2)|H].
  - inversion H1; subst. destruct (ExtSetProps.C23_read_exact (urn_loaded c) (pp_urns m) (pp_decls m)) as [[H _]|[_ H]]; [auto|congruence].
  - destruct (F2_in_l _ _ _ _ _ _ F H) as [y []].
Qed.

(** An entry that is neither a root nor a relation is an error of reading, after entries that are read. *)
Theorem C53_unset_entry : forall canon c decoders version adv urls us ds before after bindings p s,
  plan_from_proto canon c decoders (PPlan version adv urls before us ds []) = Ok (p, s) ->
  plan_from_proto canon c decoders (PPlan version adv urls (before ++ PPR_unset :: after) us ds bindings) = Err.
Proof.
  intros canon c decoders version adv urls us ds before after bindings p s E. unfold plan_from_proto in *. cbn [pp_urns pp_decls pp_relations pp_bindings] in *.
  unb E. cbn [bind]. destruct (mapS _ before a) as [[rs s1]| |] eqn:M; try discriminate E. clear E.
  match goal with |- bind ?x _ = _ => assert (X : x = Err); [|rewrite X; reflexivity] end.
  clear E0. revert a rs M. induction before as [|x l IH]; intros a rs M; [reflexivity|]. cbn [mapS app] in *.
  destruct (relation_from_proto canon c decoders x a) as [[r s2]| |]; cbn [bind] in *; try discriminate M.
  destruct (mapS _ l s2) as [[rs' s3]| |] eqn:M2; cbn [bind] in M; try discriminate M. injection M as <- ->.
  rewrite (IH _ _ M2). reflexivity.
Qed.
(** Writing a plan with an entry that is neither panics, after entries that are written. *)
Theorem C53_empty_entry : forall version adv urls before after bindings us ds m,
  plan_to_proto (Plan version adv urls before []) (Ok (us, ds)) = Ok m ->
  plan_to_proto (Plan version adv urls (before ++ Relation None None :: after) bindings) (Ok (us, ds)) = Panic.
Proof.
  intros version adv urls before after bindings us ds m E. unfold plan_to_proto in *. cbn [pl_relations pl_bindings bind] in *. unb E.
  match goal with |- bind ?x _ = _ => assert (X : x = Panic); [|rewrite X; reflexivity] end.
  clear - E0. revert a E0. induction before as [|r l IH]; intros a E; [reflexivity|]. cbn [mapM app] in *.
  destruct (relation_to_proto r); try discriminate E. destruct (mapM relation_to_proto l); try discriminate E. rewrite (IH _ eq_refl). reflexivity.
Qed.

Example C53_entry_nonvacuous :
  let p := Plan None None [] [Relation (Some (fetched, ["a"; "b"]%string)) None] [] in
  exists m s, plan_to_proto p (Ok ([], [])) = Ok m /\ plan_from_proto ExprProps.plain_canon ExprProps.no_coll (fun _ => None) m = Ok (p, s).
Proof. eexists _, _. split; reflexivity. Qed.

(** A plan that is read is not checked like a plan that is built: a binding for a parameter
    no relation uses is accepted. *)
Theorem C53_unchecked_binding_refuted : exists m p s b, let r := fetched in
  plan_from_proto ExprProps.plain_canon ExprProps.no_coll (fun _ => None) m = Ok (p, s) /\
  pl_relations p = [Relation (Some (r, ["a"; "b"]%string)) None] /\ pl_bindings p = [b] /\
  forall version urls, plan_with_bindings version (Some r) ["a"; "b"]%string urls [b] [] = Err.
Proof.
  destruct (plan_to_proto (Plan None None [] [Relation (Some (fetched, ["a"; "b"]%string)) None] [(7, LPrim (VI64 5) (TPrim PrimI64 NullRequired 0))])
    (Ok ([], []))) as [m| |] eqn:E; try (vm_compute in E; discriminate).
  exists m. eexists _, _, _. cbv zeta. vm_compute in E. inversion E; subst. split; [reflexivity|]. split; [reflexivity|].
  split; [reflexivity|]. intros. reflexivity.
Qed.

(** ** C54: the functions of a plan that was read *)

(** Every call anywhere in a relation that was read — in its inputs, its expressions and
    their subqueries, its measures and join keys — names a function of the final set: one of
    the collection, or the one the call spells out.  And no anchor lost its meaning. *)
Theorem C54_relation_calls_are_declared : forall canon c decoders m s r s',
  compact s -> rel_from_proto canon c decoders m s = Ok (r, s') -> fm_len (s_funcs s') < 2 ^ 32 ->
  compact s' /\ keeps s s' /\ calls_declared c s' r.
Proof. intros canon c decoders m s r s' C E L. exact (proj2 (rel_declared canon c decoders m s r s' E) C L). Qed.

(** For a plan message it is enough that its declarations number the functions from 1. *)
Theorem C54_plan_calls_are_declared : forall canon c decoders m p s',
  functions_numbered (pp_urns m) (pp_decls m) ->
  plan_from_proto canon c decoders m = Ok (p, s') -> fm_len (s_funcs s') < 2 ^ 32 ->
  forall r, (exists names, In (r, names) (get_roots p)) \/ In (Some r) (get_non_roots p) -> calls_declared c s' r.
Proof.
  intros canon c decoders m p s' N E L r Hr. unfold plan_from_proto in E. unb E. unb E. unb E. inversion E; subst.
  assert (C := numbered_compact _ _ _ _ E0 N).
  destruct (proj2 (relations_declared canon c decoders _ _ _ _ E1) C L) as (_ & _ & F). rewrite Forall_forall in F.
  destruct Hr as [[names Hr]|Hr].
  - unfold get_roots in Hr. apply in_flat_map in Hr as (x & Hx & Hr). cbn [pl_relations] in Hx.
    destruct (rl_root x) as [[i ns]|] eqn:Er; [|destruct Hr]. destruct Hr as [Hr|[]]. inversion Hr; subst.
    destruct (F _ Hx) as [F1 _]. eapply F1; eauto.
  - unfold get_non_roots in Hr. apply in_flat_map in Hr as (x & Hx & Hr). cbn [pl_relations] in Hx.
    destruct (rl_root x) as [[i ns]|] eqn:Er; [destruct Hr|]. destruct Hr as [Hr|[]].
    destruct (F _ Hx) as [_ F2]. eapply F2; eauto.
Qed.
Example C54_nonvacuous : exists m p s',
  let c := Coll ["extension:x"%string] [] [(ExprProps.add_id, ExprProps.add_fn)] [] [] [] [] [] in
  functions_numbered (pp_urns m) (pp_decls m) /\ pp_decls m <> [] /\
  plan_from_proto ExprProps.plain_canon c (fun _ => None) m = Ok (p, s') /\ fm_len (s_funcs s') < 2 ^ 32 /\
  exists names, In (wide_plan, names) (get_roots p).
Proof.
  destruct (plan_to_proto (Plan None None [] [Relation (Some (wide_plan, ["b"; "a"; "g"; "m"]%string)) None] [])
    (Ok ([UrnMsg 5 "extension:x"], [DFunc 5 2 "rank:i32"; DFunc 5 1 "add:i32_i32"]))) as [m| |] eqn:E; try (vm_compute in E; discriminate).
  exists m. eexists _, _. cbv zeta. vm_compute in E. inversion E; subst. split.
  { unfold functions_numbered. cbn. split; [repeat constructor; cbn; intuition discriminate|].
    split; [repeat constructor; cbn; intuition discriminate|]. repeat constructor; cbn; lia. }
  split; [discriminate|]. split; [vm_compute; reflexivity|]. split; [cbn; lia|]. eexists. cbn [get_roots pl_relations flat_map rl_root app]. left. reflexivity.
Qed.

(** Without that numbering a call can end up as a call of another function: functions at
    anchors 2 and 3, the first of which the reader renames and gives anchor 3 = 2 + 1. *)
Theorem C54_gap_misdirects_call_refuted : exists m p s' v args opts out,
  let c := Coll ["u"%string] [] [] [] [] [] [] [] in
  pp_decls m = [DFunc 1 2 "f"%string; DFunc 1 3 "g:i32"%string] /\
  pp_relations m = [PPR_root (PR_project None (PR_read None None PX_nil PX_nil None None (PRd_named ["t"%string] None))
    [PX_scalar 2 [] [] (Some (PT_i32 2 0)); PX_scalar 3 [] [] (Some (PT_i32 2 0))] None) ["x"; "y"]%string] /\
  plan_from_proto ExprProps.plain_canon c (fun _ => None) m = Ok (p, s') /\
  (exists cm i e1, get_roots p = [(RProject cm i [e1; EScalar 3 v args opts out] None, ["x"; "y"]%string)]) /\
  v_name v = "f"%string /\ decode_func 3 s' = Some (ExtId "u" "f:").
Proof.
  eexists (PPlan None None [] _ [UrnMsg 1 "u"] _ []), _, _, _, _, _, _. cbv zeta. split; [reflexivity|]. split; [reflexivity|].
  split; [vm_compute; reflexivity|]. split; [eexists _, _, _; reflexivity|]. split; reflexivity.
Qed.

Print Assumptions C53_plan_round_trip.
Print Assumptions C53_reread_round_trip.
Print Assumptions C53_written.
Print Assumptions C53_read.
Print Assumptions C53_refused.
Print Assumptions C53_unset_entry.
Print Assumptions C53_empty_entry.
Print Assumptions C53_unchecked_binding_refuted.
Print Assumptions C54_relation_calls_are_declared.
Print Assumptions C54_plan_calls_are_declared.
Print Assumptions C54_gap_misdirects_call_refuted.
