(** Proofs for C53 and C54: whole plans, and the functions their relations call. *)

From Coq Require Import ZArith String Bool Arith Lia Permutation List.
From Verif Require Import Base FMap FMapFacts TypesModel TypesSpec TypesProofs ExtSetModel ExtSetSpec ExtSetProofs
  LoadModel LitModel LitSpec LitProofs ExprModel ExprSpec ExprProofs ExprWireProofs ExprDeclProofs
  PlanModel PlanOpsModel PlanSpec PlanProofs PlanBuildProofs PlanGroupProofs PlanWireSpec PlanWireProofs PlanTripSpec.
Import ListNotations.
Local Open Scope Z_scope.

(** ** survival depends on the answers of the set only *)

Section Same.
Variable canon : string -> option string.
Variable c : coll.
Variable decoders : string -> option (any -> res extdef).
Variable s s' : eset.
Hypothesis D : forall a, decode_func a s = decode_func a s'.
Hypothesis F : forall id, fm_get ext_id_eqb id (s_funcs s) = fm_get ext_id_eqb id (s_funcs s').

Lemma resolves_same : forall get d w ref v, resolves get canon d w s ref v <-> resolves get canon d w s' ref v.
Proof.
  intros get d w ref v. split; intros H.
  - destruct H; [eapply RF_known; eauto; rewrite <- D; auto|eapply RF_custom; eauto; [rewrite <- D; auto|rewrite <- F; auto]].
  - destruct H; [eapply RF_known; eauto; rewrite D; auto|eapply RF_custom; eauto; [rewrite D; auto|rewrite F; auto]].
Qed.

Lemma survives_same : forall R (rs : R -> res (list xtype)) base (P Q : R -> Prop) e,
  each_rel (fun r => P r <-> Q r) e ->
  (survives rs canon c base s P e <-> survives rs canon c base s' Q e).
Proof.
  intros R rs base P Q e. pattern e. apply expr_ind'. clear e. intros e IH' HE.
  apply each_rel_down in HE as [HO HE].
  assert (IH : Forall (fun e => survives rs canon c base s P e <-> survives rs canon c base s' Q e) (children e)).
  { clear HO. induction HE as [|x l Hx Hl IHl]; [constructor|]. inversion IH'; subst. constructor; auto. }
  clear IH' HE. destruct e; cbn [children own_rel survives] in *; try tauto.
  - destruct r; try tauto. inversion IH; subst. tauto.
  - apply ch_args in IH. rewrite resolves_same. allswap args; [|tauto]. eapply Forall_impl; [|exact IH]. intros [| |x]; tauto.
  - apply Forall_app in IH. destruct IH as [IH1 IH]. apply Forall_app in IH. destruct IH as [IH2 IH3].
    apply ch_args in IH1. apply ch_map in IH3. rewrite resolves_same.
    allswap args; [eapply Forall_impl; [|exact IH1]; intros [| |x]; tauto|].
    allswap parts; [exact IH2|].
    allswap sorts; [eapply Forall_impl; [|exact IH3]; intros [x k]; cbn [fst]; tauto|]. tauto.
  - apply Forall_app in IH. destruct IH as [IH1 IH2]. inversion IH2; subst. apply ch_pairs in IH1.
    allswap ifs; [eapply Forall_impl; [|exact IH1]; intros [x k]; cbn [fst snd]; tauto|]. tauto.
  - inversion IH as [|? ? H1 IH']; subst. apply Forall_app in IH'. destruct IH' as [IH1 IH2]. inversion IH2; subst. apply ch_map in IH1.
    allswap ifs; [eapply Forall_impl; [|exact IH1]; intros [x k]; cbn [fst snd]; tauto|]. tauto.
  - inversion IH; subst. allswap opts; [eassumption|]. tauto.
  - apply Forall_app in IH. destruct IH as [IH1 IH2]. apply ch_concat in IH2.
    allswap v; [exact IH1|]. allswap opts; [eapply Forall_impl; [|exact IH2]; intros l Hl; apply All_iff; exact Hl|]. tauto.
  - inversion IH; subst. tauto.
  - apply ch_pairs in IH. allswap kvs; [eapply Forall_impl; [|exact IH]; intros [x k]; cbn [fst snd]; tauto|]. tauto.
  - apply All_iff; auto.
  - allswap vals; [exact IH|]. tauto.
  - inversion IH; subst. tauto.
  - allswap needles; [exact IH|]. tauto.
  - inversion IH; subst. tauto.
Qed.

Notation W := (rel_survives canon c decoders s).
Notation W' := (rel_survives canon c decoders s').
Notation same := (fun r => W r <-> W' r).
Notation sv base := (survives rel_type canon c base s W).
Notation sv' base := (survives rel_type canon c base s' W').

Lemma list_same : forall base l, All (each_rel same) l -> (All (sv base) l <-> All (sv' base) l).
Proof.
  intros base l H. apply All_iff. apply All_Forall in H. eapply Forall_impl; [|exact H].
  intros e. apply survives_same.
Qed.
Lemma rows_same : forall base l, All (All (each_rel same)) l -> (All (All (sv base)) l <-> All (All (sv' base)) l).
Proof.
  intros base l H. apply All_iff. apply All_Forall in H. eapply Forall_impl; [|exact H].
  intros e. apply list_same.
Qed.
Lemma absent_same : forall base e, each_rel same e -> (absent_or (sv base) e <-> absent_or (sv' base) e).
Proof. intros base e H. unfold absent_or. rewrite (survives_same rel rel_type base W W' e H). tauto. Qed.
Lemma sorts_same : forall base (l : list (expr rel * sortkind)), sorts_each same l ->
  (All (fun p => match p with (e, k) => sv base e /\ k <> SK_nil end) l <->
   All (fun p => match p with (e, k) => sv' base e /\ k <> SK_nil end) l).
Proof.
  intros base l H. apply All_iff. apply All_Forall in H. eapply Forall_impl; [|exact H].
  intros [e k] He. rewrite (survives_same rel rel_type base W W' e He). tauto.
Qed.
Lemma side_same : forall base f, fref_each same f -> (side_ok canon c s base W f <-> side_ok canon c s' base W' f).
Proof.
  intros base [r f k] H. unfold side_ok, fref_each in *. cbn [fr_root fr_ref fr_known] in *.
  destruct r; try tauto. rewrite (survives_same rel rel_type (Some base) W W' e H). tauto.
Qed.
Lemma measure_same : forall base m, measure_each same m -> (measure_ok canon c s base W m <-> measure_ok canon c s' base W' m).
Proof.
  intros base [f e] [H1 H2]. unfold measure_ok. cbn [ms_fn ms_filter] in *. rewrite (absent_same base e H2).
  destruct f as [f|]; [|tauto]. destruct H1 as [H1 H3]. unfold agg_ok. rewrite (sorts_same base _ H3).
  assert (HA : All (fun x => match x with AEnum _ => True | AType t => arg_wire_type t | AExpr e => sv base e end) (ag_args f) <->
               All (fun x => match x with AEnum _ => True | AType t => arg_wire_type t | AExpr e => sv' base e end) (ag_args f)).
  { apply All_iff. apply All_Forall in H1. eapply Forall_impl; [|exact H1]. intros [| |x] Hx; try tauto.
    apply survives_same; auto. }
  rewrite HA.
  assert (HD : (match ag_decl f with
   | Some v => exists id, decode_func (ag_ref f) s = Some id /\ get_agg c id = Some v
   | None => exists id v, decode_func (ag_ref f) s = Some id /\ get_agg c id = None /\ resolves (get_agg c) canon "NONE" "" s (ag_ref f) v
   end) <-> (match ag_decl f with
   | Some v => exists id, decode_func (ag_ref f) s' = Some id /\ get_agg c id = Some v
   | None => exists id v, decode_func (ag_ref f) s' = Some id /\ get_agg c id = None /\ resolves (get_agg c) canon "NONE" "" s' (ag_ref f) v
   end)).
  { rewrite D. destruct (ag_decl f); [tauto|]. setoid_rewrite resolves_same. tauto. }
  tauto.
Qed.

Lemma rel_same : forall r, W r <-> W' r.
Proof.
  apply rel_ind'. intros r H.
  destruct r; cbn [rel_survives rel_each] in *.
  - destruct H as (H1 & H2 & H3). rewrite (absent_same _ _ H1), (absent_same _ _ H2).
    assert (HK : kind_ok (sv None) k <-> kind_ok (sv' None) k).
    { destruct k; cbn [kind_ok]; try tauto. apply rows_same; auto. }
    tauto.
  - destruct H as [H1 H2]. destruct (rel_type r) as [cols| |]; try tauto. rewrite (list_same (Some cols) _ H2). tauto.
  - destruct H as (H1 & H2 & H3 & H4). destruct (rel_type r1) as [lt| |]; try tauto. destruct (rel_type r2) as [rt| |]; try tauto.
    rewrite (absent_same (Some (lt ++ rt)%list) _ H4), (survives_same rel rel_type (Some (lt ++ rt)%list) W W' _ H3). tauto.
  - tauto.
  - tauto.
  - destruct H as (H1 & H2 & H3). destruct (rel_type r) as [cols| |]; try tauto. rewrite (list_same (Some cols) _ H3).
    assert (HM : All (measure_ok canon c s (Some cols) W) measures <-> All (measure_ok canon c s' (Some cols) W') measures).
    { apply All_iff. apply All_Forall in H2. eapply Forall_impl; [|exact H2]. intros m. apply measure_same. }
    tauto.
  - destruct H as [H1 H2]. destruct (rel_type r) as [cols| |]; try tauto. rewrite (sorts_same (Some cols) _ H2). tauto.
  - destruct H as [H1 H2]. destruct (rel_type r) as [cols| |]; try tauto.
    rewrite (survives_same rel rel_type (Some cols) W W' _ H2). tauto.
  - apply All_Forall in H. apply All_iff in H. tauto.
  - tauto.
  - tauto.
  - apply All_Forall in H. apply All_iff in H. tauto.
  - destruct H as (H1 & H2 & H3 & H4). destruct (rel_type r1) as [lt| |]; try tauto. destruct (rel_type r2) as [rt| |]; try tauto.
    assert (HK : All (key_ok canon c s lt rt W) keys <-> All (key_ok canon c s' lt rt W') keys).
    { apply All_iff. apply All_Forall in H3. eapply Forall_impl; [|exact H3]. intros k [HL HR]. unfold key_ok.
      rewrite (side_same _ _ HL), (side_same _ _ HR). tauto. }
    assert (HP : forall base, sv base post <-> sv' base post) by (intros base; apply survives_same; auto).
    unfold absent_or. destruct (c_map _); [setoid_rewrite HP|rewrite HP]; tauto.
  - destruct H as (H1 & H2 & H3 & H4). destruct (rel_type r1) as [lt| |]; try tauto. destruct (rel_type r2) as [rt| |]; try tauto.
    assert (HK : All (key_ok canon c s lt rt W) keys <-> All (key_ok canon c s' lt rt W') keys).
    { apply All_iff. apply All_Forall in H3. eapply Forall_impl; [|exact H3]. intros k [HL HR]. unfold key_ok.
      rewrite (side_same _ _ HL), (side_same _ _ HR). tauto. }
    assert (HP : forall base, sv base post <-> sv' base post) by (intros base; apply survives_same; auto).
    unfold absent_or. destruct (c_map _); [setoid_rewrite HP|rewrite HP]; tauto.
  - tauto.
Qed.
End Same.

(** ** plans *)

Lemma root_check : forall i names, root_names_ok i names <->
  (if type_supported i then let! t := rel_type i in check_root_names t names else Ok tt) = Ok tt.
Proof.
  intros i names. unfold root_names_ok.
  assert (HU : unchecked i <-> type_supported i = false).
  { destruct i; cbn; try (split; [intros []|discriminate]); try (split; auto; fail); destruct def; cbn; split; auto; try discriminate; intros []. }
  rewrite HU. destruct (type_supported i); [|tauto].
  unfold check_root_names. destruct (rel_type i) as [t| |]; cbn [bind].
  - rewrite schema_count. split.
    + intros [H|(cols & E & L)]; [discriminate|]. injection E as <-. rewrite L, Nat.eqb_refl. reflexivity.
    + intros H. right. exists t. split; auto. apply Nat.eqb_eq. destruct (_ =? _)%nat; [auto|discriminate].
  - split; [intros [H|(cols & E & L)]|]; discriminate.
  - split; [intros [H|(cols & E & L)]|]; discriminate.
Qed.

Section Plans.
Variable canon : string -> option string.
Variable c : coll.
Variable decoders : string -> option (any -> res extdef).
Notation CV := (rel_from_proto canon c decoders).

Lemma relation_grows : grows (relation_from_proto canon c decoders).
Proof.
  intros m s y s' E. destruct m; cbn [relation_from_proto] in E; [discriminate| |].
  - unb E. inversion E; subst. eapply rel_grows; eauto.
  - unb E. unb E. inversion E; subst. eapply rel_grows; eauto.
Qed.

Lemma relation_rt : forall s r, relation_survives canon c decoders s r <->
  exists m, relation_to_proto r = Ok m /\ relation_from_proto canon c decoders m s = Ok (r, s).
Proof.
  intros s [root i]. unfold relation_survives, relation_to_proto. cbn [rl_root rl_rel].
  destruct root as [[x names]|].
  - destruct i as [i|].
    + split; [intros []|]. intros (m & E & E'). unb E. injection E as <-. cbn [relation_from_proto] in E'. unb E'. unb E'. inversion E'.
    + rewrite rel_rt, root_check. split.
      * intros [(m & E1 & E2) E3]. exists (PPR_root m names). rewrite E1. cbn [bind]. split; auto.
        cbn [relation_from_proto]. rewrite E2. cbn [bind]. rewrite E3. reflexivity.
      * intros (m & E & E'). unb E. injection E as <-. cbn [relation_from_proto] in E'. unb E'. unb E'. inversion E'; subst.
        split; [exists a; auto|]. destruct a0. exact E1.
  - destruct i as [i|]; [|split; [intros []|intros (m & E & _); discriminate]].
    rewrite rel_rt. split.
    + intros (m & E1 & E2). exists (PPR_rel m). rewrite E1. cbn [bind]. split; auto.
      cbn [relation_from_proto]. rewrite E2. reflexivity.
    + intros (m & E & E'). unb E. injection E as <-. cbn [relation_from_proto] in E'. unb E'. inversion E'; subst. exists a; auto.
Qed.

Lemma bindings_rt : forall bs, Forall (fun b : binding => supported (snd b)) bs <->
  exists ms, mapM (pairM (fun a => Ok a) lit_to_proto) bs = Ok ms /\
             mapM (pairM (fun a => Ok a) lit_from_proto) ms = Ok bs.
Proof.
  intros bs. rewrite <- All_Forall. apply mapM_inverse. apply Forall_forall. intros [a l] _. cbn [snd pairM].
  assert (HL := enc_dec_all_lit l). unfold sup_char in HL. rewrite HL. split.
  - intros (m & E1 & E2). exists (a, m). cbn [pairM]. rewrite E1, E2. auto.
  - intros ([a' m] & E1 & E2). cbn [pairM] in *. destruct (lit_to_proto l) as [m'| |] eqn:El; inversion E1; subst.
    destruct (lit_from_proto m) as [l'| |] eqn:Er; inversion E2; subst. eauto.
Qed.

Lemma plan_rt : forall us ds s0 p, get_extension_set (urn_loaded c) us ds = Ok s0 ->
  (plan_survives canon c decoders s0 p <->
   exists m, plan_to_proto p (Ok (us, ds)) = Ok m /\ plan_from_proto canon c decoders m = Ok (p, s0)).
Proof.
  intros us ds s0 [v a u rs bs] E0. unfold plan_survives, plan_to_proto, plan_from_proto.
  cbn [pl_version pl_adv pl_urls pl_relations pl_bindings bind].
  rewrite <- All_Forall.
  rewrite (mapS_inverse _ _ relation_to_proto (relation_from_proto canon c decoders) (relation_survives canon c decoders s0) s0 rs relation_grows).
  2: { apply Forall_forall. intros x _. apply relation_rt. }
  rewrite bindings_rt. split.
  - intros [(ms & E1 & E2) (bm & E3 & E4)]. rewrite E1. cbn [bind]. rewrite E3. cbn [bind].
    eexists. split; [reflexivity|]. cbn [pp_urns pp_decls pp_relations pp_bindings pp_version pp_adv pp_urls].
    rewrite E0. cbn [bind]. rewrite E2. cbn [bind]. rewrite E4. reflexivity.
  - intros (m & E & E'). unb E. unb E. injection E as <-. cbn [pp_urns pp_decls pp_relations pp_bindings pp_version pp_adv pp_urls] in E'.
    rewrite E0 in E'. cbn [bind] in E'. unb E'. unb E'. inversion E'; subst. split; eexists; split; auto; assumption.
Qed.

Lemma plan_survives_same : forall s s' p, same_answers s s' -> plan_survives canon c decoders s p <-> plan_survives canon c decoders s' p.
Proof.
  intros s s' p (HD & _ & _ & HF & _). unfold plan_survives.
  assert (HR : Forall (relation_survives canon c decoders s) (pl_relations p) <-> Forall (relation_survives canon c decoders s') (pl_relations p)).
  { rewrite <- !All_Forall. apply All_iff. apply Forall_forall. intros [root i] _. unfold relation_survives. cbn [rl_root rl_rel].
    assert (HS := rel_same canon c decoders s s' (HD KFunc) HF).
    destruct root as [[x names]|], i; try tauto; try (rewrite HS; tauto). }
  tauto.
Qed.
End Plans.

(** ** declared calls *)

Ltac use G :=
  let X := fresh "X" in let H := fresh "H" in
  match goal with E : _ = Ok _ |- _ =>
    first [destruct (G _ _ _ E) as [X H] | destruct (G _ _ _ _ _ E) as [X H]]; clear E end.
Ltac finish :=
  split; [eauto 8 using extends_trans, extends_refl|];
  let C := fresh "C" in let HL := fresh "HL" in
  intros C HL;
  repeat match goal with
  | X : extends ?a ?b |- _ =>
      assert (fm_len (s_funcs a) <= fm_len (s_funcs b)) by (destruct X as [->|]; lia); clear X
  end;
  repeat match goal with
  | C : compact ?s, H : compact ?s -> fm_len (s_funcs ?t) < _ -> _ |- _ =>
      let L := fresh "L" in let Cn := fresh "C" in let Kn := fresh "K" in let Pn := fresh "P" in
      assert (L : fm_len (s_funcs t) < 2 ^ 32) by lia;
      destruct (H C L) as (Cn & Kn & Pn); clear H
  end;
  split; [assumption|]; split; [eauto 8 using keeps_trans, keeps_refl|].
Ltac keepk := eauto 8 using keeps_trans, keeps_refl.

Lemma All_imp : forall A (P Q : A -> Prop) l, All (fun x => P x -> Q x) l -> All P l -> All Q l.
Proof. induction l; cbn; tauto. Qed.

Section CallsImpl.
Variable P Q P' Q' : Z -> variant -> Prop.
Variable A A' : Z -> option variant -> Prop.
Hypothesis HP : forall n v, P n v -> P' n v.
Hypothesis HQ : forall n v, Q n v -> Q' n v.
Hypothesis HA : forall n v, A n v -> A' n v.

Lemma every_call_at : forall R (S S' : R -> Prop) (e : expr R), each_rel (fun r => S r -> S' r) e ->
  every_call P Q S e -> every_call P' Q' S' e.
Proof.
  intros R S S' e. pattern e. apply expr_ind'. clear e. intros e IH' HE.
  apply each_rel_down in HE as [HO HE].
  assert (IH : Forall (fun e => every_call P Q S e -> every_call P' Q' S' e) (children e)).
  { clear HO. induction HE as [|x l Hx Hl IHl]; [constructor|]. inversion IH'; subst. constructor; auto. }
  clear IH' HE.
  assert (AL : forall l, Forall (fun e : expr R => every_call P Q S e -> every_call P' Q' S' e) l ->
            All (every_call P Q S) l -> All (every_call P' Q' S') l).
  { intros l H. apply All_imp. apply All_Forall. exact H. }
  destruct e; cbn [children own_rel every_call] in *; auto.
  - destruct r; auto. inversion IH; subst; auto.
  - intros [H1 H2]. split; auto. apply ch_args in IH. revert H2. apply All_imp. apply All_Forall.
    eapply Forall_impl; [|exact IH]. intros [| |x]; auto.
  - apply Forall_app in IH. destruct IH as [IH1 IH]. apply Forall_app in IH. destruct IH as [IH2 IH3].
    apply ch_args in IH1. apply ch_map in IH3.
    intros (H1 & H2 & H3 & H4). split; auto. split; [|split; auto].
    + revert H2. apply All_imp. apply All_Forall. eapply Forall_impl; [|exact IH1]. intros [| |x]; auto.
    + revert H4. apply All_imp. apply All_Forall. eapply Forall_impl; [|exact IH3]. intros [x k]; auto.
  - apply Forall_app in IH. destruct IH as [IH1 IH2]. inversion IH2; subst. apply ch_pairs in IH1. intros [H3 H4]. split; auto.
    revert H3. apply All_imp. apply All_Forall. eapply Forall_impl; [|exact IH1]. intros [x k]; cbn [fst snd]; tauto.
  - inversion IH as [|? ? Hm IH']; subst. apply Forall_app in IH'. destruct IH' as [IH1 IH2]. inversion IH2; subst. apply ch_map in IH1.
    intros (H3 & H4 & H5). split; auto. split; auto.
    revert H4. apply All_imp. apply All_Forall. eapply Forall_impl; [|exact IH1]. intros [x k]; auto.
  - inversion IH; subst. intros [H3 H4]. split; auto.
  - apply Forall_app in IH. destruct IH as [IH1 IH2]. apply ch_concat in IH2. intros [H3 H4]. split; auto.
    revert H4. apply All_imp. apply All_Forall. eapply Forall_impl; [|exact IH2]. intros x. apply AL.
  - inversion IH; subst. auto.
  - apply ch_pairs in IH. apply All_imp. apply All_Forall. eapply Forall_impl; [|exact IH]. intros [x k]; cbn [fst snd]; tauto.
  - inversion IH; subst. auto.
  - intros [H1 H2]. split; auto.
  - inversion IH; subst. intros [H3 H4]. split; auto.
Qed.

Notation ok := (rel_calls P Q A).
Notation ok' := (rel_calls P' Q' A').
Notation imp := (fun r => ok r -> ok' r).
Lemma call_imp : forall e, each_rel imp e -> every_call P Q ok e -> every_call P' Q' ok' e.
Proof. intros e. apply every_call_at. Qed.
Lemma calls_imp : forall l, All (each_rel imp) l -> All (every_call P Q ok) l -> All (every_call P' Q' ok') l.
Proof. intros l H. apply All_imp. apply All_Forall. apply All_Forall in H. eapply Forall_impl; [|exact H]. apply call_imp. Qed.
Lemma sorts_imp : forall B (l : list (expr rel * B)), sorts_each imp l ->
  All (fun p => match p with (e, _) => every_call P Q ok e end) l -> All (fun p => match p with (e, _) => every_call P' Q' ok' e end) l.
Proof.
  intros B l H. apply All_imp. apply All_Forall. apply All_Forall in H. eapply Forall_impl; [|exact H].
  intros [e k]. apply call_imp.
Qed.
Lemma side_imp : forall f, fref_each imp f -> side_calls P Q ok f -> side_calls P' Q' ok' f.
Proof. intros [r f k]. unfold fref_each, side_calls. cbn [fr_root]. destruct r; auto. apply call_imp. Qed.
Lemma sides_imp : forall ks, All (fun k => fref_each imp (k_left k) /\ fref_each imp (k_right k)) ks ->
  All (fun k => side_calls P Q ok (k_left k) /\ side_calls P Q ok (k_right k)) ks ->
  All (fun k => side_calls P' Q' ok' (k_left k) /\ side_calls P' Q' ok' (k_right k)) ks.
Proof.
  intros l H. apply All_imp. apply All_Forall. apply All_Forall in H. eapply Forall_impl; [|exact H].
  intros k [H1 H2] [H3 H4]. split; eapply side_imp; eauto.
Qed.
Lemma measure_imp : forall m, measure_each imp m -> measure_calls P Q A ok m -> measure_calls P' Q' A' ok' m.
Proof.
  intros [f e] [H1 H2] [H3 H4]. cbn [ms_fn ms_filter] in *. split; [|apply call_imp; auto]. cbn [ms_fn].
  destruct f as [f|]; auto. destruct H1 as [H1 H1']. destruct H3 as (H5 & H6 & H7). split; auto. split.
  - revert H6. apply All_imp. apply All_Forall. apply All_Forall in H1. eapply Forall_impl; [|exact H1].
    intros [| |x]; auto. apply call_imp.
  - revert H7. apply sorts_imp. auto.
Qed.
Lemma rel_imp : forall r, ok r -> ok' r.
Proof.
  apply (rel_ind' imp). intros r H.
  destruct r; cbn [rel_calls rel_each] in *.
  - destruct H as (H1 & H2 & H3). intros (H4 & H5 & H6). split; [apply call_imp; auto|]. split; [apply call_imp; auto|].
    destruct k; auto. revert H6. apply All_imp. apply All_Forall. apply All_Forall in H3. eapply Forall_impl; [|exact H3]. apply calls_imp.
  - destruct H as [H1 H2]. intros [H3 H4]. split; auto. apply calls_imp; auto.
  - destruct H as (H1 & H2 & H3 & H4). intros (H5 & H6 & H7 & H8). split; auto. split; auto. split; apply call_imp; auto.
  - tauto.
  - tauto.
  - destruct H as (H1 & H2 & H3). intros (H5 & H6 & H7). split; auto. split; [apply calls_imp; auto|].
    revert H7. apply All_imp. apply All_Forall. apply All_Forall in H2. eapply Forall_impl; [|exact H2]. apply measure_imp.
  - destruct H as [H1 H2]. intros [H3 H4]. split; auto. apply sorts_imp; auto.
  - destruct H as [H1 H2]. intros [H3 H4]. split; auto. apply call_imp; auto.
  - apply All_imp; auto.
  - tauto.
  - tauto.
  - apply All_imp; auto.
  - destruct H as (H1 & H2 & H3 & H4). intros (H5 & H6 & H7 & H8). split; auto. split; auto. split; [apply sides_imp; auto|apply call_imp; auto].
  - destruct H as (H1 & H2 & H3 & H4). intros (H5 & H6 & H7 & H8). split; auto. split; auto. split; [apply sides_imp; auto|apply call_imp; auto].
  - tauto.
Qed.
End CallsImpl.

Section Declared.
Variable canon : string -> option string.
Variable c : coll.
Variable decoders : string -> option (any -> res extdef).
Notation CV := (rel_from_proto canon c decoders).
Notation dec base := (expr_from_proto rel_type (Some CV) canon c base).
Notation RK := (calls_declared c).
Notation P := (conv_good_at (Some CV) RK).
Notation ok s := (every_call (names (get_scalar c) s) (names (get_window c) s) (RK s)).

Lemma RK_keeps : forall s s' r, keeps s s' -> RK s r -> RK s' r.
Proof.
  intros s s' r K. apply rel_imp.
  - intros n v. apply names_keeps; auto.
  - intros n v. apply names_keeps; auto.
  - intros n [v|]; [apply names_keeps; auto|]. intros [v H]. exists v. eapply names_keeps; eauto.
Qed.
Lemma ok_keeps : forall s s' e, keeps s s' -> ok s e -> ok s' e.
Proof. intros s s' e K. apply (calls_keep c RK RK_keeps); auto. Qed.
Lemma oks_keeps : forall s s' l, keeps s s' -> All (ok s) l -> All (ok s') l.
Proof. intros s s' l K. apply All_imp. apply All_fix. intros e. apply ok_keeps; auto. Qed.

Lemma expr_at' : forall base m, each_prel P m -> good (dec base m) (fun s e => ok s e).
Proof. intros base m H. exact (dec_good_at rel_type (Some CV) canon c base RK RK_keeps m H). Qed.
Lemma opt_at' : forall base m, each_prel P m -> good (opt_from_proto canon c CV base m) (fun s e => ok s e).
Proof.
  intros base m H s y s' E. assert (H' := expr_at' base m H s y s').
  destruct m; try (exact (H' E)). cbn in E. inversion E; subst. split; [apply extends_refl|].
  intros C _. split; auto. split; [apply keeps_refl|exact I].
Qed.
Lemma list_at' : forall base l, All (each_prel P) l -> good (mapS (dec base) l) (fun s ys => All (ok s) ys).
Proof.
  intros base l H s y s' E.
  assert (G : good (mapS (dec base) l) (fun s ys => Forall (fun e => ok s e) ys)).
  { apply (mapS_good _ _ (dec base) (fun s e => ok s e)); [apply ok_keeps|]. apply All_Forall in H.
    eapply Forall_impl; [|exact H]. intros; apply expr_at'; auto. }
  use G. finish. apply All_Forall. auto.
Qed.
Lemma sorts_at' : forall base l, psorts_each P l ->
  good (mapS (pairS (dec base) (liftS sortkind_from_proto)) l) (fun s ys => All (fun p => match p with (e, _) => ok s e end) ys).
Proof.
  intros base l H s y s' E.
  assert (G : good (mapS (pairS (dec base) (liftS sortkind_from_proto)) l) (fun s ys => Forall (fun q => ok s (fst q) /\ True) ys)).
  { apply (mapS_good _ _ (pairS (dec base) (liftS sortkind_from_proto)) (fun s q => ok s (fst q) /\ True)).
    - intros a b q K [H1 _]. split; auto. eapply ok_keeps; eauto.
    - apply All_Forall in H. eapply Forall_impl; [|exact H]. intros [e k] He.
      apply (pairS_good _ _ _ _ (dec base) (liftS sortkind_from_proto) (fun s e => ok s e) (fun _ _ => True)); [apply ok_keeps|apply expr_at'; auto|apply liftS_good]. }
  use G. finish. apply All_Forall. eapply Forall_impl; [|eassumption]. intros [e k] [He _]. exact He.
Qed.
Lemma fref_at' : forall base f, pfref_each P f -> good (fref_from_proto canon c CV base f) (fun s x => side_calls (names (get_scalar c) s) (names (get_window c) s) (RK s) x).
Proof.
  intros base [f|] H s y s' E; cbn [fref_from_proto] in E; [|discriminate].
  unb E. unb E. inversion E; subst. clear E. destruct f as [rt ff]; cbn [pfr_root pfr_ref pfref_each] in *.
  destruct rt; cbn [root_from_proto] in E0;
    try (inversion E0; subst; split; [apply extends_refl|]; intros C _; split; auto; split; [apply keeps_refl|exact I]).
  destruct (dec base e s) as [[e' s2]| |] eqn:Ed; inversion E0; subst. clear E0 E1. use (expr_at' base e H). finish.
  unfold side_calls. cbn [fr_root]. destruct e'; cbn [nil_root]; auto. destruct l; auto; exact I.
Qed.

Notation sd s := (side_calls (names (get_scalar c) s) (names (get_window c) s) (RK s)).
Lemma side_keeps : forall s s' f, keeps s s' -> sd s f -> sd s' f.
Proof. intros s s' [r f k] K. unfold side_calls. cbn [fr_root]. destruct r; auto. apply ok_keeps; auto. Qed.
Notation kd s := (fun k => sd s (k_left k) /\ sd s (k_right k)).
Lemma key_at' : forall lb rb k, pfref_each P (pk_left k) /\ pfref_each P (pk_right k) ->
  good (key_from_proto canon c CV lb rb k) (fun s x => kd s x).
Proof.
  intros lb rb k [H1 H2] s y s' E. unfold key_from_proto in E. unb E. unb E. unb E. inversion E; subst. clear E.
  use (fref_at' lb _ H1). use (fref_at' rb _ H2). finish. cbn [k_left k_right]. split; auto.
  eapply side_keeps; [|eassumption]. keepk.
Qed.
Lemma keys_at' : forall lb rb ks lk rk, All (fun k => pfref_each P (pk_left k) /\ pfref_each P (pk_right k)) ks ->
  All (pfref_each P) lk -> All (pfref_each P) rk ->
  good (keys_from_proto canon c CV ks lk rk lb rb) (fun s x => All (kd s) x).
Proof.
  intros lb rb ks lk rk H1 H2 H3 s y s' E. unfold keys_from_proto in E.
  assert (KK : forall a b x, keeps a b -> (kd a) x -> (kd b) x).
  { intros a b x K [X1 X2]. split; eapply side_keeps; eauto. }
  destruct ks as [|k ks].
  - destruct (negb _); [discriminate|].
    assert (G : good (mapS pair_from_proto (combine (map (fref_from_proto canon c CV lb) lk) (map (fref_from_proto canon c CV rb) rk))) (fun s ys => Forall (kd s) ys)).
    { apply (mapS_good _ _ pair_from_proto (fun s q => (kd s) q)); [exact KK|].
      clear E. revert rk H3. induction lk as [|l lk IH]; intros rk H3; [constructor|]. destruct rk as [|r rk]; [constructor|].
      destruct H2 as [H2 H2'], H3 as [H3 H3']. constructor; [|apply IH; auto].
      intros s0 y0 s0' E. unfold pair_from_proto in E. cbn [fst snd] in E. unb E. unb E. inversion E; subst. clear E.
      use (fref_at' lb _ H2). use (fref_at' rb _ H3). finish. cbn [k_left k_right]. split; auto.
      eapply side_keeps; [|eassumption]. keepk. }
    use G. finish. apply All_Forall; auto.
  - assert (G : good (mapS (key_from_proto canon c CV lb rb) (k :: ks)) (fun s ys => Forall (kd s) ys)).
    { apply (mapS_good _ _ (key_from_proto canon c CV lb rb) (fun s q => (kd s) q)); [exact KK|].
      apply All_Forall in H1. eapply Forall_impl; [|exact H1]. intros; apply key_at'; auto. }
    use G. finish. apply All_Forall; auto.
Qed.

Notation AD s := (fun ref d => match d with Some v => names (get_agg c) s ref v | None => exists v, names (get_agg c) s ref v end).
Notation md s := (measure_calls (names (get_scalar c) s) (names (get_window c) s) (AD s) (RK s)).
Lemma md_keeps : forall s s' m, keeps s s' -> md s m -> md s' m.
Proof.
  intros s s' [f e] K [H1 H2]. cbn [ms_fn ms_filter] in *. split; [|eapply ok_keeps; eauto]. cbn [ms_fn].
  destruct f as [f|]; auto. destruct H1 as (H3 & H4 & H5). split; [|split].
  - destruct (ag_decl f); [eapply names_keeps; eauto|]. destruct H3 as [v H3]. exists v. eapply names_keeps; eauto.
  - revert H4. apply All_imp. apply All_fix. intros [| |x]; auto. apply ok_keeps; auto.
  - revert H5. apply All_imp. apply All_fix. intros [x k]; auto. apply ok_keeps; auto.
Qed.
Lemma measure_at' : forall base m, pmeasure_each P m -> good (measure_from_proto canon c CV base m) (fun s x => md s x).
Proof.
  intros base [[f|] e] [H1 H2] s y s' E; cbn [measure_from_proto] in E; [|discriminate].
  unb E. unb E. inversion E; subst. clear E. destruct H1 as [H1 H3].
  assert (G := agg_good_at rel_type (Some CV) canon c base RK RK_keeps f). cbv beta in G.
  assert (HE : agg_each (Some CV) RK f).
  { split; [apply All_Forall; exact H1|]. apply All_Forall in H3. eapply Forall_impl; [|exact H3]. intros [x k] Hx. exact Hx. }
  specialize (G HE). use G. use (opt_at' base e H2). finish.
  match goal with H : Forall _ (ag_args _) /\ _ |- _ => destruct H as (Q1 & Q2 & Q3) end.
  assert (M : md e0 (Measure (Some a) (ELit LNil))).
  { split; [|exact I]. cbn [ms_fn]. split; [exact Q3|]. split; [apply All_Forall; exact Q1|]. apply All_Forall.
    eapply Forall_impl; [|exact Q2]. intros [x k] Hx. exact Hx. }
  eapply md_keeps in M; [|eassumption]. destruct M as [M _]. split; auto.
Qed.
Lemma kind_at' : forall k, match k with PRd_virtual _ rows => All (All (each_prel P)) rows | _ => True end ->
  good (kind_from_proto canon c CV k) (fun s k => match k with KVirtual rows => All (All (ok s)) rows | _ => True end).
Proof.
  intros k H s y s' E.
  assert (T : forall x, Ok (x, s) = Ok (y, s') -> (forall s, match x with KVirtual rows => All (All (ok s)) rows | _ => True end) ->
     extends s s' /\ (compact s -> fm_len (s_funcs s') < 2 ^ 32 -> compact s' /\ keeps s s' /\ match y with KVirtual rows => All (All (ok s')) rows | _ => True end)).
  { intros x X Hx. inversion X; subst. split; [apply extends_refl|]. intros C _. split; auto. split; [apply keeps_refl|apply Hx]. }
  destruct k; cbn [kind_from_proto] in E; try discriminate; try (eapply T; [exact E|intros; exact I]).
  - assert (E' : (let! vs := mapM (mapM lit_from_proto) values in
          let! (es, s1) := mapS (mapS (dec None)) exprs s in
          Ok (KVirtual (map (map ELit) vs ++ es)%list, s1)) = Ok (y, s')).
    { destruct values, exprs; try exact E. discriminate. }
    clear E T. unb E'. unb E'. inversion E'; subst. clear E'.
    assert (G : good (mapS (mapS (dec None)) exprs) (fun s ys => Forall (fun l => All (ok s) l) ys)).
    { apply (mapS_good _ _ (mapS (dec None)) (fun s l => All (ok s) l)); [apply oks_keeps|].
      apply All_Forall in H. eapply Forall_impl; [|exact H]. intros. apply list_at'; auto. }
    use G. finish. apply All_Forall. apply Forall_app. split; auto.
    apply Forall_map. apply Forall_forall. intros row _. apply All_Forall. apply Forall_map. apply Forall_forall. intros; exact I.
  - destruct t; [|discriminate]. eapply T; [exact E|intros; exact I].
Qed.
Lemma post_at' : forall (m : pexpr prel) (x : res (list xtype)), each_prel P m ->
  good (fun s => match m with
        | PX_nil => Ok (@ELit rel LNil, s)
        | _ => let! base := x in dec (Some base) m s
        end) (fun s e => ok s e).
Proof.
  intros m x H s y s' E. assert (H' := fun base => expr_at' base m H).
  destruct m; try (destruct x as [base| |]; try discriminate; exact (H' (Some base) s y s' E)).
  inversion E; subst. split; [apply extends_refl|]. intros C _. split; auto. split; [apply keeps_refl|exact I].
Qed.

Ltac lift := first [assumption | eapply RK_keeps; [|eassumption]; keepk | eapply ok_keeps; [|eassumption]; keepk | eapply oks_keeps; [|eassumption]; keepk].
Lemma rel_at' : forall m, P m.
Proof.
  apply prel_ind'. intros m H f EC. injection EC as <-. intros s y s' E.
  assert (R : forall p, P p -> good (CV p) RK) by (intros p Hp; apply Hp; auto).
  destruct m; cbn [rel_from_proto prel_each] in *; try discriminate.
  - destruct H as (H1 & H2 & H3). unb E. unb E. unb E. unb E. unb E. inversion E; subst. clear E.
    use (kind_at' _ H3). use (opt_at' (Some (sc_types a)) _ H1). use (opt_at' (Some (sc_types a)) _ H2). finish. unfold calls_declared. cbn [rel_calls rb_filter rb_best].
    split; [lift|]. split; [lift|].
    match goal with H : match ?r with _ => _ end |- _ => destruct r; auto; revert H end.
    apply All_imp. apply All_fix. intros l. apply oks_keeps. keepk.
  - destruct H as (H1 & H2). unb E. unb E. unb E. destruct l; [discriminate|]. inversion E; subst. clear E.
    use (R _ H1). match goal with _ : rel_type _ = Ok ?cols |- _ => use (list_at' (Some cols) _ H2) end. finish.
    unfold calls_declared. cbn [rel_calls]. split; [lift|]. assumption.
  - destruct H as (H1 & H2 & H3 & H4). destruct (jt =? JoinUnspecified); [discriminate|].
    unb E. unb E. unb E. unb E. unb E. unb E. unb E. inversion E; subst. clear E.
    use (R _ H1). use (R _ H2).
    match goal with E : expr_from_proto _ _ _ _ ?b _ _ = _ |- _ => use (expr_at' b _ H3); use (opt_at' b _ H4) end. finish.
    unfold calls_declared. cbn [rel_calls]. split; [lift|]. split; [lift|]. split; lift.
  - destruct H as (H1 & H2). unb E. unb E. unb E. inversion E; subst. clear E.
    use (R _ H1). use (R _ H2). finish. split; lift.
  - unb E. destruct offset; try discriminate. destruct count; try discriminate. inversion E; subst. clear E. use (R _ H). finish. exact P.
  - destruct H as (H1 & H2 & H3 & H4). unb E. unb E. unb E. unb E. unb E. inversion E; subst. clear E.
    assert (HG : extends e e0 /\ (compact e -> fm_len (s_funcs e0) < 2 ^ 32 -> compact e0 /\ keeps e e0 /\ All (ok e0) l)).
    { destruct gexprs as [|g gexprs].
      - match type of E2 with bind ?t _ = _ => destruct t as [[gs s2]| |] eqn:EM; cbn [bind] in E2; try discriminate end.
        unb E2. inversion E2; subst.
        assert (G : good (mapS (fun g : list (pexpr prel) * list Z => mapS (dec (Some a)) (fst g)) groupings) (fun s ys => Forall (fun l => All (ok s) l) ys)).
        { apply (mapS_good _ _ (fun g : list (pexpr prel) * list Z => mapS (dec (Some a)) (fst g)) (fun s l => All (ok s) l)); [apply oks_keeps|].
          apply All_Forall in H3. eapply Forall_impl; [|exact H3]. intros [g z] Hg. apply list_at'; auto. }
        destruct (G _ _ _ EM) as [X1 G1]. split; auto. intros C HL. destruct (G1 C HL) as (C1 & K1 & Q1). split; auto. split; auto.
        match goal with H : grouping_exprs _ _ = _ |- _ => apply grouping_exprs_spec in H as (_ & I & _) end.
        apply All_Forall. apply Forall_forall. intros x Hx. apply I in Hx. apply in_concat in Hx as (y & Hy & Hx).
        rewrite Forall_forall in Q1. apply Q1 in Hy. apply All_Forall in Hy. rewrite Forall_forall in Hy. auto.
      - match type of E2 with bind ?t _ = _ => destruct t as [[gs s2]| |] eqn:EM; cbn [bind] in E2; try discriminate end.
        inversion E2; subst. exact (list_at' _ _ H2 _ _ _ EM). }
    assert (HM : good (mapS (measure_from_proto canon c CV (Some a)) measures) (fun s ys => Forall (fun m => md s m) ys)).
    { apply (mapS_good _ _ (measure_from_proto canon c CV (Some a)) (fun s m => md s m)); [apply md_keeps|].
      apply All_Forall in H4. eapply Forall_impl; [|exact H4]. intros. apply measure_at'; auto. }
    clear E2. destruct HG as [X1 G1]. use (R _ H1). use HM. finish.
    unfold calls_declared. cbn [rel_calls]. split; [lift|]. split; [lift|]. apply All_Forall. assumption.
  - destruct H as (H1 & H2). unb E. unb E. unb E. destruct l; [discriminate|]. unb E. inversion E; subst. clear E.
    use (R _ H1). match goal with _ : rel_type _ = Ok ?cols |- _ => use (sorts_at' (Some cols) _ H2) end. finish.
    unfold calls_declared. cbn [rel_calls]. split; [lift|]. assumption.
  - destruct H as (H1 & H2). unb E. unb E. unb E. inversion E; subst. clear E.
    use (R _ H1). match goal with _ : rel_type _ = Ok ?cols |- _ => use (expr_at' (Some cols) _ H2) end. finish.
    unfold calls_declared. cbn [rel_calls]. split; [lift|]. assumption.
  - destruct inputs as [|i1 [|i2 inputs]]; try discriminate. unb E. destruct (op =? 0); [discriminate|].
    destruct (map rel_type l); [discriminate|]. unb E. unb E. unb E. inversion E; subst. clear E.
    assert (G : good (mapS CV (i1 :: i2 :: inputs)) (fun s ys => Forall (RK s) ys)).
    { apply (mapS_good _ _ CV RK); [apply RK_keeps|]. apply All_Forall in H. eapply Forall_impl; [|exact H]. exact R. }
    use G. finish. apply All_Forall. assumption.
  - unb E. unb E. unb E. inversion E; subst. clear E. use (R _ H). finish. assumption.
  - unb E. unb E. inversion E; subst. clear E. finish. exact I.
  - unb E. unb E. unb E. inversion E; subst. clear E.
    assert (G : good (mapS CV inputs) (fun s ys => Forall (RK s) ys)).
    { apply (mapS_good _ _ CV RK); [apply RK_keeps|]. apply All_Forall in H. eapply Forall_impl; [|exact H]. exact R. }
    use G. finish. apply All_Forall. assumption.
  - destruct H as (H1 & H2 & H3 & H4 & H5 & H6). unb E. unb E. unb E. unb E. unb E. unb E.
    match type of E with bind ?t _ = _ => destruct t as [[p s4]| |] eqn:EP; cbn [bind] in E; try discriminate end.
    inversion E; subst. clear E.
    use (R _ H1). use (R _ H2).
    match goal with E : keys_from_proto _ _ _ _ _ _ ?lb ?rb _ = _ |- _ => use (keys_at' lb rb _ _ _ H3 H4 H5) end.
    destruct (post_at' _ _ H6 _ _ _ EP) as [X4 G4]. clear EP. finish.
    unfold calls_declared. cbn [rel_calls]. split; [lift|]. split; [lift|]. split; [|lift].
    match goal with H : All _ l |- _ => revert H end. apply All_imp. apply All_fix. intros k [Q1 Q2].
    split; (eapply side_keeps; [|eassumption]; keepk).
  - destruct H as (H1 & H2 & H3 & H4 & H5 & H6). unb E. unb E. unb E. unb E. unb E. unb E.
    match type of E with bind ?t _ = _ => destruct t as [[p s4]| |] eqn:EP; cbn [bind] in E; try discriminate end.
    inversion E; subst. clear E.
    use (R _ H1). use (R _ H2).
    match goal with E : keys_from_proto _ _ _ _ _ _ ?lb ?rb _ = _ |- _ => use (keys_at' lb rb _ _ _ H3 H4 H5) end.
    destruct (post_at' _ _ H6 _ _ _ EP) as [X4 G4]. clear EP. finish.
    unfold calls_declared. cbn [rel_calls]. split; [lift|]. split; [lift|]. split; [|lift].
    match goal with H : All _ l |- _ => revert H end. apply All_imp. apply All_fix. intros k [Q1 Q2].
    split; (eapply side_keeps; [|eassumption]; keepk).
  - unb E. unb E. destruct (_ || _); [|discriminate]. assert (HQ := R _ H _ _ _ E0).
    destruct w; inversion E; subst; clear E E0; destruct HQ as [X4 G4]; finish; assumption.
Qed.

Lemma rel_declared : forall m, good (CV m) RK.
Proof. intros m. apply (rel_at' m). reflexivity. Qed.
Lemma relation_declared : forall m, good (relation_from_proto canon c decoders m) (fun s r =>
  (forall i names, rl_root r = Some (i, names) -> RK s i) /\ (forall i, rl_rel r = Some i -> RK s i)).
Proof.
  intros m s y s' E. destruct m; cbn [relation_from_proto] in E; [discriminate| |].
  - unb E. inversion E; subst. clear E. use (rel_declared r). finish. cbn [rl_root rl_rel]. split; [discriminate|].
    intros x X. injection X as <-. assumption.
  - unb E. unb E. inversion E; subst. clear E. use (rel_declared r). finish. cbn [rl_root rl_rel]. split; [|discriminate].
    intros x n X. injection X as <- _. assumption.
Qed.
Lemma relations_declared : forall ms, good (mapS (relation_from_proto canon c decoders) ms) (fun s rs => Forall (fun r =>
  (forall i names, rl_root r = Some (i, names) -> RK s i) /\ (forall i, rl_rel r = Some i -> RK s i)) rs).
Proof.
  intros ms. apply (mapS_good _ _ (relation_from_proto canon c decoders) (fun s r =>
    (forall i names, rl_root r = Some (i, names) -> RK s i) /\ (forall i, rl_rel r = Some i -> RK s i))).
  - intros s s' r K [H1 H2]. split; intros; eapply RK_keeps; eauto.
  - apply Forall_forall. intros m _. apply relation_declared.
Qed.
End Declared.

Lemma NoDup_app_l : forall A (l l' : list A), NoDup (l ++ l') -> NoDup l.
Proof.
  induction l as [|x l IH]; intros l' H; [constructor|]. inversion H; subst. constructor; eauto. rewrite in_app_iff in *. tauto.
Qed.

(** ** messages whose declarations number the functions *)
Definition funcs_of (us : list urn_msg) (ds : list decl_msg) : list (Z * ext_id) :=
  flat_map (fun d => match declared us d with Some (KFunc, a, id) => [(a, id)] | _ => [] end) ds.

Lemma funcs_snoc : forall us ds d, funcs_of us (ds ++ [d]) =
  (funcs_of us ds ++ match declared us d with Some (KFunc, a, id) => [(a, id)] | _ => [] end)%list.
Proof. intros. unfold funcs_of. rewrite flat_map_app. cbn [flat_map]. rewrite app_nil_r. reflexivity. Qed.

Lemma funcs_read : forall loaded us ds s, get_extension_set loaded us ds = Ok s ->
  NoDup (map fst (funcs_of us ds)) -> NoDup (map snd (funcs_of us ds)) ->
  s_urns s = read_urns us /\
  (forall a id, decode_func a s = Some id <-> In (a, id) (funcs_of us ds)) /\
  (forall a id, fm_get ext_id_eqb id (s_funcs s) = Some a <-> In (a, id) (funcs_of us ds)) /\
  fm_len (s_funcs s) = Z.of_nat (List.length (funcs_of us ds)).
Proof.
  intros loaded us ds. unfold get_extension_set. induction ds as [|d ds IH] using rev_ind; intros s E N1 N2.
  - cbn in E. inversion E; subst. cbn. split; auto. split; [split; [discriminate|intros []]|]. split; [split; [discriminate|intros []]|reflexivity].
  - rewrite read_decls_snoc in E. destruct (read_decls loaded ds (with_urns (read_urns us) new_set)) as [s1| |] eqn:E1; cbn [bind] in E; try discriminate.
    rewrite funcs_snoc, map_app in N1, N2.
    assert (P1 : NoDup (map fst (funcs_of us ds)) /\ NoDup (map snd (funcs_of us ds))).
    { split; [apply NoDup_app_l in N1|apply NoDup_app_l in N2]; auto. }
    destruct P1 as [P1 P2]. destruct (IH s1 eq_refl P1 P2) as (U & DF & FG & L).
    destruct (read_decl_char loaded us d s1 U) as [(_ & E2)|(_ & E2)]; rewrite E2 in E; [|discriminate].
    injection E as <-. rewrite funcs_snoc.
    destruct (declared us d) as [[[k0 a0] id0]|] eqn:ED; [|rewrite app_nil_r; auto].
    destruct k0; cbn [apply_entry] in *; try (rewrite app_nil_r; auto; fail).
    assert (A0 : forall id, ~ In (a0, id) (funcs_of us ds)).
    { intros id H. apply (in_map fst) in H. cbn [map fst] in N1. apply NoDup_remove_2 in N1. rewrite app_nil_r in N1. auto. }
    assert (I0 : forall a, ~ In (a, id0) (funcs_of us ds)).
    { intros a H. apply (in_map snd) in H. cbn [map snd] in N2. apply NoDup_remove_2 in N2. rewrite app_nil_r in N2. auto. }
    assert (G0 : fm_get ext_id_eqb id0 (s_funcs s1) = None).
    { destruct (fm_get ext_id_eqb id0 (s_funcs s1)) eqn:G; auto. apply FG in G. apply I0 in G. destruct G. }
    split; [auto|]. unfold encode_func, decode_func in *. cbn [s_funcs s_func_map] in *. split; [|split].
    + intros a id. rewrite in_app_iff. cbn [In]. destruct (Z.eq_dec a a0) as [->|Na].
      * rewrite get_set_same by (apply zspec). split; [intros X; inversion X; auto|].
        intros [X|[X|[]]]; [apply A0 in X; destruct X|inversion X; auto].
      * rewrite get_set_other by (auto; apply zspec). rewrite DF. split; [auto|]. intros [X|[X|[]]]; auto. inversion X; subst; congruence.
    + intros a id. rewrite in_app_iff. cbn [In]. destruct (ext_id_dec id id0) as [->|Na].
      * rewrite get_set_same by (apply ext_id_eqb_spec). split; [intros X; inversion X; auto|].
        intros [X|[X|[]]]; [apply I0 in X; destruct X|inversion X; auto].
      * rewrite get_set_other by (auto; apply ext_id_eqb_spec). rewrite FG. split; [auto|]. intros [X|[X|[]]]; auto. inversion X; subst; congruence.
    + rewrite len_set_fresh by auto. rewrite L, app_length. cbn [List.length]. lia.
Qed.
Lemma numbered_compact : forall loaded us ds s, get_extension_set loaded us ds = Ok s ->
  functions_numbered us ds -> compact s.
Proof.
  intros loaded us ds s E (N1 & N2 & R). fold (funcs_of us ds) in *.
  destruct (funcs_read _ _ _ _ E N1 N2) as (_ & DF & FG & L). split.
  - intros a id. rewrite DF, FG. reflexivity.
  - intros a id H. apply DF in H. rewrite L. rewrite Forall_forall in R. apply R in H. exact H.
Qed.
