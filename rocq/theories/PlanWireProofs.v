(** Proofs for C32 and C33: the wire forms of relations. *)

From Coq Require Import ZArith String Bool Arith Lia List.
From Verif Require Import Base TypesModel TypesSpec TypesProofs ExtSetModel LoadModel LitModel LitSpec LitProofs
  ExprModel ExprSpec ExprProofs ExprWireProofs PlanModel PlanSpec PlanProofs PlanWireSpec.
Import ListNotations.
Local Open Scope Z_scope.

(** ** induction *)

(** a property of every relation of the subqueries of an expression *)
Fixpoint each_rel {R} (P : R -> Prop) (e : expr R) : Prop :=
  match e with
  | ELit _ | EParam _ _ => True
  | ERef r _ _ => match r with RExpr e => each_rel P e | _ => True end
  | EScalar _ _ args _ _ => All (fun a => match a with AExpr e => each_rel P e | _ => True end) args
  | EWindow _ _ args _ _ _ _ parts sorts _ _ _ =>
      All (fun a => match a with AExpr e => each_rel P e | _ => True end) args /\
      All (each_rel P) parts /\ All (fun p => match p with (e, _) => each_rel P e end) sorts
  | EIf ifs els => All (fun p => match p with (a, b) => each_rel P a /\ each_rel P b end) ifs /\ each_rel P els
  | ESwitch m ifs els =>
      each_rel P m /\ All (fun p => match p with (_, b) => each_rel P b end) ifs /\ each_rel P els
  | EOr v opts => each_rel P v /\ All (each_rel P) opts
  | EMultiOr v opts => All (each_rel P) v /\ All (All (each_rel P)) opts
  | ECast _ e _ => each_rel P e
  | EMap _ _ kvs => All (fun p => match p with (a, b) => each_rel P a /\ each_rel P b end) kvs
  | EStruct _ _ fs | EList _ _ fs => All (each_rel P) fs
  | ELambda _ _ _ b => each_rel P b
  | ESubScalar r | ESubSet _ r => P r
  | ESubIn ns r => All (each_rel P) ns /\ P r
  | ESubCmp _ _ l r => each_rel P l /\ P r
  end.

Lemma each_rel_intro : forall R (P : R -> Prop), (forall r, P r) -> forall m, each_rel P m.
Proof.
  intros R P H. fix IH 1. intros m.
  assert (HA : forall args, All (fun a => match a with AExpr e => each_rel P e | _ => True end) args).
  { fix go 1. intros [|a args]; [exact I|]. split; [|exact (go args)]. destruct a; try exact I. exact (IH e). }
  assert (HL : forall l, All (each_rel P) l) by (exact (All_fix IH)).
  assert (HF : forall B (l : list (expr R * B)), All (fun p => match p with (e, _) => each_rel P e end) l).
  { fix go 2. intros B [|a l]; [exact I|]. split; [destruct a as [a b]; exact (IH a)|exact (go B l)]. }
  assert (HS : forall B (l : list (B * expr R)), All (fun p => match p with (_, e) => each_rel P e end) l).
  { fix go 2. intros B [|a l]; [exact I|]. split; [destruct a as [a b]; exact (IH b)|exact (go B l)]. }
  assert (HP : forall l : list (expr R * expr R), All (fun p => match p with (a, b) => each_rel P a /\ each_rel P b end) l).
  { fix go 1. intros [|p l]; [exact I|]. split; [|exact (go l)]. destruct p as [a b]. split; [exact (IH a)|exact (IH b)]. }
  assert (HC : forall l, All (All (each_rel P)) l).
  { fix go 1. intros [|p l]; [exact I|]. split; [exact (HL p)|exact (go l)]. }
  destruct m; try exact I.
  - destruct r; try exact I. exact (IH e).
  - exact (HA args).
  - split; [exact (HA args)|]. split; [exact (HL parts)|exact (HF _ sorts)].
  - split; [exact (HP ifs)|exact (IH m)].
  - split; [exact (IH m1)|]. split; [exact (HS _ ifs)|exact (IH m2)].
  - split; [exact (IH m)|exact (HL opts)].
  - split; [exact (HL v)|exact (HC opts)].
  - exact (IH m).
  - exact (HP kvs).
  - exact (HL fields).
  - exact (HL vals).
  - exact (IH m).
  - exact (H r).
  - split; [exact (HL needles)|exact (H r)].
  - exact (H r).
  - split; [exact (IH m)|exact (H r)].
Defined.

Definition args_each {R} (P : R -> Prop) (l : list (farg (expr R))) : Prop :=
  All (fun a => match a with AExpr e => each_rel P e | _ => True end) l.
Lemma args_each_intro : forall {R} {P : R -> Prop} (H : forall r, P r) l, args_each P l.
Proof.
  intros R P H. fix go 1. intros [|a l]; [exact I|]. split; [|exact (go l)].
  destruct a; try exact I. exact (each_rel_intro R P H e).
Defined.
Definition sorts_each {R} (P : R -> Prop) {B} (l : list (expr R * B)) : Prop :=
  All (fun p => match p with (e, _) => each_rel P e end) l.
Lemma sorts_each_intro : forall {R} {P : R -> Prop} (H : forall r, P r) {B} l, sorts_each P (B:=B) l.
Proof.
  intros R P H B. fix go 1. intros [|[a b] l]; [exact I|]. split; [|exact (go l)]. exact (each_rel_intro R P H a).
Defined.

Definition measure_each (P : rel -> Prop) (m : measure rel) : Prop :=
  match ms_fn m with None => True | Some f => args_each P (ag_args f) /\ sorts_each P (ag_sorts f) end /\ each_rel P (ms_filter m).
Definition fref_each (P : rel -> Prop) (f : fref rel) : Prop :=
  match fr_root f with RExpr e => each_rel P e | _ => True end.
Definition rel_each (P : rel -> Prop) (r : rel) : Prop :=
  match r with
  | RRead _ b k => each_rel P (rb_filter b) /\ each_rel P (rb_best b) /\
      match k with KVirtual rows => All (All (each_rel P)) rows | _ => True end
  | RProject _ i es _ => P i /\ All (each_rel P) es
  | RJoin _ l r e p _ _ => P l /\ P r /\ each_rel P e /\ each_rel P p
  | RCross _ l r _ => P l /\ P r
  | RFetch _ i _ _ _ => P i
  | RAgg _ i ms es _ _ => P i /\ All (measure_each P) ms /\ All (each_rel P) es
  | RSort _ i ss _ => P i /\ sorts_each P ss
  | RFilter _ i e _ => P i /\ each_rel P e
  | RSet _ is _ _ | RExtN _ is _ => All P is
  | RExt1 _ i _ => P i
  | RExt0 _ _ => True
  | RHash _ l r ks p _ _ | RMerge _ l r ks p _ _ =>
      P l /\ P r /\ All (fun k => fref_each P (k_left k) /\ fref_each P (k_right k)) ks /\ each_rel P p
  | RWrite _ _ _ _ _ i _ => P i
  end.
Lemma rel_ind' : forall P : rel -> Prop, (forall r, rel_each P r -> P r) -> forall r, P r.
Proof.
  intros P H. fix IH 1. intros r. apply H.
  assert (E : forall e, each_rel P e) by (exact (each_rel_intro rel P IH)).
  destruct r.
  - destruct b as [sc f b pr av]. split; [exact (each_rel_intro rel P IH f)|]. split; [exact (each_rel_intro rel P IH b)|].
    destruct k; try exact I. exact (All_fix (All_fix (each_rel_intro rel P IH)) values).
  - split; [exact (IH r)|exact (All_fix (each_rel_intro rel P IH) exprs)].
  - split; [exact (IH r1)|]. split; [exact (IH r2)|]. split; [exact (each_rel_intro rel P IH cond)|exact (each_rel_intro rel P IH post)].
  - split; [exact (IH r1)|exact (IH r2)].
  - exact (IH r).
  - split; [exact (IH r)|]. split; [|exact (All_fix (each_rel_intro rel P IH) gexprs)].
    refine (All_fix (fun m => _) measures). destruct m as [f e]. split; [|exact (each_rel_intro rel P IH e)].
    destruct f as [f|]; [|exact I]. destruct f. split; [exact (args_each_intro IH ag_args)|exact (sorts_each_intro IH ag_sorts)].
  - split; [exact (IH r)|exact (sorts_each_intro IH sorts)].
  - split; [exact (IH r)|exact (each_rel_intro rel P IH cond)].
  - exact (All_fix IH inputs).
  - exact (IH r).
  - exact I.
  - exact (All_fix IH inputs).
  - split; [exact (IH r1)|]. split; [exact (IH r2)|]. split; [|exact (each_rel_intro rel P IH post)].
    refine (All_fix (fun k => _) keys). destruct k as [a b cm]. destruct a as [ra fa ka], b as [rb fb kb].
    split; [destruct ra; try exact I; exact (each_rel_intro rel P IH e)|destruct rb; try exact I; exact (each_rel_intro rel P IH e)].
  - split; [exact (IH r1)|]. split; [exact (IH r2)|]. split; [|exact (each_rel_intro rel P IH post)].
    refine (All_fix (fun k => _) keys). destruct k as [a b cm]. destruct a as [ra fa ka], b as [rb fb kb].
    split; [destruct ra; try exact I; exact (each_rel_intro rel P IH e)|destruct rb; try exact I; exact (each_rel_intro rel P IH e)].
  - exact (IH r).
Qed.

Definition pargs_each {R} (P : R -> Prop) (l : list (pfarg (pexpr R))) : Prop :=
  All (fun a => match a with PA_value e => each_prel P e | _ => True end) l.
Definition psorts_each {R} (P : R -> Prop) {B} (l : list (pexpr R * B)) : Prop :=
  All (fun p => match p with (e, _) => each_prel P e end) l.
Definition pfref_each (P : prel -> Prop) (f : option (pfref prel)) : Prop :=
  match f with Some f => match pfr_root f with PRt_expr e => each_prel P e | _ => True end | None => True end.
Definition pmeasure_each (P : prel -> Prop) (m : option (paggf prel) * pexpr prel) : Prop :=
  match m with
  | (f, e) => match f with None => True | Some f => pargs_each P (pa_args f) /\ psorts_each P (pa_sorts f) end /\ each_prel P e
  end.
Definition prel_each (P : prel -> Prop) (m : prel) : Prop :=
  match m with
  | PR_nil | PR_unset | PR_other => True
  | PR_read _ _ f b _ _ k => each_prel P f /\ each_prel P b /\
      match k with PRd_virtual _ rows => All (All (each_prel P)) rows | _ => True end
  | PR_project _ i es _ => P i /\ All (each_prel P) es
  | PR_join _ l r e p _ _ => P l /\ P r /\ each_prel P e /\ each_prel P p
  | PR_cross _ l r _ => P l /\ P r
  | PR_fetch _ i _ _ _ => P i
  | PR_agg _ i es gs ms _ => P i /\ All (each_prel P) es /\ All (fun g => match g with (l, _) => All (each_prel P) l end) gs /\
      All (pmeasure_each P) ms
  | PR_sort _ i ss _ => P i /\ psorts_each P ss
  | PR_filter _ i e _ => P i /\ each_prel P e
  | PR_set _ is _ _ | PR_extN _ is _ => All P is
  | PR_ext1 _ i _ => P i
  | PR_ext0 _ _ => True
  | PR_hash _ l r ks lk rk p _ _ | PR_merge _ l r ks lk rk p _ _ =>
      P l /\ P r /\ All (fun k => pfref_each P (pk_left k) /\ pfref_each P (pk_right k)) ks /\
      All (pfref_each P) lk /\ All (pfref_each P) rk /\ each_prel P p
  | PR_write _ _ _ _ i _ => P i
  end.
Lemma prel_ind' : forall P : prel -> Prop, (forall r, prel_each P r -> P r) -> forall r, P r.
Proof.
  intros P H. fix IH 1. intros r. apply H.
  assert (FR : forall f, pfref_each P f).
  { intros [f|]; [|exact I]. destruct f as [rt ref]. destruct rt; try exact I. exact (each_prel_intro prel P IH e). }
  assert (KS : forall ks, All (fun k => pfref_each P (pk_left k) /\ pfref_each P (pk_right k)) ks).
  { refine (All_fix (fun k => _)). destruct k as [a b cm]. split; [exact (FR a)|exact (FR b)]. }
  assert (SS : forall B (l : list (pexpr prel * B)), psorts_each P l).
  { intros B. refine (All_fix (fun k => _)). destruct k as [a b]. exact (each_prel_intro prel P IH a). }
  assert (AS : forall l, pargs_each P l).
  { refine (All_fix (fun k => _)). destruct k as [ |a|a|a]; try exact I. exact (each_prel_intro prel P IH a). }
  destruct r.
  - exact I.
  - exact I.
  - exact I.
  - split; [exact (each_prel_intro prel P IH filter)|]. split; [exact (each_prel_intro prel P IH best)|].
    destruct k; try exact I. exact (All_fix (All_fix (each_prel_intro prel P IH)) exprs).
  - split; [exact (IH r)|exact (All_fix (each_prel_intro prel P IH) exprs)].
  - split; [exact (IH r1)|]. split; [exact (IH r2)|]. split; [exact (each_prel_intro prel P IH cond)|exact (each_prel_intro prel P IH post)].
  - split; [exact (IH r1)|exact (IH r2)].
  - exact (IH r).
  - split; [exact (IH r)|]. split; [exact (All_fix (each_prel_intro prel P IH) gexprs)|]. split.
    + refine (All_fix (fun g => _) groupings). destruct g as [l z]. exact (All_fix (each_prel_intro prel P IH) l).
    + refine (All_fix (fun m => _) measures). destruct m as [f e]. split; [|exact (each_prel_intro prel P IH e)].
      destruct f as [f|]; [|exact I]. destruct f. split; [exact (AS pa_args)|exact (SS _ pa_sorts)].
  - split; [exact (IH r)|exact (SS _ sorts)].
  - split; [exact (IH r)|exact (each_prel_intro prel P IH cond)].
  - exact (All_fix IH inputs).
  - exact (IH r).
  - exact I.
  - exact (All_fix IH inputs).
  - split; [exact (IH r1)|]. split; [exact (IH r2)|]. split; [exact (KS keys)|]. split; [exact (All_fix FR lkeys)|].
    split; [exact (All_fix FR rkeys)|exact (each_prel_intro prel P IH post)].
  - split; [exact (IH r1)|]. split; [exact (IH r2)|]. split; [exact (KS keys)|]. split; [exact (All_fix FR lkeys)|].
    split; [exact (All_fix FR rkeys)|exact (each_prel_intro prel P IH post)].
  - exact (IH r).
Qed.

(** ** reading a relation only adds function declarations *)

Lemma optM_spec : forall A B (f : A -> res B) o y, optM f o = Ok y <->
  (o = None /\ y = None) \/ exists a b, o = Some a /\ f a = Ok b /\ y = Some b.
Proof.
  intros A B f o y. destruct o as [a|]; cbn.
  - destruct (f a) eqn:E; split; intros H; try (inversion H; subst; right; eauto; fail); try discriminate;
      destruct H as [[H _]|(a' & b & H1 & H2 & H3)]; try discriminate; inversion H1; subst; congruence.
  - split; [intros H; inversion H; auto|]. intros [[_ ->]|(a & b & H & _)]; [auto|discriminate].
Qed.

Section Grow.
Variable canon : string -> option string.
Variable c : coll.
Variable decoders : string -> option (any -> res extdef).
Notation CV := (rel_from_proto canon c decoders).
Notation dec base := (expr_from_proto rel_type (Some CV) canon c base).
Let P (p : prel) : Prop := forall f, Some CV = Some f -> grows_at f p.

Lemma expr_at : forall base m, each_prel P m -> grows_at (dec base) m.
Proof. intros. apply dec_grows_at. auto. Qed.
Lemma opt_at : forall base m, each_prel P m -> grows_at (opt_from_proto canon c CV base) m.
Proof.
  intros base m H s y s' E. assert (H' := expr_at base m H s y s').
  destruct m; try (exact (H' E)). cbn in E. inversion E; subst. apply extends_refl.
Qed.
Lemma list_at : forall base l, All (each_prel P) l -> grows_at (mapS (dec base)) l.
Proof. intros. apply mapS_grows_at. apply All_Forall in H. eapply Forall_impl; [|exact H]. intros; apply expr_at; auto. Qed.
Lemma sorts_at : forall base l, psorts_each P l -> grows_at (mapS (pairS (dec base) (liftS sortkind_from_proto))) l.
Proof.
  intros. apply mapS_grows_at. apply All_Forall in H. eapply Forall_impl; [|exact H]. intros [e k] He.
  apply pairS_grows_at; [apply expr_at; auto|]. intros s0. apply liftS_grows.
Qed.
Lemma fref_at : forall base f, pfref_each P f -> grows_at (fref_from_proto canon c CV base) f.
Proof.
  intros base [f|] H s y s' E; cbn [fref_from_proto] in E; [|discriminate].
  unb E. unb E. inversion E; subst. destruct f as [rt ff]; cbn [pfr_root pfr_ref pfref_each] in *.
  destruct rt; cbn [root_from_proto] in E0; try (inversion E0; subst; apply extends_refl).
  destruct (dec base e s) as [[e' s2]| |] eqn:Ed; inversion E0; subst. eapply expr_at; [|eassumption]; auto.
Qed.
Lemma key_at : forall lb rb k, pfref_each P (pk_left k) /\ pfref_each P (pk_right k) ->
  grows_at (key_from_proto canon c CV lb rb) k.
Proof.
  intros lb rb k [H1 H2] s y s' E. unfold key_from_proto in E. unb E. unb E. unb E. inversion E; subst.
  eapply extends_trans; [eapply fref_at; [|eassumption]; auto|eapply fref_at; [|eassumption]; auto].
Qed.
Lemma keys_at : forall lb rb ks lk rk, All (fun k => pfref_each P (pk_left k) /\ pfref_each P (pk_right k)) ks ->
  All (pfref_each P) lk -> All (pfref_each P) rk ->
  forall s y s', keys_from_proto canon c CV ks lk rk lb rb s = Ok (y, s') -> extends s s'.
Proof.
  intros lb rb ks lk rk H1 H2 H3 s y s' E. unfold keys_from_proto in E. destruct ks as [|k ks].
  - destruct (negb _); [discriminate|]. revert E. apply mapS_grows_at.
    revert rk H3. induction lk as [|l lk IH]; intros rk H3; [constructor|]. destruct rk as [|r rk]; [constructor|].
    destruct H2 as [H2 H2'], H3 as [H3 H3']. constructor; [|apply IH; auto].
    intros s0 y0 s0' E. unfold pair_from_proto in E. cbn [fst snd] in E. unb E. unb E. inversion E; subst.
    eapply extends_trans; [eapply fref_at; [|eassumption]; auto|eapply fref_at; [|eassumption]; auto].
  - revert E. apply mapS_grows_at. apply All_Forall in H1. eapply Forall_impl; [|exact H1]. intros; apply key_at; auto.
Qed.
Lemma agg_at : forall base f, pargs_each P (pa_args f) /\ psorts_each P (pa_sorts f) ->
  grows_at (agg_from_proto rel_type (Some CV) canon c base) f.
Proof.
  intros base f [H1 H2] s y s' E. unfold agg_from_proto in E. destruct (pa_out f); [|discriminate].
  unb E. unb E. unb E. unb E. inversion E; subst.
  eapply extends_trans; [|eapply extends_trans; [eapply sorts_at; [|eassumption]; auto|eapply resolve_extends; eauto]].
  match goal with H : mapS (farg_from_proto _) _ _ = _ |- _ => revert H end.
  apply mapS_grows_at. apply All_Forall in H1. eapply Forall_impl; [|exact H1]. intros ar Ha. apply farg_grows_at. destruct ar; auto. apply expr_at; auto.
Qed.
Lemma measure_at : forall base m, pmeasure_each P m -> grows_at (measure_from_proto canon c CV base) m.
Proof.
  intros base [[f|] e] [H1 H2] s y s' E; cbn [measure_from_proto] in E; [|discriminate].
  unb E. unb E. inversion E; subst. eapply extends_trans; [eapply agg_at; [|eassumption]; auto|eapply opt_at; [|eassumption]; auto].
Qed.
Lemma kind_at : forall k, match k with PRd_virtual _ rows => All (All (each_prel P)) rows | _ => True end ->
  grows_at (kind_from_proto canon c CV) k.
Proof.
  intros k H s y s' E. destruct k; cbn [kind_from_proto] in E; try (inversion E; subst; apply extends_refl).
  - assert (E' : (let! vs := mapM (mapM lit_from_proto) values in
          let! (es, s1) := mapS (mapS (dec None)) exprs s in
          Ok (KVirtual (map (map ELit) vs ++ es)%list, s1)) = Ok (y, s')).
    { destruct values, exprs; try exact E. discriminate. }
    clear E. unb E'. unb E'. inversion E'; subst.
    match goal with H : mapS (mapS _) _ _ = _ |- _ => revert H end. apply mapS_grows_at.
    apply All_Forall in H. eapply Forall_impl; [|exact H]. intros. apply list_at; auto.
  - destruct t; inversion E; subst; apply extends_refl.
Qed.

Lemma post_at : forall (m : pexpr prel) (x : res (list xtype)), each_prel P m ->
  forall s y s', match m with
        | PX_nil => Ok (@ELit rel LNil, s)
        | _ => let! base := x in dec (Some base) m s
        end = Ok (y, s') -> extends s s'.
Proof.
  intros m x H s y s' E. assert (H' := fun base => expr_at base m H).
  destruct m; try (destruct x as [base| |]; try discriminate; exact (H' (Some base) s y s' E)).
  inversion E; subst. apply extends_refl.
Qed.

Lemma rel_at : forall m, P m.
Proof.
  apply prel_ind'. intros m H f EC. injection EC as <-. intros s y s' E.
  assert (Q : forall p, P p -> grows_at CV p) by (intros p Hp; apply Hp; auto).
  destruct m; cbn [rel_from_proto prel_each] in *; try discriminate.
  - destruct H as (H1 & H2 & H3). unb E. unb E. unb E. unb E. unb E. inversion E; subst.
    eapply extends_trans; [eapply kind_at; [|eassumption]; auto|]. eapply extends_trans; [eapply opt_at; [|eassumption]; auto|eapply opt_at; [|eassumption]; auto].
  - destruct H as (H1 & H2). unb E. unb E. unb E. destruct l; [discriminate|]. inversion E; subst.
    eapply extends_trans; [eapply Q; [|eassumption]; auto|eapply list_at; [|eassumption]; auto].
  - destruct H as (H1 & H2 & H3 & H4). destruct (jt =? JoinUnspecified); [discriminate|].
    unb E. unb E. unb E. unb E. unb E. unb E. unb E. inversion E; subst.
    eapply extends_trans; [eapply Q; [|eassumption]; auto|]. eapply extends_trans; [eapply Q; [|eassumption]; auto|].
    eapply extends_trans; [eapply expr_at; [|eassumption]; auto|eapply opt_at; [|eassumption]; auto].
  - destruct H as (H1 & H2). unb E. unb E. unb E. inversion E; subst.
    eapply extends_trans; [eapply Q; [|eassumption]; auto|eapply Q; [|eassumption]; auto].
  - unb E. destruct offset; try discriminate. destruct count; try discriminate. inversion E; subst. eapply Q; [|eassumption]; auto.
  - destruct H as (H1 & H2 & H3 & H4). unb E. unb E. unb E. unb E. unb E. inversion E; subst.
    eapply extends_trans; [eapply Q; [|eassumption]; auto|]. eapply extends_trans.
    2: { eapply mapS_grows_at; [|eassumption].
         apply All_Forall in H4. eapply Forall_impl; [|exact H4]. intros; apply measure_at; auto. }
    destruct gexprs.
    + unb E2. unb E2. inversion E2; subst.
      eapply mapS_grows_at; [|eassumption].
      apply All_Forall in H3. eapply Forall_impl; [|exact H3]. intros [g z] Hg. intros s0 y0 s0'. apply list_at; auto.
    + unb E2. inversion E2; subst. eapply list_at; [|eassumption]; auto.
  - destruct H as (H1 & H2). unb E. unb E. unb E. destruct l; [discriminate|]. unb E. inversion E; subst.
    eapply extends_trans; [eapply Q; [|eassumption]; auto|eapply sorts_at; [|eassumption]; auto].
  - destruct H as (H1 & H2). unb E. unb E. unb E. inversion E; subst.
    eapply extends_trans; [eapply Q; [|eassumption]; auto|eapply expr_at; [|eassumption]; auto].
  - destruct inputs as [|i1 [|i2 inputs]]; try discriminate. unb E. destruct (op =? 0); [discriminate|].
    destruct (map rel_type l); [discriminate|]. unb E. unb E. unb E. inversion E; subst.
    eapply mapS_grows_at; [|eassumption].
    apply All_Forall in H. eapply Forall_impl; [|exact H]. auto.
  - unb E. unb E. unb E. inversion E; subst. eapply Q; [|eassumption]; auto.
  - unb E. unb E. inversion E; subst. apply extends_refl.
  - unb E. unb E. unb E. inversion E; subst.
    eapply mapS_grows_at; [|eassumption].
    apply All_Forall in H. eapply Forall_impl; [|exact H]. auto.
  - destruct H as (H1 & H2 & H3 & H4 & H5 & H6). unb E. unb E. unb E. unb E. unb E. unb E.
    match type of E with bind ?t _ = _ => destruct t as [[p s4]| |] eqn:EP; cbn [bind] in E; try discriminate end.
    inversion E; subst.
    eapply extends_trans; [eapply Q; [|eassumption]; auto|]. eapply extends_trans; [eapply Q; [|eassumption]; auto|].
    eapply extends_trans; [eapply keys_at; [| | |eauto]; auto|eapply post_at; [|eassumption]; auto].
  - destruct H as (H1 & H2 & H3 & H4 & H5 & H6). unb E. unb E. unb E. unb E. unb E. unb E.
    match type of E with bind ?t _ = _ => destruct t as [[p s4]| |] eqn:EP; cbn [bind] in E; try discriminate end.
    inversion E; subst.
    eapply extends_trans; [eapply Q; [|eassumption]; auto|]. eapply extends_trans; [eapply Q; [|eassumption]; auto|].
    eapply extends_trans; [eapply keys_at; [| | |eauto]; auto|eapply post_at; [|eassumption]; auto].
  - unb E. unb E. destruct (_ || _); [|discriminate]. assert (HQ := Q _ H _ _ _ E0). destruct w; inversion E; subst; auto.
Qed.

Lemma rel_grows : grows CV.
Proof. intros m. apply (rel_at m). reflexivity. Qed.
Lemma conv_ok : forall f, Some CV = Some f -> grows f.
Proof. intros f E. injection E as <-. exact rel_grows. Qed.
Lemma all_prel : forall m, each_prel P m.
Proof. intros m. apply each_prel_intro. apply rel_at. Qed.
Lemma opt_grows : forall base, grows (opt_from_proto canon c CV base).
Proof. intros base m. apply opt_at. apply all_prel. Qed.
Lemma all_pfref : forall f, pfref_each P f.
Proof. intros [[[] f]|]; cbn; auto. apply all_prel. Qed.
Lemma fref_grows : forall base, grows (fref_from_proto canon c CV base).
Proof. intros base m. apply fref_at. apply all_pfref. Qed.
Lemma key_grows : forall lb rb, grows (key_from_proto canon c CV lb rb).
Proof. intros lb rb k. apply key_at. split; apply all_pfref. Qed.
Lemma keys_grows : forall lb rb ks lk rk s y s', keys_from_proto canon c CV ks lk rk lb rb s = Ok (y, s') -> extends s s'.
Proof. intros lb rb ks lk rk. apply keys_at; apply All_fix; intros; try split; apply all_pfref. Qed.
Lemma agg_grows : forall base, grows (agg_from_proto rel_type (Some CV) canon c base).
Proof.
  intros base f. apply agg_at. split; apply All_fix; intros x; [destruct x; auto; apply all_prel|destruct x; apply all_prel].
Qed.
Lemma measure_grows : forall base, grows (measure_from_proto canon c CV base).
Proof.
  intros base [[f|] e] s y s' E; cbn [measure_from_proto] in E; [|discriminate].
  unb E. unb E. inversion E; subst. eapply extends_trans; [eapply agg_grows; eauto|eapply opt_grows; eauto].
Qed.
Lemma kind_grows : grows (kind_from_proto canon c CV).
Proof.
  intros k. apply kind_at. destruct k; auto. apply All_fix. intros x. apply All_fix. apply all_prel.
Qed.
Lemma post_grows : forall (m : pexpr prel) (x : res (list xtype)) s y s',
  match m with
        | PX_nil => Ok (@ELit rel LNil, s)
        | _ => let! base := x in dec (Some base) m s
        end = Ok (y, s') -> extends s s'.
Proof. intros m x. apply post_at. apply all_prel. Qed.
End Grow.

(** ** survival depends on the relations of the subqueries only *)

Definition own_rel {R} (P : R -> Prop) (e : expr R) : Prop :=
  match e with ESubScalar r | ESubSet _ r | ESubIn _ r | ESubCmp _ _ _ r => P r | _ => True end.
Lemma each_rel_down : forall R (P : R -> Prop) m, each_rel P m -> own_rel P m /\ Forall (each_rel P) (children m).
Proof.
  intros R P m H.
  assert (HA : forall args, All (fun a => match a with AExpr e => each_rel P e | _ => True end) args -> Forall (each_rel P) (flat_map farg_sub args)).
  { induction args as [|a args IHa]; cbn; intros X; [constructor|]. destruct X as [X1 X2]. apply Forall_app. split; [|auto].
    destruct a; constructor; auto. }
  assert (HP : forall l, All (fun p => match p with (a, b) => each_rel P a /\ each_rel P b end) l ->
    Forall (each_rel P) (flat_map (fun p => [fst p; snd p]) l)).
  { induction l as [|[a b] l IHl]; cbn; intros X; [constructor|]. destruct X as [[X1 X2] X3]. auto. }
  assert (HF : forall B (l : list (expr R * B)), All (fun p => match p with (e, _) => each_rel P e end) l -> Forall (each_rel P) (map fst l)).
  { induction l as [|[a b] l IHl]; cbn; intros X; constructor; tauto. }
  assert (HS : forall B (l : list (B * expr R)), All (fun p => match p with (_, e) => each_rel P e end) l -> Forall (each_rel P) (map snd l)).
  { induction l as [|[a b] l IHl]; cbn; intros X; constructor; tauto. }
  assert (HL : forall l, All (each_rel P) l -> Forall (each_rel P) l) by (intros l; apply All_Forall).
  assert (HC : forall l, All (All (each_rel P)) l -> Forall (each_rel P) (List.concat l)).
  { induction l as [|a l IHl]; cbn; intros X; [constructor|]. apply Forall_app. destruct X. split; auto. }
  destruct m; cbn [each_rel own_rel children] in *; repeat match goal with H : _ /\ _ |- _ => destruct H end;
    split; auto; repeat (first [apply Forall_app; split | apply Forall_cons]); auto.
  destruct r; auto.
Qed.

Lemma All_iff : forall A (P Q : A -> Prop) l, Forall (fun x => P x <-> Q x) l -> (All P l <-> All Q l).
Proof. intros A P Q l H. induction H; cbn; tauto. Qed.

Ltac allswap l :=
  match goal with |- ?L <-> ?M =>
    match L with context [All ?F l] => match M with context [All ?G l] =>
      assert (All F l <-> All G l); [apply All_iff|] end end end.

Lemma survives_ext : forall R (rs : R -> res (list xtype)) canon c base s (P Q : R -> Prop) e,
  each_rel (fun r => P r <-> Q r) e ->
  (survives rs canon c base s P e <-> survives rs canon c base s Q e).
Proof.
  intros R rs canon c base s P Q e. pattern e. apply expr_ind'. clear e. intros e IH' HE.
  apply each_rel_down in HE as [HO HE].
  assert (IH : Forall (fun e => survives rs canon c base s P e <-> survives rs canon c base s Q e) (children e)).
  { clear HO. induction HE as [|x l Hx Hl IHl]; [constructor|]. inversion IH'; subst. constructor; auto. }
  clear IH' HE. destruct e; cbn [children own_rel survives] in *; try tauto.
  - destruct r; try tauto. inversion IH; subst. tauto.
  - apply ch_args in IH. allswap args; [|tauto]. eapply Forall_impl; [|exact IH]. intros [| |x]; tauto.
  - apply Forall_app in IH. destruct IH as [IH1 IH]. apply Forall_app in IH. destruct IH as [IH2 IH3].
    apply ch_args in IH1. apply ch_map in IH3.
    allswap args; [eapply Forall_impl; [|exact IH1]; intros [| |x]; tauto|].
    allswap parts; [exact IH2|].
    allswap sorts; [eapply Forall_impl; [|exact IH3]; intros [x k]; cbn [fst]; tauto|]. tauto.
  - apply Forall_app in IH. destruct IH as [IH1 IH2]. inversion IH2; subst. apply ch_pairs in IH1.
    allswap ifs; [eapply Forall_impl; [|exact IH1]; intros [x k]; cbn [fst snd]; tauto|]. tauto.
  - inversion IH as [|? ? H1 IH']; subst. apply Forall_app in IH'. destruct IH' as [IH1 IH2]. inversion IH2; subst. apply ch_map in IH1.
    allswap ifs; [eapply Forall_impl; [|exact IH1]; intros [x k]; cbn [fst snd]; tauto|]. tauto.
  - inversion IH; subst. allswap opts; [eassumption|]. tauto.
  - apply Forall_app in IH. destruct IH as [IH1 IH2]. apply ch_concat in IH2.
    allswap v; [exact IH1|]. allswap opts; [eapply Forall_impl; [|exact IH2]; intros l Hl; apply All_iff; exact Hl|]. tauto.
  - inversion IH; subst. tauto.
  - apply ch_pairs in IH. allswap kvs; [eapply Forall_impl; [|exact IH]; intros [x k]; cbn [fst snd]; tauto|]. tauto.
  - apply All_iff; auto.
  - allswap vals; [exact IH|]. tauto.
  - inversion IH; subst. tauto.
  - allswap needles; [exact IH|]. tauto.
  - inversion IH; subst. tauto.
Qed.

(** ** the round trip *)

Lemma measures_grows : forall canon c decoders base, grows (mapS (measure_from_proto canon c (rel_from_proto canon c decoders) base)).
Proof. intros. apply mapS_grows, measure_grows. Qed.
Lemma keyl_grows : forall canon c decoders lb rb, grows (mapS (key_from_proto canon c (rel_from_proto canon c decoders) lb rb)).
Proof. intros. apply mapS_grows, key_grows. Qed.

Section Trip.
Variable canon : string -> option string.
Variable c : coll.
Variable decoders : string -> option (any -> res extdef).
Variable s : eset.
Notation CV := (rel_from_proto canon c decoders).
Notation dec base := (expr_from_proto rel_type (Some CV) canon c base).
Notation enc := (expr_to_proto rel_to_proto).
Notation W := (rel_survives canon c decoders s).
Notation sv base := (survives rel_type canon c base s W).

Definition trip (r : rel) : Prop := exists m, rel_to_proto r = Ok m /\ CV m s = Ok (r, s).
Notation ok_at := (fun r => W r <-> trip r).

Ltac posed H := match goal with _ : H |- _ => fail 1 | _ => idtac end.
Ltac chain :=
  repeat match goal with H : extends _ _ |- _ => destruct H as [H|H]; [try subst|] end; try (exfalso; lia).
Ltac grown H a b L := posed (extends a b); assert (extends a b) by (eapply L; exact H).
Ltac facts :=
  repeat match goal with
  | H : CV _ ?a = Ok (_, ?b) |- _ => grown H a b (rel_grows canon c decoders)
  | H : mapS CV _ ?a = Ok (_, ?b) |- _ => grown H a b (mapS_grows _ _ _ (rel_grows canon c decoders))
  | H : expr_from_proto _ (Some CV) _ _ ?base _ ?a = Ok (_, ?b) |- _ =>
      grown H a b (dec_grows rel_type (Some CV) canon c base (conv_ok canon c decoders))
  | H : mapS (expr_from_proto _ (Some CV) _ _ ?base) _ ?a = Ok (_, ?b) |- _ =>
      grown H a b (mapS_grows _ _ _ (dec_grows rel_type (Some CV) canon c base (conv_ok canon c decoders)))
  | H : mapS (pairS (expr_from_proto _ (Some CV) _ _ ?base) (liftS sortkind_from_proto)) _ ?a = Ok (_, ?b) |- _ =>
      grown H a b (mapS_grows _ _ _ (sorts_grows rel_type (Some CV) canon c base (conv_ok canon c decoders)))
  | H : opt_from_proto _ _ _ _ _ ?a = Ok (_, ?b) |- _ => grown H a b (opt_grows canon c decoders)
  | H : fref_from_proto _ _ _ _ _ ?a = Ok (_, ?b) |- _ => grown H a b (fref_grows canon c decoders)
  | H : keys_from_proto _ _ _ _ _ _ _ _ ?a = Ok (_, ?b) |- _ => grown H a b (keys_grows canon c decoders)
  | H : mapS (key_from_proto _ _ _ _ _) _ ?a = Ok (_, ?b) |- _ => grown H a b (keyl_grows canon c decoders)
  | H : agg_from_proto _ _ _ _ _ _ ?a = Ok (_, ?b) |- _ => grown H a b (agg_grows canon c decoders)
  | H : mapS (measure_from_proto _ _ _ _) _ ?a = Ok (_, ?b) |- _ => grown H a b (measures_grows canon c decoders)
  | H : kind_from_proto _ _ _ _ ?a = Ok (_, ?b) |- _ => grown H a b (kind_grows canon c decoders)
  end.
Ltac fwd := repeat match goal with H : ?x = Ok _ |- context [bind ?x _] => rewrite H; cbn [bind] end.

Lemma trip_spec : forall r, trip r <-> exists p f, rel_to_proto r = Ok p /\ Some CV = Some f /\ f p s = Ok (r, s).
Proof.
  intros r. unfold trip. split.
  - intros (p & E1 & E2). eauto 10.
  - intros (p & f & E1 & E2 & E3). injection E2 as <-. eauto.
Qed.

Lemma expr_rt : forall base e, each_rel ok_at e -> (sv base e <-> exists m, enc e = Ok m /\ dec base m s = Ok (e, s)).
Proof.
  intros base e H. rewrite (survives_ext _ _ _ _ _ _ _ _ _ H).
  apply (round_trip rel_to_proto rel_type (Some CV) canon c base (conv_ok canon c decoders) s trip trip_spec e).
Qed.

Lemma opt_rt : forall base e, each_rel ok_at e ->
  (absent_or (sv base) e <-> exists m, opt_to_proto enc e = Ok m /\ opt_from_proto canon c CV base m s = Ok (e, s)).
Proof.
  intros base e H. unfold absent_or. rewrite (expr_rt base e H). unfold opt_to_proto. destruct (is_nil_expr e) eqn:N.
  - apply is_nil_spec in N. subst. split; [|auto]. intros _. exists PX_nil. split; reflexivity.
  - apply is_nil_false in N. split.
    + intros [?|(m & E1 & E2)]; [contradiction|]. exists m. split; auto.
      assert (HM := enc_not_nil _ _ _ E1). destruct m; try contradiction; exact E2.
    + intros (m & E1 & E2). right. exists m. split; auto. 
      assert (HM := enc_not_nil _ _ _ E1). destruct m; try contradiction; exact E2.
Qed.

Lemma exprs_rt : forall base l, All (each_rel ok_at) l ->
  (All (sv base) l <-> exists m, mapM enc l = Ok m /\ mapS (dec base) m s = Ok (l, s)).
Proof.
  intros base l H. apply mapS_inverse; [apply dec_grows, conv_ok|]. apply All_Forall in H.
  eapply Forall_impl; [|exact H]. intros e He. apply expr_rt; auto.
Qed.
Lemma rows_rt : forall base l, All (All (each_rel ok_at)) l ->
  (All (All (sv base)) l <-> exists m, mapM (mapM enc) l = Ok m /\ mapS (mapS (dec base)) m s = Ok (l, s)).
Proof.
  intros base l H. apply mapS_inverse; [apply mapS_grows, dec_grows, conv_ok|]. apply All_Forall in H.
  eapply Forall_impl; [|exact H]. intros e He. apply exprs_rt; auto.
Qed.

Lemma keysort_rt : forall base (l : list (expr rel * sortkind)), sorts_each ok_at l ->
  (All (fun p => match p with (e, k) => sv base e /\ k <> SK_nil end) l <->
   exists m, mapM (pairM enc (fun k => Ok (sortkind_to_proto k))) l = Ok m /\
             mapS (pairS (dec base) (liftS sortkind_from_proto)) m s = Ok (l, s)).
Proof.
  intros base l H. apply mapS_inverse.
  - intros a. apply pairS_grows_at; intros s0; [apply dec_grows, conv_ok|apply liftS_grows].
  - apply All_Forall in H. eapply Forall_impl; [|exact H]. intros [e k] He.
    rewrite <- (pairS_inverse _ _ _ _ enc (fun k => Ok (sortkind_to_proto k)) (dec base) (liftS sortkind_from_proto)
             (sv base) (fun k => k <> SK_nil) s (e, k)).
    + reflexivity.
    + apply dec_grows, conv_ok.
    + apply liftS_grows.
    + apply expr_rt; auto.
    + apply (liftS_inverse _ _ (fun k => Ok (sortkind_to_proto k)) sortkind_from_proto (fun k => k <> SK_nil) s k). apply sortkind_rt.
Qed.

Lemma schema_rt : forall sch, schema_ok sch <->
  exists m, schema_to_proto sch = Ok m /\ schema_from_proto (Some m) = Ok sch.
Proof.
  intros [names n v ts]. unfold schema_ok, schema_to_proto. cbn [sc_types sc_names sc_null sc_var].
  assert (X : forall l, mapM x_to_proto (map XTy l) = mapM type_to_proto l).
  { intros l. rewrite mapM_map. reflexivity. }
  split.
  - intros (l & -> & H). rewrite <- All_Forall in H.
    rewrite (mapM_inverse _ _ type_to_proto type_from_proto wire_type l) in H by (apply Forall_forall; intros; apply wire_iff).
    destruct H as (ms & E1 & E2). rewrite X, E1. cbn [bind]. eexists; split; [reflexivity|].
    unfold schema_from_proto. cbn [named_struct_from_proto]. rewrite E2. reflexivity.
  - intros (m & E1 & E2). unb E1. inversion E1; subst. unfold schema_from_proto in E2. cbn [named_struct_from_proto] in E2.
    destruct (mapM type_from_proto a) as [fs| |] eqn:E3; cbn [bind] in E2; try discriminate.
    cbn [ns_names ns_null ns_var ns_types] in E2. inversion E2; subst. exists fs. split; auto.
    rewrite X in E. rewrite <- All_Forall.
    rewrite (mapM_inverse _ _ type_to_proto type_from_proto wire_type fs) by (apply Forall_forall; intros; apply wire_iff).
    eauto.
Qed.

Lemma mask_rt : forall p, (match p with None => True | Some m => mask_ok m end) <->
  exists m, optM mask_to_proto p = Ok m /\ optM mask_from_proto m = Ok p.
Proof.
  intros [m|]; cbn [optM].
  - destruct (mask_char m) as [[H (p & E1 & E2)]|[H E1]]; rewrite E1.
    + split; auto. intros _. eexists; split; [reflexivity|]. cbn [optM]. rewrite E2. reflexivity.
    + split; [tauto|]. intros (p & E & _). discriminate.
  - split; auto. intros _. exists None. split; reflexivity.
Qed.

Lemma file_rt : forall f, 0 <= fl_ptype f <= 3 <-> file_from_proto (file_to_proto f) = f.
Proof.
  intros [t p a b d e]. unfold file_to_proto, file_from_proto. cbn [fl_ptype fl_path fl_part fl_start fl_len fl_format].
  destruct (Z.eqb_spec t 0) as [->|N0]; cbn; [split; [auto|lia]|].
  destruct (Z.eqb_spec t 1) as [->|N1]; cbn; [split; [auto|lia]|].
  destruct (Z.eqb_spec t 2) as [->|N2]; cbn; [split; [auto|lia]|].
  destruct (Z.eqb_spec t 3) as [->|N3]; cbn; [split; [auto|lia]|].
  split; [lia|]. intros E. inversion E. congruence.
Qed.
Lemma direct_rt : forall d, snapshot_ok d <-> direct_from_proto (direct_to_proto d) = d.
Proof.
  intros [u t i]. unfold snapshot_ok, direct_to_proto, direct_from_proto. cbn [ic_uri ic_ts ic_id].
  destruct (String.eqb_spec i "") as [->|Ni]; cbn [negb].
  - destruct (Z.eqb_spec t 0) as [->|Nt]; cbn [negb]; split; auto.
  - split.
    + intros [?| ->]; [contradiction|reflexivity].
    + intros E. inversion E. auto.
Qed.
Lemma map_fix : forall A (f : A -> A) l, map f l = l <-> Forall (fun x => f x = x) l.
Proof.
  intros A f l. induction l as [|x l IH]; cbn; [split; auto|]. rewrite Forall_cons_iff, <- IH. split.
  - intros E. inversion E. rewrite H1. split; auto. congruence.
  - intros [E1 E2]. congruence.
Qed.

Lemma kind_rt : forall k, match k with KVirtual rows => All (All (each_rel ok_at)) rows | _ => True end ->
  (kind_ok (sv None) k <-> exists m, kind_to_proto enc k = Ok m /\ kind_from_proto canon c CV m s = Ok (k, s)).
Proof.
  intros k H. destruct k; cbn [kind_ok kind_to_proto].
  - split; auto. intros _. eexists; split; reflexivity.
  - rewrite (rows_rt None _ H). split.
    + intros (m & E1 & E2). rewrite E1. eexists; split; [reflexivity|]. cbn [kind_from_proto mapM bind]. rewrite E2. reflexivity.
    + intros (m & E1 & E2). destruct (mapM (mapM enc) values) as [rows| |]; inversion E1; subst.
      cbn [kind_from_proto mapM bind] in E2. unb E2. inversion E2; subst. eauto.
  - split; auto. intros _. eexists; split; reflexivity.
  - rewrite direct_rt. split.
    + intros E. eexists; split; [reflexivity|]. cbn [kind_from_proto]. rewrite E. reflexivity.
    + intros (m & E1 & E2). inversion E1; subst. cbn [kind_from_proto] in E2. inversion E2; congruence.
  - assert (X : Forall (fun f => 0 <= fl_ptype f <= 3) items <-> map file_from_proto (map file_to_proto items) = items).
    { rewrite map_map, map_fix, !Forall_forall. split; intros HH x Hx; apply file_rt; auto. }
    rewrite X. split.
    + intros E. eexists; split; [reflexivity|]. cbn [kind_from_proto]. rewrite E. reflexivity.
    + intros (m & E1 & E2). inversion E1; subst. cbn [kind_from_proto] in E2. inversion E2; congruence.
Qed.

Lemma fref_rt : forall base f, fref_each ok_at f ->
  (side_ok canon c s base W f <->
   exists m, fref_to_proto enc f = Ok m /\ fref_from_proto canon c CV (Some base) (Some m) s = Ok (f, s)).
Proof.
  intros base [r f k] H. unfold side_ok. cbn [fr_root fr_ref fr_known].
  assert (HE := expr_rt (Some base) (ERef r f k)). cbn [survives each_rel] in HE. rewrite HE by (destruct r; auto). clear HE H.
  cbn [expr_to_proto]. unfold fref_to_proto. cbn [fr_root fr_ref fr_known]. split.
  - intros (m & E1 & E2). unb E1. unb E1. inversion E1; subst. cbn [bind]. eexists; split; [reflexivity|].
    cbn [fref_from_proto pfr_root pfr_ref]. cbn [expr_from_proto] in E2. unb E2. cbn [bind]. unb E2. inversion E2; subst. reflexivity.
  - intros (m & E1 & E2). unb E1. unb E1. inversion E1; subst. cbn [bind]. eexists; split; [reflexivity|].
    cbn [fref_from_proto pfr_root pfr_ref] in E2. cbn [expr_from_proto]. unb E2. cbn [bind]. unb E2. inversion E2; subst. reflexivity.
Qed.

Lemma cmp_rt : forall k, cmp_from_proto (cmp_to_proto k) = Ok k.
Proof. intros []; reflexivity. Qed.

Lemma key_rt : forall lt rt k, fref_each ok_at (k_left k) /\ fref_each ok_at (k_right k) ->
  (key_ok canon c s lt rt W k <->
   exists m, key_to_proto enc k = Ok m /\ key_from_proto canon c CV (Some lt) (Some rt) m s = Ok (k, s)).
Proof.
  intros lt rt [l r cm] [H1 H2]. unfold key_ok. cbn [k_left k_right] in *. rewrite (fref_rt lt l H1), (fref_rt rt r H2).
  unfold key_to_proto. cbn [k_left k_right k_cmp]. split.
  - intros [(a & E1 & E2) (b & E3 & E4)]. rewrite E1, E3. cbn [bind]. eexists; split; [reflexivity|].
    unfold key_from_proto. cbn [pk_left pk_right pk_cmp]. rewrite E2. cbn [bind]. rewrite E4. cbn [bind]. rewrite cmp_rt. reflexivity.
  - intros (m & E1 & E2). unb E1. unb E1. inversion E1; subst. unfold key_from_proto in E2. cbn [pk_left pk_right pk_cmp] in E2.
    unb E2. unb E2. rewrite cmp_rt in E2. cbn [bind] in E2. inversion E2; subst.
    facts. chain. eauto 10.
Qed.

Lemma keys_rt : forall lt rt ks, All (fun k => fref_each ok_at (k_left k) /\ fref_each ok_at (k_right k)) ks ->
  (All (key_ok canon c s lt rt W) ks <->
   exists m, mapM (key_to_proto enc) ks = Ok m /\ mapS (key_from_proto canon c CV (Some lt) (Some rt)) m s = Ok (ks, s)).
Proof.
  intros lt rt ks H. apply mapS_inverse; [apply key_grows|]. apply All_Forall in H. eapply Forall_impl; [|exact H].
  intros k Hk. apply key_rt; auto.
Qed.

Lemma measure_rt : forall base m, measure_each ok_at m ->
  (measure_ok canon c s base W m <->
   exists p, measure_to_proto rel_to_proto m = Ok p /\ measure_from_proto canon c CV base p s = Ok (m, s)).
Proof.
  intros base [f e] [H1 H2]. unfold measure_ok, measure_to_proto. cbn [ms_fn ms_filter] in *. rewrite (opt_rt base e H2).
  destruct f as [a|].
  - destruct H1 as [HA HS].
    assert (X : agg_ok canon c s base W a <->
      exists m, agg_to_proto rel_to_proto a = Ok m /\ agg_from_proto rel_type (Some CV) canon c base m s = Ok (a, s)).
    { rewrite <- (agg_round_trip rel_to_proto rel_type (Some CV) canon c base (conv_ok canon c decoders) s trip trip_spec a).
      unfold agg_ok, agg_survives. rewrite <- !All_Forall.
      apply All_Forall in HA. apply All_Forall in HS.
      rewrite (All_iff _ _ (arg_survives rel_type canon c base s trip) (ag_args a)).
      2: { eapply Forall_impl; [|exact HA]. intros [| |x] Hx; try reflexivity. cbn [arg_survives]. apply survives_ext; auto. }
      rewrite (All_iff _ _ (fun p => survives rel_type canon c base s trip (fst p) /\ snd p <> SK_nil) (ag_sorts a)).
      2: { eapply Forall_impl; [|exact HS]. intros [x k] Hx. cbn [fst snd]. rewrite (survives_ext _ _ _ _ _ _ _ _ _ Hx). reflexivity. }
      reflexivity. }
    rewrite X. split.
    + intros [(m & E1 & E2) (p & E3 & E4)]. rewrite E1. cbn [bind]. rewrite E3. cbn [bind]. eexists; split; [reflexivity|].
      cbn [measure_from_proto]. rewrite E2. cbn [bind]. rewrite E4. reflexivity.
    + intros (m & E1 & E2). unb E1. unb E1. inversion E1; subst. cbn [measure_from_proto] in E2. unb E2. unb E2. inversion E2; subst.
      facts. chain. eauto 10.
  - split; [tauto|]. intros (p & E & _). discriminate.
Qed.

Lemma post_rt : forall m cols e, each_rel ok_at e ->
  (absent_or (fun e => match m with
                       | None => sv (Some cols) e
                       | Some m => exists out, picks m cols out /\ sv (Some out) e
                       end) e <->
   exists p, opt_to_proto enc e = Ok p /\
     match p with
     | PX_nil => Ok (@ELit rel LNil, s)
     | _ => let! base := remap m cols in dec (Some base) p s
     end = Ok (e, s)).
Proof.
  intros m cols e H. unfold absent_or, opt_to_proto. destruct (is_nil_expr e) eqn:N.
  - apply is_nil_spec in N. subst. split; [|auto]. intros _. exists PX_nil. split; reflexivity.
  - apply is_nil_false in N.
    assert (X : forall p, enc e = Ok p ->
       match p with
       | PX_nil => Ok (@ELit rel LNil, s)
       | _ => let! base := remap m cols in dec (Some base) p s
       end = (let! base := remap m cols in dec (Some base) p s)).
    { intros p E1. assert (HM := enc_not_nil _ _ _ E1). destruct p; try contradiction; reflexivity. }
    assert (Y : (match m with
                 | None => sv (Some cols) e
                 | Some m => exists out, picks m cols out /\ sv (Some out) e
                 end) <-> exists p, enc e = Ok p /\ (let! base := remap m cols in dec (Some base) p s) = Ok (e, s)).
    { destruct m as [m|]; cbn [remap bind].
      - split.
        + intros (out & HP & HS). apply expr_rt in HS; auto. destruct HS as (p & E1 & E2). exists p. split; auto.
          apply picks_iff in HP. rewrite HP. exact E2.
        + intros (p & E1 & E2). unb E2. exists a. apply picks_iff in E. split; auto. apply expr_rt; eauto.
      - apply expr_rt; auto. }
    rewrite Y. split.
    + intros [?|(p & E1 & E2)]; [contradiction|]. exists p. split; auto. rewrite X by auto. exact E2.
    + intros (p & E1 & E2). rewrite X in E2 by auto. eauto.
Qed.

Lemma def_rt : forall ins d, def_ok decoders ins d <->
  exists a, def_build d ins = Ok a /\ decode_def decoders a = Ok d.
Proof.
  intros ins d. unfold def_ok, def_build, decode_def. split.
  - intros (a & H1 & H2). exists a. split; [destruct d; congruence|]. 
    destruct (decoders _); auto. congruence.
  - intros (a & H1 & H2). exists a. split; [destruct d; congruence|].
    destruct (decoders _); auto. congruence.
Qed.

Lemma wrap_rt : forall jt, -128 <= jt <= 127 <-> wrap 8 jt = jt.
Proof.
  intros jt. unfold wrap. change (2 ^ (8 - 1)) with 128. change (2 ^ 8) with 256. split.
  - intros H. rewrite Z.mod_small by lia. lia.
  - intros H. assert (X := Z.mod_pos_bound (jt + 128) 256 ltac:(lia)). lia.
Qed.

Lemma common_rt : forall cm, common_from_proto (common_to_proto cm) = cm.
Proof. intros [h m a]. unfold common_to_proto, common_from_proto. cbn. destruct m; reflexivity. Qed.

Lemma all_equal_spec : forall t l, all_equal_to t (map rel_type l) = Ok tt <->
  Forall (fun x => exists t', rel_type x = Ok t' /\ record_eq t' t = Ok true) l.
Proof.
  intros t l. induction l as [|x l IH]; cbn [map all_equal_to]; [split; auto|].
  rewrite Forall_cons_iff, <- IH. split.
  - intros E. unb E. unb E. destruct a0; [|discriminate]. eauto.
  - intros [(t' & E1 & E2) H]. rewrite E1. cbn [bind]. rewrite E2. cbn [bind]. exact H.
Qed.

Lemma group_empty : forall gs : list (list Z), Forall (fun g => g = []) gs <->
  grouping_exprs fresh_equals (map (fun _ => []) gs) = Ok ([], gs).
Proof.
  intros gs. unfold grouping_exprs. 
  assert (X : forall gs : list (list Z), groups_refs fresh_equals [] (map (fun _ => []) gs) = Ok ([], map (fun _ => []) gs)).
  { induction gs0 as [|g gs0 IH]; [reflexivity|]. cbn [map groups_refs group_refs bind]. rewrite IH. reflexivity. }
  rewrite X. split.
  - intros H. f_equal. f_equal. induction H as [|g gs0 Hg H IH]; [reflexivity|]. cbn [map]. congruence.
  - intros E. inversion E as [E']. clear E X. rewrite E'. induction gs as [|g gs IH]; [constructor|]. cbn [map] in E'. inversion E'. constructor; auto.
    rewrite H1. apply IH. auto.
Qed.
Lemma mapS_empty : forall A B (g : list A -> eset -> res (list B * eset)) (gs : list (list Z)) s0,
  (forall s, g [] s = Ok ([], s)) ->
  mapS (fun x => g (fst x)) (map (fun y : list Z => ([] : list A, y)) gs) s0 = Ok (map (fun _ => []) gs, s0).
Proof.
  intros A B g gs s0 H. induction gs as [|y gs IH]; [reflexivity|]. cbn [map mapS fst]. rewrite H. cbn [bind]. rewrite IH. reflexivity.
Qed.

Lemma keys_enc_read : forall lt rt ks pks lk rk s0, mapM (key_to_proto enc) ks = Ok pks -> legacy_keys enc ks = Ok (lk, rk) ->
  keys_from_proto canon c CV pks lk rk (Some lt) (Some rt) s0 =
  mapS (key_from_proto canon c CV (Some lt) (Some rt)) pks s0.
Proof.
  intros lt rt ks pks lk rk s0 E1 E2. destruct pks as [|k pks]; [|reflexivity].
  destruct ks as [|k ks]; [|cbn [mapM] in E1; destruct (key_to_proto enc k); try discriminate; destruct (mapM (key_to_proto enc) ks); discriminate].
  unfold legacy_keys in E2. cbn [forallb mapM bind map] in E2. inversion E2; subst. reflexivity.
Qed.
Lemma legacy_total : forall (ks : list (jkey rel)) pks, mapM (key_to_proto enc) ks = Ok pks -> exists lk rk, legacy_keys enc ks = Ok (lk, rk).
Proof.
  intros ks pks E. unfold legacy_keys. destruct (forallb plain_eq ks); [|eauto].
  assert (X : exists ls, mapM (fun k => let! l := fref_to_proto enc (k_left k) in
                              let! r := fref_to_proto enc (k_right k) in Ok (Some l, Some r)) ks = Ok ls).
  { revert pks E. induction ks as [|k ks IH]; intros pks E; [cbn; eauto|]. cbn [mapM] in *. 
    unfold key_to_proto in E at 1. destruct (fref_to_proto enc (k_left k)) as [l| |]; cbn [bind] in *; try discriminate.
    destruct (fref_to_proto enc (k_right k)) as [r| |]; cbn [bind] in *; try discriminate.
    destruct (mapM (key_to_proto enc) ks) as [ps| |]; cbn [bind] in *; try discriminate.
    destruct (IH ps eq_refl) as [ls ->]. cbn [bind]. eauto. }
  destruct X as [ls ->]. cbn [bind]. eauto.
Qed.

Theorem rel_rt : forall r, W r <-> trip r.
Proof.
  apply rel_ind'. intros r H. unfold trip. destruct r; cbn [rel_each rel_survives] in *.
  - destruct b as [sch f g pr av]. cbn [rb_schema rb_filter rb_best rb_proj rb_adv] in *. destruct H as (H1 & H2 & H3).
    rewrite (schema_rt sch), (opt_rt _ _ H1), (opt_rt _ _ H2), (mask_rt pr), (kind_rt _ H3). cbn [rel_to_proto]. cbn [rb_schema rb_filter rb_best rb_proj rb_adv]. split.
    + intros ((m1 & A1 & B1) & (m2 & A2 & B2) & (m3 & A3 & B3) & (m4 & A4 & B4) & (m5 & A5 & B5)).
      fwd. eexists; split; [reflexivity|]. cbn [rel_from_proto]. fwd. cbn [common_opt]. rewrite common_rt. reflexivity.
    + intros (m & E1 & E2). unb E1. unb E1. unb E1. unb E1. unb E1. inversion E1; subst. cbn [rel_from_proto] in E2.
      unb E2. unb E2. unb E2. unb E2. unb E2. inversion E2; subst. facts. chain. eauto 20.
  - destruct H as [H1 H2]. rewrite H1. unfold trip. cbn [rel_to_proto]. split.
    + intros ((i & A1 & B1) & HN & H3). destruct (rel_type r) as [cols| |] eqn:ET; try contradiction.
      apply exprs_rt in H3; auto. destruct H3 as (ms & A2 & B2). fwd. eexists; split; [reflexivity|].
      cbn [rel_from_proto]. fwd. destruct exprs; [contradiction|]. cbn [common_opt]. rewrite common_rt. reflexivity.
    + intros (m & E1 & E2). unb E1. unb E1. inversion E1; subst. cbn [rel_from_proto] in E2.
      unb E2. unb E2. unb E2. destruct l as [|e0' l]; [discriminate|]. inversion E2; subst. facts. chain. split; [eauto|].
      split; [discriminate|]. rewrite E4. apply exprs_rt; eauto.
  - destruct H as (H1 & H2 & H3 & H4). rewrite H1, H2. unfold trip. cbn [rel_to_proto]. split.
    + intros ((i & A1 & B1) & (j & A2 & B2) & HJ & HT). destruct (rel_type r1) as [lt| |] eqn:T1; try contradiction.
      destruct (rel_type r2) as [rt| |] eqn:T2; try contradiction. destruct HT as [HE HP].
      apply expr_rt in HE; auto. apply opt_rt in HP; auto. destruct HE as (m1 & A3 & B3), HP as (m2 & A4 & B4).
      fwd. eexists; split; [reflexivity|]. cbn [rel_from_proto]. unfold JoinUnspecified. apply Z.eqb_neq in HJ. rewrite HJ.
      fwd. cbn [common_req bind]. fwd. rewrite common_rt. reflexivity.
    + intros (m & E1 & E2). unb E1. unb E1. unb E1. unb E1. inversion E1; subst. cbn [rel_from_proto] in E2.
      unfold JoinUnspecified in E2. destruct (Z.eqb_spec jt 0) as [|HJ]; [discriminate|].
      unb E2. unb E2. cbn [common_req bind] in E2. unb E2. unb E2. unb E2. unb E2. inversion E2; subst.
      facts. chain. split; [eauto|]. split; [eauto|]. split; [auto|].
      match goal with A : rel_type r1 = Ok _, B : rel_type r2 = Ok _ |- _ => rewrite A, B end.
      split; [apply expr_rt; eauto|apply opt_rt; eauto].
  - destruct H as (H1 & H2). rewrite H1, H2. unfold trip. cbn [rel_to_proto]. split.
    + intros ((i & A1 & B1) & (j & A2 & B2)). fwd. eexists; split; [reflexivity|]. cbn [rel_from_proto]. fwd.
      cbn [common_req bind]. rewrite common_rt. reflexivity.
    + intros (m & E1 & E2). unb E1. unb E1. inversion E1; subst. cbn [rel_from_proto] in E2.
      unb E2. unb E2. cbn [common_req bind] in E2. inversion E2; subst. facts. chain. eauto 10.
  - rewrite H. unfold trip. cbn [rel_to_proto]. split.
    + intros (i & A1 & B1). fwd. eexists; split; [reflexivity|]. cbn [rel_from_proto]. fwd. cbn [common_opt]. rewrite common_rt. reflexivity.
    + intros (m & E1 & E2). unb E1. inversion E1; subst. cbn [rel_from_proto] in E2. unb E2. inversion E2; subst. eauto.
  - destruct H as (H1 & H2 & H3). rewrite H1. unfold trip. cbn [rel_to_proto]. split.
    + intros ((i & A1 & B1) & HG & HT). destruct (rel_type r) as [cols| |] eqn:ET; try contradiction. destruct HT as [HE HM].
      apply exprs_rt in HE; auto. destruct HE as (es & A2 & B2).
      assert (HM' : exists ms, mapM (measure_to_proto rel_to_proto) measures = Ok ms /\
                               mapS (measure_from_proto canon c CV (Some cols)) ms s = Ok (measures, s)).
      { apply (mapS_inverse _ _ _ _ (measure_ok canon c s (Some cols) W)); auto; [apply measure_grows|].
        apply All_Forall in H2. eapply Forall_impl; [|exact H2]. intros x Hx. apply measure_rt; auto. }
      destruct HM' as (ms & A3 & B3). fwd. eexists; split; [reflexivity|]. cbn [rel_from_proto]. fwd.
      destruct es as [|p es].
      * assert (gexprs = []) by (cbn in B2; inversion B2; auto). subst.
        rewrite (mapS_empty _ _ (mapS (dec (Some cols)))) by reflexivity. cbn [bind].
        assert (HG' := HG eq_refl). apply group_empty in HG'. rewrite HG'. cbn [bind]. fwd. cbn [common_req bind]. rewrite common_rt. reflexivity.
      * fwd. rewrite map_map. cbn [snd]. rewrite map_id. cbn [common_req bind]. rewrite common_rt. fwd. reflexivity.
    + intros (m & E1 & E2). unb E1. unb E1. unb E1. inversion E1; subst. cbn [rel_from_proto] in E2.
      unb E2. unb E2.
      match type of E2 with bind ?t _ = _ => destruct t as [[[es refs] s2]| |] eqn:EG; cbn [bind] in E2; try discriminate end.
      unb E2. cbn [common_req bind] in E2. inversion E2; subst.
      assert (XG : extends e s2 /\ (s2 = e -> mapS (dec (Some a2)) a e = Ok (gexprs, e) /\ (gexprs = [] -> Forall (fun g => g = []) grefs))).
      { destruct a as [|p a].
        - rewrite (mapS_empty _ _ (mapS (dec (Some a2)))) in EG by reflexivity. cbn [bind] in EG. unb EG. inversion EG; subst.
          split; [apply extends_refl|]. intros _. 
          assert (gexprs = []) by (apply mapM_len in E; destruct gexprs; [reflexivity|discriminate]).
          subst. split; [reflexivity|]. intros _. apply group_empty. auto.
        - unb EG. inversion EG; subst. facts. split; [auto|]. intros ->. split; [auto|]. intros ->. discriminate. }
      destruct XG as [XG1 XG2]. facts. chain.
      destruct (XG2 eq_refl) as [XG3 XG4]. split; [eauto|]. split; [auto|].
      match goal with A : rel_type r = Ok _ |- _ => rewrite A end. split; [apply exprs_rt; eauto|].
      apply (mapS_inverse _ _ (measure_to_proto rel_to_proto) (measure_from_proto canon c CV (Some a2)) (measure_ok canon c s (Some a2) W) s measures); auto; [apply measure_grows| |eauto].
      apply All_Forall in H2. eapply Forall_impl; [|exact H2]. intros x Hx. apply measure_rt; auto.
  - destruct H as (H1 & H2). rewrite H1. unfold trip. cbn [rel_to_proto]. split.
    + intros ((i & A1 & B1) & HN & H3). destruct (rel_type r) as [cols| |] eqn:ET; try contradiction.
      apply keysort_rt in H3; auto. destruct H3 as (ms & A2 & B2). fwd. eexists; split; [reflexivity|].
      cbn [rel_from_proto]. fwd. destruct sorts; [contradiction|]. cbn [common_req bind]. rewrite common_rt. reflexivity.
    + intros (m & E1 & E2). unb E1. unb E1. inversion E1; subst. cbn [rel_from_proto] in E2.
      unb E2. unb E2. unb E2. destruct l as [|e0' l]; [discriminate|]. cbn [common_req bind] in E2. inversion E2; subst. facts. chain. split; [eauto|].
      split; [discriminate|]. match goal with A : rel_type r = Ok _ |- _ => rewrite A end. apply keysort_rt; eauto.
  - destruct H as (H1 & H2). rewrite H1. unfold trip. cbn [rel_to_proto]. split.
    + intros ((i & A1 & B1) & H3). destruct (rel_type r) as [cols| |] eqn:ET; try contradiction.
      apply expr_rt in H3; auto. destruct H3 as (ms & A2 & B2). fwd. eexists; split; [reflexivity|].
      cbn [rel_from_proto]. fwd. cbn [common_opt]. rewrite common_rt. reflexivity.
    + intros (m & E1 & E2). unb E1. unb E1. inversion E1; subst. cbn [rel_from_proto] in E2.
      unb E2. unb E2. unb E2. inversion E2; subst. facts. chain. split; [eauto|].
      match goal with A : rel_type r = Ok _ |- _ => rewrite A end. apply expr_rt; eauto.
  - assert (HI : All W inputs <-> exists ms, mapM rel_to_proto inputs = Ok ms /\ mapS CV ms s = Ok (inputs, s)).
    { apply mapS_inverse; [apply rel_grows|]. apply All_Forall in H. exact H. }
    rewrite HI. cbn [rel_to_proto]. split.
    + intros ((ms & A1 & B1) & HO & HT). fwd. eexists; split; [reflexivity|]. cbn [rel_from_proto].
      destruct inputs as [|a [|b l]]; try contradiction. destruct HT as (t & T1 & T2).
      assert (HL : List.length ms = List.length (a :: b :: l)) by (apply mapM_len in A1; auto).
      destruct ms as [|m1 [|m2 ms]]; try discriminate. rewrite B1. cbn [bind]. apply Z.eqb_neq in HO. rewrite HO.
      cbn [map]. rewrite T1. cbn [bind]. change (rel_type b :: map rel_type l) with (map rel_type (b :: l)).
      apply all_equal_spec in T2. rewrite T2. cbn [bind common_req]. rewrite common_rt. reflexivity.
    + intros (m & E1 & E2). unb E1. inversion E1; subst. cbn [rel_from_proto] in E2.
      assert (HL : List.length a = List.length inputs) by (apply mapM_len in E; auto).
      destruct a as [|m1 [|m2 ms]]; try discriminate. unb E2. destruct (Z.eqb_spec op 0) as [|HO]; [discriminate|].
      destruct (map rel_type l) as [|p rest] eqn:EM; [discriminate|]. unb E2. unb E2. cbn [common_req bind] in E2. inversion E2; subst.
      split; [eauto|]. split; [auto|]. destruct inputs as [|x [|y l']]; try discriminate. cbn [map] in EM. inversion EM; subst.
      exists a. split; auto. apply all_equal_spec. destruct a0. auto.
  - rewrite H, def_rt. unfold trip. cbn [rel_to_proto]. split.
    + intros ((i & A1 & B1) & (d & A2 & B2)). fwd. eexists; split; [reflexivity|]. cbn [rel_from_proto]. fwd.
      cbn [common_req bind]. rewrite common_rt. reflexivity.
    + intros (m & E1 & E2). unb E1. unb E1. inversion E1; subst. cbn [rel_from_proto] in E2. unb E2. unb E2.
      cbn [common_req bind] in E2. inversion E2; subst. eauto 10.
  - rewrite def_rt. cbn [rel_to_proto]. split.
    + intros (d & A2 & B2). fwd. eexists; split; [reflexivity|]. cbn [rel_from_proto]. fwd.
      cbn [common_req bind]. rewrite common_rt. reflexivity.
    + intros (m & E1 & E2). unb E1. inversion E1; subst. cbn [rel_from_proto] in E2. unb E2.
      cbn [common_req bind] in E2. inversion E2; subst. eauto 10.
  - assert (HI : All W inputs <-> exists ms, mapM rel_to_proto inputs = Ok ms /\ mapS CV ms s = Ok (inputs, s)).
    { apply mapS_inverse; [apply rel_grows|]. apply All_Forall in H. exact H. }
    rewrite HI, def_rt. cbn [rel_to_proto]. split.
    + intros ((i & A1 & B1) & (d & A2 & B2)). fwd. eexists; split; [reflexivity|]. cbn [rel_from_proto]. fwd.
      cbn [common_req bind]. rewrite common_rt. reflexivity.
    + intros (m & E1 & E2). unb E1. unb E1. inversion E1; subst. cbn [rel_from_proto] in E2. unb E2. unb E2.
      cbn [common_req bind] in E2. inversion E2; subst. eauto 10.
  - destruct H as (H1 & H2 & H3 & H4). rewrite H1, H2. unfold trip. cbn [rel_to_proto]. split.
    + intros ((i & A1 & B1) & (j & A2 & B2) & HJ & HT). destruct (rel_type r1) as [lt| |] eqn:T1; try contradiction.
      destruct (rel_type r2) as [rt| |] eqn:T2; try contradiction. destruct HT as [HK HP].
      apply keys_rt in HK; auto. apply post_rt in HP; auto. destruct HK as (pks & A3 & B3), HP as (p & A4 & B4).
      destruct (legacy_total _ _ A3) as (lk & rk & A5). fwd. eexists; split; [reflexivity|]. cbn [rel_from_proto]. fwd.
      rewrite (keys_enc_read _ _ _ _ _ _ _ A3 A5), B3. cbn [bind common_req]. rewrite common_rt. unfold ExprOpsModel.nil_expr. rewrite B4. cbn [bind].
      apply wrap_rt in HJ. rewrite HJ. reflexivity.
    + intros (m & E1 & E2). unb E1. unb E1. unb E1. unb E1. unb E1. inversion E1; subst. cbn [rel_from_proto] in E2.
      unb E2. unb E2. unb E2. unb E2.
      erewrite keys_enc_read in E2 by eassumption. unb E2. cbn [common_req bind] in E2. rewrite common_rt in E2.
      match type of E2 with bind ?t _ = _ => destruct t as [[p s4]| |] eqn:EP; cbn [bind] in E2; try discriminate end.
      inversion E2 as [[X1 X2 X3 X4 X5 X6]]. subst. assert (XG := post_grows canon c decoders _ _ _ _ _ EP). facts. chain.
      split; [eauto|]. split; [eauto|]. split; [rewrite X5; apply wrap_rt; exact X5|].
      match goal with A : rel_type r1 = Ok _, B : rel_type r2 = Ok _ |- _ => rewrite A, B end.
      split; [apply keys_rt; eauto|apply post_rt; eauto].
  - destruct H as (H1 & H2 & H3 & H4). rewrite H1, H2. unfold trip. cbn [rel_to_proto]. split.
    + intros ((i & A1 & B1) & (j & A2 & B2) & HJ & HT). destruct (rel_type r1) as [lt| |] eqn:T1; try contradiction.
      destruct (rel_type r2) as [rt| |] eqn:T2; try contradiction. destruct HT as [HK HP].
      apply keys_rt in HK; auto. apply post_rt in HP; auto. destruct HK as (pks & A3 & B3), HP as (p & A4 & B4).
      destruct (legacy_total _ _ A3) as (lk & rk & A5). fwd. eexists; split; [reflexivity|]. cbn [rel_from_proto]. fwd.
      rewrite (keys_enc_read _ _ _ _ _ _ _ A3 A5), B3. cbn [bind common_req]. rewrite common_rt. unfold ExprOpsModel.nil_expr. rewrite B4. cbn [bind].
      apply wrap_rt in HJ. rewrite HJ. reflexivity.
    + intros (m & E1 & E2). unb E1. unb E1. unb E1. unb E1. unb E1. inversion E1; subst. cbn [rel_from_proto] in E2.
      unb E2. unb E2. unb E2. unb E2.
      erewrite keys_enc_read in E2 by eassumption. unb E2. cbn [common_req bind] in E2. rewrite common_rt in E2.
      match type of E2 with bind ?t _ = _ => destruct t as [[p s4]| |] eqn:EP; cbn [bind] in E2; try discriminate end.
      inversion E2 as [[X1 X2 X3 X4 X5 X6]]. subst. assert (XG := post_grows canon c decoders _ _ _ _ _ EP). facts. chain.
      split; [eauto|]. split; [eauto|]. split; [rewrite X5; apply wrap_rt; exact X5|].
      match goal with A : rel_type r1 = Ok _, B : rel_type r2 = Ok _ |- _ => rewrite A, B end.
      split; [apply keys_rt; eauto|apply post_rt; eauto].
  - rewrite H, schema_rt. unfold trip. cbn [rel_to_proto].
    assert (HO : In op [1; 2; 4] <-> (op =? OpCTAS) || (op =? OpInsert) || (op =? OpDelete) = true).
    { unfold OpCTAS, OpInsert, OpDelete. rewrite !orb_true_iff, !Z.eqb_eq. cbn [In]. intuition congruence. }
    rewrite HO. split.
    + intros ((i & A1 & B1) & (m & A2 & B2) & HB & ->). fwd. eexists; split; [reflexivity|]. cbn [rel_from_proto]. fwd.
      rewrite HB. cbn [common_opt]. rewrite common_rt. reflexivity.
    + intros (m & E1 & E2). unb E1. unb E1. inversion E1; subst. cbn [rel_from_proto] in E2. unb E2. unb E2.
      destruct (_ || _); [|discriminate]. inversion E2; subst. unfold ModeUnspecified. eauto 10.
Qed.
End Trip.

(** ** join keys *)
Section Keys.
Variable canon : string -> option string.
Variable c : coll.
Variable decoders : string -> option (any -> res extdef).
Notation CV := (rel_from_proto canon c decoders).
Notation enc := (expr_to_proto rel_to_proto).

Lemma fref_form : forall f p, fref_to_proto enc f = Ok p <-> ref_form f (Some p).
Proof.
  intros [r f k] [pr pf]. unfold fref_to_proto, ref_form. cbn [fr_root fr_ref fr_known expr_to_proto]. split.
  - intros E. unb E. unb E. inversion E; subst. eexists; split; [reflexivity|]. reflexivity.
  - intros (p' & E1 & E). inversion E1; subst. cbn [pfr_root pfr_ref] in E. unb E. unb E. inversion E; subst. reflexivity.
Qed.
Lemma key_form_iff : forall k p, key_to_proto enc k = Ok p <-> key_form k p.
Proof.
  intros [l r cm] [pl pr pc]. unfold key_to_proto, key_form. cbn [k_left k_right k_cmp pk_left pk_right pk_cmp]. split.
  - intros E. unb E. unb E. apply fref_form in E0, E1. inversion E; subst. split; [auto|]. split; [auto|]. destruct cm; reflexivity.
  - intros (H1 & H2 & H3). destruct H1 as (p1 & -> & H1). destruct H2 as (p2 & -> & H2).
    assert (X1 : fref_to_proto enc l = Ok p1) by (apply fref_form; exists p1; auto).
    assert (X2 : fref_to_proto enc r = Ok p2) by (apply fref_form; exists p2; auto).
    rewrite X1, X2. cbn [bind]. destruct cm; cbn in H3; subst; reflexivity.
Qed.
Lemma plain_all : forall ks : list (jkey rel), forallb plain_eq ks = true <-> Forall equality_key ks.
Proof.
  intros ks. rewrite forallb_forall, Forall_forall. split; intros H k Hk; specialize (H k Hk); unfold plain_eq, equality_key, CmpEq in *.
  - destruct (k_cmp k); [|discriminate]. apply Z.eqb_eq in H. congruence.
  - rewrite H. reflexivity.
Qed.
Lemma keys_written : forall ks ps lk rk, mapM (key_to_proto enc) ks = Ok ps -> legacy_keys enc ks = Ok (lk, rk) ->
  Forall2 key_form ks ps /\ legacy_form ks ps lk rk.
Proof.
  intros ks ps lk rk E1 E2. apply mapM_F2 in E1.
  split; [revert E1; apply F2_iff; intros; symmetry; apply key_form_iff|].
  unfold legacy_keys in E2. destruct (forallb plain_eq ks) eqn:P.
  - assert (X : mapM (fun k => let! l := fref_to_proto enc (k_left k) in
                              let! r := fref_to_proto enc (k_right k) in Ok (Some l, Some r)) ks =
                Ok (map (fun p => (pk_left p, pk_right p)) ps)).
    { apply mapM_F2. clear E2 P. induction E1 as [|k p ks ps H E IH]; [constructor|]. cbn [map]. constructor; [|exact IH].
      unfold key_to_proto in H. unb H. unb H. inversion H; subst. reflexivity. }
    rewrite X in E2. cbn [bind] in E2. inversion E2; subst. rewrite !map_map. cbn [fst snd]. apply plain_all in P.
    split; [auto|]. intros N. contradiction.
  - inversion E2; subst. split; [|auto]. intros A. apply plain_all in A. congruence.
Qed.

Lemma legacy_same : forall lb rb ps s,
  Forall (fun p => pk_cmp p = PC_simple 1) ps ->
  keys_from_proto canon c CV [] (map pk_left ps) (map pk_right ps) lb rb s =
  keys_from_proto canon c CV ps (map pk_left ps) (map pk_right ps) lb rb s.
Proof.
  intros lb rb ps s H. destruct ps as [|p0 ps0]; [reflexivity|]. remember (p0 :: ps0) as ps. clear p0 ps0 Heqps.
  transitivity (mapS (key_from_proto canon c CV lb rb) ps s).
  2: { destruct ps; [|reflexivity]. reflexivity. }
  unfold keys_from_proto. rewrite !map_length, Nat.eqb_refl. cbn [negb]. revert s.
  induction H as [|p ps Hp H IH]; intros s; [reflexivity|]. cbn [map combine mapS].
  unfold pair_from_proto at 1, key_from_proto at 1. cbn [fst snd]. rewrite Hp.
  destruct (fref_from_proto canon c CV lb (pk_left p) s) as [[l s1]| |]; cbn [bind]; auto.
  destruct (fref_from_proto canon c CV rb (pk_right p) s1) as [[r s2]| |]; cbn [bind]; auto.
  cbn [cmp_from_proto bind]. rewrite IH. reflexivity.
Qed.

Lemma mapS_F2 : forall A B (g : A -> eset -> res (B * eset)) l s ys s',
  mapS g l s = Ok (ys, s') -> Forall2 (fun x y => exists a b, g x a = Ok (y, b)) l ys.
Proof.
  intros A B g l. induction l as [|x l IH]; cbn [mapS]; intros s ys s' E.
  - inversion E; constructor.
  - destruct (g x s) as [[y s1]| |] eqn:E1; try discriminate. destruct (mapS g l s1) as [[zs s2]| |] eqn:E2; try discriminate.
    inversion E; subst. constructor; eauto.
Qed.

Lemma cmp_read : forall p k, cmp_from_proto p = Ok k <-> cmp_form k p.
Proof. intros [|t|f] []; cbn; split; intros E; try discriminate; try inversion E; subst; congruence || auto. Qed.

Lemma keys_read : forall ps lk rk lb rb s ks s', ps <> [] ->
  keys_from_proto canon c CV ps lk rk lb rb s = Ok (ks, s') -> Forall2 (fun k p => cmp_form (k_cmp k) (pk_cmp p)) ks ps.
Proof.
  intros ps lk rk lb rb s ks s' HN E. destruct ps as [|p ps]; [contradiction|]. unfold keys_from_proto in E.
  apply mapS_F2 in E. remember (p :: ps) as l. clear - E. induction E as [|x y l ys H E IH]; constructor; auto.
  destruct H as (a & b & H). unfold key_from_proto in H. unb H. unb H. unb H. inversion H; subst. cbn [k_cmp].
  apply cmp_read. auto.
Qed.
Lemma legacy_read : forall lk rk lb rb s ks s',
  keys_from_proto canon c CV [] lk rk lb rb s = Ok (ks, s') ->
  List.length lk = List.length ks /\ List.length rk = List.length ks /\ Forall equality_key ks.
Proof.
  intros lk rk lb rb s ks s' E. unfold keys_from_proto in E.
  destruct (Nat.eqb_spec (List.length lk) (List.length rk)) as [HL|]; cbn [negb] in E; [|discriminate].
  apply mapS_F2 in E. assert (X := F2_len _ _ _ _ _ E). rewrite combine_length, !map_length in X.
  split; [lia|]. split; [lia|]. clear HL X. remember (combine _ _) as l. clear Heql.
  induction E as [|x y l ys H E IH]; constructor; auto.
  destruct H as (a & b & H). unfold pair_from_proto in H. unb H. unb H. inversion H; subst. reflexivity.
Qed.
Lemma legacy_mismatch : forall lk rk lb rb s, List.length lk <> List.length rk ->
  keys_from_proto canon c CV [] lk rk lb rb s = Err.
Proof. intros lk rk lb rb s H. unfold keys_from_proto. apply Nat.eqb_neq in H. rewrite H. reflexivity. Qed.
End Keys.

(** ** what messages say *)
Section Say.
Variable canon : string -> option string.
Variable c : coll.
Variable decoders : string -> option (any -> res extdef).
Notation CV := (rel_from_proto canon c decoders).
Notation dec base := (expr_from_proto rel_type (Some CV) canon c base).
Notation enc := (expr_to_proto rel_to_proto).
Notation SW := (says canon c decoders Writing).
Notation SR := (says canon c decoders Reading).

Lemma F2_flip : forall A B (P : A -> B -> Prop) l l', Forall2 P l l' -> Forall2 (fun b a => P a b) l' l.
Proof. induction 1; constructor; auto. Qed.

Lemma common_w : forall b x, common_says Writing b (Some (common_to_proto x)) x.
Proof. intros b [h m a]. cbn. destruct m; auto. Qed.
Lemma common_r : forall cm, common_says Reading false cm (common_opt cm).
Proof. intros [[h e a]|]; cbn; auto. destruct e; auto. Qed.
Lemma common_r' : forall cm x b, common_req cm = Ok x -> common_says Reading b cm x.
Proof. intros [[h e a]|] x b E; inversion E; subst. cbn. destruct e; auto. Qed.

Lemma clause_w : forall base e m, opt_to_proto enc e = Ok m -> clause_says canon c decoders Writing base m e.
Proof.
  intros base e m E. unfold opt_to_proto in E. destruct (is_nil_expr e) eqn:N.
  - apply is_nil_spec in N. inversion E; subst. left; auto.
  - right. split; [eapply enc_not_nil; eauto|exact E].
Qed.
Lemma clause_r : forall base e m s s', opt_from_proto canon c CV base m s = Ok (e, s') -> clause_says canon c decoders Reading base m e.
Proof.
  intros base e m s s' E. destruct m; try (right; split; [discriminate|exists s, s'; exact E]).
  cbn in E. inversion E; subst. left; auto.
Qed.
Lemma exprs_w : forall base l ms, mapM enc l = Ok ms -> Forall2 (expr_says canon c decoders Writing base) ms l.
Proof. intros base l ms E. apply mapM_F2 in E. apply F2_flip. exact E. Qed.
Lemma exprs_r : forall base l ms s s', mapS (dec base) ms s = Ok (l, s') -> Forall2 (expr_says canon c decoders Reading base) ms l.
Proof. intros base l ms s s' E. apply mapS_F2 in E. exact E. Qed.
Lemma sorts_w : forall base l ms, mapM (pairM enc (fun k => Ok (sortkind_to_proto k))) l = Ok ms ->
  Forall2 (sort_says canon c decoders Writing base) ms l.
Proof.
  intros base l ms E. apply mapM_F2 in E. induction E as [|[e k] [m p] l ms H E IH]; constructor; auto.
  unfold pairM in H. cbn [fst snd] in H. destruct (enc e) eqn:E1; cbn in H; inversion H; subst. split; [exact E1|]. cbn [snd]. destruct k; reflexivity.
Qed.
Lemma sorts_r : forall base l ms s s', mapS (pairS (dec base) (liftS sortkind_from_proto)) ms s = Ok (l, s') ->
  Forall2 (sort_says canon c decoders Reading base) ms l.
Proof.
  intros base l ms s s' E. apply mapS_F2 in E. induction E as [|[m p] [e k] ms l H E IH]; constructor; auto.
  destruct H as (a & b & H). unfold pairS, liftS in H. cbn [fst snd] in H.
  destruct (dec base m a) as [[e' s1]| |] eqn:E1; try discriminate.
  destruct (sortkind_from_proto p) as [k'| |] eqn:E2; try discriminate. inversion H; subst. split; [eexists _, _; exact E1|].
  cbn [snd]. destruct p; inversion E2; subst; auto.
Qed.
Lemma schema_w : forall x m, schema_to_proto x = Ok m -> schema_says Writing (Some m) x.
Proof.
  intros [names n v ts] m E. unfold schema_to_proto in E. unb E. inversion E; subst. cbn. repeat (split; [reflexivity|]).
  apply mapM_F2 in E0. cbn [sc_types] in E0. apply F2_flip. clear E. induction E0 as [|x y l l' H E IH]; constructor; auto.
  destruct x; try discriminate. exists t. auto.
Qed.
Lemma schema_r : forall x m, schema_from_proto m = Ok x -> schema_says Reading m x.
Proof.
  intros x [[names [[[n v] ts]|]]|] E; unfold schema_from_proto in E; cbn [named_struct_from_proto bind] in E; try discriminate.
  - destruct (mapM type_from_proto ts) as [l| |] eqn:M; cbn [bind] in E; try discriminate.
    cbn [ns_names ns_null ns_var ns_types] in E. inversion E; subst. cbn. repeat (split; [reflexivity|]).
    apply mapM_F2 in M. clear E. induction M as [|a b l1 l2 H M IH]; cbn [map]; constructor; auto. exists b. auto.
  - inversion E; subst. cbn. auto.
Qed.
Lemma mask_w : forall x m, optM mask_to_proto x = Ok m -> mask_says Writing m x.
Proof. intros x m E. apply optM_spec in E as [[-> ->]|(a & b & -> & E & ->)]; cbn; auto. Qed.
Lemma mask_r : forall x m, optM mask_from_proto m = Ok x -> mask_says Reading m x.
Proof. intros x m E. apply optM_spec in E as [[-> ->]|(a & b & -> & E & ->)]; cbn; auto. Qed.
Lemma file_w : forall f, file_says Writing (file_to_proto f) f.
Proof.
  intros [t p a b l e]. unfold file_says, file_to_proto. cbn [fl_ptype fl_path fl_part fl_start fl_len fl_format pf_path pf_part pf_start pf_len pf_format].
  repeat (split; [reflexivity|]).
  destruct (Z.eqb_spec t 0); [auto|]. destruct (Z.eqb_spec t 1); [auto|]. destruct (Z.eqb_spec t 2); [auto|].
  destruct (Z.eqb_spec t 3); [auto|]. lia.
Qed.
Lemma file_r : forall m, file_says Reading m (file_from_proto m).
Proof. intros [p a b l e]. unfold file_says, file_from_proto. cbn. destruct p; cbn; auto 10. Qed.
Lemma kind_w : forall k m, kind_to_proto enc k = Ok m -> kind_says canon c decoders Writing m k.
Proof.
  intros k m E. destruct k; cbn [kind_to_proto] in E.
  - inversion E; subst. constructor.
  - destruct (mapM (mapM enc) values) as [rows| |] eqn:M; inversion E; subst. constructor. apply mapM_F2 in M.
    apply F2_flip. clear E. induction M as [|x y l l' H M IH]; constructor; auto. apply exprs_w; auto.
  - inversion E; subst. constructor.
  - inversion E; subst. constructor. destruct d as [u t i]. unfold snapshot_says, direct_to_proto. cbn [ic_uri ic_ts ic_id fst snd].
    split; [reflexivity|]. destruct (String.eqb_spec i "") as [->|]; cbn [negb].
    + destruct (Z.eqb_spec t 0) as [->|]; cbn [negb]; auto.
    + split; [reflexivity|discriminate].
  - inversion E; subst. constructor. clear E. induction items; constructor; auto. apply file_w.
Qed.
Lemma kind_r : forall k m s s', kind_from_proto canon c CV m s = Ok (k, s') -> kind_says canon c decoders Reading m k.
Proof.
  intros k m s s' E. destruct m; cbn [kind_from_proto] in E; try discriminate.
  - inversion E; subst. constructor.
  - assert (HX : values = [] \/ exprs = []) by (destruct values, exprs; auto; discriminate).
    assert (E' : (let! vs := mapM (mapM lit_from_proto) values in
          let! (es, s1) := mapS (mapS (dec None)) exprs s in
          Ok (KVirtual (map (map ELit) vs ++ es)%list, s1)) = Ok (k, s')).
    { destruct values, exprs; try exact E. destruct HX; discriminate. }
    clear E. unb E'. unb E'. inversion E'; subst. clear E'. destruct HX; subst.
    + cbn in E. inversion E; subst. cbn [map app]. constructor. apply mapS_F2 in E0.
      induction E0 as [|x y l' l'' H E0 IH]; constructor; auto. destruct H as (a & b & H). eapply exprs_r; eauto.
    + cbn in E0. inversion E0; subst. rewrite app_nil_r. constructor; [reflexivity|]. apply mapM_F2 in E. clear E0.
      induction E as [|x y l l' H E IH]; cbn [map]; constructor; auto. exists y. split; auto. apply mapM_F2 in H. exact H.
  - inversion E; subst. constructor.
  - destruct t as [[u sn]|]; [|discriminate]. inversion E; subst. constructor. destruct sn; split; cbn; auto.
  - inversion E; subst. constructor. clear E. induction items; constructor; auto. apply file_r.
Qed.
Lemma measures_w : forall base l ms, mapM (measure_to_proto rel_to_proto) l = Ok ms ->
  Forall2 (measure_says canon c decoders Writing base) ms l.
Proof.
  intros base l ms E. apply mapM_F2 in E. induction E as [|[f e] m l ms H E IH]; constructor; auto.
  unfold measure_to_proto in H. cbn [ms_fn ms_filter] in H. destruct f as [f|]; [|discriminate]. unb H. unb H. inversion H; subst.
  exists a, f. split; [reflexivity|]. split; [reflexivity|]. split; [assumption|]. apply clause_w; auto.
Qed.
Lemma measures_r : forall base l ms s s', mapS (measure_from_proto canon c CV base) ms s = Ok (l, s') ->
  Forall2 (measure_says canon c decoders Reading base) ms l.
Proof.
  intros base l ms s s' E. apply mapS_F2 in E. induction E as [|[f e] m l' ms' H E IH]; constructor; auto.
  destruct H as (a & b & H). destruct f as [f|]; [|discriminate]. cbn [measure_from_proto] in H. unb H. unb H. inversion H; subst.
  eexists f, _. split; [reflexivity|]. split; [reflexivity|]. split; [eexists _, _; eassumption|]. eapply clause_r; eauto.
Qed.

Lemma inputs_w : forall l ms, All (fun r => forall m, rel_to_proto r = Ok m -> SW m r) l -> mapM rel_to_proto l = Ok ms -> Forall2 SW ms l.
Proof.
  intros l ms H E. apply mapM_F2 in E. apply F2_flip. induction E as [|x y l l' H1 E IH]; constructor; destruct H; auto.
Qed.
Lemma inputs_r : forall ms l s s', All (fun m => forall s r s', CV m s = Ok (r, s') -> SR m r) ms -> mapS CV ms s = Ok (l, s') -> Forall2 SR ms l.
Proof.
  intros ms l s s' H E. apply mapS_F2 in E. induction E as [|x y l l' H1 E IH]; constructor; destruct H; auto. destruct H1 as (a & b & H1). eauto.
Qed.
Lemma def_w : forall l a x, def_build x (map rel_type l) = Ok a -> def_says decoders Writing l a x.
Proof. intros l a x E. unfold def_build in E. cbn. destruct x; congruence. Qed.
Lemma def_r : forall l a x, decode_def decoders a = Ok x -> def_says decoders Reading l a x.
Proof. intros l a x E. unfold decode_def in E. cbn. destruct (decoders _); congruence. Qed.
Lemma scope1 : forall i t, rel_type i = Ok t -> scope Reading (Some t) [i].
Proof. intros i t E. exists [t]. split; [repeat constructor; auto|]. cbn. rewrite app_nil_r. reflexivity. Qed.
Lemma scope2 : forall l r t u, rel_type l = Ok t -> rel_type r = Ok u -> scope Reading (Some (t ++ u)%list) [l; r].
Proof. intros l r t u E1 E2. exists [t; u]. split; [repeat constructor; auto|]. cbn. rewrite app_nil_r. reflexivity. Qed.

Lemma write_says : forall r m, rel_to_proto r = Ok m -> SW m r.
Proof.
  intros r. pattern r. apply rel_ind'. clear r. intros r H m E. destruct r; cbn [rel_each] in H; cbn [rel_to_proto] in E.
  - destruct b as [sch f g pr av]. cbn [rb_schema rb_filter rb_best rb_proj rb_adv] in *. unb E. unb E. unb E. unb E. unb E.
    inversion E; subst. constructor; auto using common_w, schema_w, clause_w, mask_w, kind_w.
  - destruct H. unb E. unb E. inversion E; subst. apply S_project with (base := None); auto using common_w, exprs_w. exact I.
  - destruct H as (? & ? & ? & ?). unb E. unb E. unb E. unb E. inversion E; subst.
    apply S_join with (base := None); auto using common_w, clause_w. exact I.
  - destruct H as (? & ?). unb E. unb E. inversion E; subst. constructor; auto using common_w.
  - unb E. inversion E; subst. constructor; auto using common_w.
  - destruct H as (? & ? & ?). unb E. unb E. unb E. inversion E; subst.
    apply S_agg with (base := None); auto using common_w, measures_w; [exact I|]. cbn.
    split; [apply exprs_w; auto|]. split; [rewrite map_map; cbn; rewrite map_id; reflexivity|].
    intros _. apply Forall_forall. intros g Hg. apply in_map_iff in Hg as (y & <- & _). reflexivity.
  - destruct H. unb E. unb E. inversion E; subst. apply S_sort with (base := None); auto using common_w, sorts_w. exact I.
  - destruct H. unb E. unb E. inversion E; subst. apply S_filter with (base := None); auto using common_w. exact I.
  - unb E. inversion E; subst. constructor; auto using common_w, inputs_w.
  - unb E. unb E. inversion E; subst. constructor; auto using common_w. apply (def_w [r]). auto.
  - unb E. inversion E; subst. constructor; auto using common_w. apply (def_w []). auto.
  - unb E. unb E. inversion E; subst. constructor; auto using common_w, inputs_w, def_w.
  - destruct H as (? & ? & ? & ?). unb E. unb E. unb E. unb E. unb E. inversion E; subst.
    apply S_hash with (base := None); auto using common_w, clause_w; [|right; exact I|reflexivity]. apply keys_written; auto.
  - destruct H as (? & ? & ? & ?). unb E. unb E. unb E. unb E. unb E. inversion E; subst.
    apply S_merge with (base := None); auto using common_w, clause_w; [|right; exact I|reflexivity]. apply keys_written; auto.
  - unb E. unb E. inversion E; subst. constructor; auto using common_w, schema_w; cbn; auto.
Qed.

Lemma keys_r : forall ms lk rk lb rb s ks s', keys_from_proto canon c CV ms lk rk lb rb s = Ok (ks, s') -> keys_say Reading ms lk rk ks.
Proof.
  intros ms lk rk lb rb s ks s' E. cbn. destruct ms as [|m ms].
  - eapply legacy_read; eauto.
  - eapply keys_read; [discriminate|eauto].
Qed.
Lemma phys_r : forall jt, phys_says Reading jt (wrap 8 jt).
Proof.
  intros jt. cbn. unfold wrap. change (2 ^ (8 - 1)) with 128. change (2 ^ 8) with 256.
  assert (X := Z.mod_pos_bound (jt + 128) 256 ltac:(lia)). split; [lia|].
  assert (Y := Z.div_mod (jt + 128) 256 ltac:(lia)).
  replace (jt - ((jt + 128) mod 256 - 128)) with ((jt + 128) / 256 * 256) by lia. apply Z.mod_mul. lia.
Qed.
Lemma post_r : forall m x l r t u pm e s s', rel_type l = Ok t -> rel_type r = Ok u ->
  match pm with
  | PX_nil => Ok (@ELit rel LNil, s)
  | _ => let! base := remap m (t ++ u)%list in dec (Some base) pm s
  end = Ok (e, s') -> c_map x = m ->
  exists base, (pm = PX_nil \/ mapped_scope Reading base (c_map x) [l; r]) /\ clause_says canon c decoders Reading base pm e.
Proof.
  intros m x l r t u pm e s s' E1 E2 E <-.
  assert (X : pm = PX_nil \/ (pm <> PX_nil /\ (let! base := remap (c_map x) (t ++ u)%list in dec (Some base) pm s) = Ok (e, s'))).
  { destruct pm; auto; right; (split; [discriminate|exact E]). }
  destruct X as [-> |[N X]].
  - inversion E; subst. exists None. split; left; auto.
  - unb X. exists (Some a). split.
    + right. exists [t; u]. split; [repeat constructor; auto|]. cbn [List.concat]. rewrite app_nil_r.
      destruct (c_map x) as [mm|]; cbn [remap] in E0.
      * exists a. split; auto. apply picks_iff. auto.
      * congruence.
    + right. split; auto. exists s, s'. auto.
Qed.

Lemma read_says : forall m s r s', CV m s = Ok (r, s') -> SR m r.
Proof.
  intros m. pattern m. apply prel_ind'. clear m. intros m H s r s' E. destruct m; cbn [prel_each] in H; cbn [rel_from_proto] in E; try discriminate.
  - unb E. unb E. unb E. unb E. unb E. inversion E; subst.
    constructor; eauto using common_r, schema_r, clause_r, mask_r, kind_r.
  - destruct H. unb E. unb E. unb E. destruct l; [discriminate|]. inversion E; subst.
    eapply S_project with (base := Some _); eauto using common_r, exprs_r, scope1.
  - destruct H as (? & ? & ? & ?). destruct (jt =? JoinUnspecified); [discriminate|].
    unb E. unb E. unb E. unb E. unb E. unb E. unb E. inversion E; subst.
    eapply S_join with (base := Some _); eauto using common_r', clause_r, scope2. eexists _, _. eassumption.
  - destruct H. unb E. unb E. unb E. inversion E; subst. constructor; eauto using common_r'.
  - unb E. destruct offset; try discriminate. destruct count; try discriminate. inversion E; subst. constructor; eauto using common_r.
  - destruct H as (? & ? & ? & ?). unb E. unb E.
    match type of E with bind ?t _ = _ => destruct t as [[[es refs] s2]| |] eqn:EG; cbn [bind] in E; try discriminate end.
    unb E. unb E. inversion E; subst.
    eapply S_agg with (base := Some _); eauto using common_r', measures_r, scope1. cbn. destruct gexprs as [|g0 gexprs].
    + unb EG. unb EG. inversion EG; subst. eexists. split; [|eassumption]. 
      match goal with X : mapS _ groupings _ = _ |- _ => apply mapS_F2 in X; rename X into XX end.
      clear - XX. induction XX as [|x y l l' H XX IH]; constructor; auto. destruct H as (? & ? & H). eapply exprs_r; eauto.
    + unb EG. inversion EG; subst. split; [eapply exprs_r; eauto|]. split; [reflexivity|discriminate].
  - destruct H. unb E. unb E. unb E. destruct l; [discriminate|]. unb E. inversion E; subst.
    eapply S_sort with (base := Some _); eauto using common_r', sorts_r, scope1.
  - destruct H. unb E. unb E. unb E. inversion E; subst.
    eapply S_filter with (base := Some _); eauto using common_r, scope1. eexists _, _. eassumption.
  - destruct inputs as [|i1 [|i2 inputs]]; try discriminate. unb E. destruct (op =? 0); [discriminate|].
    destruct (map rel_type l); [discriminate|]. unb E. unb E. unb E. inversion E; subst. constructor; eauto using common_r', inputs_r.
  - unb E. unb E. unb E. inversion E; subst. constructor; eauto using common_r', def_r.
  - unb E. unb E. inversion E; subst. constructor; eauto using common_r', def_r.
  - unb E. unb E. unb E. inversion E; subst. constructor; eauto using common_r', def_r, inputs_r.
  - destruct H as (? & ? & ? & ? & ? & ?). unb E. unb E. unb E. unb E. unb E. unb E.
    match type of E with bind ?t _ = _ => destruct t as [[p s4]| |] eqn:EP; cbn [bind] in E; try discriminate end.
    inversion E; subst. eapply post_r with (x := a1) in EP as (base & P1 & P2); eauto.
    eapply S_hash with (base := base); eauto using common_r', keys_r, phys_r.
  - destruct H as (? & ? & ? & ? & ? & ?). unb E. unb E. unb E. unb E. unb E. unb E.
    match type of E with bind ?t _ = _ => destruct t as [[p s4]| |] eqn:EP; cbn [bind] in E; try discriminate end.
    inversion E; subst. eapply post_r with (x := a1) in EP as (base & P1 & P2); eauto.
    eapply S_merge with (base := base); eauto using common_r', keys_r, phys_r.
  - unb E. unb E. destruct (_ || _); [|discriminate]. destruct w; inversion E; subst; constructor; eauto using common_r, schema_r; cbn; auto.
Qed.
End Say.
