(** Proofs for C37 and C38. *)

From Coq Require Import ZArith String Bool Arith Lia List.
From Verif Require Import Base FMap FMapFacts TypesModel LitModel ExprModel ExprOpsModel ExprSpec ExprProofs ExprVisitProofs
  PlanModel PlanOpsModel PlanProofs PlanBuildProofs PlanRewriteSpec.
Import ListNotations.
Local Open Scope Z_scope.

(** ** inputs *)
Lemma rel_inputs_ind : forall P : rel -> Prop, (forall r, Forall P (get_inputs r) -> P r) -> forall r, P r.
Proof.
  intros P H. fix IH 1. intros r. apply H.
  assert (HL : forall l, Forall P l) by (fix go 1; intros [|x l]; constructor; [exact (IH x)|exact (go l)]).
  destruct r; cbn [get_inputs]; repeat (constructor; [apply IH|]); try constructor; apply HL.
Qed.
Lemma input_iff : forall i r, In i (get_inputs r) <-> input_of i r.
Proof.
  intros i r. split.
  - destruct r; cbn; intros H; repeat (destruct H as [<-|H]; [constructor|]); try contradiction; constructor; auto.
  - intros H. destruct H; cbn; auto.
Qed.

(** ** C37: walking *)
Lemma walk_eq : forall e : expr rel, walk e = if is_nil_expr e then [] else e :: flat_map (fun p => walk (fst p)) (slots e).
Proof.
  intros e. destruct e; cbn [walk is_nil_expr]; try reflexivity.
  - f_equal. cbn [slots]. induction args as [|a args IH]; auto. cbn. rewrite flat_map_app, <- IH. f_equal.
    destruct a as [|?|x]; auto. destruct x as [[]| | | | | | | | | | | | | | | | |]; cbn; rewrite ?app_nil_r; reflexivity.
  - f_equal. cbn [slots]. induction args as [|a args IH]; auto. cbn. rewrite flat_map_app, <- IH. f_equal.
    destruct a as [|?|x]; auto. destruct x as [[]| | | | | | | | | | | | | | | | |]; cbn; rewrite ?app_nil_r; reflexivity.
  - f_equal. cbn [slots]. rewrite flat_map_app. cbn. rewrite app_nil_r. f_equal.
    induction ifs as [|[a b] ifs IH]; auto. cbn. rewrite IH, app_assoc. reflexivity.
  - f_equal. cbn [slots]. cbn [flat_map fst]. rewrite flat_map_app. cbn. rewrite app_nil_r. do 2 f_equal.
    induction ifs as [|[a b] ifs IH]; auto. cbn. rewrite IH, app_assoc. do 2 f_equal. destruct a; reflexivity.
  - f_equal. cbn [slots]. cbn [flat_map fst]. f_equal. induction opts as [|x opts IH]; auto. cbn. rewrite IH. auto.
  - f_equal. cbn [slots]. rewrite map_app, flat_map_app. f_equal.
    + induction v as [|x v IH]; auto. cbn. rewrite IH. auto.
    + induction opts as [|x opts IH]; auto. cbn. rewrite IH, map_app, flat_map_app. f_equal.
      clear. induction x as [|y x IH]; auto. cbn. rewrite IH. auto.
  - cbn. rewrite app_nil_r. auto.
  - f_equal. cbn [slots]. induction kvs as [|[a b] kvs IH]; auto. cbn. rewrite IH, app_assoc. reflexivity.
  - f_equal. cbn [slots]. induction fields as [|x l IH]; auto. cbn. rewrite IH. auto.
  - f_equal. cbn [slots]. induction vals as [|x l IH]; auto. cbn. rewrite IH. auto.
  - cbn. rewrite app_nil_r. auto.
  - f_equal. cbn [slots]. induction needles as [|x l IH]; auto. cbn. rewrite IH. auto.
  - cbn. rewrite app_nil_r. auto.
Qed.

Lemma lit_slots : forall l, slots (@ELit rel l) = [].
Proof. reflexivity. Qed.
Lemma slots_ind : forall P : expr rel -> Prop, (forall l, P (ELit l)) ->
  (forall e, (forall c b, In (c, b) (slots e) -> P c) -> P e) -> forall e, P e.
Proof.
  intros P HL H e. induction e as [e IH] using expr_ind'. apply H. intros c b Hc. rewrite Forall_forall in IH.
  assert (G : (exists l, c = ELit l) \/ In c (children e)); [|destruct G as [[l ->]|G]; auto].
  destruct e; cbn [slots children] in *; try contradiction.
  - right. induction args as [|a args IH2]; [contradiction|]. cbn in *. apply in_app_or in Hc as [Hc|Hc].
    + apply in_or_app. left. destruct a as [|?|x]; try contradiction. cbn in *.
      destruct x as [[]| | | | | | | | | | | | | | | | |]; cbn in Hc; destruct Hc as [Hc|[]]; inversion Hc; auto.
    + apply in_or_app. right. apply IH2; auto. intros. apply IH. apply in_or_app; auto.
  - right. apply in_or_app. left. clear IH. induction args as [|a args IH2]; [contradiction|]. cbn in *. apply in_app_or in Hc as [Hc|Hc].
    + apply in_or_app. left. destruct a as [|?|x]; try contradiction. cbn in *.
      destruct x as [[]| | | | | | | | | | | | | | | | |]; cbn in Hc; destruct Hc as [Hc|[]]; inversion Hc; auto.
    + apply in_or_app. right. apply IH2; auto.
  - right. apply in_or_app. apply in_app_or in Hc as [Hc|[Hc|[]]]; [left|right; left; congruence].
    apply in_flat_map in Hc as (p & Hp & Hc). apply in_flat_map. exists p. split; auto. cbn in *. destruct Hc as [Hc|[Hc|[]]]; inversion Hc; auto.
  - destruct Hc as [Hc|Hc]; [right; left; congruence|]. apply in_app_or in Hc as [Hc|[Hc|[]]].
    + apply in_flat_map in Hc as (p & Hp & Hc). cbn in Hc. destruct Hc as [Hc|[Hc|[]]]; inversion Hc; [left; eauto|].
      right. right. apply in_or_app. left. apply in_map. auto.
    + right. right. apply in_or_app. right. left. congruence.
  - right. destruct Hc as [Hc|Hc]; [left; congruence|]. right. apply in_map_iff in Hc as (x & E & Hx). congruence.
  - right. apply in_map_iff in Hc as (x & E & Hx). inversion E; subst. auto.
  - right. destruct Hc as [Hc|[]]. left. congruence.
  - right. apply in_flat_map in Hc as (p & Hp & Hc). apply in_flat_map. exists p. split; auto. cbn in *. destruct Hc as [Hc|[Hc|[]]]; inversion Hc; auto.
  - right. apply in_map_iff in Hc as (x & E & Hx). congruence.
  - right. apply in_map_iff in Hc as (x & E & Hx). congruence.
  - right. destruct Hc as [Hc|[]]. left. congruence.
  - right. apply in_map_iff in Hc as (x & E & Hx). congruence.
  - right. destruct Hc as [Hc|[]]. left. congruence.
Qed.

Lemma walk_occurs : forall e x, In x (walk e) <-> occurs e x.
Proof.
  intros e. induction e as [l|e IH] using slots_ind; intros x.
  - rewrite walk_eq. destruct (is_nil_expr (ELit l)) eqn:E.
    + split; [contradiction|]. apply nil_iff in E. intros O. inversion O; subst; [congruence|]. rewrite lit_slots in *. contradiction.
    + apply not_nil_iff in E. rewrite lit_slots. cbn. split.
      * intros [<-|[]]. constructor. auto.
      * intros O. inversion O; subst; auto; rewrite lit_slots in *; contradiction.
  - rewrite walk_eq. destruct (is_nil_expr e) eqn:E.
    + split; [contradiction|]. apply nil_iff in E. subst e. intros O. inversion O; subst; [congruence|]. cbn in *. contradiction.
    + apply not_nil_iff in E. cbn [In]. split.
      * intros [<-|H]; [constructor; auto|]. apply in_flat_map in H as ([c b] & Hc & H). cbn in H. eapply Oc_inside; [eauto|]. eapply IH; eauto.
      * intros O. destruct O as [e _|e c b x Hc O]; auto. right. apply in_flat_map. exists (c, b). split; auto. cbn. eapply IH; eauto.
Qed.

(** the walk is the recursion through Visit that the code has *)
Definition walker (st : list (expr rel)) (x : expr rel) : option (expr rel) * list (expr rel) := (None, (st ++ walk x)%list).
Lemma walker_visits : forall l st, Forall (fun p => snd p = false -> fst p = blank) l ->
  visits walker st l (map fst l) false (st ++ flat_map (fun p => walk (fst p)) l).
Proof.
  induction l as [|[x b] l IH]; intros st H; cbn [map fst flat_map].
  - rewrite app_nil_r. constructor.
  - inversion H as [|? ? H1 H2]; subst. destruct b.
    + eapply V_same; [reflexivity|]. rewrite app_assoc. apply IH. auto.
    + constructor. cbn in H1. rewrite (H1 eq_refl). apply IH. auto.
Qed.
Lemma hidden_blank : forall e : expr rel, Forall (fun p => snd p = false -> fst p = blank) (slots e).
Proof.
  assert (HA : forall args : list (farg (expr rel)), Forall (fun p => snd p = false -> fst p = blank) (flat_map arg_slots args)).
  { induction args as [|a args IH]; [constructor|]. cbn. apply Forall_app. split; auto. destruct a as [|?|x]; try constructor.
    destruct x as [[]| | | | | | | | | | | | | | | | |]; cbn; repeat constructor; cbn; intros; try discriminate; reflexivity. }
  intros e. destruct e; cbn [slots]; auto; apply Forall_forall; intros [x b] H; cbn; intros ->; exfalso.
  - apply in_app_or in H as [H|[H|[]]]; [|discriminate]. apply in_flat_map in H as (p & _ & [H|[H|[]]]); discriminate.
  - destruct H as [H|H]; [discriminate|]. apply in_app_or in H as [H|[H|[]]]; [|discriminate]. apply in_flat_map in H as (p & _ & [H|[H|[]]]); discriminate.
  - destruct H as [H|H]; [discriminate|]. apply in_map_iff in H as (y & H & _). discriminate.
  - apply in_map_iff in H as (y & H & _). discriminate.
  - destruct H as [H|[]]. discriminate.
  - apply in_flat_map in H as (p & _ & [H|[H|[]]]); discriminate.
  - apply in_map_iff in H as (y & H & _). discriminate.
  - apply in_map_iff in H as (y & H & _). discriminate.
  - destruct H as [H|[]]. discriminate.
  - apply in_map_iff in H as (y & H & _). discriminate.
  - destruct H as [H|[]]. discriminate.
Qed.
Lemma walk_is_visit : forall e st, e <> blank ->
  (forall m ifs els, e = ESwitch m ifs els -> Forall (fun p => fst p <> LNil) ifs) ->
  expr_visit walker e (st ++ [e]) = Ok (None, (st ++ walk e)%list).
Proof.
  intros e st N K. assert (V := walker_visits (slots e) (st ++ [e])%list (hidden_blank e)).
  rewrite walk_eq. apply not_nil_iff in N as NN. rewrite NN. rewrite <- app_assoc in V. cbn [app] in V.
  destruct e; try (refine (visit_char walker _ _ _ false _ N _ V _); intros; discriminate).
  - refine (visit_char walker _ _ _ false _ N _ V _); [intros; discriminate|]. intros m ifs0 els E. injection E as -> -> ->.
    assert (HK := K _ _ _ eq_refl). split; auto. cbn [slots map tl fst]. clear - HK.
    induction HK as [|[k x] ifs0 H HF IH]; cbn; auto. split; auto. exists k. split; auto.
  - cbn [slots] in V. rewrite map_app in V.
    assert (V1 := walker_visits (map (fun x => (x, true)) v) (st ++ [EMultiOr v opts])%list).
    assert (V2 := walker_visits (map (fun x => (x, true)) (List.concat opts))
       ((st ++ [EMultiOr v opts]) ++ flat_map (fun p => walk (fst p)) (map (fun x => (x, true)) v))%list).
    assert (B : forall l : list (expr rel), Forall (fun p : expr rel * bool => snd p = false -> fst p = blank) (map (fun x => (x, true)) l)).
    { intros l. apply Forall_forall. intros p Hp. apply in_map_iff in Hp as (y & <- & _). discriminate. }
    assert (X := multi_char walker v opts _ _ _ _ _ _ _ (V1 (B _)) (V2 (B _))). cbn iota in X.
    refine (eq_trans X _). cbn [slots]. rewrite map_app, flat_map_app, <- !app_assoc. reflexivity.
Qed.

(** ** C37: collecting *)
Lemma note_in : forall es m k t, fm_get Z.eqb k (fold_left note_param es m) = Some t ->
  In (EParam t k) es \/ fm_get Z.eqb k m = Some t.
Proof.
  induction es as [|e es IH]; intros m k t H; cbn in *; auto.
  apply IH in H as [H|H]; auto. destruct e; cbn [note_param] in H; auto.
  destruct (Z.eq_dec k ref) as [->|N].
  - rewrite get_set_same in H by apply Z.eqb_eq. left. left. congruence.
  - rewrite get_set_other in H; auto. apply Z.eqb_eq.
Qed.
Lemma note_kept : forall es m k, fm_get Z.eqb k m <> None -> fm_get Z.eqb k (fold_left note_param es m) <> None.
Proof.
  induction es as [|e es IH]; intros m k H; cbn; auto. apply IH. destruct e; cbn [note_param]; auto.
  destruct (Z.eq_dec k ref) as [->|N].
  - rewrite get_set_same by apply Z.eqb_eq. discriminate.
  - rewrite get_set_other; auto. apply Z.eqb_eq.
Qed.
Lemma note_found : forall es m k t, In (EParam t k) es -> fm_get Z.eqb k (fold_left note_param es m) <> None.
Proof.
  induction es as [|e es IH]; intros m k t []; cbn; eauto. subst e. apply note_kept. cbn. rewrite Z.eqb_refl. discriminate.
Qed.

Lemma collect_eq : forall r m, collect r m =
  fold_left note_param (flat_map walk (rel_exprs r)) (fold_left (fun m x => collect x m) (get_inputs r) m).
Proof. destruct r; reflexivity. Qed.

Lemma rel_exprs_iff : forall r e x, e = EParam (fst x) (snd x) ->
  In e (flat_map walk (rel_exprs r)) <-> exists s, searched r s /\ occurs s e.
Proof.
  intros r e x Ex. split.
  - intros H. apply in_flat_map in H as (s & Hs & H). apply walk_occurs in H. destruct r; cbn [rel_exprs] in Hs; try contradiction.
    + exists s. split; auto. constructor. auto.
    + destruct Hs as [<-|[<-|[]]]; [exists cond; split; auto; constructor|].
      destruct (is_nil_expr post) eqn:E.
      * exfalso. apply walk_occurs in H. cbn in H. destruct H as [<-|[]]. discriminate.
      * exists post. split; auto. constructor.
    + apply in_map_iff in Hs as ([s' k] & <- & Hs). exists s'. split; auto. econstructor. eauto.
    + destruct Hs as [<-|[]]. exists cond. split; auto. constructor.
  - intros (s & Hs & O). apply in_flat_map. exists s. split; [|apply walk_occurs; auto].
    destruct Hs; cbn; auto.
    + right. left. destruct (is_nil_expr p) eqn:E; auto. apply nil_iff in E. subst p. exfalso.
      apply walk_occurs in O. contradiction.
    + apply in_map_iff. exists (e0, k). auto.
Qed.

Lemma collect_sound : forall r m k t, fm_get Z.eqb k (collect r m) = Some t -> uses r k t \/ fm_get Z.eqb k m = Some t.
Proof.
  intros r. induction r as [r IH] using rel_inputs_ind. intros m k t H. rewrite collect_eq in H.
  apply note_in in H as [H|H].
  - left. apply (rel_exprs_iff r _ (t, k)) in H as (s & Hs & O); auto. eapply U_here; eauto.
  - assert (G : forall l m, Forall (fun x => input_of x r) l -> Forall (fun x => forall m k t, fm_get Z.eqb k (collect x m) = Some t -> uses x k t \/ fm_get Z.eqb k m = Some t) l ->
        fm_get Z.eqb k (fold_left (fun m x => collect x m) l m) = Some t -> uses r k t \/ fm_get Z.eqb k m = Some t).
    { clear. induction l as [|x l IHl]; intros m HI HF H; cbn in H; auto. inversion HI; inversion HF; subst.
      apply IHl in H as [H|H]; auto. match goal with G : forall m k t, fm_get _ k (collect x m) = _ -> _ |- _ => apply G in H as [H|H] end; auto.
      left. eapply U_below; eauto. }
    apply (G (get_inputs r)); auto. apply Forall_forall. intros x. apply input_iff.
Qed.
Lemma collect_kept : forall r m k, fm_get Z.eqb k m <> None -> fm_get Z.eqb k (collect r m) <> None.
Proof.
  intros r. induction r as [r IH] using rel_inputs_ind. intros m k H. rewrite collect_eq. apply note_kept.
  revert m H. induction IH as [|x l Hx HF IHl]; intros m H; cbn; auto.
Qed.
Lemma collect_complete : forall r k t, uses r k t -> forall m, fm_get Z.eqb k (collect r m) <> None.
Proof.
  intros r k t U. induction U as [r e t k S O|r i t k I U IH]; intros m; rewrite collect_eq.
  - eapply note_found with (t := t). apply (rel_exprs_iff r _ (t, k)); eauto.
  - apply note_kept. apply input_iff in I. revert m. induction (get_inputs r) as [|x l IHl]; intros m; [contradiction|].
    cbn. destruct I as [<-|I]; auto.
    assert (K : forall l m, fm_get Z.eqb k m <> None -> fm_get Z.eqb k (fold_left (fun m x => collect x m) l m) <> None).
    { clear. induction l as [|y l IHl]; intros m H; cbn; auto. apply IHl. apply collect_kept. auto. }
    apply K. auto.
Qed.

Lemma check_bindings_iff : forall m bs, check_bindings m bs = Ok tt <->
  Forall (fun b => exists t, fm_get Z.eqb (fst b) m = Some t /\ value_of_type (snd b) t) bs.
Proof.
  intros m bs. induction bs as [|b bs IH]; cbn; [split; auto|].
  assert (C : check_binding m b = Ok tt <-> exists t, fm_get Z.eqb (fst b) m = Some t /\ value_of_type (snd b) t).
  { unfold check_binding, value_of_type. destruct (fm_get Z.eqb (fst b) m) as [t|] eqn:E; [|split; [discriminate|intros (? & ? & _); discriminate]].
    rewrite bind_ok. split.
    - intros (u & Hu & H). apply bind_ok in H as (c & Hc & H). destruct c; [|discriminate]. eauto.
    - intros (t' & Et & u & Hu & H). inversion Et; subst t'. exists u. split; auto. rewrite H. reflexivity. }
  rewrite bind_ok. split.
  - intros (u & H1 & H2). destruct u. constructor; [apply C; auto|apply IH; auto].
  - intros H. inversion H; subst. exists tt. split; [apply C; auto|apply IH; auto].
Qed.

Lemma validate_sound : forall r bs, validate_bindings r bs = Ok tt ->
  Forall (fun b => exists t, uses r (fst b) t /\ value_of_type (snd b) t) bs.
Proof.
  intros r [|b bs] H; [constructor|]. unfold validate_bindings in H. apply check_bindings_iff in H.
  eapply Forall_impl; [|exact H]. cbn. intros a (t & G & V). apply collect_sound in G as [G|G]; [eauto|discriminate].
Qed.
Lemma validate_complete : forall r bs,
  (forall b t t', In b bs -> uses r (fst b) t -> uses r (fst b) t' -> t = t') ->
  Forall (fun b => exists t, uses r (fst b) t /\ value_of_type (snd b) t) bs -> validate_bindings r bs = Ok tt.
Proof.
  intros r bs C H. destruct bs as [|b bs]; auto. unfold validate_bindings. apply check_bindings_iff.
  rewrite Forall_forall in *. intros a Ha. destruct (H a Ha) as (t & U & V). exists t. split; auto.
  destruct (fm_get Z.eqb (fst a) (collect r [])) as [t'|] eqn:E; [|exfalso; eapply collect_complete; eauto].
  apply collect_sound in E as [E|E]; [|discriminate]. f_equal. eauto.
Qed.
Lemma validate_unknown : forall r b bs, (forall t, ~ uses r (fst b) t) -> validate_bindings r (b :: bs) = Err.
Proof.
  intros r b bs H. cbn. unfold check_binding. destruct (fm_get Z.eqb (fst b) (collect r [])) as [t|] eqn:E; auto.
  apply collect_sound in E as [E|E]; [|discriminate]. exfalso. eapply H; eauto.
Qed.

(** ** C38 *)
Section Rewriting.
Context {A : Type}.
Variable rw : expr rel -> A -> res (option (expr rel) * A).
Variable equals : expr rel -> expr rel -> res bool.
Notation answers := (answers rw).
Notation fails := (fails rw).

(** a step on the first slot *)
Lemma rw1_answers : forall x a l ys ch a', answers a ((x, true) :: l) ys ch a' ->
  exists y same a1 ys1 ch1, rw1 rw x a = Ok (y, same, a1) /\ ys = y :: ys1 /\ answers a1 l ys1 ch1 a' /\
    ch = negb same || ch1 /\ (same = true -> y = x).
Proof.
  intros x a l ys ch a' H. unfold rw1. inversion H; subst; match goal with R : rw _ _ = _ |- _ => rewrite R; cbn [bind outcome] end.
  - do 5 eexists. repeat split; eauto.
  - do 5 eexists. split; [reflexivity|]. split; [reflexivity|]. split; [eauto|].
    match goal with |- context [is_nil_expr x && is_nil_expr ?z] => destruct (is_nil_expr x && is_nil_expr z) eqn:E end; cbn.
    + apply andb_prop in E as [E1 E2]. apply nil_iff in E1, E2. exfalso. auto.
    + split; auto. discriminate.
  - do 5 eexists. repeat split; eauto.
Qed.
Lemma rw1_fails : forall x a l o, fails a ((x, true) :: l) o ->
  (rw1 rw x a = Err /\ o = Err) \/ (rw1 rw x a = Panic /\ o = Panic) \/
  exists y same a1, rw1 rw x a = Ok (y, same, a1) /\ fails a1 l o.
Proof.
  intros x a l o H. unfold rw1. inversion H; subst; match goal with R : rw _ _ = _ |- _ => rewrite R; cbn [bind] end; auto.
  right. right. match goal with |- context [outcome x ?z] => destruct (outcome x z) as [w b] end. eauto.
Qed.

(** the loops *)
Lemma rw_list_answers : forall es a l ys ch a', answers a (map shown es ++ l) ys ch a' ->
  exists es' same a1 ys1 ch1, rw_list rw es a = Ok (es', same, a1) /\ ys = (es' ++ ys1)%list /\ answers a1 l ys1 ch1 a' /\
    ch = negb same || ch1 /\ List.length es' = List.length es.
Proof.
  induction es as [|x es IH]; intros a l ys ch a' H; cbn [map app] in H.
  - exists [], true, a, ys, ch. repeat split; auto.
  - apply rw1_answers in H as (y & s & a1 & ys1 & ch1 & E & -> & H & -> & _). apply IH in H as (es' & s2 & a2 & ys2 & ch2 & E2 & -> & H & -> & L).
    cbn [rw_list]. rewrite E. cbn [bind]. rewrite E2. cbn [bind]. do 5 eexists. split; [reflexivity|]. split; [reflexivity|]. split; eauto. split.
    + destruct s, s2; reflexivity.
    + cbn. auto.
Qed.
Lemma rw_sorts_answers : forall ss a l ys ch a', answers a (map (fun p : expr rel * sortkind => shown (fst p)) ss ++ l) ys ch a' ->
  exists ss' same a1 ys1 ch1, rw_sorts rw ss a = Ok (ss', same, a1) /\ ys = (map fst ss' ++ ys1)%list /\ answers a1 l ys1 ch1 a' /\
    ch = negb same || ch1 /\ map snd ss' = map snd ss.
Proof.
  induction ss as [|[x k] ss IH]; intros a l ys ch a' H; cbn [map app fst] in H.
  - exists [], true, a, ys, ch. repeat split; auto.
  - apply rw1_answers in H as (y & s & a1 & ys1 & ch1 & E & -> & H & -> & _). apply IH in H as (es' & s2 & a2 & ys2 & ch2 & E2 & -> & H & -> & L).
    cbn [rw_sorts]. rewrite E. cbn [bind]. rewrite E2. cbn [bind]. do 5 eexists. split; [reflexivity|]. split; [reflexivity|]. split; eauto. split.
    + destruct s, s2; reflexivity.
    + cbn. f_equal. auto.
Qed.
(** nil arguments are passed over *)
Lemma arg_slot : forall x : expr rel, arg_slots (AExpr x) = if is_nil_expr x then [(blank, false)] else [(x, true)].
Proof. intros x. destruct x as [[]| | | | | | | | | | | | | | | | |]; reflexivity. Qed.
(** an answer that is nil in place of an argument hides that argument *)
Definition arg_answer (a a' : farg (expr rel)) : Prop :=
  match a with AExpr _ => exists y, a' = AExpr y | _ => a' = a end.
Definition arg_exprs (l : list (farg (expr rel))) : list (expr rel) := flat_map (fun a => match a with AExpr x => [x] | _ => [] end) l.
Lemma arg_slots_exprs : forall l, map fst (flat_map (@arg_slots rel) l) = arg_exprs l.
Proof.
  induction l as [|a l IH]; auto. cbn [flat_map]. rewrite map_app, IH. destruct a as [|?|x]; auto. cbn [arg_exprs flat_map]. f_equal.
  rewrite arg_slot. destruct (is_nil_expr x) eqn:E; auto. apply nil_iff in E. subst. reflexivity.
Qed.
Lemma rw_args_answers : forall args a l ys ch a', answers a (flat_map arg_slots args ++ l) ys ch a' ->
  exists args' same a1 ys1 ch1, rw_args rw args a = Ok (args', same, a1) /\ ys = (arg_exprs args' ++ ys1)%list /\ answers a1 l ys1 ch1 a' /\
    ch = negb same || ch1 /\ map arg_shell args' = map arg_shell args.
Proof.
  induction args as [|x args IH]; intros a l ys ch a' H; cbn [flat_map] in H.
  - exists [], true, a, ys, ch. repeat split; auto.
  - rewrite <- app_assoc in H. destruct x as [s|t|x].
    + cbn [arg_slots app] in H. apply IH in H as (args' & s2 & a2 & ys2 & ch2 & E2 & -> & H & -> & L).
      cbn [rw_args]. rewrite E2. cbn [bind]. do 5 eexists. split; [reflexivity|]. split; [reflexivity|]. split; eauto. split; auto. cbn. f_equal; auto.
    + cbn [arg_slots app] in H. apply IH in H as (args' & s2 & a2 & ys2 & ch2 & E2 & -> & H & -> & L).
      cbn [rw_args]. rewrite E2. cbn [bind]. do 5 eexists. split; [reflexivity|]. split; [reflexivity|]. split; eauto. split; auto. cbn. f_equal; auto.
    + rewrite arg_slot in H. cbn [rw_args]. destruct (is_nil_expr x) eqn:E; cbn [app] in H.
      * apply nil_iff in E. subst x. inversion H as [|? ? ? ? ? ? HH| | |]; subst. apply IH in HH as (args' & s2 & a2 & ys2 & ch2 & E2 & -> & HH & -> & L).
        rewrite E2. cbn [bind]. do 5 eexists. split; [reflexivity|]. split; [reflexivity|]. split; eauto. split; auto. cbn. f_equal; auto.
      * apply rw1_answers in H as (y & s & a1 & ys1 & ch1 & E1 & -> & H & -> & _). apply IH in H as (args' & s2 & a2 & ys2 & ch2 & E2 & -> & H & -> & L).
        rewrite E1. cbn [bind]. rewrite E2. cbn [bind]. do 5 eexists. split; [reflexivity|]. split; [reflexivity|]. split; eauto. split.
        -- destruct s, s2; reflexivity.
        -- cbn. f_equal. auto.
Qed.
Lemma measure_slots_exprs : forall ms, map fst (flat_map measure_slots ms) =
  flat_map (fun m => ms_filter m :: match ms_fn m with Some g => arg_exprs (ag_args g) | None => [] end) ms.
Proof.
  induction ms as [|m ms IH]; auto. cbn [flat_map]. rewrite map_app, IH. f_equal. unfold measure_slots. cbn. f_equal.
  destruct (ms_fn m); auto. apply arg_slots_exprs.
Qed.
Lemma rw_measures_answers : forall ms a l ys ch a', answers a (flat_map measure_slots ms ++ l) ys ch a' ->
  exists ms' same a1 ys1 ch1, rw_measures rw ms a = Ok (ms', same, a1) /\
    ys = (flat_map (fun m => ms_filter m :: match ms_fn m with Some g => arg_exprs (ag_args g) | None => [] end) ms' ++ ys1)%list /\
    answers a1 l ys1 ch1 a' /\ ch = negb same || ch1 /\ map measure_shell ms' = map measure_shell ms.
Proof.
  induction ms as [|m ms IH]; intros a l ys ch a' H; cbn [flat_map] in H.
  - exists [], true, a, ys, ch. repeat split; auto.
  - unfold measure_slots in H at 1. rewrite <- app_assoc in H. cbn [app] in H.
    apply rw1_answers in H as (y & s & a1 & ys1 & ch1 & E & -> & H & -> & _). cbn [rw_measures]. rewrite E. cbn [bind].
    destruct m as [fn f]. cbn [ms_filter ms_fn] in *. destruct fn as [g|].
    + apply rw_args_answers in H as (args' & s2 & a2 & ys2 & ch2 & E2 & -> & H & -> & L).
      apply IH in H as (ms' & s3 & a3 & ys3 & ch3 & E3 & -> & H & -> & L3). cbn [rw_agg]. rewrite E2. cbn [bind]. rewrite E3. cbn [bind].
      do 5 eexists. split; [reflexivity|]. split; [cbn; rewrite <- app_assoc; reflexivity|]. split; eauto. split.
      * destruct s, s2, s3; reflexivity.
      * cbn. f_equal; auto. unfold measure_shell. cbn. rewrite L. reflexivity.
    + apply IH in H as (ms' & s3 & a3 & ys3 & ch3 & E3 & -> & H & -> & L3). cbn [rw_agg bind]. rewrite E3. cbn [bind].
      do 5 eexists. split; [reflexivity|]. split; [reflexivity|]. split; eauto. split.
      * destruct s, s3; reflexivity.
      * cbn. f_equal; auto.
Qed.

Lemma answers_nil : forall a ys ch a', answers a [] ys ch a' -> ys = [] /\ ch = false /\ a' = a.
Proof. intros a ys ch a' H. inversion H; auto. Qed.

Lemma blanks : forall (l l' : list (expr rel)), List.length l = List.length l' -> map (fun _ => @blank rel) l = map (fun _ => blank) l'.
Proof. induction l; intros [|y l'] H; cbn in *; try discriminate; auto. f_equal. auto. Qed.
Lemma shown_fst : forall l, map fst (map shown l) = l.
Proof. induction l; cbn; auto. f_equal. auto. Qed.

Definition inputs_kept (r : rel) (ins : list (rel * bool)) : bool := same_inputs ins (get_inputs r).

Ltac close H := apply answers_nil in H as (-> & -> & ->).
Lemma rewrite_char : forall r ins a ys ch a',
  (forall c b vs, r <> RRead c b (KVirtual vs)) ->
  answers a (rel_slots r) ys ch a' ->
  (arity r = Some (List.length ins) \/ arity r = None) ->
  let kept := forallb snd ins && (Nat.eqb (List.length ins) (List.length (get_inputs r))) in
  if ch || negb kept then exists r', rewrite_rel rw equals r ins a = Ok (Some r', a') /\
     rel_shell r' = rel_shell r /\ map fst (rel_slots r') = ys /\ get_inputs r' = map fst ins
  else rewrite_rel rw equals r ins a = Ok (None, a').
Proof.
  intros r ins a ys ch a' NV H AR kept. subst kept. rewrite andb_comm.
  change (Nat.eqb (List.length ins) (List.length (get_inputs r)) && forallb snd ins) with (same_inputs ins (get_inputs r)).
  destruct r as [c b k|c i es v|c l r e p jt v|c l r v|c i o n v|c i ms es gs v|c i ss v|c i e v|c is op v|c i d|c d|c is d
     |c l r ks p jt v|c l r ks p jt v|c ns v sch op i md]; cbn [rel_slots] in H; cbn [arity] in AR;
  try (destruct AR as [AR|AR]; [|discriminate]; injection AR as AR).
  - apply rw1_answers in H as (f & s1 & a1 & ys1 & ch1 & E1 & -> & H & -> & S1). apply rw1_answers in H as (g & s2 & a2 & ys2 & ch2 & E2 & -> & H & -> & S2).
    close H. cbn [rewrite_rel]. rewrite E1. cbn [bind]. rewrite E2. cbn [bind]. destruct ins; [|discriminate].
    cbn [same_inputs get_inputs List.length Nat.eqb forallb andb negb].
    assert (K : (if (negb s1 || (negb s2 || false)) || false then true else false) = negb (s1 && s2)) by (destruct s1, s2; reflexivity).
    destruct ((negb s1 || (negb s2 || false)) || false) eqn:B; destruct (s1 && s2) eqn:B2; try discriminate; auto.
    assert (V : forall vs, k <> KVirtual vs) by (intros vs ->; eapply NV; eauto).
    destruct k; try (eexists; split; [reflexivity|]; repeat split; reflexivity). exfalso. eapply V; eauto.
  - rewrite <- (app_nil_r (map shown es)) in H. apply rw_list_answers in H as (es' & s & a1 & ys1 & ch1 & E & -> & H & -> & L). close H.
    destruct ins as [|[i' b] [|]]; try discriminate. cbn [rewrite_rel]. rewrite E. cbn [bind]. rewrite orb_false_r, app_nil_r, <- negb_andb.
    destruct (s && same_inputs [(i', b)] (get_inputs (RProject c i es v))); cbn [negb]; auto. eexists. split; [reflexivity|].
    split; [|split; [apply shown_fst|reflexivity]]. cbn. f_equal. apply blanks. auto.
  - apply rw1_answers in H as (f & s1 & a1 & ys1 & ch1 & E1 & -> & H & -> & S1). apply rw1_answers in H as (g & s2 & a2 & ys2 & ch2 & E2 & -> & H & -> & S2).
    close H. destruct ins as [|[i' b] [|[j' b'] [|]]]; try discriminate. cbn [rewrite_rel]. rewrite E1. cbn [bind]. rewrite E2. cbn [bind].
    rewrite orb_false_r, <- !negb_andb. destruct ((s1 && s2) && same_inputs _ _); cbn [negb]; auto. eexists. split; [reflexivity|]. auto.
  - close H. destruct ins as [|[i' b] [|[j' b'] [|]]]; try discriminate. cbn [rewrite_rel orb].
    destruct (same_inputs _ _); cbn [negb]; auto. eexists. split; [reflexivity|]. auto.
  - close H. destruct ins as [|[i' b] [|]]; try discriminate. cbn [rewrite_rel orb].
    destruct (same_inputs _ _); cbn [negb]; auto. eexists. split; [reflexivity|]. auto.
  - apply rw_list_answers in H as (es' & s & a1 & ys1 & ch1 & E & -> & H & -> & L).
    rewrite <- (app_nil_r (flat_map measure_slots ms)) in H. apply rw_measures_answers in H as (ms' & s2 & a2 & ys2 & ch2 & E2 & -> & H & -> & L2). close H.
    destruct ins as [|[i' b] [|]]; try discriminate. cbn [rewrite_rel]. rewrite E. cbn [bind]. rewrite E2. cbn [bind].
    rewrite orb_false_r, <- !negb_andb. destruct ((s && s2) && same_inputs _ _); cbn [negb]; auto. eexists. split; [reflexivity|].
    cbn [rel_shell rel_slots get_inputs map fst]. rewrite map_app, shown_fst, measure_slots_exprs, app_nil_r. split; auto.
    f_equal; auto. apply blanks. auto.
  - rewrite <- (app_nil_r (map _ ss)) in H. apply rw_sorts_answers in H as (ss' & s & a1 & ys1 & ch1 & E & -> & H & -> & L). close H.
    destruct ins as [|[i' b] [|]]; try discriminate. cbn [rewrite_rel]. rewrite E. cbn [bind]. rewrite orb_false_r, app_nil_r, <- negb_andb.
    destruct (s && same_inputs _ _); cbn [negb]; auto. eexists. split; [reflexivity|].
    split; [|split; [cbn; rewrite map_map; cbn; auto|reflexivity]]. cbn. f_equal. clear - L. revert ss L.
    induction ss' as [|[x k] ss' IH]; intros [|[y j] ss] L; cbn in *; try discriminate; auto. injection L as -> L. f_equal. auto.
  - apply rw1_answers in H as (f & s1 & a1 & ys1 & ch1 & E1 & -> & H & -> & S1).
    close H. destruct ins as [|[i' b] [|]]; try discriminate. cbn [rewrite_rel]. rewrite E1. cbn [bind].
    rewrite orb_false_r, <- !negb_andb. destruct (s1 && same_inputs _ _); cbn [negb]; auto. eexists. split; [reflexivity|]. auto.
  - close H. cbn [rewrite_rel orb]. destruct (same_inputs _ _); cbn [negb]; auto. eexists. split; [reflexivity|]. auto.
  - close H. destruct ins as [|[i' b] [|]]; try discriminate. cbn [rewrite_rel orb].
    destruct (same_inputs _ _); cbn [negb]; auto. eexists. split; [reflexivity|]. auto.
  - close H. destruct ins; try discriminate. reflexivity.
  - close H. cbn [rewrite_rel orb]. destruct (same_inputs _ _); cbn [negb]; auto. eexists. split; [reflexivity|]. auto.
  - apply rw1_answers in H as (f & s1 & a1 & ys1 & ch1 & E1 & -> & H & -> & S1).
    close H. destruct ins as [|[i' b] [|[j' b'] [|]]]; try discriminate. cbn [rewrite_rel]. rewrite E1. cbn [bind].
    rewrite orb_false_r, <- !negb_andb. destruct (s1 && same_inputs _ _); cbn [negb]; auto. eexists. split; [reflexivity|]. auto.
  - apply rw1_answers in H as (f & s1 & a1 & ys1 & ch1 & E1 & -> & H & -> & S1).
    close H. destruct ins as [|[i' b] [|[j' b'] [|]]]; try discriminate. cbn [rewrite_rel]. rewrite E1. cbn [bind].
    rewrite orb_false_r, <- !negb_andb. destruct (s1 && same_inputs _ _); cbn [negb]; auto. eexists. split; [reflexivity|]. auto.
  - close H. destruct ins as [|[i' b] [|]]; try discriminate. cbn [rewrite_rel orb].
    destruct (same_inputs _ _); cbn [negb]; auto. eexists. split; [reflexivity|]. auto.
Qed.

(** virtual tables *)
Lemma rw_row_answers : forall row same a l ys ch a', answers a (map shown row ++ l) ys ch a' ->
  (forall ys1 ys2, ys = (ys1 ++ ys2)%list -> List.length ys1 = List.length row ->
     Forall (fun y => y <> blank) ys1 /\ Forall2 (fun y x => exists b, equals y x = Ok b) ys1 row) ->
  exists row' same' a1 ys1 ch1, rw_row rw equals row same a = Ok (row', same', a1) /\ ys = (row' ++ ys1)%list /\ answers a1 l ys1 ch1 a' /\
    List.length row' = List.length row /\
    (same' = true <-> same = true /\ Forall2 (fun y x => equals y x = Ok true) row' row).
Proof.
  induction row as [|x row IH]; intros same a l ys ch a' H T; cbn [map app] in H.
  - exists [], same, a, ys, ch. cbn. repeat split; auto; tauto.
  - apply rw1_answers in H as (y & s & a1 & ys1 & ch1 & E & -> & H & -> & _).
    assert (TT : forall p q, ys1 = (p ++ q)%list -> List.length p = List.length row ->
        (y <> blank /\ exists b, equals y x = Ok b) /\ Forall (fun y => y <> blank) p /\ Forall2 (fun y x => exists b, equals y x = Ok b) p row).
    { intros p q Ep Lp. destruct (T (y :: p) q) as [T1 T2]; [cbn; congruence|cbn; congruence|]. inversion T1; inversion T2; subst. auto. }
    destruct (rw_list_answers row a1 l ys1 ch1 a' H) as (q1 & _ & _ & q2 & _ & _ & Eq & _ & _ & Lq).
    destruct (TT q1 q2 Eq Lq) as [[Ny [b Hb]] _]. cbn [rw_row]. rewrite E. cbn [bind]. apply not_nil_iff in Ny. rewrite Ny, Hb.
    assert (X : (if same then Ok b else Ok false) = Ok (same && b)) by (destruct same; reflexivity). rewrite X. cbn [bind].
    destruct (IH (same && b) a1 l ys1 ch1 a' H) as (row' & s2 & a2 & ys2 & ch2 & E2 & -> & H2 & L2 & S2).
    { intros p q Ep Lp. destruct (TT p q Ep Lp) as [_ P]. exact P. }
    rewrite E2. cbn [bind]. do 5 eexists. split; [reflexivity|]. split; [reflexivity|]. split; [eauto|]. split; [cbn; auto|].
    rewrite S2. destruct same, b; cbn; split; intros [P Q]; try discriminate; split; auto.
    + inversion Q; auto.
    + inversion Q; subst. congruence.
    + inversion Q; auto.
Qed.
Lemma rw_rows_answers : forall vs same a ys ch a', answers a (map shown (List.concat vs)) ys ch a' ->
  Forall (fun y => y <> blank) ys -> Forall2 (fun y x => exists b, equals y x = Ok b) ys (List.concat vs) ->
  exists vs' same', rw_rows rw equals vs same a = Ok (vs', same', a') /\ List.concat vs' = ys /\
    map (@List.length _) vs' = map (@List.length _) vs /\
    (same' = true <-> same = true /\ Forall2 (fun y x => equals y x = Ok true) ys (List.concat vs)).
Proof.
  induction vs as [|row vs IH]; intros same a ys ch a' H N T; cbn [List.concat map] in H.
  - apply answers_nil in H as (-> & -> & ->). exists [], same. cbn. repeat split; auto; tauto.
  - rewrite map_app in H.
    destruct (rw_row_answers row same a (map shown (List.concat vs)) ys ch a' H) as (row' & s1 & a1 & ys1 & ch1 & E & -> & H1 & L & S).
    { intros p q -> Lp. apply Forall_app in N as [N _]. split; auto. cbn [List.concat] in T. apply Forall2_app_inv_l in T as (u & w & T1 & T2 & Eu).
      assert (u = row).
      { apply F2_len in T1. rewrite Lp in T1. clear - T1 Eu. revert u T1 Eu. induction row; intros [|z u] L Eu; cbn in *; try discriminate; auto.
        injection Eu as -> Eu. f_equal. apply IHrow; auto. }
      subst u. auto. }
    apply Forall_app in N as [_ N]. cbn [List.concat] in T.
    assert (SP : forall P, Forall2 P (row' ++ ys1) (row ++ List.concat vs) <-> Forall2 P row' row /\ Forall2 P ys1 (List.concat vs)).
    { intros P. split; [|intros [P1 P2]; apply Forall2_app; auto]. clear - L. revert row L. induction row' as [|y row' IHr]; intros [|x row] L F; cbn in *; try discriminate; auto.
      inversion F; subst. destruct (IHr row) as [F1 F2]; auto. }
    apply SP in T as [_ T].
    destruct (IH s1 a1 ys1 ch1 a' H1 N T) as (vs' & s2 & E2 & C & LL & S2). cbn [rw_rows]. rewrite E. cbn [bind]. rewrite E2. cbn [bind].
    exists (row' :: vs'), s2. split; [reflexivity|]. split; [cbn; congruence|]. split; [cbn; congruence|]. rewrite S2, S. cbn [List.concat]. rewrite SP. tauto.
Qed.
Lemma rewrite_virtual : forall c b vs ins a ys ch a1,
  answers a [shown (rb_filter b); shown (rb_best b)] ys ch a1 ->
  if ch then
    forall ys2 ch2 a2, answers a1 (map shown (List.concat vs)) ys2 ch2 a2 -> Forall (fun y => y <> blank) ys2 ->
      Forall2 (fun y x => exists t, equals y x = Ok t) ys2 (List.concat vs) ->
      exists vs', rewrite_rel rw equals (RRead c b (KVirtual vs)) ins a =
          Ok (Some (RRead c (RBase (rb_schema b) (nth 0 ys blank) (nth 1 ys blank) (rb_proj b) (rb_adv b)) (KVirtual vs')), a2) /\
        ((Forall2 (fun y x => equals y x = Ok true) ys2 (List.concat vs) /\ vs' = vs) \/
         (~ Forall2 (fun y x => equals y x = Ok true) ys2 (List.concat vs) /\ List.concat vs' = ys2 /\
          map (@List.length _) vs' = map (@List.length _) vs))
  else rewrite_rel rw equals (RRead c b (KVirtual vs)) ins a = Ok (None, a1).
Proof.
  intros c b vs ins a ys ch a' H.
  apply rw1_answers in H as (f & s1 & a1 & ys1 & ch1 & E1 & -> & H & -> & S1). apply rw1_answers in H as (g & s2 & a2 & ys2 & ch2 & E2 & -> & H & -> & S2).
  apply answers_nil in H as (-> & -> & ->). cbn [rewrite_rel]. rewrite E1. cbn [bind]. rewrite E2. cbn [bind].
  rewrite orb_false_r, <- negb_andb. destruct (s1 && s2); cbn [negb]; auto. intros ys2 ch2 a3 H N T.
  destruct (rw_rows_answers vs true a2 ys2 ch2 a3 H N T) as (vs' & s & E & C & L & S). rewrite E. cbn [bind nth].
  eexists. split; [reflexivity|]. destruct s; [left|right].
  - split; auto. apply S; auto.
  - split; auto. intros F. assert (false = true) by (apply S; auto). discriminate.
Qed.

(** failures *)
Definition same_failure {X} (x : res X) (o : res unit) : Prop := (x = Err /\ o = Err) \/ (x = Panic /\ o = Panic).
Lemma failed_bind : forall X Y (x : res X) (f : X -> res Y) o, same_failure x o -> same_failure (bind x f) o.
Proof. intros X Y x f o [[-> ->]|[-> ->]]; [left|right]; auto. Qed.
Lemma rw1_fails' : forall x a l o, fails a ((x, true) :: l) o ->
  same_failure (rw1 rw x a) o \/ exists y a1, rw1 rw x a = Ok (y, a1) /\ fails a1 l o.
Proof. intros x a l o H. apply rw1_fails in H as [H|[H|(y & s & a1 & E & H)]]; [left; left; auto|left; right; auto|right]. eauto. Qed.
Lemma rw_list_fails : forall es a l o, fails a (map shown es ++ l) o ->
  same_failure (rw_list rw es a) o \/ exists y a1, rw_list rw es a = Ok (y, a1) /\ fails a1 l o.
Proof.
  induction es as [|x es IH]; intros a l o H; cbn [map app] in H; [right; cbn; eauto|]. cbn [rw_list].
  apply rw1_fails' in H as [H|([y s] & a1 & E & H)]; [left; apply failed_bind; auto|]. rewrite E. cbn [bind].
  apply IH in H as [H|([ys s'] & a2 & E2 & H)]; [left; apply failed_bind; auto|]. rewrite E2. cbn [bind]. right. eauto.
Qed.
Lemma rw_sorts_fails : forall ss a l o, fails a (map (fun p : expr rel * sortkind => shown (fst p)) ss ++ l) o ->
  same_failure (rw_sorts rw ss a) o \/ exists y a1, rw_sorts rw ss a = Ok (y, a1) /\ fails a1 l o.
Proof.
  induction ss as [|[x k] ss IH]; intros a l o H; cbn [map app fst] in H; [right; cbn; eauto|]. cbn [rw_sorts].
  apply rw1_fails' in H as [H|([y s] & a1 & E & H)]; [left; apply failed_bind; auto|]. rewrite E. cbn [bind].
  apply IH in H as [H|([ys s'] & a2 & E2 & H)]; [left; apply failed_bind; auto|]. rewrite E2. cbn [bind]. right. eauto.
Qed.
Lemma rw_args_fails : forall args a l o, fails a (flat_map arg_slots args ++ l) o ->
  same_failure (rw_args rw args a) o \/ exists y a1, rw_args rw args a = Ok (y, a1) /\ fails a1 l o.
Proof.
  induction args as [|x args IH]; intros a l o H; cbn [flat_map] in H; [right; cbn; eauto|]. rewrite <- app_assoc in H.
  destruct x as [s|t|x]; cbn [rw_args].
  - apply IH in H as [H|([ys s'] & a2 & E2 & H)]; [left; apply failed_bind; auto|]. rewrite E2. cbn [bind]. right. eauto.
  - apply IH in H as [H|([ys s'] & a2 & E2 & H)]; [left; apply failed_bind; auto|]. rewrite E2. cbn [bind]. right. eauto.
  - rewrite arg_slot in H. destruct (is_nil_expr x); cbn [app] in H.
    + inversion H; subst. match goal with F : fails a _ o |- _ => apply IH in F as [F|([ys s'] & a2 & E2 & F)] end; [left; apply failed_bind; auto|].
      rewrite E2. cbn [bind]. right. eauto.
    + apply rw1_fails' in H as [H|([y s] & a1 & E & H)]; [left; apply failed_bind; auto|]. rewrite E. cbn [bind].
      apply IH in H as [H|([ys s'] & a2 & E2 & H)]; [left; apply failed_bind; auto|]. rewrite E2. cbn [bind]. right. eauto.
Qed.
Lemma rw_measures_fails : forall ms a l o, fails a (flat_map measure_slots ms ++ l) o ->
  same_failure (rw_measures rw ms a) o \/ exists y a1, rw_measures rw ms a = Ok (y, a1) /\ fails a1 l o.
Proof.
  induction ms as [|m ms IH]; intros a l o H; cbn [flat_map] in H; [right; cbn; eauto|]. cbn [rw_measures].
  unfold measure_slots in H at 1. rewrite <- app_assoc in H. cbn [app] in H.
  apply rw1_fails' in H as [H|([y s] & a1 & E & H)]; [left; apply failed_bind; auto|]. rewrite E. cbn [bind].
  assert (G : same_failure (rw_agg rw (ms_fn m) a1) o \/ exists y a2, rw_agg rw (ms_fn m) a1 = Ok (y, a2) /\ fails a2 (flat_map measure_slots ms ++ l) o).
  { destruct (ms_fn m) as [g|]; cbn [rw_agg]; [|right; cbn in *; eauto].
    apply rw_args_fails in H as [H|([ys s'] & a2 & E2 & H)]; [left; apply failed_bind; auto|]. rewrite E2. cbn [bind]. right. eauto. }
  destruct G as [G|([g s2] & a2 & E2 & G)]; [left; apply failed_bind; auto|]. rewrite E2. cbn [bind].
  apply IH in G as [G|([ms' s3] & a3 & E3 & G)]; [left; apply failed_bind; auto|]. rewrite E3. cbn [bind]. right. eauto.
Qed.
Lemma rewrite_fails : forall r ins a o, fails a (rel_slots r) o -> arity r = Some (List.length ins) ->
  same_failure (rewrite_rel rw equals r ins a) o.
Proof.
  intros r ins a o H AR.
  assert (Z : forall st, ~ fails st [] o) by (intros st F; inversion F).
  destruct r as [c b k|c i es v|c l r e p jt v|c l r v|c i o' n v|c i ms es gs v|c i ss v|c i e v|c is op v|c i d|c d|c is d
     |c l r ks p jt v|c l r ks p jt v|c ns v sch op i md]; cbn [rel_slots] in H; cbn [arity] in AR; try discriminate; injection AR as AR;
  try (exfalso; eapply Z; eauto; fail); cbn [rewrite_rel].
  - apply rw1_fails' in H as [H|([y s] & a1 & E & H)]; [apply failed_bind; auto|]. rewrite E. cbn [bind].
    apply rw1_fails' in H as [H|([y2 s2] & a2 & E2 & H)]; [apply failed_bind; auto|]. exfalso. eapply Z; eauto.
  - destruct ins as [|[i' b] [|]]; try discriminate. rewrite <- (app_nil_r (map shown es)) in H.
    apply rw_list_fails in H as [H|([y s] & a1 & E & H)]; [apply failed_bind; auto|]. exfalso. eapply Z; eauto.
  - destruct ins as [|[i' b] [|[j' b'] [|]]]; try discriminate.
    apply rw1_fails' in H as [H|([y s] & a1 & E & H)]; [apply failed_bind; auto|]. rewrite E. cbn [bind].
    apply rw1_fails' in H as [H|([y2 s2] & a2 & E2 & H)]; [apply failed_bind; auto|]. exfalso. eapply Z; eauto.
  - destruct ins as [|[i' b] [|]]; try discriminate.
    apply rw_list_fails in H as [H|([y s] & a1 & E & H)]; [apply failed_bind; auto|]. rewrite E. cbn [bind].
    rewrite <- (app_nil_r (flat_map measure_slots ms)) in H.
    apply rw_measures_fails in H as [H|([y2 s2] & a2 & E2 & H)]; [apply failed_bind; auto|]. exfalso. eapply Z; eauto.
  - destruct ins as [|[i' b] [|]]; try discriminate. rewrite <- (app_nil_r (map _ ss)) in H.
    apply rw_sorts_fails in H as [H|([y s] & a1 & E & H)]; [apply failed_bind; auto|]. exfalso. eapply Z; eauto.
  - destruct ins as [|[i' b] [|]]; try discriminate.
    apply rw1_fails' in H as [H|([y s] & a1 & E & H)]; [apply failed_bind; auto|]. exfalso. eapply Z; eauto.
  - destruct ins as [|[i' b] [|[j' b'] [|]]]; try discriminate.
    apply rw1_fails' in H as [H|([y s] & a1 & E & H)]; [apply failed_bind; auto|]. exfalso. eapply Z; eauto.
  - destruct ins as [|[i' b] [|[j' b'] [|]]]; try discriminate.
    apply rw1_fails' in H as [H|([y s] & a1 & E & H)]; [apply failed_bind; auto|]. exfalso. eapply Z; eauto.
Qed.

(** every run of the rewrite function either answers or fails *)
Lemma answers_or_fails : forall l a, (exists ys ch a', answers a l ys ch a') \/ (exists o, fails a l o).
Proof.
  induction l as [|[x b] l IH]; intros a; [left; do 3 eexists; constructor|]. destruct b.
  - destruct (rw x a) as [[o a1]| |] eqn:E; [|right; eexists; apply Fa_here; auto|right; eexists; apply Fa_panic; auto].
    destruct (IH a1) as [(ys & ch & a' & H)|(f & H)]; [left|right; eexists; eapply Fa_later; eauto].
    destruct o as [y|]; [|do 3 eexists; eapply An_same; eauto].
    destruct (is_nil_expr x && is_nil_expr y) eqn:N.
    + apply andb_prop in N as [N1 N2]. apply nil_iff in N1, N2. subst. do 3 eexists. eapply An_nil; eauto.
    + do 3 eexists. eapply An_answer; eauto. intros [-> ->]. discriminate.
  - destruct (IH a) as [(ys & ch & a' & H)|(f & H)]; [left; do 3 eexists; constructor; eauto|right; eexists; eapply Fa_hidden; eauto].
Qed.
Lemma shell_unique : forall r r', rel_shell r = rel_shell r' -> map fst (rel_slots r) = map fst (rel_slots r') ->
  get_inputs r = get_inputs r' -> r = r'.
Proof.
  assert (AG : forall l l', map (@arg_shell rel) l = map arg_shell l' -> arg_exprs l = arg_exprs l' -> l = l').
  { induction l as [|x l IH]; intros [|y l'] H1 H2; cbn in *; try discriminate; auto. injection H1 as S H1.
    destruct x, y; cbn in *; try discriminate; try (injection H2 as -> H2); try (injection S as ->); f_equal; auto. }
  assert (AL : forall l l', map (@arg_shell rel) l = map arg_shell l' -> List.length (arg_exprs l) = List.length (arg_exprs l')).
  { induction l as [|x l IH]; intros [|y l'] H1; cbn in *; try discriminate; auto. injection H1 as S H1.
    destruct x, y; cbn in *; try discriminate; auto. }
  assert (CUT : forall X (a a' b b' : list X), List.length a = List.length a' -> (a ++ b)%list = (a' ++ b')%list -> a = a' /\ b = b').
  { induction a as [|x a IH]; intros [|y a'] b b' L E; cbn in *; try discriminate; auto. injection E as -> E. destruct (IH a' b b'); auto. split; congruence. }
  assert (MS : forall ms ms', map measure_shell ms = map measure_shell ms' -> map fst (flat_map measure_slots ms) = map fst (flat_map measure_slots ms') -> ms = ms').
  { intros ms ms'. rewrite !measure_slots_exprs. revert ms'. induction ms as [|[f e] ms IH]; intros [|[f' e'] ms'] H1 H2; cbn in *; try discriminate; auto.
    injection H1 as S H1. injection H2 as -> H2. unfold option_map in S. destruct f as [g|], f' as [g'|]; try discriminate; [|f_equal; auto].
    injection S as S1 S2 S3 S4 S5 S6 S7 S8. apply CUT in H2 as [H2 H3]; [|apply AL; auto]. f_equal; auto. f_equal. f_equal.
    destruct g, g'; cbn in *; f_equal; auto. }
  assert (BL : forall l l' : list (expr rel), map (fun _ => @blank rel) l = map (fun _ => blank) l' -> List.length l = List.length l').
  { intros l l' H. apply (f_equal (@List.length _)) in H. rewrite !map_length in H. auto. }
  intros r r' H1 H2 H3. destruct r, r'; cbn in H1; try discriminate; cbn [rel_slots get_inputs] in H2, H3;
    try (injection H1; injection H3; intros; subst; cbn in H2; try (injection H2; intros; subst); reflexivity).
  - injection H1 as -> E1 E2 E3 ->. cbn in H2. injection H2 as E4 E5. destruct b, b0; cbn in *. subst. reflexivity.
  - injection H1 as -> E ->. injection H3 as ->. rewrite !shown_fst in H2. subst. reflexivity.
  - injection H1 as -> E1 E2 -> ->. injection H3 as ->. rewrite !map_app, !shown_fst in H2. apply CUT in H2 as [-> H2]; [|apply BL; auto].
    f_equal. auto.
  - injection H1 as -> E ->. injection H3 as ->. f_equal. rewrite !map_map in H2. cbn in H2. clear - E H2. revert sorts0 E H2.
    induction sorts as [|[x k] sorts IH]; intros [|[y j] sorts0] E H2; cbn in *; try discriminate; auto. injection E as -> E. injection H2 as -> H2. f_equal. auto.
  - injection H1 as -> -> ->. subst. reflexivity.
  - injection H1 as -> ->. reflexivity.
  - injection H1 as -> ->. subst. reflexivity.
Qed.
Lemma rewrite_arity : forall r ins a n, arity r = Some n -> n <> 0%nat -> List.length ins <> n ->
  rewrite_rel rw equals r ins a = Err.
Proof.
  intros r ins a n AR N L. destruct r; cbn in AR; inversion AR; subst; try congruence; cbn [rewrite_rel];
    try (destruct ins as [|[] [|[] [|]]]; try reflexivity; cbn in L; congruence).
Qed.
End Rewriting.

(** copying *)
Lemma copy_char : forall r ins,
  match arity r with
  | Some 0%nat => rel_copy r ins = Ok r
  | _ => if match arity r with Some n => Nat.eqb (List.length ins) n | None => true end
         then exists r', rel_copy r ins = Ok r' /\ get_inputs r' = ins /\ rel_shell r' = rel_shell r /\ rel_slots r' = rel_slots r
         else rel_copy r ins = Err
  end.
Proof.
  intros r ins. destruct r; cbn [arity rel_copy]; try reflexivity; try (eexists; split; [reflexivity|]; auto; fail);
    destruct ins as [|? [|? [|]]]; cbn [List.length Nat.eqb]; try reflexivity; eexists; (split; [reflexivity|]); auto.
Qed.
