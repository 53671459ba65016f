(** Proofs about SigModel.v, continued: derivation programs and result types. *)

From Coq Require Import List ZArith String Bool Lia.
From Verif Require Import Base FMap FMapFacts TypesModel TypesSpec TypesProofs ExtSetModel ExtSetProofs
  TimeProofs SigModel SigSpec SigProofs SigMatchProofs.
Import ListNotations.
Local Open Scope string_scope.

(** ** any variables hidden from the check *)

Lemma no_numbered_fits : forall sigma deep p t, no_numbered_any p -> any_fits deep sigma p t.
Proof.
  intros sigma deep p. pattern p.
  apply fdt_ind' with
    (Q := fun q => forall q', match q, q' with
                   | UData g, TPdata u => no_numbered_any g -> any_fits deep sigma g u
                   | _, _ => True end); auto;
    try (intros; destruct t; exact I).
  - intros x v n t H. simpl in H. destruct t; left; auto.
  - intros n v e IH t H. destruct t; try exact I. apply IH; auto.
  - intros n v k x IHk IHx t [H1 H2]. destruct t; try exact I. split; auto.
  - intros n v fs IH t H. destruct t as [| | | | | | | | | |n0 v0 ts| | | |]; try exact I. intros _. apply All_Forall in H.
    revert ts. induction IH; intros [|u ts]; simpl; auto. inversion H; subst. split; auto.
  - intros n ps r IH IHr t [H1 H2]. destruct t as [| | | | | | | | | | |n0 ts tr| | |]; try exact I. intros _ _. split; [|auto].
    apply All_Forall in H1. revert ts. induction IH; intros [|u ts]; simpl; auto. inversion H1; subst. split; auto.
  - intros n v ps name IH t H. destruct t as [| | | | | | | | | | | | | |n0 v0 rf qs]; try exact I. intros _ _. simpl in H.
    revert qs. induction IH; intros [|u qs]; simpl; auto. destruct H as [Ha Hb]. split; auto.
    specialize (H0 u). destruct x; auto. destruct u; auto.
  - intros l f IH t H. simpl. destruct t; intros _; apply IH; auto.
  - intros f IH [| | | u | | |]; auto.
Qed.

Lemma any_in_sight_deep : forall sigma p t, any_in_sight p ->
  (any_fits false sigma p t <-> any_fits true sigma p t).
Proof.
  intros sigma p. pattern p.
  apply fdt_ind' with (Q := fun _ => True); auto; try (intros; destruct t; simpl; tauto).
  - intros n v e IH t H. destruct t; simpl; try tauto. apply IH; auto.
  - intros n v k x IHk IHx t [H1 H2]. destruct t; simpl; try tauto. rewrite IHk, IHx; auto. tauto.
  - intros n v fs IH t H. destruct t as [| | | | | | | | | |n0 v0 ts| | | |]; simpl; try tauto.
    apply All_Forall in H.
    assert (E : AllZip (any_fits false sigma) fs ts <-> AllZip (any_fits true sigma) fs ts).
    { revert ts. induction IH; intros [|u ts]; simpl; try tauto. inversion H; subst.
      rewrite H0, IHIH by auto. tauto. }
    rewrite E. tauto.
  - intros n ps r _ _ t H. split; intros _; apply no_numbered_fits; exact H.
  - intros n v ps name _ t H. split; intros _; apply no_numbered_fits; exact H.
  - intros l f _ t H. split; intros _; apply no_numbered_fits; exact H.
Qed.

(** ** C09: expressions *)

Section DexprInd.
  Variable P : dexpr -> Prop.
  Hypothesis Hnum : forall z, P (DNum z).
  Hypothesis Hname : forall x, P (DName x).
  Hypothesis Hbin : forall op l r, P l -> P r -> P (DBin op l r).
  Hypothesis Hif : forall tern c t e, P c -> P t -> P e -> P (DIf tern c t e).
  Hypothesis Hnot : forall e, P e -> P (DNot e).
  Hypothesis Hcall : forall nm args, Forall P args -> P (DCall nm args).
  Fixpoint dexpr_ind' (e : dexpr) : P e :=
    match e with
    | DNum z => Hnum z
    | DName x => Hname x
    | DBin op l r => Hbin op l r (dexpr_ind' l) (dexpr_ind' r)
    | DIf tern c t e => Hif tern c t e (dexpr_ind' c) (dexpr_ind' t) (dexpr_ind' e)
    | DNot e => Hnot e (dexpr_ind' e)
    | DCall nm args => Hcall nm args
        ((fix go l : Forall P l :=
           match l with [] => Forall_nil _ | x :: l' => Forall_cons x (dexpr_ind' x) (go l') end) args)
    end.
End DexprInd.

Definition env_of (s : symtab) : env := fun x => st_get x s.

Lemma i64_wrap : forall z, i64 z -> wrap 64 z = z.
Proof. intros z H. apply wrap_id; [lia|]. unfold i64 in H. unfold in_int. change (2 ^ (64 - 1))%Z with (2 ^ 63)%Z. lia. Qed.

Lemma wrap_i64 : forall z, i64 (wrap 64 z).
Proof. intros z. pose proof (wrap_range 64 z). unfold i64. unfold in_int in H. change (2 ^ (64 - 1))%Z with (2 ^ 63)%Z in H. lia. Qed.

Lemma i64_dec : forall z, i64 z \/ ~ i64 z.
Proof. intros z. unfold i64. lia. Qed.

Lemma eval_call_args : forall s args vs,
  Forall (fun e => forall v, denotes (env_of s) e v -> eval s e = Ok v) args ->
  Forall2 (denotes (env_of s)) args vs -> mapM (eval s) args = Ok vs.
Proof.
  intros s args vs H H2. revert H. induction H2; intros H1; simpl; auto.
  inversion H1 as [|? ? Ha Hb]; subst. rewrite (Ha _ H). simpl. rewrite IHForall2; auto.
Qed.

Lemma eval_denotes : forall s e v, denotes (env_of s) e v -> eval s e = Ok v.
Proof.
  intros s e. induction e using dexpr_ind'; intros v D.
  - inversion D; reflexivity.
  - inversion D as [|y w Hy| | | | | | | | | |]; subst. simpl. unfold env_of in *. rewrite Hy. reflexivity.
  - inversion D as [| |o l r a b c Dl Dr Ha Hi|o l r a b P c Dl Dr Hc Hi|l r a b Dl Dr|l r a b Dl Dr
                   |l r w Dl Dr|l r w Dl Dr| | | |]; subst;
      simpl; rewrite (IHe1 _ Dl), (IHe2 _ Dr); simpl.
    + destruct op; try discriminate; simpl in *; try (inversion Ha; subst; rewrite i64_wrap; auto; fail).
      destruct (Z.eqb b 0) eqn:E; [discriminate|]. inversion Ha; subst. rewrite i64_wrap; auto.
    + destruct op; try discriminate; simpl in *; inversion Hc; subst; f_equal; f_equal;
      match goal with |- ?b = _ => destruct b eqn:E; symmetry;
        [apply Hi | destruct c; auto; exfalso; assert (Hc' : true = true) by auto; apply Hi in Hc'] end;
      rewrite ?Z.ltb_lt, ?Z.leb_le, ?Z.eqb_eq, ?negb_true_iff, ?Z.ltb_ge, ?Z.leb_gt, ?Z.eqb_neq,
        ?negb_false_iff, ?Z.eqb_eq in E; lia.
    + destruct a; auto.
    + destruct a; auto.
    + reflexivity.
    + reflexivity.
  - inversion D as [| | | | | | | |tr c t e w Dc Dv|tr c t e w Dc Dv| |]; subst;
      simpl; rewrite (IHe1 _ Dc); simpl; auto.
  - inversion D as [| | | | | | | | | |e' b De|]; subst. simpl. rewrite (IHe _ De). reflexivity.
  - inversion D as [| | | | | | | | | | |nm' args' a rest c Dargs Hc Hi]; subst.
    simpl. rewrite (eval_call_args _ _ _ H Dargs). simpl. unfold apply_call, call in *.
    destruct (String.eqb nm "abs") eqn:E1.
    + apply String.eqb_eq in E1. inversion Hc; subst. simpl.
      assert (Hi' : i64 (Z.abs a)) by auto. unfold i64 in Hi'.
      destruct (Z.ltb a 0) eqn:El; rewrite ?Z.ltb_lt, ?Z.ltb_ge in El.
      * rewrite i64_wrap by (unfold i64; lia). do 2 f_equal. lia.
      * do 2 f_equal. lia.
    + destruct rest as [|[b| | | | |] rest]; try discriminate.
      destruct (String.eqb nm "max") eqn:E2; [inversion Hc; reflexivity|].
      destruct (String.eqb nm "min") eqn:E3; [inversion Hc; reflexivity|discriminate].
Qed.

Lemma mapM_cases : forall s args vs,
  Forall (fun e => forall v, eval s e = Ok v -> denotes (env_of s) e v \/ overflows (env_of s) e) args ->
  mapM (eval s) args = Ok vs ->
  Forall2 (denotes (env_of s)) args vs \/ exists e, In e args /\ overflows (env_of s) e.
Proof.
  intros s args vs H. revert vs. induction H as [|e args He _ IH]; intros vs Hm; simpl in Hm.
  - inversion Hm. left; constructor.
  - destruct (eval s e) as [v| |] eqn:E; simpl in Hm; try discriminate.
    destruct (mapM (eval s) args) as [vs'| |]; simpl in Hm; try discriminate. inversion Hm; subst.
    destruct (He _ eq_refl) as [D|O]; [|right; exists e; simpl; auto].
    destruct (IH _ eq_refl) as [D'|[e' [? ?]]]; [left; auto | right; exists e'; simpl; auto].
Qed.

Lemma denotes_eval : forall s e v, eval s e = Ok v -> denotes (env_of s) e v \/ overflows (env_of s) e.
Proof.
  intros s e. induction e using dexpr_ind'; intros v E; simpl in E.
  - inversion E; left; constructor.
  - destruct (st_get x s) eqn:G; inversion E; subst. left; constructor; auto.
  - destruct (eval s e1) as [a| |] eqn:E1; simpl in E; try discriminate.
    destruct (eval s e2) as [b| |] eqn:E2; simpl in E; try discriminate.
    destruct (IHe1 _ eq_refl) as [D1|]; [|right; apply O_left; auto].
    destruct (IHe2 _ eq_refl) as [D2|]; [|right; apply O_right; auto].
    assert (Ha : forall c, (exists x y, a = VInt x /\ b = VInt y /\ arith op x y = Some c /\ v = VInt (wrap 64 c)) ->
              denotes (env_of s) (DBin op e1 e2) v \/ overflows (env_of s) (DBin op e1 e2)).
    { intros c (x & y & -> & -> & Har & ->). destruct (i64_dec c) as [Hi|Hi].
      - left. rewrite i64_wrap by auto. econstructor; eauto.
      - right. eapply O_here; eauto. }
    assert (Hc : forall P c, (exists x y, a = VInt x /\ b = VInt y /\ compare op x y = Some P /\ v = VBool c /\ (c = true <-> P)) ->
              denotes (env_of s) (DBin op e1 e2) v \/ overflows (env_of s) (DBin op e1 e2)).
    { intros P c (x & y & -> & -> & Har & -> & ?). left. eapply D_compare; eauto. }
    destruct op; simpl in E; try discriminate.
    + destruct a as [| |[|]| | |]; simpl in E; try discriminate.
      * destruct b as [| |b| | |]; simpl in E; try discriminate. inversion E; subst. left.
        change (VBool b) with (VBool (true && b)). apply D_and; auto.
      * inversion E. left. eapply D_and_decided; eauto.
    + destruct a as [| |[|]| | |]; simpl in E; try discriminate.
      * inversion E. left. eapply D_or_decided; eauto.
      * destruct b as [| |b| | |]; simpl in E; try discriminate. inversion E; subst. left.
        change (VBool b) with (VBool (false || b)). apply D_or; auto.
    + destruct a as [x| | | | |]; destruct b as [y| | | | |]; simpl in E; try discriminate. injection E as Ev; symmetry in Ev.
      apply (Ha (x + y)%Z). exists x, y. auto.
    + destruct a as [x| | | | |]; destruct b as [y| | | | |]; simpl in E; try discriminate. injection E as Ev; symmetry in Ev.
      apply (Ha (x - y)%Z). exists x, y. auto.
    + destruct a as [x| | | | |]; destruct b as [y| | | | |]; simpl in E; try discriminate. injection E as Ev; symmetry in Ev.
      apply (Ha (x * y)%Z). exists x, y. auto.
    + destruct a as [x| | | | |]; destruct b as [y| | | | |]; simpl in E; try discriminate.
      destruct (Z.eqb y 0) eqn:E0; [discriminate|]. injection E as Ev; symmetry in Ev.
      apply (Ha (Z.quot x y)). exists x, y. simpl. rewrite E0. auto.
    + destruct a as [x| | | | |]; destruct b as [y| | | | |]; simpl in E; try discriminate. injection E as Ev; symmetry in Ev.
      eapply (Hc (x < y)%Z). exists x, y. do 3 (split; [reflexivity|]). split; [exact Ev|]. apply Z.ltb_lt.
    + destruct a as [x| | | | |]; destruct b as [y| | | | |]; simpl in E; try discriminate. injection E as Ev; symmetry in Ev.
      eapply (Hc (x <= y)%Z). exists x, y. do 3 (split; [reflexivity|]). split; [exact Ev|]. apply Z.leb_le.
    + destruct a as [x| | | | |]; destruct b as [y| | | | |]; simpl in E; try discriminate. injection E as Ev; symmetry in Ev.
      eapply (Hc (x > y)%Z). exists x, y. do 3 (split; [reflexivity|]). split; [exact Ev|]. rewrite Z.ltb_lt; lia.
    + destruct a as [x| | | | |]; destruct b as [y| | | | |]; simpl in E; try discriminate. injection E as Ev; symmetry in Ev.
      eapply (Hc (x >= y)%Z). exists x, y. do 3 (split; [reflexivity|]). split; [exact Ev|]. rewrite Z.leb_le; lia.
    + destruct a as [x| | | | |]; destruct b as [y| | | | |]; simpl in E; try discriminate. injection E as Ev; symmetry in Ev.
      eapply (Hc (x = y)%Z). exists x, y. do 3 (split; [reflexivity|]). split; [exact Ev|]. apply Z.eqb_eq.
    + destruct a as [x| | | | |]; destruct b as [y| | | | |]; simpl in E; try discriminate. injection E as Ev; symmetry in Ev.
      eapply (Hc (x <> y)%Z). exists x, y. do 3 (split; [reflexivity|]). split; [exact Ev|]. rewrite negb_true_iff, Z.eqb_neq; tauto.
  - destruct (eval s e1) as [a| |] eqn:E1; simpl in E; try discriminate.
    destruct (IHe1 _ eq_refl) as [D1|]; [|right; apply O_cond; auto].
    destruct a as [| |[|]| | |]; simpl in E; try discriminate.
    + destruct (IHe2 _ E); [left; apply D_if_true; auto | right; apply O_then; auto].
    + destruct (IHe3 _ E); [left; apply D_if_false; auto | right; apply O_else; auto].
  - destruct (eval s e) as [a| |] eqn:E1; simpl in E; try discriminate.
    destruct (IHe _ eq_refl) as [D1|]; [|right; apply O_not; auto].
    destruct a as [| |b| | |]; simpl in E; try discriminate. inversion E; subst. left; constructor; auto.
  - destruct (mapM (eval s) args) as [vs| |] eqn:Em; simpl in E; try discriminate.
    destruct (mapM_cases _ _ _ H Em) as [D|[e [He O]]]; [|right; eapply O_arg; eauto].
    unfold apply_call in E.
    destruct (String.eqb nm "abs") eqn:E1.
    + apply String.eqb_eq in E1; subst nm.
      unfold arg_int in E. destruct vs as [|[a| | | | |] rest]; simpl in E; try discriminate.
      destruct (i64_dec (Z.abs a)) as [Hi|Hi].
      * left. replace v with (VInt (Z.abs a)); [eapply D_call; eauto; reflexivity|].
        inversion E. f_equal. destruct (Z.ltb a 0) eqn:El; rewrite ?Z.ltb_lt, ?Z.ltb_ge in El.
        -- unfold i64 in Hi. rewrite i64_wrap by (unfold i64; lia). lia.
        -- lia.
      * right. eapply O_abs; eauto.
    + assert (Hna : nm = "abs" -> forall P : Prop, P) by (intros ->; discriminate).
      destruct (String.eqb nm "max") eqn:E2; [|destruct (String.eqb nm "min") eqn:E3; [|discriminate]];
        unfold arg_int in E; destruct vs as [|[a| | | | |] rest]; simpl in E; try discriminate;
        destruct rest as [|[b| | | | |] rest]; simpl in E; try discriminate; inversion E; left;
        (eapply D_call; [exact D | unfold call; rewrite E1, E2; try rewrite E3; reflexivity
                        | intros Hn; apply Hna; auto]).
Qed.

Lemma eval_typed : forall s g e t,
  (forall x t, g x = Some t -> exists v, st_get x s = Some v /\ has_dtype v t) ->
  typed g e t -> no_division e -> exists v, eval s e = Ok v /\ has_dtype v t.
Proof.
  intros s g e t Hs T. induction T; intros Hd; simpl in Hd.
  - eexists; split; [reflexivity|]; auto.
  - destruct (Hs _ _ H) as [v [Hv ?]]. exists v. simpl. rewrite Hv. auto.
  - destruct Hd as (Hop & Hl & Hr). destruct (IHT1 Hl) as [a [Ea Ha]]. destruct (IHT2 Hr) as [b [Eb Hb]].
    destruct a; try contradiction. destruct b; try contradiction.
    simpl. rewrite Ea, Eb. simpl.
    destruct H as [<-|[<-|[<-|[<-|[]]]]]; [| | |congruence]; simpl; (eexists; split; [reflexivity|]; apply wrap_i64).
  - destruct Hd as (Hop & Hl & Hr). destruct (IHT1 Hl) as [a [Ea Ha]]. destruct (IHT2 Hr) as [b [Eb Hb]].
    destruct a; try contradiction. destruct b; try contradiction.
    simpl. rewrite Ea, Eb. simpl.
    repeat (destruct H as [<-|H]; [simpl; (eexists; split; [reflexivity|]; exact I)|]). destruct H.
  - destruct Hd as (Hop & Hl & Hr). destruct (IHT1 Hl) as [a [Ea Ha]]. destruct (IHT2 Hr) as [b [Eb Hb]].
    destruct a as [| |a| | |]; try contradiction. destruct b as [| |b| | |]; try contradiction.
    simpl. rewrite Ea, Eb. simpl.
    destruct H as [<-|[<-|[]]]; simpl; destruct a; (eexists; split; [reflexivity|]; exact I).
  - destruct Hd as (Hc & Ht & He). destruct (IHT1 Hc) as [w [Ea Ha]]. destruct w as [| |[|]| | |]; try contradiction;
      simpl; rewrite Ea; simpl; auto.
  - destruct (IHT Hd) as [a [Ea Ha]]. destruct a as [| |b| | |]; try contradiction.
    simpl. rewrite Ea. simpl. eexists; split; [reflexivity|]; exact I.
  - destruct Hd as [Hd _]. destruct (IHT Hd) as [a0 [Ea Ha]]. destruct a0; try contradiction.
    simpl. rewrite Ea. simpl. eexists; split; [reflexivity|].
    simpl in *. destruct (Z.ltb z 0); auto. apply wrap_i64.
  - destruct Hd as (Hl & Hr & _). destruct (IHT1 Hl) as [x [Ea Ha]]. destruct (IHT2 Hr) as [y [Eb Hb]].
    destruct x; try contradiction. destruct y; try contradiction.
    simpl. rewrite Ea. simpl. rewrite Eb. simpl. eexists; split; [reflexivity|]. simpl in *. unfold i64 in *. lia.
  - destruct Hd as (Hl & Hr & _). destruct (IHT1 Hl) as [x [Ea Ha]]. destruct (IHT2 Hr) as [y [Eb Hb]].
    destruct x; try contradiction. destruct y; try contradiction.
    simpl. rewrite Ea. simpl. rewrite Eb. simpl. eexists; split; [reflexivity|]. simpl in *. unfold i64 in *. lia.
Qed.

(** ** Assignments *)

Lemma denotes_ext : forall g g', (forall x, g x = g' x) -> forall e v, denotes g e v -> denotes g' e v.
Proof.
  intros g g' H e. induction e using dexpr_ind'; intros v D.
  - inversion D; constructor.
  - inversion D; constructor. rewrite <- H; auto.
  - inversion D; subst.
    + eapply D_arith; eauto.
    + eapply D_compare; eauto.
    + apply D_and; auto.
    + apply D_or; auto.
    + eapply D_and_decided; eauto.
    + eapply D_or_decided; eauto.
  - inversion D; subst; [apply D_if_true | apply D_if_false]; auto.
  - inversion D; subst; constructor; auto.
  - inversion D as [| | | | | | | | | | |nm' args' a rest c Dargs Hc Hi]; subst.
    eapply D_call; eauto. clear D Hc. revert H0 Dargs. generalize (VInt a :: rest). clear.
    intros vs Ha H2. induction H2; constructor; inversion Ha; subst; auto.
Qed.

Lemma overflows_ext : forall g g', (forall x, g x = g' x) -> forall e, overflows g e -> overflows g' e.
Proof.
  intros g g' H e O. induction O.
  - eapply O_here; eauto; eapply denotes_ext; eauto.
  - apply O_abs with a rest; auto. revert H0. generalize (VInt a :: rest). clear -H.
    intros vs H0. induction H0; constructor; auto. eapply denotes_ext; eauto.
  - apply O_left; auto.
  - apply O_right; auto.
  - apply O_cond; auto.
  - apply O_then; auto.
  - apply O_else; auto.
  - apply O_not; auto.
  - eapply O_arg; eauto.
Qed.

Lemma get_set_env : forall s x v y, env_of (st_set x v s) y = update (env_of s) x v y.
Proof.
  intros. unfold env_of, update, st_get, st_set.
  destruct (String.eqb y x) eqn:E.
  - apply String.eqb_eq in E; subst. apply get_set_same, str_spec.
  - apply String.eqb_neq in E. apply get_set_other; [apply str_spec | auto].
Qed.

Lemma run_runs : forall l g g', runs g l g' -> forall s, (forall x, env_of s x = g x) ->
  exists s', run_assignments l s = Ok s' /\ forall x, env_of s' x = g' x.
Proof.
  intros l g g' R. induction R; intros s Hs.
  - exists s; split; auto.
  - assert (D : denotes (env_of s) e v) by (eapply denotes_ext; [|exact H]; intros; symmetry; auto).
    apply eval_denotes in D. simpl. rewrite D. simpl. apply IHR.
    intros y. rewrite get_set_env. unfold update. rewrite Hs. reflexivity.
Qed.

Lemma runs_run : forall l s s', run_assignments l s = Ok s' -> forall g, (forall x, env_of s x = g x) ->
  (exists g', runs g l g' /\ forall x, env_of s' x = g' x) \/ overflows_in g l.
Proof.
  induction l as [|[x e] l IH]; intros s s' H g Hg; simpl in H.
  - inversion H; subst. left. exists g. split; [constructor|auto].
  - destruct (eval s e) as [v| |] eqn:E; simpl in H; try discriminate.
    apply denotes_eval in E. destruct E as [D|O].
    + assert (D' : denotes g e v) by (eapply denotes_ext; eauto).
      destruct (IH _ _ H (update g x v)) as [[g' [R Hg']]|O].
      { intros y. rewrite get_set_env. unfold update. rewrite Hg. reflexivity. }
      * left. exists g'. split; auto. econstructor; eauto.
      * right. eapply OI_later; eauto.
    + right. apply OI_here. eapply overflows_ext; eauto.
Qed.

(** ** The integer variables of a call *)

Definition numeric (v : pval) : Prop := match v with VInt _ | VPrec _ => True | _ => False end.

Lemma pval_same_numeric : forall v w, numeric v -> (pval_same v w = true <-> v = w).
Proof.
  intros v w H. destruct v; simpl in H; try contradiction; destruct w; simpl;
    try (split; [discriminate | congruence]); rewrite Z.eqb_eq; split; congruence.
Qed.

Definition in_tab (s : symtab) (l : list (gparam * pval)) (x : string) (v : pval) : Prop :=
  env_of s x = Some v \/ In (GInt (IVar x), v) l.

Lemma bind_params_spec : forall names vals s,
  Forall numeric vals -> (forall x v, env_of s x = Some v -> numeric v) ->
  match bind_params names vals s with
  | Ok s' => (forall x v, env_of s' x = Some v -> numeric v) /\
             forall x v, env_of s' x = Some v <-> in_tab s (combine names vals) x v
  | Err => exists x v w, v <> w /\ in_tab s (combine names vals) x v /\ in_tab s (combine names vals) x w
  | Panic => False
  end.
Proof.
  induction names as [|nm names IH]; intros vals s Hv Hs; simpl.
  - split; auto. intros x v. unfold in_tab; simpl. tauto.
  - destruct vals as [|w vals].
    + split; auto. intros x v. unfold in_tab; simpl. tauto.
    + inversion Hv as [|? ? Hw Hv']; subst.
      assert (Hskip : (forall x, nm <> GInt (IVar x)) ->
        match bind_params names vals s with
        | Ok s' => (forall x v, env_of s' x = Some v -> numeric v) /\
             forall x v, env_of s' x = Some v <-> in_tab s (combine (nm :: names) (w :: vals)) x v
        | Err => exists x v w', v <> w' /\ in_tab s (combine (nm :: names) (w :: vals)) x v /\
                               in_tab s (combine (nm :: names) (w :: vals)) x w'
        | Panic => False
        end).
      { intros Hn. specialize (IH vals s Hv' Hs). destruct (bind_params names vals s); auto.
        - destruct IH as [H1 H2]. split; auto. intros x v. rewrite H2. unfold in_tab; simpl.
          split; [tauto|]. intros [?|[E|?]]; auto. inversion E; subst. exfalso; eapply Hn; eauto.
        - destruct IH as (x & v & w' & Hvw & H1 & H2). exists x, v, w'. unfold in_tab in *; simpl. tauto. }
      destruct nm as [[z|x]| |]; try (apply Hskip; discriminate). clear Hskip.
      assert (Hset : numeric w -> (env_of s x = None \/ env_of s x = Some w) ->
        match bind_params names vals (st_set x w s) with
        | Ok s' => (forall x v, env_of s' x = Some v -> numeric v) /\
             forall y v, env_of s' y = Some v <-> in_tab s ((GInt (IVar x), w) :: combine names vals) y v
        | Err => exists y v w', v <> w' /\ in_tab s ((GInt (IVar x), w) :: combine names vals) y v /\
                               in_tab s ((GInt (IVar x), w) :: combine names vals) y w'
        | Panic => False
        end).
      { intros _ Hx.
        assert (Hin : forall y v, in_tab (st_set x w s) (combine names vals) y v <->
                                  in_tab s ((GInt (IVar x), w) :: combine names vals) y v).
        { intros y v. unfold in_tab. rewrite get_set_env. unfold update. simpl.
          destruct (String.eqb y x) eqn:E.
          - apply String.eqb_eq in E; subst y. split.
            + intros [Ev|?]; auto. inversion Ev; auto.
            + intros [Ev|[Ev|?]]; auto.
              * destruct Hx as [Hx|Hx]; rewrite Hx in Ev; [discriminate|]. left; auto.
              * inversion Ev; auto.
          - apply String.eqb_neq in E. split; [tauto|].
            intros [?|[Ev|?]]; auto. inversion Ev; congruence. }
        specialize (IH vals (st_set x w s) Hv').
        assert (Hs' : forall y v, env_of (st_set x w s) y = Some v -> numeric v).
        { intros y v. rewrite get_set_env. unfold update. destruct (String.eqb y x); [|apply Hs].
          intros Ev; inversion Ev; subst; auto. }
        specialize (IH Hs'). destruct (bind_params names vals (st_set x w s)); auto.
        - destruct IH as [H1 H2]. split; auto. intros y v. rewrite H2. apply Hin.
        - destruct IH as (y & v & w' & Hvw & H1 & H2). exists y, v, w'. rewrite <- !Hin. auto. }
      change (st_get x s) with (env_of s x).
      destruct (env_of s x) as [v0|] eqn:G.
      * destruct (pval_same v0 w) eqn:Ep.
        -- apply pval_same_numeric in Ep; [|eapply Hs; eauto]. subst v0. apply Hset; auto.
        -- exists x, v0, w. split; [|unfold in_tab; simpl; auto].
           intros ->. assert (pval_same w w = true) by (apply pval_same_numeric; auto). congruence.
      * apply Hset; auto.
Qed.

Lemma flat_given : forall p a, flat p -> instance p a -> get_params p <> [] ->
  List.length (get_params p) = List.length (get_parameters a) /\
  Forall numeric (get_parameters a) /\
  forall x v, In (GInt (IVar x), v) (combine (get_params p) (get_parameters a)) <-> var_at p a x v.
Proof.
  intros p a Hf Hi Hne. destruct p; simpl in Hf;
    try (exfalso; apply Hne; 
         match goal with |- get_params ?f = [] =>
           assert (Hp : has_param f = false) by (apply no_int_var_has_param; simpl; auto);
           simpl in Hp |- *; rewrite ?Hp; auto end; fail).
  - destruct i as [z|y]; [exfalso; apply Hne; reflexivity|]. clear Hne.
    inversion Hi; subst; simpl; (split; [auto|]; split; [repeat constructor|]; intros x0 v0; split;
      [intros [E|[]]; inversion E; subst; constructor | inversion 1; subst; auto]).
  - inversion Hi; subst.
    assert (Hg : get_params (FDecimal n v precision scale) = [GInt precision; GInt scale]).
    { destruct precision; destruct scale; try reflexivity. exfalso; apply Hne; reflexivity. }
    rewrite Hg. simpl. split; auto. split; [repeat constructor|]. intros x0 v0. split.
    + intros [E|[E|[]]]; inversion E; subst; constructor.
    + inversion 1; subst; auto.
Qed.

Lemma flat_none : forall p a x v, flat p -> get_params p = [] -> ~ var_at p a x v.
Proof.
  intros p a x v Hf Hg V. inversion V; subst; simpl in Hg; try discriminate.
  rewrite orb_true_r in Hg. discriminate.
Qed.

Lemma bound_cons : forall p ps a args x v,
  bound (p :: ps) (a :: args) x v <-> var_at p a x v \/ bound ps args x v.
Proof.
  intros. unfold bound. simpl. split.
  - intros (p' & a' & [E|H] & V); [inversion E; subst; auto|right; eauto].
  - intros [V|(p' & a' & H & V)]; [exists p, a; auto | exists p', a'; auto].
Qed.

Definition in_env (s : symtab) (ps : list fdt) (args : list ty) x v : Prop :=
  env_of s x = Some v \/ bound ps args x v.

Lemma enum_no_params : forall c n v nm o, get_params (FEnum c n v nm o) = [].
Proof. reflexivity. Qed.

Lemma build_symtab_spec : forall ps args s, fits_params ps args ->
  (forall x v, env_of s x = Some v -> numeric v) ->
  match build_symtab ps args s with
  | Ok s' => forall x v, env_of s' x = Some v <-> in_env s ps args x v
  | Err => exists x v w, v <> w /\ in_env s ps args x v /\ in_env s ps args x w
  | Panic => False
  end.
Proof.
  induction ps as [|p ps IH]; intros args s Hfit Hs.
  - simpl. intros x v. unfold in_env, bound. simpl. split; auto. intros [?|(p & a & [] & _)]; auto.
  - destruct Hfit as [Hl Hfit]. destruct args as [|a args]; [simpl in Hl; lia|].
    destruct (Hfit 0%nat p a eq_refl eq_refl) as [Hflat Hinst].
    assert (Hfit' : fits_params ps args).
    { split; [simpl in Hl; lia|]. intros i p' a' H1 H2. apply (Hfit (S i)); auto. }
    cbn [build_symtab tl]. destruct (get_params p) as [|g0 gs] eqn:Eg.
    + specialize (IH args s Hfit' Hs).
      assert (E : forall x v, in_env s (p :: ps) (a :: args) x v <-> in_env s ps args x v).
      { intros x v. unfold in_env. rewrite bound_cons.
        pose proof (flat_none p a x v Hflat Eg). tauto. }
      destruct (build_symtab ps args s); auto.
      * intros x v. rewrite E. auto.
      * destruct IH as (x & v & w & H1 & H2 & H3). exists x, v, w. rewrite !E. auto.
    + destruct Hinst as [Hinst|(c & n & v & nm & o & ->)]; [|discriminate].
      destruct (flat_given p a Hflat Hinst) as (Hlen & Hnum & Hgiven); [congruence|].
      rewrite Eg in Hlen, Hgiven. rewrite Hlen, Nat.eqb_refl. cbn [negb].
      pose proof (bind_params_spec (g0 :: gs) (get_parameters a) s Hnum Hs) as Hb.
      destruct (bind_params (g0 :: gs) (get_parameters a) s) as [s1| |]; simpl bind; auto.
      * destruct Hb as [Hs1 Hb]. specialize (IH args s1 Hfit' Hs1).
        assert (E : forall x v, in_env s (p :: ps) (a :: args) x v <-> in_env s1 ps args x v).
        { intros x v. unfold in_env. rewrite bound_cons, Hb. unfold in_tab. rewrite Hgiven. tauto. }
        destruct (build_symtab ps args s1); auto.
        -- intros x v. rewrite E. auto.
        -- destruct IH as (x & v & w & H1 & H2 & H3). exists x, v, w. rewrite !E. auto.
      * destruct Hb as (x & v & w & H1 & H2 & H3). exists x, v, w. unfold in_env. rewrite !bound_cons.
        unfold in_tab in *. rewrite Hgiven in *. tauto.
Qed.

Lemma build_symtab_env : forall ps args, fits_params ps args ->
  match build_symtab ps args [] with
  | Ok s => variables_of ps args (env_of s)
  | Err => exists x v w, v <> w /\ bound ps args x v /\ bound ps args x w
  | Panic => False
  end.
Proof.
  intros ps args H. pose proof (build_symtab_spec ps args [] H) as B.
  assert (Hn : forall x v, env_of [] x = Some v -> numeric v) by (intros; discriminate).
  specialize (B Hn). destruct (build_symtab ps args []); auto.
  - intros x v. rewrite B. unfold in_env. split; auto. intros [E|?]; auto. discriminate.
  - destruct B as (x & v & w & H1 & H2 & H3). exists x, v, w.
    unfold in_env in *. split; auto. destruct H2, H3; try discriminate; auto.
Qed.

Lemma build_symtab_ok : forall ps args g, fits_params ps args -> variables_of ps args g ->
  exists s, build_symtab ps args [] = Ok s /\ forall x, env_of s x = g x.
Proof.
  intros ps args g Hf Hg. pose proof (build_symtab_env ps args Hf) as B.
  destruct (build_symtab ps args []) as [s| |]; [|exfalso|contradiction].
  - exists s. split; auto. intros x. destruct (env_of s x) as [v|] eqn:E.
    + apply B in E. apply Hg in E. auto.
    + destruct (g x) as [v|] eqn:E'; auto. apply Hg in E'. apply B in E'. congruence.
  - destruct B as (x & v & w & H1 & H2 & H3). apply Hg in H2. apply Hg in H3. congruence.
Qed.

(** ** C10: the type variable of a result *)

Lemma zip_concat_nil : forall A B C (f : A -> B -> list C) l m,
  (forall x y, In x l -> f x y = []) -> zip_concat f l m = [].
Proof.
  intros A B C f l. induction l as [|x l IH]; intros [|y m] H; simpl; auto.
  rewrite H by (simpl; auto). simpl. apply IH. intros; apply H; simpl; auto.
Qed.

Lemma absent_occurrences : forall name p t, absent name p -> occurrences name p t = [].
Proof.
  intros name p. pattern p.
  apply fdt_ind' with
    (Q := fun q => forall q', match q, q' with
                   | UData g, TPdata u => absent name g -> occurrences name g u = []
                   | _, _ => True end); auto; try (intros; destruct t; reflexivity).
  - intros x v n t H. simpl in H. destruct (String.eqb_neq x name) as [_ E]. specialize (E H).
    destruct t; simpl; rewrite E; reflexivity.
  - intros n v e IH t H. destruct t; try reflexivity. simpl. apply IH. exact H.
  - intros n v k x IHk IHx t [H1 H2]. destruct t; try reflexivity. simpl. rewrite IHk, IHx; auto.
  - intros n v fs IH t H. destruct t; try reflexivity. simpl. simpl in H. apply All_Forall in H.
    apply zip_concat_nil. rewrite Forall_forall in *. intros; apply IH; auto.
  - intros n ps r IH IHr t [H1 H2]. destruct t; try reflexivity. simpl. apply All_Forall in H1.
    rewrite IHr by auto. rewrite app_nil_r. apply zip_concat_nil. rewrite Forall_forall in *. intros; apply IH; auto.
  - intros n v ps nm IH t H. destruct t; try reflexivity. simpl. simpl in H. apply All_Forall in H.
    apply zip_concat_nil. rewrite Forall_forall in *. intros q q' Hq. specialize (IH q Hq q'). specialize (H q Hq).
    destruct q; auto. destruct q'; simpl in *; auto.
  - intros f IH [| | | u | | |]; auto.
Qed.

Lemma hd_app : forall A (l m : list A),
  hd_error (l ++ m)%list = match hd_error l with Some x => Some x | None => hd_error m end.
Proof. destruct l; reflexivity. Qed.

Lemma first_some_hd : forall A B C (f : A -> B -> res (option C)) (occ : A -> B -> list C) l m,
  AllZip (fun x y => f x y = Ok (hd_error (occ x y))) l m ->
  first_some f l m = Ok (hd_error (zip_concat occ l m)).
Proof.
  intros A B C f occ l. induction l as [|x l IH]; intros [|y m] H; simpl; auto.
  destruct H as [H1 H2]. rewrite H1. simpl. rewrite hd_app.
  destruct (hd_error (occ x y)); auto.
Qed.

Lemma first_some_mapped : forall name fs ts,
  AllZip (fun f t => unwrap_any name f t = Ok (hd_error (occurrences name f t))) fs ts ->
  forall rest, (List.length fs = List.length ts) ->
  first_some (fun f a => let! u := as_type a in unwrap_any name f u) fs (map VType ts ++ rest)%list
  = Ok (hd_error (zip_concat (occurrences name) fs ts)).
Proof.
  intros name fs. induction fs as [|f fs IH]; intros [|t ts] H rest Hl; simpl in *; try lia; auto.
  destruct H as [H1 H2]. rewrite H1. simpl. rewrite hd_app.
  destruct (hd_error (occurrences name f t)); auto.
Qed.

Lemma no_nil_types : forall ts, existsb is_nil (map VType ts) = false.
Proof. induction ts; simpl; auto. Qed.

Lemma unwrap_any_spec : forall name p t, instance p t -> not_in_user_type name p ->
  unwrap_any name p t = Ok (hd_error (occurrences name p t)).
Proof.
  intros name p. pattern p.
  apply fdt_ind' with (Q := fun _ => True); auto; try (intros; destruct t; reflexivity).
  - intros x v n t _ _. simpl. destruct t; destruct (String.eqb x name); reflexivity.
  - intros n v e IH t Hi Hn. inversion Hi; subst. simpl. apply IH; auto.
  - intros n v k x IHk IHx t Hi [H1 H2]. inversion Hi; subst. simpl. rewrite IHk by auto. simpl.
    rewrite hd_app. destruct (hd_error (occurrences name k k')); auto.
  - intros n v fs IH t Hi Hn. inversion Hi; subst. simpl. rewrite map_length.
    rewrite no_nil_types. rewrite (Forall2_len _ _ _ _ _ H3), Nat.eqb_refl. simpl.
    rewrite <- (app_nil_r (map VType fs')). apply first_some_mapped.
    + simpl in Hn. apply All_Forall in Hn. rewrite Forall_forall in *. clear Hi.
      induction H3; simpl; auto. split.
      * apply IH; auto; [left; auto | apply Hn; left; auto].
      * apply IHForall2; intros; [apply IH | apply Hn]; simpl; auto.
    + eapply Forall2_len; eauto.
  - intros n ps r IH IHr t Hi [H1 H2]. inversion Hi; subst. simpl.
    pose proof (Forall2_len _ _ _ _ _ H5) as Hlen.
    rewrite app_length, map_length. simpl. rewrite Nat.add_1_r, Hlen, Nat.eqb_refl. simpl.
    rewrite existsb_app, no_nil_types. simpl.
    rewrite first_some_mapped; auto.
    + simpl. rewrite hd_app. destruct (hd_error (zip_concat (occurrences name) ps ps')); auto.
      rewrite <- (map_length VType ps'), skipn_app, skipn_all, Nat.sub_diag. simpl. apply IHr; auto.
    + apply All_Forall in H1. rewrite Forall_forall in *. clear Hi Hlen.
      induction H5; simpl; auto. split.
      * apply IH; auto; [left; auto | apply H1; left; auto].
      * apply IHForall2; intros; [apply IH | apply H1]; simpl; auto.
  - intros n v ps nm _ t Hi Hn. rewrite absent_occurrences by exact Hn. reflexivity.
  - intros l f _ t Hi Hn. rewrite absent_occurrences by exact Hn. reflexivity.
Qed.

Lemma any_lookup : forall name ps args, fits_any name ps args ->
  first_some (unwrap_any name) ps args = Ok (hd_error (zip_concat (occurrences name) ps args)).
Proof.
  intros name ps args H. apply first_some_hd. unfold fits_any in H. rewrite AllZip_nth in *.
  intros i p a Hp Ha. destruct (H i p a Hp Ha) as [H1 [H2|(c & n & v & nm & o & ->)]].
  - apply unwrap_any_spec; auto.
  - destruct a; reflexivity.
Qed.
