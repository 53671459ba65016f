(** Proofs about calls by name, the checking constructors and the builders (C21, C46, C47). *)

From Coq Require Import ZArith String List Bool Lia.
From Verif Require Import Base FMap TypesModel TypesSpec TypesProofs ExtSetModel ExtSetProofs LoadModel LoadSpec LoadProofs
  LitModel LitSpec LitProofs ExprModel ExprOpsModel ExprSpec ExprProofs ExprWireProofs.
Import ListNotations.
Local Open Scope Z_scope.

Definition bnd_args {R} (a : @barg R) : list (@bld R) := match a with BArgExpr b => [b] | BArgEnum _ => [] end.
Definition bkids {R} (b : @bld R) : list (@bld R) :=
  match b with
  | BWrap _ _ | BRef _ _ | BLamRef _ _ _ | BParam _ _ => []
  | BCast b _ _ => [b]
  | BScalar _ _ args => flat_map bnd_args args
  | BWindow _ _ args _ _ parts _ _ _ _ => flat_map bnd_args args ++ parts
  | BLambda _ b => match b with None => [] | Some b => [b] end
  end.

Lemma bld_ind' : forall R (P : @bld R -> Prop), (forall b, Forall P (bkids b) -> P b) -> forall b, P b.
Proof.
  intros R P H. fix IH 1. intros b. apply H.
  assert (HA : forall args, Forall P (flat_map bnd_args args)).
  { fix go 1. intros [|a args]; [constructor|]. cbn [flat_map]. apply Forall_app2; [|exact (go args)].
    destruct a; cbn [bnd_args]; constructor; [exact (IH b0)|constructor]. }
  assert (HL : forall l, Forall P l).
  { fix go 1. intros [|a l]; constructor; [exact (IH a)|exact (go l)]. }
  destruct b as [| | |b| | | |p ob]; cbn [bkids]; try (constructor; fail).
  - constructor; [exact (IH b)|constructor].
  - apply HA.
  - apply Forall_app2; [apply HA|apply HL].
  - destruct ob as [b|]; [|constructor]. constructor; [exact (IH b)|constructor].
Qed.

(** ** lambda parameters *)

Lemma param_type_det : forall ctx k i t t', param_type ctx k i t -> param_type ctx k i t' -> t = t'.
Proof.
  intros ctx k i t t' (ps & _ & E & _ & F) (ps' & _ & E' & _ & F'). rewrite E in E'. inversion E'; subst.
  rewrite F in F'. inversion F'; auto.
Qed.

Lemma nth_error_rev : forall A (l : list A) n, (n < List.length l)%nat ->
  nth_error (rev l) n = nth_error l (List.length l - 1 - n).
Proof.
  intros A l. induction l as [|x l IH] using rev_ind; intros n H; [cbn in H; lia|].
  rewrite rev_app_distr. cbn [rev app]. rewrite app_length in *. cbn [List.length] in *. destruct n.
  - cbn [nth_error]. rewrite nth_error_app2 by lia. replace (List.length l + 1 - 1 - 0 - List.length l)%nat with 0%nat by lia. reflexivity.
  - cbn [nth_error]. rewrite IH by lia. rewrite nth_error_app1 by lia. f_equal. lia.
Qed.

Lemma lambda_param_type_char : forall ctx i l k, 0 <= k -> Forall key_plain l ->
  (exists x, lambda_param_type ctx i l k = Ok x /\ exists t, param_type ctx k i t /\ follows (XTy t) l x) \/
  (lambda_param_type ctx i l k = Err /\ forall t x, ~ (param_type ctx k i t /\ follows (XTy t) l x)).
Proof.
  intros ctx i l k HK HL. unfold lambda_param_type.
  destruct (Z.leb_spec (Z.of_nat (List.length ctx)) k) as [C|C].
  - right. split; auto. intros t x ((ps & _ & E & _) & _).
    assert (nth_error (rev ctx) (Z.to_nat k) <> None) by (rewrite E; discriminate).
    apply nth_error_Some in H. rewrite rev_length in H. lia.
  - assert (EN : nth_error (rev ctx) (Z.to_nat k) = nth_error ctx (Z.to_nat (Z.of_nat (List.length ctx) - 1 - k))).
    { rewrite nth_error_rev by lia. f_equal. lia. }
    destruct (nth_error ctx (Z.to_nat (Z.of_nat (List.length ctx) - 1 - k))) as [ps|] eqn:E.
    2:{ apply nth_error_None in E. lia. }
    assert (NO : (forall t x, ~ (0 <= i /\ nth_error ps (Z.to_nat i) = Some t /\ follows (XTy t) l x)) ->
                 forall t x, ~ (param_type ctx k i t /\ follows (XTy t) l x)).
    { intros H t x ((ps' & _ & E' & HI & HN) & HF). rewrite EN in E'. inversion E'; subst. eapply H; eauto. }
    destruct (Z.leb_spec (Z.of_nat (List.length ps)) i) as [D|D].
    + right. split; auto. apply NO. intros t x (HI & HN & _).
      assert (nth_error ps (Z.to_nat i) <> None) by (rewrite HN; discriminate).
      apply nth_error_Some in H. lia.
    + destruct (seg_type_char (SField i :: l) (XTy (TStruct NullRequired 0 ps))) as [(y & EY & FY)|(EY & FY)];
        [discriminate|constructor; auto; exact I| |].
      * left. exists y. split; auto. inversion FY as [|? ? z ? ? HC HF]; subst. inversion HC; subst.
        eexists. split; [|exact HF]. exists ps. auto.
      * right. split; auto. apply NO. intros t x (HI & HN & HF). apply (FY x).
        eapply Follow_step; [|exact HF]. constructor; auto.
Qed.

Lemma map_some_inj : forall T (l m : list T), map Some l = map Some m -> l = m.
Proof.
  intros T. induction l as [|x l IH]; intros [|y m] H; try discriminate; auto. inversion H; subst. f_equal. auto.
Qed.

(** ** calls by name *)

Lemma is_nil_cases : forall R (e : expr R), e = ELit LNil \/ (e <> ELit LNil /\ is_nil_expr e = false).
Proof.
  intros. destruct (is_nil_expr e) eqn:E; [left; apply is_nil_spec; auto|]. right. split; auto. intros ->. discriminate.
Qed.

Section Calls.
Context {R : Type}.
Variable rel_schema : R -> res (list xtype).
Variable short : ty -> string.
Variable resolve : variant -> list xtype -> eset -> res (ty * eset).

Lemma call_arg_types_iff : forall args ts, call_arg_types rel_schema args = Ok ts <-> arg_types rel_schema args ts.
Proof.
  induction args as [|a args IH]; intros ts.
  - cbn. split; [intros H; inversion H; constructor|intros H; inversion H; auto].
  - destruct a as [w|t|e]; cbn [call_arg_types].
    + split.
      * destruct (call_arg_types rel_schema args) as [l| |] eqn:E; cbn; intros H; inversion H; subst. constructor. apply IH; auto.
      * intros H; inversion H as [|? ? ts' HA| | |]; subst. apply IH in HA. rewrite HA. reflexivity.
    + rewrite IH. split; [intros H; constructor; auto|intros H; inversion H; auto].
    + destruct (is_nil_cases R e) as [->|[HN EN]].
      * cbn [is_nil_expr]. rewrite IH. split; [intros H; constructor; auto|intros H; inversion H; subst; auto; contradiction].
      * rewrite EN. split.
        -- destruct (expr_type rel_schema e) as [t| |] eqn:ET; cbn [bind]; [|discriminate|discriminate].
           destruct (call_arg_types rel_schema args) as [l| |] eqn:E; cbn; intros H; inversion H; subst.
           constructor; auto; [apply has_type_spec; auto|apply IH; auto].
        -- intros H; inversion H as [| | | |? t ? ts' _ HT HA]; subst; [contradiction|].
           apply has_type_spec in HT. apply IH in HA. rewrite HT, HA. reflexivity.
Qed.

Lemma sig_of_iff : forall s x w, sig_of short s x = Ok w <-> spelled short s x w.
Proof.
  intros s x w. destruct x as [| t| | | |]; cbn [sig_of]; try (split; [intros H; inversion H; constructor|intros H; inversion H; auto]; fail).
  destruct t; try (split; [intros H; inversion H; apply SP_other; intros; discriminate|
      intros H; inversion H as [| | t' H1 H2| | | |]; subst; reflexivity]; fail).
  - destruct is_common.
    + split; [intros H; inversion H; constructor|intros H; inversion H; subst; auto]. exfalso. eapply H1; reflexivity.
    + split; [intros H; inversion H; apply SP_other; intros; discriminate|intros H; inversion H; auto].
  - destruct (decode_type ref s) eqn:D.
    + split; [intros H; inversion H; constructor; auto|].
      intros H; inversion H; subst; [congruence|]. exfalso. eapply H2; reflexivity.
    + split; [discriminate|]. intros H; inversion H; subst; [congruence|]. exfalso. eapply H2; reflexivity.
Qed.

Lemma mapM_iff : forall A B (f : A -> res B) (P : A -> B -> Prop), (forall x y, f x = Ok y <-> P x y) ->
  forall l ys, mapM f l = Ok ys <-> Forall2 P l ys.
Proof.
  intros A B f P H. induction l as [|x l IH]; intros ys.
  - cbn. split; [intros E; inversion E; constructor|intros E; inversion E; auto].
  - cbn [mapM]. split.
    + destruct (f x) as [y| |] eqn:E; cbn [bind]; [|discriminate|discriminate].
      destruct (mapM f l) as [ys'| |] eqn:E'; cbn; intros Q; inversion Q; subst. constructor; [apply H; auto|apply IH; auto].
    + intros Q. inversion Q as [|? y ? ys' HP HF]; subst. apply H in HP. apply IH in HF. rewrite HP. cbn [bind]. rewrite HF. reflexivity.
Qed.

Lemma resolve_variant_iff : forall get id args s v t s1,
  resolve_variant rel_schema short resolve get id args s = Ok (v, t, s1) <->
  exists ts, arg_types rel_schema args ts /\ chosen short get id ts s v /\ resolve v ts s = Ok (t, s1).
Proof.
  intros get id args s v t s1. unfold resolve_variant. split.
  - intros H. unb H. exists a. split; [apply call_arg_types_iff; auto|]. clear E.
    destruct (get id) as [v0|] eqn:G.
    + cbn [bind] in H. destruct (resolve _ _ _) as [[t0 s0]| |] eqn:E0; cbn [bind] in H; try discriminate. inversion H; subst. split; auto. constructor; auto.
    + destruct (has_colon (id_name id)) eqn:HC; cbn [bind] in H; [discriminate|].
      destruct (mapM (sig_of short s) a) as [ws| |] eqn:EM; cbn [bind] in H; try discriminate.
      destruct (get (ExtId _ _)) as [v0|] eqn:G2; cbn [bind] in H; [|discriminate].
      destruct (resolve _ _ _) as [[t0 s0]| |] eqn:E0; cbn [bind] in H; try discriminate. inversion H; subst. split; auto. eapply CH_completed; eauto.
      * apply cut_colon_none. unfold has_colon in HC. destruct (cut_colon (id_name id)); auto. discriminate.
      * eapply mapM_iff; [apply sig_of_iff|]. auto.
  - intros (ts & HA & HC & HR). apply call_arg_types_iff in HA. rewrite HA. cbn [bind].
    destruct HC as [v G|ws v G HN HF G2]; rewrite G; cbn [bind].
    + rewrite HR. reflexivity.
    + unfold has_colon. apply cut_colon_none in HN. rewrite HN.
      eapply mapM_iff in HF; [|apply sig_of_iff]. rewrite HF. cbn [bind]. rewrite G2. cbn [bind]. rewrite HR. reflexivity.
Qed.

Lemma new_scalar_iff : forall c id opts args s e s',
  new_scalar_func rel_schema short resolve c id opts args s = Ok (e, s') <->
  exists v t a, call_resolves rel_schema short resolve (get_scalar c) id args s v t a s' /\ e = EScalar a v args opts t.
Proof.
  intros. unfold new_scalar_func. split.
  - intros H. destruct (resolve_variant _ _ _ _ _ _ _) as [[[v t] s1]| |] eqn:E; cbn [bind] in H; try discriminate. destruct (get_func_anchor _ _) as [[s2 a]| |] eqn:EA; cbn [bind] in H; try discriminate. inversion H; subst.
    apply resolve_variant_iff in E. destruct E as (ts & H1 & H2 & H3). exists v, t, a. split; auto.
    exists ts, s1. auto.
  - intros (v & t & a & (ts & s1 & H1 & H2 & H3 & H4) & ->).
    assert (E : resolve_variant rel_schema short resolve (get_scalar c) id args s = Ok (v, t, s1)) by (apply resolve_variant_iff; eauto).
    rewrite E. cbn [bind]. unfold variant_id, compound_name, signature_key. rewrite H4. reflexivity.
Qed.

Lemma new_agg_iff : forall c id opts inv ph sorts args s e s',
  new_aggregate_func rel_schema short resolve c id opts inv ph sorts args s = Ok (e, s') <->
  exists v t a, call_resolves rel_schema short resolve (get_agg c) id args s v t a s' /\
    e = AggF a (Some v) args opts t ph inv sorts.
Proof.
  intros. unfold new_aggregate_func. split.
  - intros H. destruct (resolve_variant _ _ _ _ _ _ _) as [[[v t] s1]| |] eqn:E; cbn [bind] in H; try discriminate. destruct (get_func_anchor _ _) as [[s2 a]| |] eqn:EA; cbn [bind] in H; try discriminate. inversion H; subst.
    apply resolve_variant_iff in E. destruct E as (ts & H1 & H2 & H3). exists v, t, a. split; auto.
    exists ts, s1. auto.
  - intros (v & t & a & (ts & s1 & H1 & H2 & H3 & H4) & ->).
    assert (E : resolve_variant rel_schema short resolve (get_agg c) id args s = Ok (v, t, s1)) by (apply resolve_variant_iff; eauto).
    rewrite E. cbn [bind]. unfold variant_id, compound_name, signature_key. rewrite H4. reflexivity.
Qed.

Lemma new_window_iff : forall c id opts inv ph args s e s',
  new_window_func rel_schema short resolve c id opts inv ph args s = Ok (e, s') <->
  exists v t a, call_resolves rel_schema short resolve (get_window c) id args s v t a s' /\
    (i_decomp (v_impl v) = "NONE"%string -> ph = 3) /\
    e = EWindow a v args opts t ph inv [] [] 0 None None.
Proof.
  intros. unfold new_window_func. split.
  - intros H. destruct (resolve_variant _ _ _ _ _ _ _) as [[[v t] s1]| |] eqn:E; cbn [bind] in H; try discriminate.
    destruct (String.eqb_spec (i_decomp (v_impl v)) "NONE") as [D|D]; cbn [andb] in H.
    + destruct (Z.eqb_spec ph 3) as [P|P]; cbn [negb] in H; [|discriminate].
      destruct (get_func_anchor _ _) as [[s2 a]| |] eqn:EA; cbn [bind] in H; try discriminate. inversion H; subst.
      apply resolve_variant_iff in E. destruct E as (ts & H1 & H2 & H3). exists v, t, a. split; auto. exists ts, s1. auto.
    + destruct (get_func_anchor _ _) as [[s2 a]| |] eqn:EA; cbn [bind] in H; try discriminate. inversion H; subst.
      apply resolve_variant_iff in E. destruct E as (ts & H1 & H2 & H3). exists v, t, a. split; [exists ts, s1; auto|].
      split; auto. intros; contradiction.
  - intros (v & t & a & (ts & s1 & H1 & H2 & H3 & H4) & HD & ->).
    assert (E : resolve_variant rel_schema short resolve (get_window c) id args s = Ok (v, t, s1)) by (apply resolve_variant_iff; eauto).
    rewrite E. cbn [bind].
    assert (G : String.eqb (i_decomp (v_impl v)) "NONE" && negb (ph =? 3) = false).
    { destruct (String.eqb_spec (i_decomp (v_impl v)) "NONE") as [D|D]; auto. rewrite (HD D). reflexivity. }
    rewrite G. unfold variant_id, compound_name, signature_key. rewrite H4. reflexivity.
Qed.

(** ** field references *)

Variable base : option (list xtype).

Lemma new_ref_char : forall r f, match f with RefSeg l => Forall key_plain l | RefMask _ => True end ->
  forall e, new_field_ref rel_schema r f base = Ok e <->
    exists l t, f = RefSeg l /\ l <> [] /\ e = ERef r (RefSeg l) t /\
      ((r = RRoot /\ exists cols x, base = Some cols /\ record_type cols x /\ follows x l t) \/
       (exists e0 x, r = RExpr e0 /\ has_type rel_schema e0 x /\ follows x l t)).
Proof.
  intros r f HK e. unfold new_field_ref. destruct f as [l|m].
  2:{ split; [discriminate|]. intros (l & t & H & _). discriminate. }
  destruct l as [|s l].
  { split; [discriminate|]. intros (l & t & H & H1 & _). inversion H; subst. contradiction. }
  destruct r as [|n|n|e0].
  - destruct base as [cols|].
    + split.
      * intros H. unb H. inversion H; subst. apply seg_type_iff in E; [|discriminate|auto].
        exists (s :: l), a. split; [auto|]. split; [discriminate|]. split; auto. left. split; auto.
        exists cols. eexists. split; auto. split; [|exact E]. apply x_struct_spec. reflexivity.
      * intros (l' & t & HE & _ & -> & [(_ & cols' & x & HB & HR & HF)|(? & ? & ? & _)]); [|discriminate].
        inversion HE; subst. inversion HB; subst. apply x_struct_spec in HR. subst x. apply seg_type_iff in HF; [|discriminate|auto].
        unfold NullRequired. rewrite HF. reflexivity.
    + split; [discriminate|]. intros (l' & t & HE & _ & -> & [(_ & cols' & x & HB & _)|(? & ? & ? & _)]); discriminate.
  - split; [discriminate|]. intros (l' & t & HE & _ & -> & [(? & _)|(? & ? & ? & _)]); discriminate.
  - split; [discriminate|]. intros (l' & t & HE & _ & -> & [(? & _)|(? & ? & ? & _)]); discriminate.
  - split.
    + intros H. unb H. unb H. inversion H; subst. apply seg_type_iff in E0; [|discriminate|auto].
      apply has_type_spec in E. exists (s :: l), a0. split; [auto|]. split; [discriminate|]. split; eauto 7.
    + intros (l' & t & HE & _ & -> & [(? & _)|(e1 & x & HX & HT & HF)]); [discriminate|].
      inversion HE; subst. inversion HX; subst. apply has_type_spec in HT. rewrite HT. cbn [bind].
      apply seg_type_iff in HF; [|discriminate|auto]. rewrite HF. reflexivity.
Qed.
End Calls.

(** ** builders *)

Section Build.
Context {R : Type}.
Variable rel_schema : R -> res (list xtype).
Variable short : ty -> string.
Variable resolve : variant -> list xtype -> eset -> res (ty * eset).
Variable c : coll.
Variable base : option (list xtype).
Notation bld := (@bld R).
Notation bar := (@barg R).
Notation bd := (build rel_schema short resolve c base).
Notation bda := (build_arg rel_schema short resolve c base).
Notation builds := (builds rel_schema short resolve c base).
Notation builds_args := (builds_args rel_schema short resolve c base).
Notation builds_all := (builds_all rel_schema short resolve c base).

Definition pinned {T} (run : bstate -> bres T) (P : list (list ty) -> eset -> T -> eset -> Prop) : Prop :=
  forall ctx s,
    (exists e s', run (BState ctx s) = (Ok e, BState ctx s') /\
       (forall e' s'', P ctx s e' s'' <-> e' = e /\ s'' = s')) \/
    (exists r st, run (BState ctx s) = (r, st) /\ (r = Err \/ r = Panic) /\ (r = Err -> b_ctx st = ctx) /\
       forall e' s'', ~ P ctx s e' s'').

Lemma pinned_all : forall l, Forall (fun b => pinned (bd b) (fun ctx => builds ctx b)) l ->
  pinned (mapB bd l) (fun ctx => builds_all ctx l).
Proof.
  induction l as [|b l IH]; intros HF ctx s; cbn [mapB].
  - left. exists [], s. split; auto. intros e' s''. split; [intros H; inversion H; auto|intros [-> ->]; constructor].
  - inversion HF as [|? ? H1 H2]; subst. destruct (H1 ctx s) as [(e & s1 & E & D)|(r & st & E & HR & HE & D)]; rewrite E.
    + destruct (IH H2 ctx s1) as [(es & s2 & E2 & D2)|(r & st & E2 & HR & HE & D2)]; rewrite E2.
      * left. exists (e :: es), s2. split; auto. intros e' s''. split.
        -- intros H. inversion H as [|? ? ? ? e0 s0 l0 ? Q1 Q2]; subst. apply D in Q1. destruct Q1; subst. apply D2 in Q2. destruct Q2; subst. auto.
        -- intros [-> ->]. econstructor; [apply D; auto|apply D2; auto].
      * right. assert (NO : forall e' s'', ~ builds_all ctx (b :: l) s e' s'').
        { intros e' s'' H. inversion H as [|? ? ? ? e0 s0 l0 ? Q1 Q2]; subst. apply D in Q1. destruct Q1; subst. eapply D2; eauto. }
        destruct HR as [-> | ->]; eexists _, st; split; eauto; split; auto; split; auto; discriminate.
    + right. assert (NO : forall e' s'', ~ builds_all ctx (b :: l) s e' s'').
      { intros e' s'' H. inversion H as [|? ? ? ? e0 s0 l0 ? Q1 Q2]; subst. eapply D; eauto. }
      destruct HR as [-> | ->]; eexists _, st; split; eauto; split; auto; split; auto; discriminate.
Qed.

Lemma bda_expr : forall b s, bda (BArgExpr b) s = bthen (bd b s) (fun e s1 => (Ok (AExpr e), s1)).
Proof. reflexivity. Qed.
Lemma bda_enum : forall w s, bda (BArgEnum w) s = (Ok (AEnum w), s).
Proof. reflexivity. Qed.

Lemma pinned_args : forall l, Forall (fun b => pinned (bd b) (fun ctx => builds ctx b)) (flat_map bnd_args l) ->
  pinned (mapB bda l) (fun ctx => builds_args ctx l).
Proof.
  induction l as [|a l IH]; intros HF ctx s; cbn [mapB].
  - left. exists [], s. split; auto. intros e' s''. split; [intros H; inversion H; auto|intros [-> ->]; constructor].
  - destruct a as [b|w]; cbn [flat_map bnd_args app] in *; [rewrite bda_expr|rewrite bda_enum].
    + inversion HF as [|? ? H1 H2]; subst. destruct (H1 ctx s) as [(e & s1 & E & D)|(r & st & E & HR & HE & D)]; rewrite E; cbn [bthen].
      * destruct (IH H2 ctx s1) as [(es & s2 & E2 & D2)|(r & st & E2 & HR & HE & D2)]; rewrite E2.
        -- left. exists (AExpr e :: es), s2. split; auto. intros e' s''. split.
           ++ intros H. inversion H as [| |? ? ? ? e0 s0 l0 ? Q1 Q2]; subst. apply D in Q1. destruct Q1; subst. apply D2 in Q2. destruct Q2; subst. auto.
           ++ intros [-> ->]. econstructor; [apply D; auto|apply D2; auto].
        -- right. assert (NO : forall e' s'', ~ builds_args ctx (BArgExpr b :: l) s e' s'').
           { intros e' s'' H. inversion H as [| |? ? ? ? e0 s0 l0 ? Q1 Q2]; subst. apply D in Q1. destruct Q1; subst. eapply D2; eauto. }
           destruct HR as [-> | ->]; eexists _, st; split; eauto; split; auto; split; auto; discriminate.
      * right. assert (NO : forall e' s'', ~ builds_args ctx (BArgExpr b :: l) s e' s'').
        { intros e' s'' H. inversion H as [| |? ? ? ? e0 s0 l0 ? Q1 Q2]; subst. eapply D; eauto. }
        destruct HR as [-> | ->]; cbn [bthen]; eexists _, st; split; eauto; split; auto; split; auto; discriminate.
    + destruct (IH HF ctx s) as [(es & s2 & E2 & D2)|(r & st & E2 & HR & HE & D2)]; rewrite E2.
      * left. exists (AEnum w :: es), s2. split; auto. intros e' s''. split.
        -- intros H. inversion H as [|? ? ? ? l0 ? Q1|]; subst. apply D2 in Q1. destruct Q1; subst. auto.
        -- intros [-> ->]. constructor. apply D2; auto.
      * right. assert (NO : forall e' s'', ~ builds_args ctx (BArgEnum w :: l) s e' s'').
        { intros e' s'' H. inversion H as [|? ? ? ? l0 ? Q1|]; subst. eapply D2; eauto. }
        destruct HR as [-> | ->]; eexists _, st; split; eauto; split; auto; split; auto; discriminate.
Qed.

(** a step that only reads the scope *)
Lemma pinned_pure : forall T (run : bstate -> bres T) (f : list (list ty) -> res T) (P : list (list ty) -> eset -> T -> eset -> Prop),
  (forall st, run st = (f (b_ctx st), st)) ->
  (forall ctx s e s', P ctx s e s' <-> f ctx = Ok e /\ s' = s) -> pinned run P.
Proof.
  intros T run f P HR HP ctx s. rewrite HR. cbn [b_ctx]. destruct (f ctx) as [e| |] eqn:E.
  - left. exists e, s. split; auto. intros e' s''. rewrite HP, E. split; intros [H1 H2]; split; auto; congruence.
  - right. exists Err, (BState ctx s). split; auto. split; auto. split; auto. intros e' s''. rewrite HP, E. intros [H _]. discriminate.
  - right. exists Panic, (BState ctx s). split; auto. split; auto. split; auto. intros e' s''. rewrite HP, E. intros [H _]. discriminate.
Qed.

Lemma all_some_iff : forall T (l : list (option T)) ps, all_some l = Some ps <-> l = map Some ps.
Proof.
  intros T. induction l as [|x l IH]; intros ps.
  - cbn. split; [intros H; inversion H; auto|intros H; destruct ps; [auto|discriminate]].
  - change (all_some (x :: l)) with (match x, all_some l with Some a, Some r => Some (a :: r) | _, _ => None end). destruct x as [x|]; [|split; [discriminate|intros H; destruct ps; discriminate]].
    destruct (all_some l) as [r|] eqn:E.
    + assert (E' : l = map Some r) by (apply IH; auto). split.
      * intros H. inversion H; subst. auto.
      * intros H. destruct ps; [discriminate|]. inversion H; subst. apply IH in H2. congruence.
    + split; [discriminate|]. intros H. destruct ps; [discriminate|]. inversion H; subst.
      assert (None = Some ps) by (apply IH; auto). discriminate.
Qed.

Lemma call_det : forall get id args s v t a s' v' t' a' s'',
  call_resolves rel_schema short resolve get id args s v t a s' ->
  call_resolves rel_schema short resolve get id args s v' t' a' s'' -> v = v' /\ t = t' /\ a = a' /\ s' = s''.
Proof.
  intros get id args s v t a s' v' t' a' s'' (ts & s1 & H1 & H2 & H3 & H4) (ts' & s1' & H1' & H2' & H3' & H4').
  assert (E : resolve_variant rel_schema short resolve get id args s = Ok (v, t, s1)) by (apply resolve_variant_iff; eauto).
  assert (E' : resolve_variant rel_schema short resolve get id args s = Ok (v', t', s1')) by (apply resolve_variant_iff; eauto).
  rewrite E in E'. inversion E'; subst. rewrite H4 in H4'. inversion H4'. auto.
Qed.

Lemma bd_cast : forall b t fb s, bd (BCast b t fb) s = bthen (bd b s) (fun e s1 => (Ok (ECast t e fb), s1)).
Proof. reflexivity. Qed.
Lemma bd_scalar : forall id opts args s, bd (BScalar id opts args) s =
  bthen (mapB bda args s) (fun args' s1 => blift (new_scalar_func rel_schema short resolve c id opts args' (b_set s1)) s1).
Proof. reflexivity. Qed.
Lemma bd_window : forall id opts args ph inv parts sorts bt lo hi s, bd (BWindow id opts args ph inv parts sorts bt lo hi) s =
  bthen (mapB bda args s) (fun args' s1 =>
      bthen (mapB bd parts s1) (fun parts' s2 =>
      bthen (blift (new_window_func rel_schema short resolve c id opts inv ph args' (b_set s2)) s2) (fun w s3 =>
        match w with
        | EWindow n v args opts t phase inv _ _ _ _ _ =>
            (if window_valid bt sorts
             then Ok (EWindow n v args opts t phase inv parts' sorts bt lo hi) else Err, s3)
        | _ => (Panic, s3)
        end))).
Proof. reflexivity. Qed.

Ltac gone := right; eexists _, _; split; [reflexivity|]; split; [auto|]; split; [try discriminate; auto|].

Theorem build_pinned : forall b, paths_plain b -> pinned (bd b) (fun ctx => builds ctx b).
Proof.
  apply (bld_ind' R (fun b => paths_plain b -> pinned (bd b) (fun ctx => builds ctx b))).
  intros b IH HP. destruct b as [e bad|r f|i l k|b t fb|t n|id opts args|id opts args ph inv parts sorts bt lo hi|params body];
    cbn [bkids paths_plain] in *.
  - apply pinned_pure with (f := fun _ => if bad then Err else Ok e); [reflexivity|].
    intros ctx s e' s'. destruct bad; split.
    + intros H; inversion H.
    + intros [H _]; discriminate.
    + intros H; inversion H; subst; auto.
    + intros [H ->]. inversion H; subst. constructor.
  - apply pinned_pure with (f := fun _ => new_field_ref rel_schema r f base); [reflexivity|].
    intros ctx s e' s'. rewrite new_ref_char by auto. split.
    + intros H; inversion H; subst.
      * split; auto. exists l, t. do 3 (split; auto). left. eauto 6.
      * split; auto. exists l, t. do 3 (split; auto). right. eauto 6.
    + intros [(l & t & -> & HN & -> & [(-> & cols & x & HB & HR & HF)|(e0 & x & -> & HT & HF)]) ->]; econstructor; eauto.
  - apply pinned_pure with (f := fun ctx => let! t := lambda_param_type ctx i l k in Ok (ERef (RLambda k) (RefSeg (SField i :: l)) t)); [reflexivity|].
    intros ctx s e' s'. destruct HP as [HK HP].
    destruct (lambda_param_type_char ctx i l k HK HP) as [(x & E & t & H1 & H2)|(E & N)]; rewrite E; cbn [bind].
    + split.
      * intros H; inversion H as [| | |? ? ? ? t' x' ? Q1 Q2| | | | |]; subst. assert (t' = t) by (eapply param_type_det; eauto). subst.
        rewrite (follows_det _ _ _ _ H2 Q2). auto.
      * intros [H ->]. inversion H; subst. econstructor; eauto.
    + split; [|intros [H _]; discriminate]. intros H; inversion H; subst. exfalso. eapply N; eauto.
  - intros ctx s. rewrite bd_cast. inversion IH as [|? ? HB _]; subst.
    destruct (HB HP ctx s) as [(e & s1 & E & D)|(r & st & E & HR & HE & D)]; rewrite E; cbn [bthen].
    + left. eexists _, _. split; [reflexivity|]. intros e' s''. split.
      * intros H; inversion H as [| | | |? ? ? ? ? e0 ? Q| | | |]; subst. apply D in Q. destruct Q; subst; auto.
      * intros [-> ->]. constructor. apply D; auto.
    + assert (NO : forall e' s'', ~ builds ctx (BCast b t fb) s e' s'').
      { intros e' s'' H; inversion H as [| | | |? ? ? ? ? e0 ? Q| | | |]; subst. eapply D; eauto. }
      destruct HR as [-> | ->]; cbn [bthen]; gone; exact NO.
  - apply pinned_pure with (f := fun _ => match t with None => Err | Some t => Ok (EParam t n) end); [reflexivity|].
    intros ctx s e' s'. destruct t; split.
    + intros H; inversion H; subst; auto.
    + intros [H ->]. inversion H; subst. constructor.
    + intros H; inversion H.
    + intros [H _]; discriminate.
  - assert (IH' : Forall (fun b => pinned (bd b) (fun ctx => builds ctx b)) (flat_map bnd_args args)).
    { rewrite All_Forall in HP. clear - IH HP. induction args as [|a args IHA]; cbn in *; [constructor|].
      inversion HP as [|? ? P1 P2]; subst. destruct a; cbn in *; [inversion IH; subst; constructor; auto|auto]. }
    intros ctx s. rewrite bd_scalar.
    destruct (pinned_args args IH' ctx s) as [(ar' & s1 & E & D)|(r & st & E & HR & HE & D)]; rewrite E; cbn [bthen].
    + assert (X := fun e s' => new_scalar_iff rel_schema short resolve c id opts ar' s1 e s').
      cbn [b_set]. destruct (new_scalar_func _ _ _ _ _ _ _ _) as [[e s2]| |]; cbn [blift b_ctx].
      * left. exists e, s2. split; auto. intros e' s''. rewrite (and_comm _ (s'' = s2)).
        assert (X' : e' = e /\ s'' = s2 <-> Ok (e, s2) = Ok (e', s'')) by (split; [intros [-> ->]; auto|intros H; inversion H; auto]).
        rewrite (and_comm (s'' = s2)), X', X. split.
        -- intros H; inversion H as [| | | | | |? ? ? ? ? ? ? ? ? ? ? Q1 Q2| |]; subst. apply D in Q1. destruct Q1; subst. eauto 6.
        -- intros (v & t & a & HC & ->). econstructor; [apply D; eauto|exact HC].
      * gone. intros e' s'' H; inversion H as [| | | | | |? ? ? ? ? ? ? ? ? ? ? Q1 Q2| |]; subst. apply D in Q1. destruct Q1; subst.
        assert (Y : @Err (expr R * eset) = Ok (EScalar a v ar' opts t, s'')) by (apply X; eauto). discriminate.
      * gone. intros e' s'' H; inversion H as [| | | | | |? ? ? ? ? ? ? ? ? ? ? Q1 Q2| |]; subst. apply D in Q1. destruct Q1; subst.
        assert (Y : @Panic (expr R * eset) = Ok (EScalar a v ar' opts t, s'')) by (apply X; eauto). discriminate.
    + assert (NO : forall e' s'', ~ builds ctx (BScalar id opts args) s e' s'').
      { intros e' s'' H; inversion H as [| | | | | |? ? ? ? ? ? ? ? ? ? ? Q1 Q2| |]; subst. eapply D; eauto. }
      destruct HR as [-> | ->]; cbn [bthen]; gone; exact NO.
  - destruct HP as [HP1 HP2]. apply Forall_app in IH. destruct IH as [IH1 IH2].
    assert (IH1' : Forall (fun b => pinned (bd b) (fun ctx => builds ctx b)) (flat_map bnd_args args)).
    { rewrite All_Forall in HP1. clear - IH1 HP1. induction args as [|a args IHA]; cbn in *; [constructor|].
      inversion HP1 as [|? ? P1 P2]; subst. destruct a; cbn in *; [inversion IH1; subst; constructor; auto|auto]. }
    assert (IH2' : Forall (fun b => pinned (bd b) (fun ctx => builds ctx b)) parts).
    { rewrite All_Forall in HP2. rewrite Forall_forall in *. auto. }
    intros ctx s. rewrite bd_window.
    destruct (pinned_args args IH1' ctx s) as [(ar' & s1 & E & D)|(r & st & E & HR & HE & D)]; rewrite E; cbn [bthen].
    2:{ assert (NO : forall e' s'', ~ builds ctx (BWindow id opts args ph inv parts sorts bt lo hi) s e' s'').
        { intros e' s'' H; inversion H; subst. eapply D; eauto. }
        destruct HR as [-> | ->]; cbn [bthen]; gone; exact NO. }
    destruct (pinned_all parts IH2' ctx s1) as [(ps' & s2 & E2 & D2)|(r & st & E2 & HR & HE & D2)]; rewrite E2; cbn [bthen].
    2:{ assert (NO : forall e' s'', ~ builds ctx (BWindow id opts args ph inv parts sorts bt lo hi) s e' s'').
        { intros e' s'' H; inversion H; subst. match goal with Q : builds_args _ _ _ _ _ |- _ => apply D in Q; destruct Q; subst end. eapply D2; eauto. }
        destruct HR as [-> | ->]; cbn [bthen]; gone; exact NO. }
    assert (X := fun e s' => new_window_iff rel_schema short resolve c id opts inv ph ar' s2 e s').
    assert (INV : forall e' s'', builds ctx (BWindow id opts args ph inv parts sorts bt lo hi) s e' s'' <->
      exists v t a, call_resolves rel_schema short resolve (get_window c) id ar' s2 v t a s'' /\
        (i_decomp (v_impl v) = "NONE"%string -> ph = 3) /\ (bt = 2 -> List.length sorts = 1%nat) /\
        e' = EWindow a v ar' opts t ph inv ps' sorts bt lo hi).
    { intros e' s''. split.
      - intros H; inversion H; subst. match goal with Q : builds_args _ _ _ _ _ |- _ => apply D in Q; destruct Q; subst end.
        match goal with Q : builds_all _ _ _ _ _ |- _ => apply D2 in Q; destruct Q; subst end. eauto 10.
      - intros (v & t & a & HC & HD & HB & ->). econstructor; eauto; [apply D; auto|apply D2; auto]. }
    cbn [b_set]. destruct (new_window_func _ _ _ _ _ _ _ _ _ _) as [[e s3]| |]; cbn [blift b_ctx bthen].
    + destruct (proj1 (X e s3) eq_refl) as (v & t & a & HC & HD & ->).
      assert (V : window_valid bt sorts = true <-> (bt = 2 -> List.length sorts = 1%nat)).
      { unfold window_valid. destruct (Z.eqb_spec bt 2) as [B|B]; cbn [andb negb].
        - rewrite negb_involutive, Nat.eqb_eq. tauto.
        - split; auto. intros; contradiction. }
      destruct (window_valid bt sorts).
      * left. eexists _, _. split; [reflexivity|]. intros e' s''. rewrite INV. split.
        -- intros (v' & t' & a' & HC' & _ & _ & ->). destruct (call_det _ _ _ _ _ _ _ _ _ _ _ _ HC HC') as (-> & -> & -> & ->). auto.
        -- intros [-> ->]. exists v, t, a. split; [exact HC|]. split; [exact HD|]. split; [apply V; auto|auto].
      * gone. intros e' s''. rewrite INV. intros (v' & t' & a' & HC' & _ & HB & ->). apply V in HB. discriminate.
    + gone. intros e' s''. rewrite INV. intros (v' & t' & a' & HC' & HD & HB & ->).
      assert (Y : @Err (expr R * eset) = Ok (EWindow a' v' ar' opts t' ph inv [] [] 0 None None, s'')) by (apply X; eauto 6). discriminate.
    + gone. intros e' s''. rewrite INV. intros (v' & t' & a' & HC' & HD & HB & ->).
      assert (Y : @Panic (expr R * eset) = Ok (EWindow a' v' ar' opts t' ph inv [] [] 0 None None, s'')) by (apply X; eauto 6). discriminate.
  - intros ctx s. cbn [build].
    destruct params as [[[n v] ts]|]; [|gone; intros e' s'' H; inversion H].
    destruct (Z.eqb_spec n NullRequired) as [->|HN]; cbn [negb].
    2:{ gone. intros e' s'' H; inversion H; subst. contradiction. }
    destruct (all_some ts) as [ps|] eqn:EA.
    2:{ gone. intros e' s'' H; inversion H; subst. rewrite (proj2 (all_some_iff _ _ ps) eq_refl) in EA. discriminate. }
    apply all_some_iff in EA. subst ts.
    destruct body as [b|]; [|gone; intros e' s'' H; inversion H].
    inversion IH as [|? ? HB _]; subst. cbn [b_ctx b_set].
    destruct (HB HP (ctx ++ [ps])%list s) as [(e & s1 & E & D)|(r & st & E & HR & HE & D)]; rewrite E.
    + cbn [b_ctx b_set]. rewrite removelast_last. left. eexists _, _. split; [reflexivity|]. intros e' s''. split.
      * intros H; inversion H as [| | | | | | | |? ? ps' ? ? ? ? Q]; subst. 
        assert (ps' = ps) by (eapply map_some_inj; eauto). subst. apply D in Q. destruct Q; subst; auto.
      * intros [-> ->]. constructor. apply D; auto.
    + assert (NO : forall e' s'', ~ builds ctx (BLambda (Some (NullRequired, v, map Some ps)) (Some b)) s e' s'').
      { intros e' s'' H; inversion H as [| | | | | | | |? ? ps' ? ? ? ? Q]; subst.
        assert (ps' = ps) by (eapply map_some_inj; eauto). subst. eapply D; eauto. }
      destruct HR as [-> | ->]; right; eexists _, _; split; try reflexivity; split; auto; split; try discriminate; auto.
      intros _. cbn [b_ctx]. rewrite (HE eq_refl). apply removelast_last.
Qed.
End Build.

(** ** scoping *)

Scheme builds_mi := Minimality for builds Sort Prop
with builds_args_mi := Minimality for builds_args Sort Prop
with builds_all_mi := Minimality for builds_all Sort Prop.
Combined Scheme builds_mut from builds_mi, builds_args_mi, builds_all_mi.

Lemma param_type_weaken : forall outer inner k i t, param_type inner k i t -> param_type (outer ++ inner) k i t.
Proof.
  intros outer inner k i t (ps & H1 & H2 & H3 & H4). exists ps. split; auto. split; auto.
  rewrite rev_app_distr, nth_error_app1; auto. apply nth_error_Some. rewrite H2. discriminate.
Qed.

Lemma Forall_All_impl : forall A (P Q : A -> Prop) l, Forall (fun x => P x -> Q x) l -> All P l -> All Q l.
Proof. intros A P Q l H HA. rewrite All_Forall in *. rewrite Forall_forall in *. auto. Qed.

Lemma scoped_weaken : forall R (e : expr R) outer inner, scoped inner e -> scoped (outer ++ inner) e.
Proof.
  intros R. apply (expr_ind' R (fun e => forall outer inner, scoped inner e -> scoped (outer ++ inner) e)).
  intros e IH outer inner.
  assert (IH' : Forall (fun x => scoped inner x -> scoped (outer ++ inner) x) (children e))
    by (rewrite Forall_forall in *; auto).
  destruct e; cbn [children scoped] in *; auto.
  - destruct r; auto.
    + destruct f as [[|[] l]|]; auto. intros (t & H1 & H2). exists t. split; auto. apply param_type_weaken; auto.
    + inversion IH'; auto.
  - apply ch_args in IH'. intros H. eapply Forall_All_impl; [|exact H]. eapply Forall_impl; [|exact IH'].
    intros []; auto.
  - apply Forall_app in IH'. destruct IH' as [IA IB]. apply Forall_app in IB. destruct IB as [IB IC].
    apply ch_args in IA. apply ch_map in IC. intros (H1 & H2 & H3). split; [|split].
    + eapply Forall_All_impl; [|exact H1]. eapply Forall_impl; [|exact IA]. intros []; auto.
    + eapply Forall_All_impl; eauto.
    + eapply Forall_All_impl; [|exact H3]. eapply Forall_impl; [|exact IC]. intros []; auto.
  - apply Forall_app in IH'. destruct IH' as [IA IB]. apply ch_pairs in IA. inversion IB; subst. intros [Q1 Q2]. split; auto.
    eapply Forall_All_impl; [|exact Q1]. eapply Forall_impl; [|exact IA]. cbn. intros [] []; cbn in *; tauto.
  - inversion IH' as [|? ? I1 I2]; subst. apply Forall_app in I2. destruct I2 as [IA IB]. apply ch_map in IA. inversion IB; subst.
    intros (Q1 & Q2 & Q3). split; auto. split; auto.
    eapply Forall_All_impl; [|exact Q2]. eapply Forall_impl; [|exact IA]. cbn. intros []; cbn in *; tauto.
  - inversion IH' as [|? ? I1 I2]; subst. intros [H1 H2]. split; auto. eapply Forall_All_impl; eauto.
  - apply Forall_app in IH'. destruct IH' as [IA IB]. apply ch_concat in IB. intros [H1 H2]. split; [eapply Forall_All_impl; eauto|].
    eapply Forall_All_impl; [|exact H2]. eapply Forall_impl; [|exact IB]. intros l HL HA. eapply Forall_All_impl; eauto.
  - inversion IH'; auto.
  - apply ch_pairs in IH'. intros H. eapply Forall_All_impl; [|exact H]. eapply Forall_impl; [|exact IH']. cbn. intros [] []; cbn in *; tauto.
  - intros H. eapply Forall_All_impl; eauto.
  - intros H. eapply Forall_All_impl; eauto.
  - rewrite <- app_assoc. inversion IH as [|? ? I1 _]; subst. auto.
  - intros H. eapply Forall_All_impl; eauto.
  - inversion IH'; auto.
Qed.

Lemma scoped_anywhere : forall R (e : expr R) ctx, scoped [] e -> scoped ctx e.
Proof. intros R e ctx H. rewrite <- (app_nil_r ctx). apply scoped_weaken; auto. Qed.

Theorem builds_scoped : forall R rel_schema short resolve c base ctx (b : @bld R) s e s',
  builds rel_schema short resolve c base ctx b s e s' -> closed_parts b -> scoped ctx e.
Proof.
  intros R rel_schema short resolve c base.
  assert (H : (forall ctx (b : @bld R) s e s', builds rel_schema short resolve c base ctx b s e s' -> closed_parts b -> scoped ctx e) /\
    (forall ctx l s l' s', builds_args rel_schema short resolve c base ctx l s l' s' ->
       All (fun a : @barg R => match a with BArgExpr b => closed_parts b | BArgEnum _ => True end) l ->
       All (fun a => match a with AExpr e => scoped ctx e | _ => True end) l') /\
    (forall ctx (l : list (@bld R)) s l' s', builds_all rel_schema short resolve c base ctx l s l' s' -> All closed_parts l -> All (scoped ctx) l')).
  { apply (builds_mut R rel_schema short resolve c base
      (fun ctx b _ e _ => closed_parts b -> scoped ctx e)
      (fun ctx l _ l' _ => All (fun a : @barg R => match a with BArgExpr b => closed_parts b | BArgEnum _ => True end) l ->
         All (fun a => match a with AExpr e => scoped ctx e | _ => True end) l')
      (fun ctx l _ l' _ => All closed_parts l -> All (scoped ctx) l')); cbn [closed_parts scoped All]; intros; auto.
    - apply scoped_anywhere; auto.
    - apply scoped_anywhere; auto.
    - eauto.
    - destruct H6 as (P1 & P2 & P3). split; auto. split; auto.
      rewrite All_Forall. eapply Forall_impl; [|exact P3]. intros [] ?; cbn in *. apply scoped_anywhere; auto.
    - tauto.
    - tauto.
    - tauto. }
  apply H.
Qed.

(** ** if-then and switch *)

Lemma x_equals_typed : forall t b, plain t ->
  exists c, x_equals (XTy t) b = Ok c /\ (c = true <-> exists u, b = XTy u /\ same_type t u).
Proof.
  intros t b H. destruct b as [|u| | | |]; cbn [x_equals];
    try (exists false; split; auto; split; [discriminate|intros (u & E & _); discriminate]; fail).
  destruct (type_eq_dec t u H) as (c & E & I). exists c. split; auto. rewrite I. split; [eauto|].
  intros (u' & E' & HS). inversion E'; subst; auto.
Qed.

Lemma all2M_true : forall A B (f : A -> B -> res bool) l m, all2M f l m = Ok true ->
  forall x, In x l -> exists y, f x y = Ok true.
Proof.
  induction l as [|a l IH]; intros m H x HI; [contradiction|].
  destruct m as [|b m]; cbn in H; [discriminate|].
  destruct (f a b) as [c| |] eqn:E; cbn in H; try discriminate. destruct c; [|discriminate].
  destruct HI as [->|HI]; eauto.
Qed.

Lemma andM_true : forall a b, andM a b = Ok true -> a = Ok true /\ b = Ok true.
Proof. intros a b H. destruct a as [[]| |]; cbn in H; try discriminate. auto. Qed.

Lemma x_equals_unknown : forall a, unknown_part a -> forall b, x_equals a b <> Ok true.
Proof.
  intros a H. induction H as [|n v l x HI HU IH|n v x HU IH|n v k x HU IH|n v k x HU IH|n ps x HU IH]; intros b HE; cbn [x_equals] in HE.
  - discriminate.
  - destruct (expose b); try discriminate.
    destruct (negb (n =? n0)); [discriminate|]. destruct (negb (v =? v0)); [discriminate|].
    destruct (negb _); [discriminate|]. destruct (all2M_true _ _ _ _ _ HE x HI) as [y Hy]. eapply IH; eauto.
  - destruct (expose b); try discriminate.
    destruct (negb (n =? n0)); [discriminate|]. destruct (negb (v =? v0)); [discriminate|]. eapply IH; eauto.
  - destruct (expose b); try discriminate.
    destruct (negb (n =? n0)); [discriminate|]. destruct (negb (v =? v0)); [discriminate|]. apply andM_true in HE. destruct HE. eapply IH; eauto.
  - destruct (expose b); try discriminate.
    destruct (negb (n =? n0)); [discriminate|]. destruct (negb (v =? v0)); [discriminate|]. apply andM_true in HE. destruct HE. eapply IH; eauto.
  - assert (X : forall m qs r', (if negb (n =? m) then Ok false
          else if negb (Nat.eqb (List.length ps) (List.length qs)) then Ok false
          else andM (x_equals x r') (all2M type_equals ps qs)) = Ok true -> False).
    { intros m qs r' Q. destruct (negb (n =? m)); [discriminate|]. destruct (negb _); [discriminate|].
      apply andM_true in Q. destruct Q. eapply IH; eauto. }
    destruct b as [|[]| | | |]; try discriminate; eapply X; eauto.
Qed.

Section Checked.
Context {R : Type}.
Variable rel_schema : R -> res (list xtype).
Notation has := (has_type rel_schema).
Notation if_ok := (if_ok rel_schema).
Notation case_ok := (case_ok rel_schema).

Definition if_loop (out : xtype) := (fix go (l : list (expr R * expr R)) : res unit :=
                     match l with
                     | [] => Ok tt
                     | (i, t) :: l' =>
                         if is_nil_expr i then Err
                         else if is_nil_expr t then Err
                         else
                           let! ty1 := expr_type rel_schema t in
                           let! b := x_equals out ty1 in
                           if negb b then Err else go l'
                     end).
Lemma new_if_loop : forall first els more, new_if_then rel_schema first els more =
  if is_nil_expr els then Err else
  let! out := expr_type rel_schema els in
  let! _ := if_loop out (first :: more) in Ok (EIf (first :: more) els).
Proof.
  intros [i t] els more. unfold new_if_then. cbn [if_loop]. destruct (is_nil_expr els); auto.
  destruct (expr_type rel_schema els) as [out| |]; cbn [bind]; auto.
  destruct (is_nil_expr i); auto. destruct (is_nil_expr t); auto.
  destruct (expr_type rel_schema t) as [u| |]; cbn [bind]; auto.
  destruct (x_equals out u) as [[]| |]; cbn [bind negb]; auto.
Qed.

Lemma if_loop_iff : forall t l, plain t -> (if_loop (XTy t) l = Ok tt <-> Forall (if_ok t) l).
Proof.
  intros t l HP. induction l as [|[i th] l IH]; cbn [if_loop].
  - split; auto.
  - destruct (is_nil_cases R i) as [->|[Ni ->]].
    { split; [discriminate|]. intros H. inversion H as [|? ? (Q & _) _]; subst. cbn in Q. contradiction. }
    destruct (is_nil_cases R th) as [->|[Nt ->]].
    { split; [discriminate|]. intros H. inversion H as [|? ? (_ & Q & _) _]; subst. cbn in Q. contradiction. }
    split.
    + destruct (expr_type rel_schema th) as [x| |] eqn:E; cbn [bind]; try discriminate.
      apply has_type_spec in E. destruct (x_equals_typed t x HP) as (c & EC & IC). rewrite EC. cbn [bind].
      destruct c; cbn [negb]; [|discriminate]. intros H. apply IH in H. constructor; auto.
      destruct (proj1 IC eq_refl) as (u & -> & HS). split; auto. split; auto. cbn. eauto.
    + intros H. inversion H as [|? ? (_ & _ & u & HT & HS) HL]; subst. cbn [snd] in HT. apply has_type_spec in HT. rewrite HT. cbn [bind].
      destruct (x_equals_typed t (XTy u) HP) as (c & EC & IC). rewrite EC. cbn [bind].
      assert (c = true) by (apply IC; eauto). subst c. cbn [negb]. apply IH; auto.
Qed.

Theorem new_if_iff : forall first els more t e, has els (XTy t) -> plain t ->
  (new_if_then rel_schema first els more = Ok e <->
   els <> ELit LNil /\ Forall (if_ok t) (first :: more) /\ e = EIf (first :: more) els).
Proof.
  intros first els more t e HT HP. rewrite new_if_loop.
  destruct (is_nil_cases R els) as [->|[Ne ->]].
  { split; [discriminate|]. intros (H & _). contradiction. }
  apply has_type_spec in HT. rewrite HT. cbn [bind]. split.
  - destruct (if_loop (XTy t) (first :: more)) as [[]| |] eqn:E; cbn [bind]; intros H; inversion H; subst.
    apply if_loop_iff in E; auto.
  - intros (_ & H & ->). apply if_loop_iff in H; auto. rewrite H. reflexivity.
Qed.

Theorem new_if_unknown : forall first els more x e, has els x -> unknown_part x ->
  new_if_then rel_schema first els more <> Ok e.
Proof.
  intros [i th] els more x e HT HU. rewrite new_if_loop. destruct (is_nil_expr els); [discriminate|].
  apply has_type_spec in HT. rewrite HT. cbn [bind if_loop].
  destruct (is_nil_expr i); [discriminate|]. destruct (is_nil_expr th); [discriminate|].
  destruct (expr_type rel_schema th) as [u| |]; cbn [bind]; try discriminate.
  assert (N := x_equals_unknown x HU u). destruct (x_equals x u) as [[]| |]; cbn [bind negb]; try discriminate. contradiction.
Qed.

Definition case_loop (mt out : xtype) := (fix go (l : list (lit * expr R)) : res unit :=
                     match l with
                     | [] => Ok tt
                     | (k, t) :: l' =>
                         match k with
                         | LNil => Err
                         | _ =>
                             if is_nil_expr t then Err
                             else
                               let! kt := lit_type k in
                               let! b := x_equals mt (XTy (with_nullability NullUnspecified kt)) in
                               if negb b then Err
                               else
                                 let! ty1 := expr_type rel_schema t in
                                 let! ty1 := x_with_nullability NullUnspecified ty1 in
                                 let! b := x_equals out ty1 in
                                 if negb b then Err else go l'
                         end
                     end).
Lemma plain_null : forall n t, plain t -> plain (with_nullability n t).
Proof. intros n t H. destruct t; cbn in *; auto. Qed.

Lemma case_loop_iff : forall mt out l, plain mt -> plain out ->
  (case_loop (XTy (with_nullability 0 mt)) (XTy (with_nullability 0 out)) l = Ok tt <-> Forall (case_ok mt out) l).
Proof.
  intros mt out l HM HO. apply (plain_null 0) in HM. apply (plain_null 0) in HO. induction l as [|[k th] l IH].
  - cbn. split; auto.
  - assert (Dec : k = LNil \/ k <> LNil) by (destruct k; [left; reflexivity|..]; right; discriminate).
    destruct Dec as [->|Nk].
    { split; [discriminate|]. intros H. inversion H as [|? ? (Q & _) _]; subst. cbn in Q. contradiction. }
    assert (E : case_loop (XTy (with_nullability 0 mt)) (XTy (with_nullability 0 out)) ((k, th) :: l) =
       if is_nil_expr th then Err
                             else
                               let! kt := lit_type k in
                               let! b := x_equals (XTy (with_nullability 0 mt)) (XTy (with_nullability NullUnspecified kt)) in
                               if negb b then Err
                               else
                                 let! ty1 := expr_type rel_schema th in
                                 let! ty1 := x_with_nullability NullUnspecified ty1 in
                                 let! b := x_equals (XTy (with_nullability 0 out)) ty1 in
                                 if negb b then Err else case_loop (XTy (with_nullability 0 mt)) (XTy (with_nullability 0 out)) l).
    { destruct k; try contradiction; reflexivity. }
    rewrite E. clear E.
    destruct (is_nil_cases R th) as [->|[Nt ->]].
    { split; [discriminate|]. intros H. inversion H as [|? ? (_ & Q & _) _]; subst. cbn in Q. contradiction. }
    split.
    + destruct (lit_type k) as [kt| |] eqn:EK; cbn [bind]; try discriminate. apply lit_type_typed in EK.
      destruct (x_equals_typed _ (XTy (with_nullability NullUnspecified kt)) HM) as (c & EC & IC). rewrite EC. cbn [bind].
      destruct c; cbn [negb]; [|discriminate]. destruct (proj1 IC eq_refl) as (ku & EU & HK). inversion EU; subst.
      destruct (expr_type rel_schema th) as [x| |] eqn:ET; cbn [bind]; try discriminate. apply has_type_spec in ET.
      destruct (x_with_nullability NullUnspecified x) as [y| |] eqn:EX; cbn [bind]; try discriminate.
      destruct (x_equals_typed _ y HO) as (c & EC' & IC'). rewrite EC'. cbn [bind].
      destruct c; cbn [negb]; [|discriminate]. destruct (proj1 IC' eq_refl) as (u & -> & HU).
      intros H. apply IH in H. constructor; auto. split; auto. split; auto. split; [cbn; eauto|].
      destruct x; cbn in EX; inversion EX; subst. cbn. eauto.
    + intros H. inversion H as [|? ? (_ & _ & (kt & HK & SK) & (u & HT & SU)) HL]; subst. cbn [fst snd] in *.
      apply lit_type_typed in HK. rewrite HK. cbn [bind].
      destruct (x_equals_typed _ (XTy (with_nullability NullUnspecified kt)) HM) as (c & EC & IC). rewrite EC. cbn [bind].
      assert (c = true) by (apply IC; eexists; split; [reflexivity|exact SK]). subst c. cbn [negb].
      apply has_type_spec in HT. rewrite HT. cbn [bind x_with_nullability].
      destruct (x_equals_typed _ (XTy (with_nullability NullUnspecified u)) HO) as (c & EC' & IC'). rewrite EC'. cbn [bind].
      assert (c = true) by (apply IC'; eexists; split; [reflexivity|exact SU]). subst c. cbn [negb]. apply IH; auto.
Qed.

Lemma new_switch_loop : forall m els cases, new_switch rel_schema m els cases =
  if is_nil_expr m then Err
  else
    let! mt := expr_type rel_schema m in
    let! mt := x_with_nullability NullUnspecified mt in
    match cases with
    | [] => Err
    | (_, t0) :: _ =>
        let! out :=
          if negb (is_nil_expr els) then let! t := expr_type rel_schema els in x_with_nullability NullUnspecified t
          else if negb (is_nil_expr t0) then let! t := expr_type rel_schema t0 in x_with_nullability NullUnspecified t
          else Ok XNil in
        let! _ := case_loop mt out cases in Ok (ESwitch m cases els)
    end.
Proof. reflexivity. Qed.

Theorem new_switch_iff : forall m els cases mt out x e,
  has m (XTy mt) -> plain mt -> model_branch els cases x -> has x (XTy out) -> plain out ->
  (new_switch rel_schema m els cases = Ok e <->
   m <> ELit LNil /\ cases <> [] /\ Forall (case_ok mt out) cases /\ e = ESwitch m cases els).
Proof.
  intros m els cases mt out x e HM PM HB HX PO. rewrite new_switch_loop.
  destruct (is_nil_cases R m) as [->|[Nm ->]].
  { split; [discriminate|]. intros (H & _). contradiction. }
  apply has_type_spec in HM. rewrite HM. cbn [bind x_with_nullability].
  destruct cases as [|[k0 t0] cases]; [split; [discriminate|intros (_ & H & _); contradiction]|].
  assert (EO : (if negb (is_nil_expr els) then let! t := expr_type rel_schema els in x_with_nullability NullUnspecified t
          else if negb (is_nil_expr t0) then let! t := expr_type rel_schema t0 in x_with_nullability NullUnspecified t
          else Ok XNil) = Ok (XTy (with_nullability 0 out))).
  { apply has_type_spec in HX. destruct HB as [[HN ->]|[-> (k & l & HC)]].
    - destruct (is_nil_cases R els) as [?|[_ ->]]; [contradiction|]. cbn [negb]. rewrite HX. reflexivity.
    - inversion HC; subst. cbn [is_nil_expr negb]. destruct (is_nil_cases R x) as [->|[_ ->]]; [discriminate|].
      cbn [negb]. rewrite HX. reflexivity. }
  rewrite EO. cbn [bind]. split.
  - destruct (case_loop _ _ _) as [[]| |] eqn:E; cbn [bind]; intros H; inversion H; subst.
    apply case_loop_iff in E; auto. split; auto. split; [discriminate|auto].
  - intros (_ & _ & H & ->). apply case_loop_iff in H; auto. change NullUnspecified with 0. rewrite H. reflexivity.
Qed.
End Checked.
