(** The trees of the grammar and their visits give exactly the phrases of
    TextGrammarSpec.v. *)

From Coq Require Import ZArith String Ascii Bool Lia List.
From Verif Require Import Base TypesModel TimeModel SigModel TextModel TextSpec FuncSpec TextGrammarSpec
  TextLexProofs TextNameProofs TextTypeProofs TextSaneProofs.
From Verif Require FuncTypeProofs.
Import ListNotations.
Local Open Scope list_scope.

Lemma number_int_text : forall w z, parse_number w = Ok z <-> int_text w z /\ in_int 64 z.
Proof.
  intros w z.
  assert (parse_number w = Ok z <-> atoi w = Ok z) as ->.
  { unfold parse_number. destruct (atoi w); split; intros H; inversion H; auto. }
  unfold atoi.
  assert (forall o : option Z, (match o with Some x => if (- 2 ^ 63 <=? x)%Z && (x <? 2 ^ 63)%Z then Ok x else Err | None => Err end) = Ok z
     <-> o = Some z /\ in_int 64 z) as H.
  { intros [x|]; [|split; [discriminate|intros [? _]; discriminate]]. unfold in_int. change (2 ^ (64 - 1))%Z with (2 ^ 63)%Z.
    destruct ((- 2 ^ 63 <=? x)%Z && (x <? 2 ^ 63)%Z) eqn:E.
    - apply andb_true_iff in E as [E1 E2]. apply Z.leb_le in E1. apply Z.ltb_lt in E2. split; [intros K; inversion K; subst; auto|].
      intros [K _]; congruence.
    - split; [discriminate|]. intros [K1 K2]. inversion K1; subst. apply andb_false_iff in E as [E|E]; [apply Z.leb_gt in E|apply Z.ltb_ge in E]; lia. }
  cbv zeta. rewrite H. clear H.
  enough (forall x, match w with EmptyString => None | String c s' =>
     if Ascii.eqb c "-" then option_map Z.opp (unsigned_atoi s') else if Ascii.eqb c "+" then unsigned_atoi s' else unsigned_atoi w end = Some x <-> int_text w x) as H
    by (rewrite <- H; reflexivity).
  intros x. destruct w as [|c s].
  - split; [discriminate|]. intros H. inversion H as [s' z' N E|s' z' N E|s' z' N E]; subst; try discriminate E.
    apply FuncTypeProofs.numeral_first in N as (? & ? & ? & E & _). discriminate E.
  - destruct (Ascii.eqb_spec c "-"); [subst c|destruct (Ascii.eqb_spec c "+"); [subst c|]].
    + split.
      * destruct (unsigned_atoi s) as [y|] eqn:U; [|discriminate]. intros E; inversion E; subst. apply (IT_minus s y). apply FuncTypeProofs.unsigned_numeral. auto.
      * intros H. inversion H as [s' z' N E|s' z' N E|s' z' N E]; subst.
        -- apply FuncTypeProofs.numeral_first in N as (c' & r & d & E & Hd & Ec). inversion E; subst. exfalso.
           assert (exists k, (k <= 9)%nat /\ "-"%char = ascii_of_nat (48 + k)) as (k & Hk & Ek) by (exists (Z.to_nat d); split; [lia|auto]).
           do 10 (destruct k as [|k]; [discriminate Ek|]). lia.
        -- apply FuncTypeProofs.unsigned_numeral in N. rewrite N. reflexivity.
    + split.
      * intros U. apply (IT_plus s x). apply FuncTypeProofs.unsigned_numeral. auto.
      * intros H. inversion H as [s' z' N E|s' z' N E|s' z' N E]; subst.
        -- apply FuncTypeProofs.numeral_first in N as (c' & r & d & E & Hd & Ec). inversion E; subst. exfalso.
           assert (exists k, (k <= 9)%nat /\ "+"%char = ascii_of_nat (48 + k)) as (k & Hk & Ek) by (exists (Z.to_nat d); split; [lia|auto]).
           do 10 (destruct k as [|k]; [discriminate Ek|]). lia.
        -- apply FuncTypeProofs.unsigned_numeral in N. exact N.
    + split.
      * intros U. apply IT_none. apply FuncTypeProofs.unsigned_numeral. auto.
      * intros H. inversion H as [s' z' N E|s' z' N E|s' z' N E]; subst; try congruence.
        apply FuncTypeProofs.unsigned_numeral in N. exact N.
Qed.

Lemma mark_q : forall n q, mark n q <-> exists b, q = qmark b /\ n = null_of b.
Proof.
  intros n q. unfold mark. split.
  - intros [[-> ->]|[-> ->]]; [exists true|exists false]; split; reflexivity.
  - intros ([|] & -> & ->); cbn; auto.
Qed.
Lemma mark_null : forall b, mark (null_of b) (qmark b).
Proof. intros b. apply mark_q. eauto. Qed.

Lemma scalar_prim_spec : forall k p, scalar_prim k = Some p <-> In (k, p) simple_names.
Proof.
  intros k p. split.
  - intros H. unfold scalar_prim in H. apply find_some in H as [H E]. apply String.eqb_eq in E. subst k.
    cbn in H. cbn. repeat (destruct H as [<-|H]; [tauto|]). destruct H.
  - intros H. cbn in H. repeat (destruct H as [H|H]; [inversion H; reflexivity|]). destruct H.
Qed.
Lemma single_kind_spec : forall k s, single_kind k = Some s <-> In (k, s) single_names.
Proof.
  intros k p. split.
  - intros H. unfold single_kind in H. apply find_some in H as [H E]. apply String.eqb_eq in E. subst k.
    cbn in H. cbn. repeat (destruct H as [<-|H]; [tauto|]). destruct H.
  - intros H. cbn in H. repeat (destruct H as [H|H]; [inversion H; reflexivity|]). destruct H.
Qed.
Lemma names_grammar : forall k p, In (k, p) simple_names -> In k scalar_kws.
Proof. intros k p H. cbn in H. repeat (destruct H as [H|H]; [inversion H; cbn; tauto|]). destruct H. Qed.
Lemma singles_grammar : forall k p, In (k, p) single_names -> In k single_kws.
Proof. intros k p H. cbn in H. repeat (destruct H as [H|H]; [inversion H; cbn; tauto|]). destruct H. Qed.
Lemma operators_spec : forall op o, In op infix_ops -> binop_of op = Ok o -> In (op, o) operators.
Proof. intros op o H E. cbn in H. repeat (destruct H as [<-|H]; [inversion E; cbn; tauto|]). destruct H. Qed.
Lemma operators_grammar : forall op o, In (op, o) operators -> In op infix_ops /\ binop_of op = Ok o.
Proof. intros op o H. cbn in H. repeat (destruct H as [H|H]; [inversion H; cbn; tauto|]). destruct H. Qed.

(** ** from trees to phrases *)

Definition meant (s : gsort) (w : list tok) (x : visited) : Prop :=
  match s with
  | GType => match x with XType f => type_phrase w f | _ => False end
  | GNumeric => match x with XInt i => numeric w i | _ => True end
  | GParams =>
      match x with
      | XTypes l => exists v, w = TSym "(" :: v ++ [TSym ")"] /\ type_list v l /\ (2 <= length l)%nat
      | XType f => phrase 0 w (AType f)
      | XExpr d => phrase 0 w (AExpr d)
      | XInt _ => False
      end
  | GExpr p =>
      match x with
      | XType f => phrase p w (AType f)
      | XExpr d => phrase p w (AExpr d)
      | _ => False
      end
  end.

Definition tree_meant (t : tree) : Prop := forall s x, gram s t -> visit t = Ok x -> meant s (yield t) x.

Lemma mapM_cons_ok : forall A B (f : A -> res B) x l l', mapM f (x :: l) = Ok l' ->
  exists y ys, f x = Ok y /\ mapM f l = Ok ys /\ l' = y :: ys.
Proof.
  intros A B f x l l' E. cbn [mapM] in E. destruct (f x) as [y| |]; try discriminate E.
  destruct (mapM f l) as [ys| |]; try discriminate E. inversion E; subst. eauto.
Qed.

Lemma types_meant : forall l l', All tree_meant l -> All (gram (GExpr 0)) l -> l <> [] ->
  mapM (fun e => let! x := visit e in TextModel.as_type x) l = Ok l' -> type_list (sepby yield l) l' /\ length l' = length l.
Proof.
  induction l as [|e l IH]; intros l' I G N E; [congruence|]. cbn [All] in *. destruct I as [I1 I2], G as [G1 G2].
  apply mapM_cons_ok in E as (y & ys & V & V1 & ->). okb V. okb V. inversion V; subst. specialize (I1 _ _ G1 V0). cbn [meant] in I1.
  destruct l as [|e' l].
  - cbn in V1. inversion V1; subst. cbn [sepby]. rewrite app_nil_r. split; [constructor; auto|reflexivity].
  - destruct (IH _ I2 G2 ltac:(discriminate) V1) as [T L]. split; [|cbn [length]; auto].
    change (sepby yield (e :: e' :: l)) with (yield e ++ [TSym ","] ++ sepby yield (e' :: l)). constructor; auto.
Qed.
Lemma exprs_meant : forall l l', All tree_meant l -> All (gram (GExpr 0)) l -> l <> [] ->
  mapM (fun e => let! x := visit e in as_expr x) l = Ok l' -> expr_list (sepby yield l) l'.
Proof.
  induction l as [|e l IH]; intros l' I G N E; [congruence|]. cbn [All] in *. destruct I as [I1 I2], G as [G1 G2].
  apply mapM_cons_ok in E as (y & ys & V & V1 & ->). okb V. okb V. inversion V; subst. specialize (I1 _ _ G1 V0). cbn [meant] in I1.
  destruct l as [|e' l].
  - cbn in V1. inversion V1; subst. cbn [sepby]. rewrite app_nil_r. constructor; auto.
  - specialize (IH _ I2 G2 ltac:(discriminate) V1).
    change (sepby yield (e :: e' :: l)) with (yield e ++ [TSym ","] ++ sepby yield (e' :: l)). constructor; auto.
Qed.
Lemma user_meant : forall w x p, meant (GExpr 0) w x -> user_param x = Ok p -> user_phrase w p.
Proof.
  intros w x p M E. destruct x as [f|[z|s|? ? ?|? ? ? ?|?|? ?]|i|?]; cbn [user_param] in E; try discriminate E;
    inversion E; subst; cbn [meant] in M; [apply U_type|apply U_int|apply U_name]; auto.
Qed.
Lemma users_meant : forall l l', All tree_meant l -> All (gram (GExpr 0)) l -> l <> [] ->
  mapM (fun e => let! x := visit e in user_param x) l = Ok l' -> user_list (sepby yield l) l'.
Proof.
  induction l as [|e l IH]; intros l' I G N E; [congruence|]. cbn [All] in *. destruct I as [I1 I2], G as [G1 G2].
  apply mapM_cons_ok in E as (y & ys & V & V1 & ->). okb V. pose proof (user_meant _ _ _ (I1 _ _ G1 V0) V) as M.
  destruct l as [|e' l].
  - cbn in V1. inversion V1; subst. cbn [sepby]. rewrite app_nil_r. constructor; auto.
  - specialize (IH _ I2 G2 ltac:(discriminate) V1).
    change (sepby yield (e :: e' :: l)) with (yield e ++ [TSym ","] ++ sepby yield (e' :: l)). constructor; auto.
Qed.
Lemma program_meant : forall l l', All (fun d => tree_meant (snd (fst d))) l ->
  All (fun d => match d : string * tree * nat with (_, e, m) => gram (GExpr 0) e /\ (1 <= m)%nat end) l -> l <> [] ->
  mapM (fun d => match d : string * tree * nat with
                 | (x, e, _) => let! v := visit e in let! d := as_expr v in Ok (x, d) end) l = Ok l' ->
  program (concat_map (fun d => match d : string * tree * nat with
     | (x, e, m) => TId x :: TSym "=" :: yield e ++ repeat TNl m end) l) l'.
Proof.
  induction l as [|[[y e] m] l IH]; intros l' I G N E; [congruence|]. cbn [All fst snd concat_map] in *. destruct I as [I1 I2], G as [[G1 Gm] G2].
  apply mapM_cons_ok in E as (y' & ys & V & V2 & ->). okb V. okb V. okb V1. inversion V1; subst. inversion V; subst. specialize (I1 _ _ G1 V0). cbn [meant] in I1.
  destruct l as [|d' l].
  - cbn in V2. inversion V2; subst. cbn [concat_map]. rewrite app_nil_r. apply (G_one y (yield e)); auto.
  - specialize (IH _ I2 G2 ltac:(discriminate) V2).
    change ((TId y :: TSym "=" :: yield e ++ repeat TNl m) ++ ?z) with ([TId y; TSym "="] ++ ((yield e ++ repeat TNl m) ++ z)).
    rewrite <- app_assoc. apply G_more; auto.
Qed.

Lemma sort_type : forall s (P : Prop), s = GType /\ P -> s = GType. Proof. tauto. Qed.

Lemma visit_meant : forall t, tree_meant t.
Proof.
  induction t as [t IH] using tree_ind2. intros s x G E.
  destruct t; cbn [subs visit] in *; cbn [gram] in G; cbn [yield].
  - destruct G as [-> G]. destruct (scalar_prim kw) as [p|] eqn:P; [|discriminate]. inversion E; subst. cbn [meant].
    constructor; [apply scalar_prim_spec; auto|apply mark_null].
  - destruct G as (-> & _ & G). destruct (single_kind kw) as [k|] eqn:P; [|discriminate].
    okb E. okb E. okb V0. inversion E; subst. inversion V0; subst. specialize (IH _ _ G V). cbn [meant] in *.
    apply (P_single kw k (null_of q) (qmark q) (yield t) _); auto using mark_null. apply single_kind_spec; auto.
  - destruct G as (-> & G1 & G2), IH as [I1 I2]. okb E. okb E. okb V0. okb E. okb E. okb V2. inversion E; subst. inversion V0; inversion V2; subst.
    specialize (I1 _ _ G1 V). specialize (I2 _ _ G2 V1). cbn [meant] in *. apply (P_decimal (null_of q) (qmark q) (yield t1) _ (yield t2) _); auto using mark_null.
  - destruct G as (-> & Hne & G). okb E. inversion E; subst. cbn [meant]. apply (P_struct (null_of q) (qmark q) (sepby yield fs) a); [apply mark_null|].
    apply (types_meant fs); auto.
  - discriminate E.
  - destruct G as (-> & G). okb E. okb E. okb V0. inversion E; subst. inversion V0; subst. specialize (IH _ _ G V). cbn [meant] in *.
    apply (P_list (null_of q) (qmark q) (yield t) _); auto using mark_null.
  - destruct G as (-> & G1 & G2), IH as [I1 I2]. okb E. okb E. okb E. okb E. okb V1. okb V2. inversion E; inversion V1; inversion V2; subst.
    specialize (I1 _ _ G1 V). specialize (I2 _ _ G2 V0). cbn [meant] in *. apply (P_map (null_of q) (qmark q) (yield t1) _ (yield t2) _); auto using mark_null.
  - destruct G as (-> & G1 & G2), IH as [I1 I2]. okb E. okb E. okb E. okb V1. inversion E; inversion V1; subst.
    specialize (I1 _ _ G1 V). specialize (I2 _ _ G2 V0). cbn [meant] in *. destruct a as [f|d|i|l].
    + apply (P_func (null_of q) (qmark q) (yield t1) (AType f) (yield t2) _); auto using mark_null.
    + apply (P_func (null_of q) (qmark q) (yield t1) (AExpr d) (yield t2) _); auto using mark_null.
    + destruct I1.
    + destruct I1 as (v & -> & T & L).
      pose proof (P_funcs (null_of q) (qmark q) v l (yield t2) _ (mark_null q) T L I2) as H. cbn [app] in H |- *.
      rewrite <- app_assoc. exact H.
  - destruct G as (-> & G). okb E. inversion E; subst. cbn [meant]. destruct ps as [|p ps].
    + cbn in V. inversion V; subst. rewrite app_nil_r. apply (P_user (null_of q) (qmark q)). apply mark_null.
    + apply (P_user_with (null_of q) (qmark q) name (sepby yield (p :: ps)) a); [apply mark_null|]. apply users_meant; auto. discriminate.
  - subst s. inversion E; subst. apply P_any, mark_null.
  - subst s. inversion E; subst. apply P_any_var, mark_null.
  - subst s. okb E. inversion E; subst. apply number_int_text in V as [H1 H2]. constructor; auto.
  - subst s. inversion E; subst. constructor.
  - destruct G as (-> & G & _). specialize (IH _ _ G E). destruct x; cbn [meant] in *; tauto.
  - destruct G as (-> & G). specialize (IH _ _ G E). destruct x; cbn [meant] in *; tauto.
  - destruct G as (-> & L & G). okb E. inversion E; subst. cbn [meant]. assert (es <> []) as Hne by (destruct es; [cbn in L; lia|discriminate]).
    destruct (types_meant es a IH G Hne V) as [T L']. exists (sepby yield es). split; [reflexivity|]. split; [auto|lia].
  - destruct G as ((l & ->) & G). specialize (IH _ _ G E). destruct x; cbn [meant] in *; try tauto; apply (E_paren l (yield t)); auto.
  - destruct G as ((l & ->) & Hne & Gd & Gf), IH as [Id If]. okb E. okb E. okb E. okb V1. inversion E; inversion V1; subst.
    specialize (If _ _ Gf V0). cbn [meant] in *. apply E_program; auto. eapply program_meant; eauto.
  - destruct G as ((l & ->) & G). specialize (IH _ _ G E). destruct x; cbn [meant] in *; try tauto. apply E_type; auto.
  - destruct G as (l & ->). okb E. inversion E; subst. apply number_int_text in V as [H1 H2]. cbn [meant]. constructor; auto.
  - destruct G as (l & ->). inversion E; subst. cbn [meant]. eapply E_name, mark_null.
  - destruct G as ((l & ->) & G). okb E. inversion E; subst. cbn [meant]. destruct args as [|e args].
    + cbn in V. inversion V; subst. apply E_call0; [apply lower_uncapitalised|apply lower_same].
    + apply (E_call l name (lower name) (sepby yield (e :: args))); [apply lower_uncapitalised|apply lower_same|].
      apply exprs_meant; auto. discriminate.
  - destruct G as ((l & ->) & G1 & G2 & G3), IH as (I1 & I2 & I3). okb E. okb E. okb V0. okb E. okb E. okb V2. okb E. okb E. okb V4.
    inversion E; inversion V0; inversion V2; inversion V4; subst.
    specialize (I1 _ _ G1 V). specialize (I2 _ _ G2 V1). specialize (I3 _ _ G3 V3). cbn [meant] in *.
    apply (E_if l (yield t1) _ (yield t2) _ (yield t3) _); auto.
  - destruct G as ((l & ->) & G). okb E. okb E. okb V0. inversion E; inversion V0; subst. specialize (IH _ _ G V). cbn [meant] in *. apply E_not; auto.
  - destruct G as ((n & -> & Hn) & Ho & G1 & G2), IH as (I1 & I2). okb E. okb E. okb E. okb V1. okb E. okb E. okb V3.
    inversion E; inversion V1; inversion V3; subst. specialize (I1 _ _ G1 V0). specialize (I2 _ _ G2 V2). cbn [meant] in *.
    apply (E_binary n op _ (yield t1) _ (yield t2) _); auto. apply operators_spec; auto.
  - destruct G as ((n & -> & Hn) & G1 & G2 & G3), IH as (I1 & I2 & I3). okb E. okb E. okb V0. okb E. okb E. okb V2. okb E. okb E. okb V4.
    inversion E; inversion V0; inversion V2; inversion V4; subst.
    specialize (I1 _ _ G1 V). specialize (I2 _ _ G2 V1). specialize (I3 _ _ G3 V3). cbn [meant] in *.
    apply (E_ternary n (yield t1) _ (yield t2) _ (yield t3) _); auto.
Qed.

(** ** from phrases to trees *)

Scheme type_phrase_m := Minimality for type_phrase Sort Prop
  with phrase_m := Minimality for phrase Sort Prop
  with type_list_m := Minimality for type_list Sort Prop
  with expr_list_m := Minimality for expr_list Sort Prop
  with user_list_m := Minimality for user_list Sort Prop
  with user_phrase_m := Minimality for user_phrase Sort Prop
  with program_m := Minimality for program Sort Prop.
Combined Scheme phrases_m from type_phrase_m, phrase_m, type_list_m, expr_list_m, user_list_m, user_phrase_m, program_m.

Definition visited_of (x : item) : visited := match x with AType f => XType f | AExpr d => XExpr d end.
Definition has_type w f := exists t, gram GType t /\ yield t = w /\ visit t = Ok (XType f).
Definition has_phrase p w x := exists t, gram (GExpr p) t /\ yield t = w /\ visit t = Ok (visited_of x).
Definition has_list {A} (f : tree -> res A) w (l : list A) :=
  exists ts, ts <> [] /\ All (gram (GExpr 0)) ts /\ sepby yield ts = w /\ mapM f ts = Ok l.
Definition typed (e : tree) := let! x := visit e in TextModel.as_type x.
Definition valued (e : tree) := let! x := visit e in as_expr x.
Definition param (e : tree) := let! x := visit e in user_param x.
Definition has_program w (l : list (string * dexpr)) :=
  exists ds : list (string * tree * nat), ds <> [] /\
    All (fun d => match d : string * tree * nat with (_, e, m) => gram (GExpr 0) e /\ (1 <= m)%nat end) ds /\
    concat_map (fun d => match d : string * tree * nat with
       | (x, e, m) => TId x :: TSym "=" :: yield e ++ repeat TNl m end) ds = w /\
    mapM (fun d => match d : string * tree * nat with
       | (x, e, _) => let! v := visit e in let! d := as_expr v in Ok (x, d) end) ds = Ok l.

Lemma mapM_cons_intro : forall A B (f : A -> res B) x l y ys, f x = Ok y -> mapM f l = Ok ys -> mapM f (x :: l) = Ok (y :: ys).
Proof. intros A B f x l y ys E1 E2. cbn [mapM]. rewrite E1, E2. reflexivity. Qed.
Lemma mapM_len : forall A B (f : A -> res B) l l', mapM f l = Ok l' -> length l' = length l.
Proof.
  induction l as [|x l IH]; intros l' E; [cbn in E; inversion E; reflexivity|].
  apply mapM_cons_ok in E as (y & ys & _ & E & ->). cbn. auto.
Qed.
Lemma has_list_one : forall A (f : tree -> res A) t y, gram (GExpr 0) t -> f t = Ok y -> has_list f (yield t) [y].
Proof.
  intros A f t y G E. exists [t]. split; [discriminate|]. split; [split; [exact G|exact I]|].
  split; [cbn; apply app_nil_r|]. apply mapM_cons_intro; auto.
Qed.
Lemma has_list_more : forall A (f : tree -> res A) t y v l, gram (GExpr 0) t -> f t = Ok y -> has_list f v l ->
  has_list f (yield t ++ [TSym ","] ++ v) (y :: l).
Proof.
  intros A f t y v l G E (ts & N & Gs & Y & M). exists (t :: ts). split; [discriminate|]. split; [split; auto|].
  split; [|apply mapM_cons_intro; auto]. destruct ts as [|t' ts]; [congruence|]. rewrite <- Y. reflexivity.
Qed.
Lemma same_lower : forall s v, uncapitalised v -> same_letters s v -> v = lower s.
Proof. intros s v U S. apply same_letters_iff in S. rewrite S. symmetry. apply lower_fixed. exact U. Qed.

Lemma phrases_have_trees :
  (forall w f, type_phrase w f -> has_type w f) /\
  (forall p w x, phrase p w x -> has_phrase p w x) /\
  (forall w l, type_list w l -> has_list typed w l) /\
  (forall w l, expr_list w l -> has_list valued w l) /\
  (forall w l, user_list w l -> has_list param w l) /\
  (forall w y, user_phrase w y -> exists t, gram (GExpr 0) t /\ yield t = w /\ param t = Ok y) /\
  (forall w l, program w l -> has_program w l).
Proof.
  assert (forall w i, numeric w i -> exists t, gram GNumeric t /\ yield t = w /\ visit t = Ok (XInt i)) as HN.
  { intros w i [v z H1 H2|s].
    - exists (PNumLit v). split; [reflexivity|]. split; [reflexivity|]. cbn [visit]. rewrite (proj2 (number_int_text v z)) by auto. reflexivity.
    - exists (PNumName s). repeat split. }
  apply phrases_m.
  - intros k p n q Hk M. apply mark_q in M as (b & -> & ->). exists (PScalar k b). split; [split; [reflexivity|eapply names_grammar; eauto]|].
    split; [reflexivity|]. cbn [visit]. apply scalar_prim_spec in Hk. rewrite Hk. reflexivity.
  - intros k s n q w i Hk M Hn. apply mark_q in M as (b & -> & ->). destruct (HN _ _ Hn) as (t & G & <- & V).
    exists (PSingle k b t). split; [split; [reflexivity|split; [eapply singles_grammar; eauto|exact G]]|]. split; [reflexivity|].
    cbn [visit]. apply single_kind_spec in Hk. rewrite Hk, V. reflexivity.
  - intros n q w1 i w2 j M H1 H2. apply mark_q in M as (b & -> & ->). destruct (HN _ _ H1) as (t1 & G1 & <- & V1), (HN _ _ H2) as (t2 & G2 & <- & V2).
    exists (PDecimal b t1 t2). split; [split; auto|]. split; [reflexivity|]. cbn [visit]. rewrite V1, V2. reflexivity.
  - intros n q w fs M _ (ts & N & G & <- & V). apply mark_q in M as (b & -> & ->). exists (PStruct b ts). split; [split; auto|]. split; [reflexivity|].
    cbn [visit]. unfold typed in V. rewrite V. reflexivity.
  - intros n q w f M _ (t & G & <- & V). apply mark_q in M as (b & -> & ->). exists (PList b t). split; [split; auto|]. split; [reflexivity|].
    cbn [visit]. rewrite V. reflexivity.
  - intros n q w1 f w2 g M _ (t1 & G1 & <- & V1) _ (t2 & G2 & <- & V2). apply mark_q in M as (b & -> & ->). exists (PMap b t1 t2).
    split; [split; auto|]. split; [reflexivity|]. cbn [visit]. rewrite V1, V2. reflexivity.
  - intros n q w x v g M _ (t1 & G1 & <- & V1) _ (t2 & G2 & <- & V2). apply mark_q in M as (b & -> & ->). exists (PFunc b (PParam t1) t2).
    split; [split; [reflexivity|split; [split; [reflexivity|exact G1]|exact G2]]|]. split; [reflexivity|]. cbn [visit]. rewrite V1, V2.
    destruct x; reflexivity.
  - intros n q w fs v g M _ (ts & N & G & <- & V) L _ (t2 & G2 & <- & V2). apply mark_q in M as (b & -> & ->). exists (PFunc b (PParams ts) t2).
    split; [split; [reflexivity|split; [split; [reflexivity|split; [rewrite <- (mapM_len _ _ _ _ _ V); exact L|exact G]]|exact G2]]|].
    split; [cbn [yield app]; rewrite <- app_assoc; reflexivity|]. cbn [visit]. unfold typed in V. rewrite V, V2. reflexivity.
  - intros n q s M. apply mark_q in M as (b & -> & ->). exists (PUser s b []). split; [split; [reflexivity|exact I]|]. split; [cbn; rewrite app_nil_r; reflexivity|reflexivity].
  - intros n q s w ps M _ (ts & N & G & <- & V). apply mark_q in M as (b & -> & ->). exists (PUser s b ts). split; [split; auto|].
    split; [destruct ts; [congruence|reflexivity]|]. cbn [visit]. unfold param in V. rewrite V. reflexivity.
  - intros n q M. apply mark_q in M as (b & -> & ->). exists (PAny b). repeat split.
  - intros n q s M. apply mark_q in M as (b & -> & ->). exists (PAnyVar s b). repeat split.
  - intros p w f _ (t & G & <- & V). exists (PType t). split; [split; eauto|]. split; [reflexivity|exact V].
  - intros p w x _ (t & G & <- & V). exists (PParen t). split; [split; eauto|]. split; [reflexivity|exact V].
  - intros p w z H1 H2. exists (PLit w). split; [cbn; eauto|]. split; [reflexivity|]. cbn [visit]. rewrite (proj2 (number_int_text w z)) by auto. reflexivity.
  - intros p s n q M. apply mark_q in M as (b & -> & ->). exists (PName s b). split; [cbn; eauto|]. split; reflexivity.
  - intros p s v U S. rewrite (same_lower _ _ U S). exists (PCall s []). split; [split; [eauto|exact I]|]. split; reflexivity.
  - intros p s v w ds U S _ (ts & N & G & <- & V). rewrite (same_lower _ _ U S). exists (PCall s ts). split; [split; eauto|]. split; [reflexivity|].
    cbn [visit]. unfold valued in V. rewrite V. reflexivity.
  - intros p w1 c w2 t w3 e _ (t1 & G1 & <- & V1) _ (t2 & G2 & <- & V2) _ (t3 & G3 & <- & V3). exists (PIf t1 t2 t3).
    split; [split; eauto|]. split; [reflexivity|]. cbn [visit]. rewrite V1, V2, V3. reflexivity.
  - intros p w d _ (t & G & <- & V). exists (PNot t). split; [split; eauto|]. split; [reflexivity|]. cbn [visit]. rewrite V. reflexivity.
  - intros p op o w1 l w2 r Hp Ho _ (t1 & G1 & <- & V1) _ (t2 & G2 & <- & V2). apply operators_grammar in Ho as [Ho Eo]. exists (PBin op t1 t2).
    split; [split; [eauto|split; auto]|]. split; [reflexivity|]. cbn [visit]. rewrite Eo, V1, V2. reflexivity.
  - intros p w1 c w2 t w3 e Hp _ (t1 & G1 & <- & V1) _ (t2 & G2 & <- & V2) _ (t3 & G3 & <- & V3). exists (PTern t1 t2 t3).
    split; [split; [eauto|split; auto]|]. split; [reflexivity|]. cbn [visit]. rewrite V1, V2, V3. reflexivity.
  - intros p w ds v f m _ (l & N & G & <- & V) _ (t & Gt & <- & Vt). exists (PMulti l t m). split; [split; [eauto|split; auto]|].
    split; [reflexivity|]. cbn [visit]. rewrite V, Vt. reflexivity.
  - intros w f _ (t & G & <- & V). apply has_list_one; auto. unfold typed. rewrite V. reflexivity.
  - intros w f v fs _ (t & G & <- & V) _ H. apply has_list_more; auto. unfold typed. rewrite V. reflexivity.
  - intros w f _ (t & G & <- & V). apply has_list_one; auto. unfold valued. rewrite V. reflexivity.
  - intros w f v fs _ (t & G & <- & V) _ H. apply has_list_more; auto. unfold valued. rewrite V. reflexivity.
  - intros w p _ (t & G & <- & V). apply has_list_one; auto.
  - intros w p v ps _ (t & G & <- & V) _ H. apply has_list_more; auto.
  - intros w f _ (t & G & <- & V). exists t. split; [auto|]. split; [auto|]. unfold param. rewrite V. reflexivity.
  - intros w z _ (t & G & <- & V). exists t. split; [auto|]. split; [auto|]. unfold param. rewrite V. reflexivity.
  - intros w s _ (t & G & <- & V). exists t. split; [auto|]. split; [auto|]. unfold param. rewrite V. reflexivity.
  - intros x w d m _ (t & G & <- & V) Hm. exists [(x, t, m)]. split; [discriminate|]. split; [split; [auto|exact I]|].
    split; [cbn; rewrite app_nil_r; reflexivity|]. apply mapM_cons_intro; [rewrite V|]; reflexivity.
  - intros x w d m v ds _ (t & G & <- & V) Hm _ (l & N & Gl & <- & Vl). exists ((x, t, m) :: l). split; [discriminate|]. split; [split; auto|].
    split; [cbn; rewrite <- app_assoc; reflexivity|]. apply mapM_cons_intro; [rewrite V; reflexivity|exact Vl].
Qed.

Theorem trees_meant : forall l f,
  (exists t, gram (GExpr 0) t /\ yield t = l /\ parse_tree t = Ok f) <-> phrase 0 l (AType f).
Proof.
  intros l f. split.
  - intros (t & G & <- & E). unfold parse_tree in E. destruct (visit t) as [[g| | |]| |] eqn:V; try discriminate E. inversion E; subst.
    exact (visit_meant t (GExpr 0) _ G V).
  - intros H. apply phrases_have_trees in H as (t & G & Y & V). exists t. split; [auto|]. split; [auto|]. unfold parse_tree. rewrite V. reflexivity.
Qed.
