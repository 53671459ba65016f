(** Proofs for C20: equality of expressions. *)

From Coq Require Import ZArith String List Bool Lia.
From Verif Require Import Base TypesModel TypesSpec TypesProofs LitModel LitSpec LitProofs
  ExprModel ExprOpsModel ExprSpec ExprProofs ExprWireProofs.
Import ListNotations.
Local Open Scope Z_scope.

Lemma equal_func_in : forall A (f : A -> A -> res bool) (R : A -> A -> Prop) l m,
  (forall x y, In x l -> In y m -> exists b, f x y = Ok b /\ (b = true <-> R x y)) ->
  exists b, equal_func f l m = Ok b /\ (b = true <-> Forall2 R l m).
Proof.
  intros A f R l m H. unfold equal_func.
  assert (E : List.length l = List.length m -> exists b, all2M f l m = Ok b /\ (b = true <-> Forall2 R l m)).
  { revert m H. induction l as [|x l IH]; intros [|y m] H Hlen; cbn in *; try discriminate.
    - exists true. split; auto. split; auto.
    - destruct (H x y (or_introl eq_refl) (or_introl eq_refl)) as [b [-> Hb]]. inversion Hlen. destruct b.
      + destruct (IH m) as [c [E Hc]]; auto. rewrite E. exists c. split; auto. rewrite Hc.
        split; [intros; constructor; tauto|intros HH; inversion HH; auto].
      + exists false. split; auto. split; [discriminate|]. intros HH; inversion HH; tauto. }
  destruct (Nat.eqb_spec (List.length l) (List.length m)) as [Hl|Hl]; auto.
  exists false. split; auto. split; [discriminate|]. intros HH. exfalso. apply Hl.
  clear -HH. induction HH; cbn; auto.
Qed.
Lemma args_loop_in : forall A (f : A -> A -> res bool) (R : A -> A -> Prop) l m, List.length l = List.length m ->
  (forall x y, In x l -> In y m -> exists b, f x y = Ok b /\ (b = true <-> R x y)) ->
  exists b, args_loop f l m = Ok b /\ (b = true <-> Forall2 R l m).
Proof.
  intros A f R l m HL H. unfold args_loop. revert m HL H. induction l as [|x l IH]; intros [|y m] Hlen H; cbn in *; try discriminate.
  - exists true. split; auto. split; auto.
  - destruct (H x y (or_introl eq_refl) (or_introl eq_refl)) as [b [-> Hb]]. inversion Hlen. destruct b.
    + destruct (IH m) as [c [E Hc]]; auto. rewrite E. exists c. split; auto. rewrite Hc.
      split; [intros; constructor; tauto|intros HH; inversion HH; auto].
    + exists false. split; auto. split; [discriminate|]. intros HH; inversion HH; tauto.
Qed.

Lemma fopts_eqb : forall a b, list_eqb fopt_eqb a b = true <-> a = b.
Proof.
  intros a b. rewrite (list_eqb_spec _ fopt_eqb eq), Forall2_eq; [tauto|].
  apply Forall_forall. intros [n p] _ [m q]. cbn [fopt_eqb]. rewrite andb_true_iff, String.eqb_eq, strings_eqb_spec.
  split; [intros [-> ->]; auto|intros H; inversion H; auto].
Qed.
Lemma sortkind_eqb_spec : forall a b, sortkind_eqb a b = true <-> a = b.
Proof.
  intros [|a|a] [|b|b]; cbn [sortkind_eqb]; try rewrite Z.eqb_eq; split; intros H; try discriminate; auto; try congruence.
Qed.
Lemma bound_eqb_spec : forall a b, opt_bound_eqb a b = true <-> a = b.
Proof.
  intros [[a|a| |]|] [[b|b| |]|]; cbn [opt_bound_eqb bound_eqb]; try rewrite Z.eqb_eq;
    split; intros H; try discriminate; auto; try congruence.
Qed.

Lemma Forall2_refl_In : forall A (R : A -> A -> Prop) l, (forall x, In x l -> R x x) -> Forall2 R l l.
Proof. induction l; intros H; constructor; [apply H; left; auto|apply IHl; intros; apply H; right; auto]. Qed.

Lemma same_struct : forall n v l n' v' l', same_type (TStruct n v l) (TStruct n' v' l') <-> n = n' /\ v = v' /\ Forall2 same_type l l'.
Proof.
  intros. unfold same_type. cbn [forget_ptr]. split.
  - intros H. inversion H; subst. repeat split; auto. revert H3. clear. revert l'. induction l as [|a l IH]; intros [|b l'] H; try discriminate; constructor.
    + cbn in H. congruence.
    + apply IH. cbn in H. congruence.
  - intros (-> & -> & H). f_equal. induction H; cbn; congruence.
Qed.

Section Equality.
Context {R : Type}.
Variable same_arg : farg (expr R) -> farg (expr R) -> bool.
Variable same_mask : mask -> mask -> bool.
Variable same_rel : R -> R -> bool.
Variable arity : Z -> nat.
Hypothesis same_arg_eq : forall a b, same_arg a b = true -> a = b.

Notation eqs := (expr_equals same_arg same_mask same_rel).
Notation same := (same_expr same_mask same_rel).
Notation sarg := (same_farg same_mask same_rel).
Notation comp := (comparable same_mask same_rel arity).
Definition comp_arg (a : farg (expr R)) : Prop :=
  match a with AEnum _ => True | AType t => plain t | AExpr e => e = ELit LNil \/ comp e end.

Lemma same_refl : forall e, comp e -> same e e.
Proof.
  assert (T : forall t, same_type t t) by reflexivity.
  apply (expr_ind' R (fun e => comp e -> same e e)). intros e IH HC.
  assert (HL : forall l, Forall (fun e => comp e -> same e e) l -> All comp l -> Forall2 same l l).
  { intros l H HA. rewrite All_Forall in HA. rewrite Forall_forall in *. apply Forall2_refl_In. auto. }
  assert (HG : forall l, Forall (fun e => comp e -> same e e) (flat_map farg_sub l) -> All comp_arg l -> Forall2 sarg l l).
  { intros l H HA. apply ch_args in H. rewrite All_Forall in HA. rewrite Forall_forall in *. apply Forall2_refl_In.
    intros [s|t|x] Hi; [constructor|constructor; auto|].
    specialize (HA _ Hi). specialize (H _ Hi). cbn [comp_arg] in *. destruct HA as [->|HA]; [apply SA_nil|apply SA_expr; auto]. }
  assert (HP : forall l, Forall (fun e => comp e -> same e e) (flat_map (fun p => [fst p; snd p]) l) ->
     All (fun p => match p with (a, b) => comp a /\ comp b end) l ->
     Forall2 (fun p q => same (fst p) (fst q) /\ same (snd p) (snd q)) l l).
  { intros l H HA. apply ch_pairs in H. rewrite All_Forall in HA. rewrite Forall_forall in *. apply Forall2_refl_In.
    intros [a b] Hi. specialize (HA _ Hi). specialize (H _ Hi). cbn in *. tauto. }
  destruct e; cbn [children comparable] in *.
  - constructor. apply lit_refl; tauto.
  - destruct HC as [HR HF]. constructor.
    + destruct r; constructor. inversion IH; subst. auto.
    + destruct f as [l|m]; constructor; try tauto. destruct HF as (H1 & H2 & H3). rewrite Forall_forall in *.
      apply Forall2_refl_In. intros [i|k|i] Hi; constructor. apply lit_refl; [exact (H2 _ Hi)|exact (H3 _ Hi)].
  - destruct HC as (H1 & H2 & H3). constructor; auto.
  - apply Forall_app in IH. destruct IH as [IH1 IH]. apply Forall_app in IH. destruct IH as [IH2 IH3].
    destruct HC as (H1 & H2 & H3 & H4). constructor; auto.
    apply ch_map in IH3. rewrite All_Forall in H4. rewrite Forall_forall in *. apply Forall2_refl_In.
    intros [a k] Hi. specialize (IH3 _ Hi). specialize (H4 _ Hi). cbn in *. auto.
  - apply Forall_app in IH. destruct IH as [IH1 IH2]. inversion IH2; subst. destruct HC. constructor; auto.
  - inversion IH as [|? ? Hm IH']; subst. apply Forall_app in IH'. destruct IH' as [IH1 IH2]. inversion IH2; subst.
    destruct HC as (H3 & H4 & H5).
    assert (HK : Forall2 (fun p q => same_lit (fst p) (fst q) /\ same (snd p) (snd q)) ifs ifs).
    { apply ch_map in IH1. rewrite All_Forall in H4. rewrite Forall_forall in *. apply Forall2_refl_In.
      intros [k b] Hi. specialize (IH1 _ Hi). specialize (H4 _ Hi). cbn in *. split; [apply lit_refl; tauto|tauto]. }
    destruct H5 as [->|H5]; [apply SE_switch_no_else; auto|apply SE_switch; auto].
  - inversion IH; subst. destruct HC. constructor; auto.
  - apply Forall_app in IH. destruct IH as [IH1 IH2]. apply ch_concat in IH2. destruct HC as [H1 H2]. constructor; auto.
    rewrite All_Forall in H2. rewrite Forall_forall in *. apply Forall2_refl_In. auto.
  - inversion IH; subst. destruct HC. constructor; auto.
  - constructor; auto.
  - constructor; auto.
  - constructor; auto.
  - constructor; auto.
  - inversion IH; subst. destruct HC. constructor; auto. apply Forall2_refl_In. auto.
  - constructor; auto.
  - destruct HC. constructor; auto.
  - constructor; auto.
  - inversion IH; subst. destruct HC. constructor; auto.
Qed.

Definition eqc (a : expr R) : Prop := comp a -> forall b, comp b -> exists c, eqs a b = Ok c /\ (c = true <-> same a b).

Lemma comp_not_nil : forall e, comp e -> is_nil_expr e = false.
Proof. intros [l| | | | | | | | | | | | | | | | |] H; auto. destruct l; auto. cbn in H. destruct H as [[] _]. Qed.

Lemma no : forall (P : Prop), ~ P -> exists c, Ok false = Ok c /\ (c = true <-> P).
Proof. intros P H. exists false. split; auto. split; [discriminate|tauto]. Qed.

Lemma farg_char : forall a b, match a with AExpr e => eqc e | _ => True end -> comp_arg a -> comp_arg b ->
  exists c, farg_equals same_arg eqs a b = Ok c /\ (c = true <-> sarg a b).
Proof.
  intros a b HE Ha Hb. unfold farg_equals. destruct (same_arg a b) eqn:S.
  - apply same_arg_eq in S. subst b. exists true. split; auto. split; auto. intros _. destruct a as [s|t|e]; cbn [comp_arg] in Ha.
    + constructor.
    + constructor. reflexivity.
    + destruct Ha as [->|Ha]; [apply SA_nil|apply SA_expr; apply same_refl; auto].
  - destruct a as [s|t|e]; cbn [comp_arg] in Ha.
    + destruct b as [s'|t'|e']; try (apply no; intros H; inversion H; fail).
      exists (String.eqb s s'). split; auto. rewrite String.eqb_eq. split; [intros ->; constructor|intros H; inversion H; auto].
    + destruct b as [s'|t'|e']; try (apply no; intros H; inversion H; fail).
      destruct (type_eq_dec t t' Ha) as (c & E & I). exists c. split; auto. rewrite I. split; [constructor; auto|intros H; inversion H; auto].
    + destruct (is_nil_expr e) eqn:N.
      * apply is_nil_spec in N. subst e. destruct b as [s'|t'|e']; try (apply no; intros H; inversion H; fail).
        destruct (is_nil_expr e') eqn:N'.
        -- apply is_nil_spec in N'. subst e'. exists true. split; auto. split; auto. intros _. apply SA_nil.
        -- assert (E : match e' with ELit LNil => Ok true | _ => Ok false end = Ok false)
             by (destruct e'; auto; destruct l; auto; discriminate).
           rewrite E. apply no. intros H. inversion H as [| |? ? H1|]; subst; [inversion H1 as [? ? H2| | | | | | | | | | | | | | | | | |]; subst; inversion H2|discriminate].
      * destruct Ha as [->|Ha]; [discriminate|].
        assert (E0 : forall X Y, match e with ELit LNil => X | _ => Y end = Y :> res bool) by (intros; destruct e; auto; destruct l; auto; discriminate).
        rewrite E0. destruct b as [s'|t'|e']; try (apply no; intros H; inversion H; subst; discriminate).
        cbn [comp_arg] in Hb. destruct Hb as [->|Hb].
        -- apply no. intros H. inversion H as [| |? ? H1|]; subst; [|discriminate].
           inversion H1 as [? ? H2| | | | | | | | | | | | | | | | | |]; subst. inversion H2.
        -- assert (N' := comp_not_nil _ Hb).
           destruct (HE Ha e' Hb) as (c & E & I). exists c. split.
           { rewrite <- E. destruct e'; auto. destruct l; auto. discriminate. }
           rewrite I. split; [apply SA_expr|]. intros H. inversion H; subst; auto. discriminate.
Qed.

Lemma list_char : forall l m, Forall eqc l -> All comp l -> All comp m ->
  exists c, equal_func eqs l m = Ok c /\ (c = true <-> Forall2 same l m).
Proof.
  intros l m H Hl Hm. rewrite All_Forall in *. rewrite Forall_forall in *. apply equal_func_in. intros x y Hx Hy. apply H; auto.
Qed.
Lemma args_char : forall l m, Forall eqc (flat_map farg_sub l) -> All comp_arg l -> All comp_arg m ->
  exists c, equal_func (farg_equals same_arg eqs) l m = Ok c /\ (c = true <-> Forall2 sarg l m).
Proof.
  intros l m H Hl Hm. apply ch_args in H. rewrite All_Forall in *. rewrite Forall_forall in *. apply equal_func_in.
  intros x y Hx Hy. apply farg_char; auto. exact (H _ Hx).
Qed.
Lemma args_loop_char : forall l m, List.length l = List.length m -> Forall eqc (flat_map farg_sub l) -> All comp_arg l -> All comp_arg m ->
  exists c, args_loop (farg_equals same_arg eqs) l m = Ok c /\ (c = true <-> Forall2 sarg l m).
Proof.
  intros l m HL H Hl Hm. apply ch_args in H. rewrite All_Forall in *. rewrite Forall_forall in *. apply args_loop_in; auto.
  intros x y Hx Hy. apply farg_char; auto. exact (H _ Hx).
Qed.
Lemma pairs_char : forall l m, Forall eqc (flat_map (fun p => [fst p; snd p]) l) ->
  All (fun p => match p with (a, b) => comp a /\ comp b end) l -> All (fun p => match p with (a, b) => comp a /\ comp b end) m ->
  exists c, equal_func (pair_equals eqs eqs) l m = Ok c /\
    (c = true <-> Forall2 (fun p q => same (fst p) (fst q) /\ same (snd p) (snd q)) l m).
Proof.
  intros l m H Hl Hm. apply ch_pairs in H. rewrite All_Forall in *. rewrite Forall_forall in *. apply equal_func_in.
  intros [a b] [a' b'] Hx Hy. destruct (H _ Hx) as [H1 H2]. specialize (Hl _ Hx). specialize (Hm _ Hy). cbn [fst snd] in *.
  destruct (H1 (proj1 Hl) a' (proj1 Hm)) as (c1 & E1 & I1). destruct (H2 (proj2 Hl) b' (proj2 Hm)) as (c2 & E2 & I2).
  exact (andM_char _ _ _ _ _ _ E1 I1 E2 I2).
Qed.
Definition comp_case (p : lit * expr R) : Prop := match p with (k, b) => lit_plain k /\ lit_no_nan k /\ comp b end.
Lemma cases_char : forall l m, Forall eqc (map snd l) -> All comp_case l -> All comp_case m ->
  exists c, equal_func (pair_equals lit_equals eqs) l m = Ok c /\
    (c = true <-> Forall2 (fun p q => same_lit (fst p) (fst q) /\ same (snd p) (snd q)) l m).
Proof.
  intros l m H Hl Hm. apply ch_map in H. rewrite All_Forall in *. rewrite Forall_forall in *. apply equal_func_in.
  intros [a b] [a' b'] Hx Hy. assert (H1 := H _ Hx). destruct (Hl _ Hx) as (P1 & P2 & P3). destruct (Hm _ Hy) as (Q1 & Q2 & Q3). cbn [fst snd] in *.
  destruct (leq_char_all a P1 a') as (c1 & E1 & I1). destruct (H1 P3 b' Q3) as (c2 & E2 & I2).
  exact (andM_char _ _ _ _ _ _ E1 I1 E2 I2).
Qed.
Lemma sorts_char : forall l m, Forall eqc (map fst l) -> All (fun p => match p with (e, _) => comp e end) l ->
  All (fun p => match p with (e, _) => comp e end) m ->
  exists c, equal_func (pair_equals eqs (fun k k' => Ok (sortkind_eqb k k'))) l m = Ok c /\
    (c = true <-> Forall2 (fun p q => same (fst p) (fst q) /\ snd p = snd q) l m).
Proof.
  intros l m H Hl Hm. apply ch_map in H. rewrite All_Forall in *. rewrite Forall_forall in *. apply equal_func_in.
  intros [a b] [a' b'] Hx Hy. assert (H1 := H _ Hx). assert (P1 := Hl _ Hx). assert (Q1 := Hm _ Hy). cbn [fst snd] in *.
  destruct (H1 P1 a' Q1) as (c2 & E2 & I2).
  exact (andM_char _ _ _ _ _ _ E2 I2 eq_refl (sortkind_eqb_spec b b')).
Qed.

Ltac other := match goal with |- exists c, Ok false = Ok c /\ _ => apply no; intros HH; inversion HH end.
Ltac both_of A B := let c := fresh "c" in let E := fresh "E" in let I := fresh "I" in
  let c1 := fresh in let E1 := fresh in let I1 := fresh in let c2 := fresh in let E2 := fresh in let I2 := fresh in
  destruct A as (c1 & E1 & I1); destruct B as (c2 & E2 & I2);
  destruct (andM_char _ _ _ _ _ _ E1 I1 E2 I2) as (c & E & I); clear c1 E1 I1 c2 E2 I2.
Lemma okb : forall b (P : Prop), (b = true <-> P) -> exists c, Ok b = Ok c /\ (c = true <-> P).
Proof. eauto. Qed.
Lemma both_char : forall a b (P Q : Prop), (exists c, a = Ok c /\ (c = true <-> P)) -> (exists c, b = Ok c /\ (c = true <-> Q)) ->
  exists c, andM a b = Ok c /\ (c = true <-> P /\ Q).
Proof. intros a b P Q (c1 & E1 & I1) (c2 & E2 & I2). exact (andM_char _ _ _ _ _ _ E1 I1 E2 I2). Qed.
Lemma iff_char : forall a (P Q : Prop), (exists c, a = Ok c /\ (c = true <-> P)) -> (P <-> Q) -> exists c, a = Ok c /\ (c = true <-> Q).
Proof. intros a P Q (c & E & I) H. exists c. split; auto. tauto. Qed.
Lemma guard_char : forall (g : bool) a (G P : Prop), (g = false <-> G) -> (exists c, a = Ok c /\ (c = true <-> P)) ->
  exists c, (if g then Ok false else a) = Ok c /\ (c = true <-> G /\ P).
Proof.
  intros g a G P HG (c & E & I). destruct g.
  - exists false. split; auto. split; [discriminate|]. intros [H _]. apply HG in H. discriminate.
  - exists c. split; auto. rewrite I. assert (G) by (apply HG; auto). tauto.
Qed.
Lemma neqb : forall a b : Z, negb (a =? b) = false <-> a = b.
Proof. intros. rewrite negb_false_iff. apply Z.eqb_eq. Qed.
Lemma nbool : forall a b : bool, negb (Bool.eqb a b) = false <-> a = b.
Proof. intros. rewrite negb_false_iff. apply Bool.eqb_true_iff. Qed.

Theorem equals_char : forall a, eqc a.
Proof.
  apply (expr_ind' R eqc). intros a IH HC b HB.
  destruct a; cbn [children comparable] in *.
  - destruct HC as [P1 P2]. destruct b; try (cbn [expr_equals]; destruct l; try contradiction; other; fail).
    cbn [expr_equals]. destruct (leq_char_all l P1 l0) as (c & E & I). exists c.
    split; [destruct l; auto; contradiction|]. rewrite I. split; [constructor; auto|intros HX; inversion HX; auto].
  - destruct b; cbn [expr_equals]; try other. destruct HC as [HR HF]. cbn [comparable] in HB. destruct HB as [HR' HF'].
    eapply iff_char; [apply both_char with (P := same_root same_mask same_rel r r0) (Q := same_reference same_mask same_rel f f0)|].
    + destruct r; destruct r0; cbn [root_equals]; try other.
      * exists true. split; auto. split; auto. constructor.
      * apply okb. rewrite Z.eqb_eq. split; [intros ->; constructor|intros HX; inversion HX; auto].
      * apply okb. rewrite Z.eqb_eq. split; [intros ->; constructor|intros HX; inversion HX; auto].
      * inversion IH as [|? ? H1 ?]; subst. destruct (H1 HR _ HR') as (c & E & I). exists c. split; auto. rewrite I.
        split; [constructor; auto|intros HX; inversion HX; auto].
    + destruct f as [l|m]; destruct f0 as [l'|m']; cbn [reference_equals].
      * destruct HF as (H1 & H2 & H3). destruct HF' as (H1' & _). destruct (seg_equals_char l l' H1 H2) as (c & E & I). exists c.
        split; [destruct l; [contradiction|]; destruct l'; [contradiction|auto]|]. rewrite I.
        split; [constructor; auto|intros HX; inversion HX; auto].
      * destruct l; other.
      * other.
      * apply okb. split; [intros HX; constructor; auto|intros HX; inversion HX; auto].
    + split; [intros [H1 H2]; constructor; auto|intros HX; inversion HX; auto].
  - destruct b; cbn [expr_equals]; try other. cbn [comparable] in HB. destruct HC as (A1 & A2 & A3). destruct HB as (B1 & B2 & B3).
    destruct (Z.eqb_spec fref fref0) as [->|N]; cbn [negb].
    + eapply iff_char; [apply both_char; [apply type_eq_dec; auto|apply both_char; [apply args_loop_char; auto; congruence|apply okb; apply fopts_eqb]]|].
      split; [intros (H1 & H2 & ->); constructor; auto|intros HX; inversion HX; subst; auto].
    + apply no. intros HX. inversion HX; subst. contradiction.
  - destruct b; cbn [expr_equals]; try other. cbn [comparable] in HB. destruct HC as (A1 & A2 & A3 & A4). destruct HB as (B1 & B2 & B3 & B4).
    apply Forall_app in IH. destruct IH as [IH1 IH]. apply Forall_app in IH. destruct IH as [IH2 IH3].
    eapply iff_char.
    + apply guard_char; [apply neqb|]. apply both_char; [apply type_eq_dec; auto|].
      apply guard_char; [rewrite orb_false_iff, !neqb; reflexivity|].
      apply guard_char; [rewrite orb_false_iff, !negb_false_iff, !bound_eqb_spec; reflexivity|].
      apply guard_char; [rewrite negb_false_iff, fopts_eqb; reflexivity|].
      apply both_char; [apply list_char; auto|]. apply both_char; [apply sorts_char; auto|apply args_char; auto].
    + split; [intros (-> & H1 & (-> & ->) & (-> & ->) & -> & H2 & H3 & H4); constructor; auto|intros HX; inversion HX; subst; repeat split; auto].
  - destruct b; cbn [expr_equals]; try other. cbn [comparable] in HB. destruct HC as (A1 & A2). destruct HB as (B1 & B2).
    apply Forall_app in IH. destruct IH as [IH1 IH2]. inversion IH2 as [|? ? He ?]; subst.
    rewrite (comp_not_nil _ A2), (comp_not_nil _ B2). cbn [negb].
    eapply iff_char; [apply both_char; [apply both_char; [apply He; auto|apply okb with (P := True); tauto]|apply pairs_char; auto]|].
    split; [intros ((H1 & _) & H2); constructor; auto|intros HX; inversion HX; subst; auto].
  - destruct b; cbn [expr_equals]; try other. cbn [comparable] in HB. destruct HC as (A1 & A2 & A3). destruct HB as (B1 & B2 & B3).
    inversion IH as [|? ? Hm IH']; subst. apply Forall_app in IH'. destruct IH' as [IH1 IH2]. inversion IH2 as [|? ? He ?]; subst.
    match goal with |- exists c, andM ?x (andM (if is_nil_expr ?e then _ else _) _) = _ /\ (_ <-> same (ESwitch _ _ ?e) (ESwitch _ _ ?e')) =>
      set (els1 := e) in *; set (els2 := e') in * end.
    destruct A3 as [A3|A3].
    + rewrite A3. cbn [is_nil_expr].
      eapply iff_char; [apply both_char; [apply Hm; auto|apply both_char; [apply okb; apply is_nil_spec|apply cases_char; auto]]|].
      split; [intros (H1 & -> & H2); apply SE_switch_no_else; auto|].
      intros HH. inversion HH as [| | | | |? ? ? ? ? ? Q1 Q2 Q3| | | | | | | | | | | | |]; subst; auto.
      inversion Q3 as [? ? Q4| | | | | | | | | | | | | | | | | |]; subst. inversion Q4.
    + rewrite (comp_not_nil _ A3). destruct B3 as [B3|B3].
      * rewrite B3 in *. eapply iff_char; [apply both_char; [apply Hm; auto|apply both_char with (P := False); [|apply cases_char; auto]]|].
        -- clearbody els1. assert (NN := comp_not_nil _ A3). destruct els1; cbn [expr_equals]; try (apply no; tauto).
           cbn [comparable] in A3. destruct A3 as [P1 P2].
           destruct (leq_char_all l P1 LNil) as (c & E & I). exists c. split; [destruct l; auto; discriminate|].
           rewrite I. split; [intros HH; inversion HH|tauto].
        -- split; [tauto|]. intros HH. exfalso. inversion HH as [| | | | |? ? ? ? ? ? Q1 Q2 Q3|? ? ? ? Q1 Q2 Q3| | | | | | | | | | | |]; subst.
           ++ inversion Q3 as [? ? Q4| | | | | | | | | | | | | | | | | |]. inversion Q4; subst; discriminate.
           ++ match goal with X : ELit LNil = els1 |- _ => rewrite <- X in A3 end. cbn in A3. tauto.
      * eapply iff_char; [apply both_char; [apply Hm; auto|apply both_char; [apply He; auto|apply cases_char; auto]]|].
        split; [intros (H1 & H2 & H3); apply SE_switch; auto|].
        intros HH. inversion HH as [| | | | |? ? ? ? ? ? Q1 Q2 Q3|? ? ? ? Q1 Q2 Q3| | | | | | | | | | | |]; subst; auto.
        match goal with X : ELit LNil = els1 |- _ => rewrite <- X in A3 end. cbn in A3. tauto.
  - destruct b; cbn [expr_equals]; try other. cbn [comparable] in HB. destruct HC as (A1 & A2). destruct HB as (B1 & B2).
    inversion IH as [|? ? H1 H2]; subst.
    eapply iff_char; [apply both_char; [apply H1; auto|apply list_char; auto]|].
    split; [intros (H3 & H4); constructor; auto|intros HX; inversion HX; subst; auto].
  - destruct b; cbn [expr_equals]; try other. cbn [comparable] in HB. destruct HC as (A1 & A2). destruct HB as (B1 & B2).
    apply Forall_app in IH. destruct IH as [IH1 IH2]. apply ch_concat in IH2.
    eapply iff_char; [apply both_char; [apply list_char; auto|]|].
    + apply equal_func_in with (R := Forall2 same). intros x y Hx Hy. rewrite All_Forall in A2, B2. rewrite Forall_forall in *. apply list_char; auto.
    + split; [intros (H3 & H4); constructor; auto|intros HX; inversion HX; subst; auto].
  - destruct b; cbn [expr_equals]; try other. cbn [comparable] in HB. destruct HC as (A1 & A2). destruct HB as (B1 & B2).
    inversion IH as [|? ? H1 H2]; subst.
    eapply iff_char; [apply both_char; [apply type_eq_dec; auto|apply both_char; [apply H1; auto|apply okb; apply Z.eqb_eq]]|].
    split; [intros (H3 & H4 & ->); constructor; auto|intros HX; inversion HX; subst; auto].
  - destruct b; cbn [expr_equals]; try other. cbn [comparable] in HB.
    eapply iff_char; [apply guard_char; [rewrite orb_false_iff, nbool, neqb; reflexivity|apply pairs_char; auto]|].
    split; [intros ((-> & ->) & H4); constructor; auto|intros HX; inversion HX; subst; auto].
  - destruct b; cbn [expr_equals]; try other. cbn [comparable] in HB.
    eapply iff_char; [apply guard_char; [rewrite orb_false_iff, nbool, neqb; reflexivity|apply list_char; auto]|].
    split; [intros ((-> & ->) & H4); constructor; auto|intros HX; inversion HX; subst; auto].
  - destruct b; cbn [expr_equals]; try other. cbn [comparable] in HB.
    eapply iff_char; [apply guard_char; [rewrite orb_false_iff, nbool, neqb; reflexivity|apply list_char; auto]|].
    split; [intros ((-> & ->) & H4); constructor; auto|intros HX; inversion HX; subst; auto].
  - destruct b; cbn [expr_equals]; try other. cbn [comparable] in HB.
    eapply iff_char; [apply guard_char; [apply neqb|apply type_eq_dec; auto]|].
    split; [intros (-> & H4); constructor; auto|intros HX; inversion HX; subst; auto].
  - destruct b; cbn [expr_equals]; try other. cbn [comparable] in HB. destruct HC as (A1 & A2). destruct HB as (B1 & B2).
    inversion IH as [|? ? H1 H2]; subst.
    eapply iff_char; [apply both_char; [apply type_eq_dec; exact A1|apply H1; auto]|].
    rewrite same_struct. split; [intros ((-> & -> & H3) & H4); constructor; auto|intros HX; inversion HX; subst; auto].
  - destruct b; cbn [expr_equals]; try other. apply okb. split; [intros HX; constructor; auto|intros HX; inversion HX; subst; auto].
  - destruct b; cbn [expr_equals]; try other. cbn [comparable] in HB. destruct HC as (A1 & A2). destruct HB as (B1 & B2).
    eapply iff_char; [apply both_char; [apply list_char; auto|apply okb; reflexivity]|].
    split; [intros (H3 & H4); constructor; auto|intros HX; inversion HX; subst; auto].
  - destruct b; cbn [expr_equals]; try other. apply okb. rewrite andb_true_iff, Z.eqb_eq.
    split; [intros [-> HX]; constructor; auto|intros HX; inversion HX; subst; auto].
  - destruct b; cbn [expr_equals]; try other. cbn [comparable] in HB. destruct HC as (A1 & A2). destruct HB as (B1 & B2).
    inversion IH as [|? ? H1 H2]; subst. rewrite (comp_not_nil _ A1), (comp_not_nil _ B1). cbn [orb].
    eapply iff_char; [apply guard_char; [rewrite orb_false_iff, !neqb; reflexivity|apply both_char; [apply H1; auto|apply okb; reflexivity]]|].
    split; [intros ((-> & ->) & H3 & H4); constructor; auto|intros HX; inversion HX; subst; auto].
Qed.
End Equality.
