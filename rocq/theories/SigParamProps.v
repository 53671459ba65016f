(** Theorems of C72: whether a declared type depends on integer parameters, and which it reports. *)

From Coq Require Import ZArith String Bool List Lia.
From Verif Require Import Base TypesModel SigModel SigProofs SigParamSpec.
Import ListNotations.

Lemma exists_in : forall (l : list fdt), Forall (fun f => has_param f = true <-> depends f) l ->
  (existsb has_param l = true <-> exists f, In f l /\ depends f).
Proof.
  intros l F. rewrite existsb_exists. rewrite Forall_forall in F. split; intros (f & I & H); exists f; (split; [exact I|]); apply (F f I); exact H.
Qed.

(** A type says it has parameters exactly if it depends on a name. *)
Theorem C72_depends : forall f, has_param f = true <-> depends f.
Proof.
  intros f. induction f using fdt_ind' with (Q := fun p => match p with UData g => has_param g = true <-> depends g | _ => True end); auto; cbn [has_param].
  - split; [discriminate|intros H; inversion H].
  - split; [discriminate|intros H; inversion H].
  - destruct i; cbn; split; try discriminate; try (intros H; inversion H); constructor.
  - rewrite orb_true_iff. split.
    + intros [H|H]; [destruct p|destruct s]; try discriminate; constructor.
    + intros H. inversion H; subst; auto.
  - split; [discriminate|intros H; inversion H].
  - rewrite IHf. split; [constructor; auto|intros H; inversion H; auto].
  - rewrite orb_true_iff, IHf1, IHf2. split; [intros [H|H]; [apply On_key|apply On_value]; auto|intros H; inversion H; auto].
  - rewrite exists_in by assumption. split; [intros (g & I & D); eapply On_field; eauto|intros D; inversion D; subst; eauto].
  - rewrite orb_true_iff, IHf, exists_in by assumption. split.
    + intros [(g & I & D)|D]; [eapply On_input; eauto|apply On_output; auto].
    + intros D; inversion D; subst; eauto.
  - match goal with H : Forall _ _ |- _ => rename H into F end.
    transitivity (exists g, first_type ps g /\ depends g).
    + induction F as [|p ps Q F IH]; [split; [discriminate|intros (g & H & _); inversion H]|].
      destruct p as [g|z|s].
      * rewrite Q. split; [intros D; exists g; split; [constructor|exact D]|intros (h & H & D); inversion H; subst; exact D].
      * rewrite IH. split; intros (h & H & D); exists h; (split; [|exact D]); [constructor; exact H|inversion H; subst; auto].
      * rewrite IH. split; intros (h & H & D); exists h; (split; [|exact D]); [constructor; exact H|inversion H; subst; auto].
    + split; [intros (g & H & D); eapply On_user; eauto|intros D; inversion D; subst; eauto].
  - rewrite IHf. split; [constructor; auto|intros H; inversion H; auto].
Qed.
Print Assumptions C72_depends.

Lemma depends_dec : forall f, depends f \/ ~ depends f.
Proof. intros f. rewrite <- C72_depends. destruct (has_param f); [left|right]; congruence. Qed.
Lemma has_param_false : forall f, ~ depends f -> has_param f = false.
Proof. intros f H. destruct (has_param f) eqn:E; auto. apply C72_depends in E. contradiction. Qed.
Lemma picks_iff : forall fs l, picks fs l <-> l = map GType (filter has_param fs).
Proof.
  induction fs as [|f fs IH]; intros l; cbn [filter map].
  - split; [intros H; inversion H; auto|intros ->; constructor].
  - destruct (depends_dec f) as [D|D].
    + rewrite (proj2 (C72_depends f) D). cbn [map]. split.
      * intros H. inversion H; subst; [f_equal; apply IH; auto|contradiction].
      * intros ->. constructor; auto. apply IH. reflexivity.
    + rewrite (has_param_false f D). split.
      * intros H. inversion H; subst; [contradiction|]. apply IH; auto.
      * intros ->. apply Picks_others; auto. apply IH. reflexivity.
Qed.
Lemma picks_user_iff : forall ps l, picks_user ps l <-> l = map GUdt (filter (fun p => match p with UData f => has_param f | _ => false end) ps).
Proof.
  induction ps as [|p ps IH]; intros l; cbn [filter map].
  - split; [intros H; inversion H; auto|intros ->; constructor].
  - assert (NO : ~ (exists f, p = UData f /\ depends f) -> (picks_user (p :: ps) l <-> picks_user ps l)).
    { intros N. split; [intros H; inversion H; subst; [exfalso; apply N; eauto|auto]|intros H; apply Picks_no_type; auto]. }
    destruct p as [f|z|s]; [|rewrite NO by (intros (f & E & _); discriminate); apply IH..].
    destruct (depends_dec f) as [D|D].
    + rewrite (proj2 (C72_depends f) D). cbn [map]. split.
      * intros H. inversion H as [|? ? ? D' H'|? ? ? N H']; subst; [f_equal; apply IH; auto|exfalso; apply N; eauto].
      * intros ->. constructor; auto. apply IH. reflexivity.
    + rewrite (has_param_false f D). rewrite NO by (intros (g & E & D'); injection E as ->; contradiction). apply IH.
Qed.

(** The parameters a type reports are its integers, or those of its parts that depend on a name, in order; nothing if it
    depends on none. *)
Theorem C72_reports : forall f l, reports f l <-> l = get_params f.
Proof.
  intros f. induction f using fdt_ind' with (Q := fun p => True); auto; intros res.
  1-10: match goal with |- reports ?f _ <-> _ => destruct (depends_dec f) as [D|D] end;
    [assert (G : has_param _ = true) by (apply C72_depends; exact D); unfold get_params; fold get_params; rewrite G
    |assert (G : has_param _ = false) by (apply has_param_false; exact D); unfold get_params; fold get_params; rewrite G;
     split; [intros R; inversion R; subst; auto; try contradiction; try (exfalso; apply D; constructor; auto; fail)|intros ->; apply Reports_nothing; exact D]].
  all: try (inversion D; fail).
  - destruct i; [inversion D|]. split; [intros R; inversion R; subst; [contradiction|reflexivity]|intros ->; constructor].
  - split; [intros R; inversion R; subst; [contradiction|reflexivity]|intros ->; constructor; exact D].
  - assert (depends f) by (inversion D; auto). split; [intros R; inversion R; subst; [contradiction|reflexivity]|intros ->; constructor; auto].
  - rewrite <- picks_iff. split; [intros R; inversion R; subst; [contradiction|assumption]|intros P; constructor; auto].
  - rewrite <- picks_iff. split; [intros R; inversion R; subst; [contradiction|assumption]|intros P; constructor; auto].
  - rewrite <- picks_iff. split; [intros R; inversion R; subst; [contradiction|assumption]|intros P; constructor; auto].
  - rewrite <- picks_user_iff. split; [intros R; inversion R; subst; [contradiction|assumption]|intros P; constructor; auto].
  - destruct (depends_dec f) as [D|D].
    + assert (G : has_param f = true) by (apply C72_depends; exact D). cbn [get_params has_param]. rewrite G.
      split.
      * intros R. inversion R as [g N| | | | | | | |asg g k D' R']; subst; [exfalso; apply N; constructor; auto|]. apply IHf. exact R'.
      * intros ->. constructor; auto. apply IHf. reflexivity.
    + assert (G : has_param f = false) by (apply has_param_false; exact D). cbn [get_params has_param]. rewrite G.
      split.
      * intros R. inversion R as [g N| | | | | | | |asg g k D' R']; subst; [reflexivity|contradiction].
      * intros ->. apply Reports_nothing. intros H. inversion H. contradiction.
Qed.
Print Assumptions C72_reports.

Lemma first_in : forall ps f, first_type ps f -> In (UData f) ps.
Proof. intros ps f H. induction H; cbn; auto. Qed.
Lemma some_first : forall ps f, In (UData f) ps -> exists g, first_type ps g.
Proof.
  induction ps as [|p ps IH]; cbn; intros f H; [contradiction|]. destruct p as [g|z|s].
  - exists g. constructor.
  - destruct H as [H|H]; [discriminate|]. destruct (IH _ H) as (g & G). exists g. constructor. exact G.
  - destruct H as [H|H]; [discriminate|]. destruct (IH _ H) as (g & G). exists g. constructor. exact G.
Qed.

(** A type that says it has parameters mentions a name. *)
Theorem C72_mentions : forall f, has_param f = true -> exists x, mentions x f.
Proof.
  intros f H. apply C72_depends in H.
  induction H; try (match goal with H : exists x, mentions x _ |- _ => destruct H as (x & H); exists x; econstructor; eauto; fail end); try (eexists; constructor; fail).
  destruct IHdepends as (x & M). exists x. apply In_user with (f := f); [apply first_in; assumption|exact M].
Qed.
Print Assumptions C72_mentions.

(** A type that mentions a name says so, unless a user-defined type in it has two types among its parameters. *)
Theorem C72_mentions_back : forall f x, simple f -> mentions x f -> has_param f = true.
Proof.
  intros f x S1 M. apply C72_depends. revert S1. induction M; intros S1; inversion S1; subst; try (constructor; auto; fail).
  - eapply On_field; eauto.
  - eapply On_input; eauto.
  - match goal with U : forall f g : fdt, In _ _ -> In _ _ -> f = g, I : In (UData _) _ |- _ => destruct (some_first _ _ I) as (g & G); pose proof (U _ _ I (first_in _ _ G)); subst g end.
    eapply On_user; eauto.
Qed.
Print Assumptions C72_mentions_back.

Theorem C72_mentions_refuted : exists f x, mentions x f /\ has_param f = false /\ get_params f = [].
Proof.
  exists (FUser NullRequired 0 [UData (FPrim PrimI32 NullRequired 0); UData (FSingle (SFixed FxChar) NullRequired 0 (IVar "n"))] "pair"), "n"%string.
  split; [|split; reflexivity].
  apply In_user with (f := FSingle (SFixed FxChar) NullRequired 0 (IVar "n")); [cbn; auto|constructor].
Qed.
Print Assumptions C72_mentions_refuted.

Example C72_nonvacuous :
  let d := FDecimal NullRequired 0 (IVar "p") (IConc 2) in let i := FPrim PrimI32 NullRequired 0 in
  depends (FStruct NullRequired 0 [i; FList NullRequired 0 d; FMap NullRequired 0 i d]) /\
  get_params (FStruct NullRequired 0 [i; FList NullRequired 0 d; FMap NullRequired 0 i d]) = [GType (FList NullRequired 0 d); GType (FMap NullRequired 0 i d)] /\
  get_params d = [GInt (IVar "p"); GInt (IConc 2)] /\
  get_params (FUser NullRequired 0 [UInt 3; UData d; UStr "s"; UData i] "u") = [GUdt (UData d)] /\
  simple (FUser NullRequired 0 [UInt 3; UData d; UStr "s"] "u").
Proof.
  cbv zeta. split; [apply C72_depends; reflexivity|]. do 3 (split; [reflexivity|]). apply Simple_user.
  - intros f [H|[H|[H|[]]]]; try discriminate. injection H as <-. constructor.
  - intros f g [H|[H|[H|[]]]] [G|[G|[G|[]]]]; congruence.
Qed.
