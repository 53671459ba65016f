(** Proofs for C20: being the same is symmetric and transitive. *)

From Coq Require Import ZArith String List Bool Lia.
From Verif Require Import Base TypesModel TypesSpec LitModel LitSpec LitProofs
  ExprModel ExprOpsModel ExprSpec ExprProofs.
Import ListNotations.
Local Open Scope Z_scope.

(** [R] can be turned round and continued from [x] *)
Definition turns {A} (R : A -> A -> Prop) (x : A) : Prop :=
  forall y, R x y -> R y x /\ forall z, R y z -> R x z.

Lemma turns_list : forall A (R : A -> A -> Prop) l, Forall (turns R) l -> turns (Forall2 R) l.
Proof.
  intros A R l H. induction H as [|x l Hx H IH]; intros m HF; inversion HF as [|? y ? m' H1 H2]; subst.
  - split; auto.
  - destruct (Hx _ H1) as [S1 T1]. destruct (IH _ H2) as [S2 T2]. split; [constructor; auto|].
    intros z Hz. inversion Hz; subst. constructor; auto.
Qed.
Lemma turns_pair : forall A B (R : A -> A -> Prop) (Q : B -> B -> Prop) p, turns R (fst p) -> turns Q (snd p) ->
  turns (fun p q => R (fst p) (fst q) /\ Q (snd p) (snd q)) p.
Proof.
  intros A B R Q p HR HQ q [H1 H2]. destruct (HR _ H1), (HQ _ H2). split; auto. intros z [? ?]. auto.
Qed.
Lemma turns_eq : forall A (x : A), turns eq x.
Proof. intros A x y ->. auto. Qed.
Lemma turns_type : forall t, turns same_type t.
Proof. unfold turns, same_type. intros t y ->. auto. Qed.
Lemma turns_fp : forall e m x, turns (fp_same e m) x.
Proof.
  unfold turns, fp_same. intros e m x y (H1 & H2 & H3). split; [intuition congruence|].
  intros z (H4 & H5 & H6). split; [auto|]. split; [auto|]. destruct H3 as [->|[]]; [auto|].
  destruct H6 as [<-|[]]; auto.
Qed.

Lemma turns_msg : forall m, turns msg_same m.
Proof.
  apply plit_ind'. intros n v b IH.
  assert (HB : turns body_same b).
  { destruct b; intros y H; inversion H as [? ? Q|? ? Q|? ? Q|? ? Q|? ? Q|? ? ? ? Q|? Q]; subst; try contradiction;
      try (split; [constructor; exact I|intros ? Hz; exact Hz]).
    - destruct (turns_fp _ _ _ _ Q) as [S1 T1]. split; [constructor; auto|]. intros z Hz. inversion Hz; subst; try contradiction. constructor; auto.
    - destruct (turns_fp _ _ _ _ Q) as [S1 T1]. split; [constructor; auto|]. intros z Hz. inversion Hz; subst; try contradiction. constructor; auto.
    - destruct (turns_list _ _ _ IH _ Q) as [S1 T1]. split; [constructor; auto|]. intros z Hz. inversion Hz; subst; try contradiction. constructor; auto.
    - apply subs_map in IH.
      assert (IH' : Forall (turns (fun p q => msg_same (fst p) (fst q) /\ msg_same (snd p) (snd q))) kvs).
      { eapply Forall_impl; [|exact IH]. intros p [H1 H2]. apply turns_pair; auto. }
      destruct (turns_list _ _ _ IH' _ Q) as [S1 T1]. split; [constructor; auto|]. intros z Hz. inversion Hz; subst; try contradiction. constructor; auto.
    - destruct (turns_list _ _ _ IH _ Q) as [S1 T1]. split; [constructor; auto|]. intros z Hz. inversion Hz; subst; try contradiction. constructor; auto.
    - assert (HU : turns uval_same val).
      { destruct val as [| |l]; intros w HW; inversion HW as [| |? ? Q']; subst; try (split; [constructor|auto]; fail).
        cbn [subs] in IH. destruct (turns_list _ _ _ IH _ Q') as [S1 T1]. split; [constructor; auto|]. intros z Hz. inversion Hz; subst. constructor; auto. }
      destruct (HU _ Q) as [S1 T1]. split; [constructor; auto|]. intros z Hz. inversion Hz; subst; try contradiction. constructor; auto. }
  intros y H. inversion H as [? ? ? ? Q]; subst. destruct (HB _ Q) as [S1 T1]. split; [constructor; auto|].
  intros z Hz. inversion Hz; subst. constructor; auto.
Qed.
Lemma turns_pval : forall v, turns pval_same v.
Proof.
  intros v. destruct v; intros y H; try (cbn in H; subst y; split; [reflexivity|auto]; fail).
  - destruct y; cbn in H; try discriminate. destruct (turns_fp _ _ _ _ H) as [S1 T1]. split; auto.
    intros z Hz. destruct z; cbn in *; try discriminate. auto.
  - destruct y; cbn in H; try discriminate. destruct (turns_fp _ _ _ _ H) as [S1 T1]. split; auto.
    intros z Hz. destruct z; cbn in *; try discriminate. auto.
Qed.
Lemma turns_uval : forall v, turns uval_same v.
Proof.
  intros v. destruct v as [| |l]; intros w HW; inversion HW as [| |? ? Q']; subst; try (split; [constructor|auto]; fail).
  destruct (turns_list _ _ _ (proj2 (Forall_forall _ _) (fun x _ => turns_msg x)) _ Q') as [S1 T1].
  split; [constructor; auto|]. intros z Hz. inversion Hz; subst. constructor; auto.
Qed.
Lemma turns_protoval : forall v, turns protoval_same v.
Proof.
  intros v. destruct v; intros y H; try (cbn in H; subst y; split; [reflexivity|auto]; fail).
  destruct y; cbn in H; try discriminate. destruct (turns_uval _ _ H) as [S1 T1]. split; auto.
  intros z Hz. destruct z; cbn in *; try discriminate. auto.
Qed.

Lemma turns_lit : forall l, turns same_lit l.
Proof.
  apply lit_ind'.
  - intros l HL. destruct l; try contradiction; intros y H; inversion H as [? ? Q|? ? ? ? Q1 Q2| | | |? ? ? ? Q|? ? ? ? Q1 Q2| |]; subst.
    + destruct (turns_type _ _ Q) as [S1 T1]. split; [constructor; auto|]. intros z Hz. inversion Hz; subst. constructor; auto.
    + destruct (turns_type _ _ Q1) as [S1 T1]. destruct (turns_pval _ _ Q2) as [S2 T2].
      split; [constructor; auto|]. intros z Hz. inversion Hz; subst. constructor; auto.
    + destruct (turns_type _ _ Q) as [S1 T1]. split; [constructor; auto|]. intros z Hz. inversion Hz; subst. constructor; auto.
    + destruct (turns_type _ _ Q1) as [S1 T1]. destruct (turns_protoval _ _ Q2) as [S2 T2].
      split; [constructor; auto|]. intros z Hz. inversion Hz; subst. constructor; auto.
    + split; [constructor|auto].
    + split; [constructor|auto].
  - intros fs t IH y H. inversion H as [| |? ? ? ? Q1 Q2| | | | | |]; subst.
    destruct (turns_type _ _ Q1) as [S1 T1]. destruct (turns_list _ _ _ IH _ Q2) as [S2 T2].
    split; [constructor; auto|]. intros z Hz. inversion Hz; subst. constructor; auto.
  - intros fs t IH y H. inversion H as [| | |? ? ? ? Q1 Q2| | | | |]; subst.
    destruct (turns_type _ _ Q1) as [S1 T1]. destruct (turns_list _ _ _ IH _ Q2) as [S2 T2].
    split; [constructor; auto|]. intros z Hz. inversion Hz; subst. constructor; auto.
  - intros kvs t IH y H. inversion H as [| | | |? ? ? ? Q1 Q2| | | |]; subst.
    assert (IH' : Forall (turns (fun p q => same_lit (fst p) (fst q) /\ same_lit (snd p) (snd q))) kvs).
    { eapply Forall_impl; [|exact IH]. intros p [H1 H2]. apply turns_pair; auto. }
    destruct (turns_type _ _ Q1) as [S1 T1]. destruct (turns_list _ _ _ IH' _ Q2) as [S2 T2].
    split; [constructor; auto|]. intros z Hz. inversion Hz; subst. constructor; auto.
Qed.

Section Turning.
Context {R : Type}.
Variable same_mask : mask -> mask -> bool.
Variable same_rel : R -> R -> bool.
Hypothesis mask_turns : forall m, turns (fun a b => same_mask a b = true) m.
Hypothesis rel_turns : forall r, turns (fun a b => same_rel a b = true) r.
Notation same := (same_expr same_mask same_rel).
Notation sarg := (same_farg same_mask same_rel).

Lemma turns_step : forall s, turns same_step s.
Proof.
  intros [i|k|i] y H; inversion H as [|? ? Q|]; subst; try (split; [constructor|auto]; fail).
  destruct (turns_lit _ _ Q) as [S1 T1]. split; [constructor; auto|]. intros z Hz. inversion Hz; subst. constructor; auto.
Qed.
Lemma turns_reference : forall f, turns (same_reference same_mask same_rel) f.
Proof.
  intros f y H. inversion H as [l l' HN Q|m m' Q]; subst.
  - assert (HN' : l' <> []) by (intros ->; inversion Q; subst; auto).
    destruct (turns_list _ _ _ (proj2 (Forall_forall _ _) (fun x _ => turns_step x)) _ Q) as [S1 T1].
    split; [constructor; auto|]. intros z Hz. inversion Hz; subst. constructor; auto.
  - destruct (mask_turns _ _ Q) as [S1 T1]. split; [constructor; auto|]. intros z Hz. inversion Hz; subst. constructor; auto.
Qed.
Lemma turns_args : forall l, Forall (turns same) (flat_map farg_sub l) -> Forall (turns sarg) l.
Proof.
  intros l H. apply ch_args in H. eapply Forall_impl; [|exact H]. intros a Ha y HY.
  inversion HY as [|? ? Q|? ? Q|]; subst.
  - split; [constructor|auto].
  - destruct (turns_type _ _ Q) as [S1 T1]. split; [constructor; auto|]. intros z Hz. inversion Hz; subst. constructor; auto.
  - destruct (Ha _ Q) as [S1 T1]. split; [apply SA_expr; auto|]. intros z Hz. inversion Hz as [| |? ? Q'|]; subst.
    + apply SA_expr; auto.
    + auto.
  - split; [apply SA_nil|auto].
Qed.
Lemma turns_pairs : forall l, Forall (turns same) (flat_map (fun p => [fst p; snd p]) l) ->
  turns (Forall2 (fun p q => same (fst p) (fst q) /\ same (snd p) (snd q))) l.
Proof.
  intros l H. apply ch_pairs in H. apply turns_list. eapply Forall_impl; [|exact H].
  intros p [H1 H2]. apply turns_pair; auto.
Qed.
Lemma turns_cases : forall l, Forall (turns same) (map snd l) ->
  turns (Forall2 (fun p q => same_lit (fst p) (fst q) /\ same (snd p) (snd q))) l.
Proof.
  intros l H. apply ch_map in H. apply turns_list. eapply Forall_impl; [|exact H].
  intros p Hp. apply turns_pair; auto. apply turns_lit.
Qed.

Theorem turns_expr : forall e, turns same e.
Proof.
  apply (expr_ind' R). intros e IH.
  assert (TY : forall l, turns (Forall2 same_type) l).
  { intros l. apply turns_list. apply Forall_forall. intros; apply turns_type. }
  assert (NILL : forall x, ~ same x (ELit LNil)).
  { intros x H. inversion H as [? ? Q| | | | | | | | | | | | | | | | | |]. inversion Q. }
  destruct e; cbn [children] in IH; intros y H.
  - inversion H as [? ? Q| | | | | | | | | | | | | | | | | |]; subst. destruct (turns_lit _ _ Q).
    split; [constructor; auto|]. intros z Hz. inversion Hz; subst. constructor; auto.
  - inversion H as [|? ? ? ? ? ? Q1 Q2| | | | | | | | | | | | | | | | |]; subst.
    assert (HR : turns (same_root same_mask same_rel) r).
    { intros w HW. inversion HW as [| | |? ? Q]; subst; try (split; [constructor|auto]; fail).
      inversion IH as [|? ? H1 ?]; subst. destruct (H1 _ Q). split; [constructor; auto|].
      intros z Hz. inversion Hz; subst. constructor; auto. }
    destruct (HR _ Q1). destruct (turns_reference _ _ Q2). split; [constructor; auto|].
    intros z Hz. inversion Hz; subst. constructor; auto.
  - inversion H as [| |? ? ? ? ? ? ? ? Q1 Q2| | | | | | | | | | | | | | | |]; subst.
    destruct (turns_list _ _ _ (turns_args _ IH) _ Q1). destruct (turns_type _ _ Q2).
    split; [constructor; auto|]. intros z Hz. inversion Hz; subst. constructor; auto.
  - apply Forall_app in IH. destruct IH as [IH1 IH]. apply Forall_app in IH. destruct IH as [IH2 IH3].
    inversion H as [| | |? ? ? ? ? ? ? ? ? ? ? ? ? ? ? ? ? ? Q1 Q2 Q3 Q4| | | | | | | | | | | | | | |]; subst.
    destruct (turns_list _ _ _ (turns_args _ IH1) _ Q1). destruct (turns_type _ _ Q2).
    destruct (turns_list _ _ _ IH2 _ Q3).
    assert (HS : turns (Forall2 (fun p q => same (fst p) (fst q) /\ snd p = snd q)) sorts).
    { apply turns_list. apply ch_map in IH3. eapply Forall_impl; [|exact IH3]. intros p Hp. apply turns_pair; auto. apply turns_eq. }
    destruct (HS _ Q4).
    split; [constructor; auto|]. intros z Hz. inversion Hz; subst. constructor; auto.
  - apply Forall_app in IH. destruct IH as [IH1 IH2]. inversion IH2 as [|? ? H1 ?]; subst.
    inversion H as [| | | |? ? ? ? Q1 Q2| | | | | | | | | | | | | |]; subst.
    destruct (turns_pairs _ IH1 _ Q1). destruct (H1 _ Q2).
    split; [constructor; auto|]. intros z Hz. inversion Hz; subst. constructor; auto.
  - inversion IH as [|? ? Hm IH']; subst. apply Forall_app in IH'. destruct IH' as [IH1 IH2]. inversion IH2 as [|? ? He ?]; subst.
    inversion H as [| | | | |? ? ? ? ? ? Q1 Q2 Q3|? ? ? ? Q1 Q2| | | | | | | | | | | |]; subst.
    + destruct (Hm _ Q1). destruct (turns_cases _ IH1 _ Q2). destruct (He _ Q3).
      split; [apply SE_switch; auto|]. intros z Hz. inversion Hz; subst; [apply SE_switch; auto|].
      exfalso. eapply NILL; eauto.
    + destruct (Hm _ Q1). destruct (turns_cases _ IH1 _ Q2).
      split; [apply SE_switch_no_else; auto|]. intros z Hz. inversion Hz as [| | | | |? ? ? ? ? ? Q1' Q2' Q3'|? ? ? ? Q1' Q2'| | | | | | | | | | | |]; subst; [|apply SE_switch_no_else; auto].
      exfalso. inversion Q3' as [? ? Q| | | | | | | | | | | | | | | | | |]. inversion Q.
  - inversion IH as [|? ? H1 IH']; subst. inversion H as [| | | | | | |? ? ? ? Q1 Q2| | | | | | | | | | |]; subst.
    destruct (H1 _ Q1). destruct (turns_list _ _ _ IH' _ Q2).
    split; [constructor; auto|]. intros z Hz. inversion Hz; subst. constructor; auto.
  - apply Forall_app in IH. destruct IH as [IH1 IH2]. apply ch_concat in IH2.
    inversion H as [| | | | | | | |? ? ? ? Q1 Q2| | | | | | | | | |]; subst.
    destruct (turns_list _ _ _ IH1 _ Q1).
    assert (H2 : Forall (turns (Forall2 same)) opts) by (eapply Forall_impl; [|exact IH2]; intros; apply turns_list; auto).
    destruct (turns_list _ _ _ H2 _ Q2).
    split; [constructor; auto|]. intros z Hz. inversion Hz; subst. constructor; auto.
  - inversion IH as [|? ? H1 IH']; subst. inversion H as [| | | | | | | | |? ? ? ? ? Q1 Q2| | | | | | | | |]; subst.
    destruct (H1 _ Q2). destruct (turns_type _ _ Q1).
    split; [constructor; auto|]. intros z Hz. inversion Hz; subst. constructor; auto.
  - inversion H as [| | | | | | | | | |? ? ? ? Q| | | | | | | |]; subst. destruct (turns_pairs _ IH _ Q).
    split; [constructor; auto|]. intros z Hz. inversion Hz; subst. constructor; auto.
  - inversion H as [| | | | | | | | | | |? ? ? ? Q| | | | | | |]; subst. destruct (turns_list _ _ _ IH _ Q).
    split; [constructor; auto|]. intros z Hz. inversion Hz; subst. constructor; auto.
  - inversion H as [| | | | | | | | | | | |? ? ? ? Q| | | | | |]; subst. destruct (turns_list _ _ _ IH _ Q).
    split; [constructor; auto|]. intros z Hz. inversion Hz; subst. constructor; auto.
  - inversion H as [| | | | | | | | | | | | |? ? ? Q| | | | |]; subst. destruct (turns_type _ _ Q).
    split; [constructor; auto|]. intros z Hz. inversion Hz; subst. constructor; auto.
  - inversion IH as [|? ? H1 IH']; subst. inversion H as [| | | | | | | | | | | | | |? ? ? ? ? ? Q1 Q2| | | |]; subst.
    destruct (H1 _ Q2). destruct (TY _ _ Q1).
    split; [constructor; auto|]. intros z Hz. inversion Hz; subst. constructor; auto.
  - inversion H as [| | | | | | | | | | | | | | |? ? Q| | |]; subst. destruct (rel_turns _ _ Q).
    split; [constructor; auto|]. intros z Hz. inversion Hz; subst. constructor; auto.
  - inversion H as [| | | | | | | | | | | | | | | |? ? ? ? Q1 Q2| |]; subst.
    destruct (turns_list _ _ _ IH _ Q1). destruct (rel_turns _ _ Q2).
    split; [constructor; auto|]. intros z Hz. inversion Hz; subst. constructor; auto.
  - inversion H as [| | | | | | | | | | | | | | | | |? ? ? Q|]; subst. destruct (rel_turns _ _ Q).
    split; [constructor; auto|]. intros z Hz. inversion Hz; subst. constructor; auto.
  - inversion IH as [|? ? H1 IH']; subst. inversion H as [| | | | | | | | | | | | | | | | | |? ? ? ? ? ? Q1 Q2]; subst.
    destruct (H1 _ Q1). destruct (rel_turns _ _ Q2).
    split; [constructor; auto|]. intros z Hz. inversion Hz; subst. constructor; auto.
Qed.
End Turning.
