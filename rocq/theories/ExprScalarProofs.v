(** Proofs for C49: IsScalar. *)

From Coq Require Import ZArith String List Bool Lia.
From Verif Require Import Base TypesModel LitModel ExprModel ExprOpsModel ExprSpec ExprProofs ExprBuildProofs.
Import ListNotations.
Local Open Scope Z_scope.

Section Scalar.
Context {R : Type}.
Notation ex := (expr R).

Definition opt_op (e : ex) : list ex := if is_nil_expr e then [] else [e].
Definition ops (e : ex) : list ex :=
  match e with
  | EScalar _ _ args _ _ => flat_map (fun a => match a with AExpr x => opt_op x | _ => [] end) args
  | EIf ifs els => flat_map (fun p => opt_op (fst p) ++ opt_op (snd p)) ifs ++ opt_op els
  | ESwitch m ifs els => m :: map snd ifs ++ opt_op els
  | EOr v opts => v :: opts
  | EMultiOr v opts => v ++ List.concat opts
  | ECast _ x _ => [x]
  | EMap _ _ kvs => flat_map (fun p => [fst p; snd p]) kvs
  | EStruct _ _ fs | EList _ _ fs => fs
  | ESubIn ns _ => ns
  | ESubCmp _ _ l _ => [l]
  | _ => []
  end.

Lemma in_opt : forall e x : ex, In x (opt_op e) <-> x = e /\ e <> ELit LNil.
Proof.
  intros e x. unfold opt_op. destruct (is_nil_cases R e) as [->|[N ->]]; cbn.
  - split; [tauto|]. intros [_ H]. contradiction.
  - split; [intros [<-|[]]; auto|intros [-> _]; auto].
Qed.

Lemma operand_ops : forall e x : ex, operand e x <-> In x (ops e).
Proof.
  intros e x. split.
  - intros H. destruct H; cbn [ops]; try (left; reflexivity); auto.
    + apply in_flat_map. eexists. split; [eassumption|]. apply in_opt. auto.
    + apply in_or_app. left. apply in_flat_map. exists p. split; auto. apply in_or_app.
      destruct H0 as [-> | ->]; [left|right]; apply in_opt; auto.
    + apply in_or_app. right. apply in_opt. auto.
    + right. apply in_or_app. left. apply in_map. auto.
    + right. apply in_or_app. right. apply in_opt. auto.
    + right. auto.
    + apply in_or_app. auto.
    + apply in_or_app. right. apply in_concat. eauto.
    + apply in_flat_map. exists p. split; auto. cbn. intuition.
  - destruct e; cbn [ops]; intros H; try contradiction.
    + apply in_flat_map in H. destruct H as ([s|t|y] & Hi & H); cbn in H; try contradiction. apply in_opt in H. destruct H as [-> H].
      constructor; auto.
    + apply in_app_or in H. destruct H as [H|H].
      * apply in_flat_map in H. destruct H as (p & Hi & H). apply in_app_or in H.
        destruct H as [H|H]; apply in_opt in H; destruct H as [-> H]; eapply Op_if; eauto.
      * apply in_opt in H. destruct H as [-> H]. apply Op_if_else; auto.
    + destruct H as [<-|H]; [constructor|]. apply in_app_or in H. destruct H as [H|H].
      * apply in_map_iff in H. destruct H as (p & <- & H). apply Op_case; auto.
      * apply in_opt in H. destruct H as [-> H]. apply Op_else; auto.
    + destruct H as [<-|H]; [constructor|apply Op_option; auto].
    + apply in_app_or in H. destruct H as [H|H]; [apply Op_value; auto|]. apply in_concat in H. destruct H as (row & H1 & H2).
      eapply Op_row; eauto.
    + destruct H as [<-|[]]. constructor.
    + apply in_flat_map in H. destruct H as (p & Hi & H). eapply Op_key; eauto. cbn in H. intuition.
    + constructor; auto.
    + constructor; auto.
    + constructor; auto.
    + destruct H as [<-|[]]. constructor.
Qed.

Definition every : list ex -> res bool := fix every (l : list ex) : res bool :=
    match l with
    | [] => Ok true
    | x :: l' => let! b := expr_scalar x in if b then every l' else Ok false
    end.
Definition andR (a b : res bool) : res bool := let! x := a in if x then b else Ok false.
Lemma every_app : forall l m, every (l ++ m) = andR (every l) (every m).
Proof.
  unfold andR. induction l as [|x l IH]; intros m; cbn [every app]; auto.
  destruct (expr_scalar x) as [[]| |]; cbn [bind]; auto.
Qed.
Lemma every_opt : forall x, every (opt_op x) = if is_nil_expr x then Ok true else expr_scalar x.
Proof. intros x. unfold opt_op. destruct (is_nil_expr x); cbn; auto. destruct (expr_scalar x) as [[]| |]; auto. Qed.
Lemma every_one : forall x, every [x] = expr_scalar x.
Proof. intros x. cbn. destruct (expr_scalar x) as [[]| |]; auto. Qed.

Lemma scalar_ops : forall e : ex, e <> ELit LNil ->
  match e with EWindow _ _ _ _ _ _ _ _ _ _ _ _ | ELambda _ _ _ _ => True | _ => expr_scalar e = every (ops e) end.
Proof.
  intros e HN. destruct e; auto; cbn [ops].
  - destruct l; auto. contradiction.
  - clear HN; cbn [expr_scalar]. induction args as [|a args IH]; auto.
    cbn [flat_map]. rewrite every_app, <- IH. destruct a as [s|t|x]; cbn [every andR bind]; auto.
    rewrite every_opt. destruct (is_nil_cases R x) as [->|[N ->]]; auto.
    unfold andR. destruct x as [l| | | | | | | | | | | | | | | | |]; auto. destruct l; auto. contradiction.
  - clear HN; cbn [expr_scalar]. rewrite every_app, every_opt. unfold andR. f_equal.
    induction ifs as [|[i t] ifs IH]; auto. cbn [flat_map fst snd]. rewrite !every_app, !every_opt, <- IH. unfold andR.
    destruct (if is_nil_expr i then Ok true else expr_scalar i) as [[]| |]; cbn [bind]; auto.
  - clear HN; cbn [expr_scalar]. change (e1 :: map snd ifs ++ opt_op e2) with ([e1] ++ map snd ifs ++ opt_op e2).
    rewrite !every_app, every_opt, every_one. unfold andR. destruct (expr_scalar e1) as [[]| |]; cbn [bind]; auto. f_equal.
    induction ifs as [|[k t] ifs IH]; auto. cbn [map snd every]. rewrite <- IH. auto.
  - clear HN; cbn [expr_scalar]. rewrite every_app. unfold andR. change (fix every (l : list ex) : res bool := match l with
           | [] => Ok true | x :: l' => let! b := expr_scalar x in if b then every l' else Ok false end) with every.
    destruct (every v) as [[]| |]; cbn [bind]; auto.
    induction opts as [|r opts IH]; auto. cbn [List.concat]. rewrite every_app, <- IH. reflexivity.
  - rewrite every_one. reflexivity.
  - clear HN; cbn [expr_scalar]. induction kvs as [|[k x] kvs IH]; auto. cbn [flat_map fst snd].
    change ([k; x] ++ flat_map (fun p : ex * ex => [fst p; snd p]) kvs) with ([k] ++ [x] ++ flat_map (fun p : ex * ex => [fst p; snd p]) kvs).
    rewrite !every_app, !every_one, <- IH. unfold andR. destruct (expr_scalar k) as [[]| |]; cbn [bind]; auto.
  - rewrite every_one. reflexivity.
Qed.

Definition sc (e : ex) : Prop := whole e -> exists b, expr_scalar e = Ok b /\ (b = true <-> scalar e).
Lemma every_char : forall l, Forall sc l -> Forall whole l -> exists b, every l = Ok b /\ (b = true <-> Forall scalar l).
Proof.
  induction l as [|x l IH]; intros H HW; inversion H as [|? ? H1 H2]; subst; inversion HW as [|? ? H3 H4]; subst; cbn [every].
  - exists true. split; auto. split; auto.
  - destruct (H1 H3) as (b & -> & Hb). cbn [bind]. destruct b.
    + destruct (IH H2 H4) as (c & -> & Hc). exists c. split; auto. rewrite Hc. split; [constructor; tauto|intros Q; inversion Q; auto].
    + exists false. split; auto. split; [discriminate|]. intros Q. inversion Q; subst. tauto.
Qed.

Lemma ops_children : forall (e : ex) P, Forall P (children e) -> Forall P (ops e).
Proof.
  intros e P H. rewrite Forall_forall in *. intros x Hx. apply operand_ops in Hx. apply H.
  destruct Hx; cbn [children]; auto.
  - apply in_flat_map. exists (AExpr x). split; auto. left; auto.
  - apply in_or_app. left. apply in_flat_map. exists p. split; auto. cbn. intuition.
  - apply in_or_app. right. left; auto.
  - left; auto.
  - right. apply in_or_app. left. apply in_map. auto.
  - right. apply in_or_app. right. left; auto.
  - left; auto.
  - right; auto.
  - apply in_or_app. auto.
  - apply in_or_app. right. apply in_concat. eauto.
  - left; auto.
  - apply in_flat_map. exists p. split; auto. cbn. intuition.
  - left; auto.
Qed.

Lemma scalar_unfold : forall e : ex,
  match e with EWindow _ _ _ _ _ _ _ _ _ _ _ _ | ELambda _ _ _ _ => False | _ => True end ->
  (scalar e <-> Forall scalar (ops e)).
Proof.
  intros e HE. rewrite Forall_forall. split.
  - intros H x Hx y Hy. apply H. eapply Uses_operand; eauto. apply operand_ops; auto.
  - intros H y Hy. inversion Hy as [|? x ? Ho Hu]; subst; [|apply (H x); auto; apply operand_ops; auto].
    split; intros; destruct y; try contradiction; discriminate.
Qed.

Theorem scalar_char : forall e : ex, sc e.
Proof.
  apply (expr_ind' R sc). intros e IH HW. apply ops_children in IH.
  assert (HN : e <> ELit LNil) by (apply HW; constructor).
  assert (HO : Forall whole (ops e)).
  { rewrite Forall_forall. intros x Hx y Hy. apply HW. eapply Uses_operand; eauto. apply operand_ops; auto. }
  assert (E := scalar_ops e HN). destruct (every_char _ IH HO) as (b & EB & HB).
  destruct e; try (exists b; rewrite E; split; auto; rewrite HB; symmetry; apply scalar_unfold; exact I).
  - exists false. split; auto. split; [discriminate|]. intros H. destruct (H _ (Uses_self _)) as [H1 _]. exfalso. eapply H1. reflexivity.
  - exists false. split; auto. split; [discriminate|]. intros H. destruct (H _ (Uses_self _)) as [_ H1]. exfalso. eapply H1. reflexivity.
Qed.
End Scalar.
