(** Theorems of C81: setting the nullability of a declared type. *)

From Coq Require Import ZArith String Bool List Lia.
From Verif Require Import Base TypesModel SigModel DeclModel TextModel NullSetModel NullSetSpec.
Import ListNotations.
Local Open Scope string_scope.

(** It makes the type the one that differs in the nullability only. *)
Theorem C81_set : forall f n g, set_nullability f n = g <-> but_nullability n f g.
Proof.
  intros f n g. split.
  - intros <-. induction f; cbn [set_nullability]; constructor. assumption.
  - intros B. induction B; cbn [set_nullability]; congruence.
Qed.
Theorem C81_reported : forall f n, fdt_nullability (set_nullability f n) = n.
Proof. intros f n. induction f; cbn; congruence. Qed.
(** The last setting counts, and setting what is there changes nothing. *)
Theorem C81_last : forall f ns n, fold_left set_nullability (ns ++ [n])%list f = set_nullability f n.
Proof.
  assert (T : forall f a b, set_nullability (set_nullability f a) b = set_nullability f b) by (intros f a b; induction f; cbn; congruence).
  intros f ns n. rewrite fold_left_app. cbn. revert f. induction ns as [|a ns IH]; intros f; cbn; [reflexivity|]. rewrite IH. apply T.
Qed.
Theorem C81_same : forall f, set_nullability f (fdt_nullability f) = f.
Proof. intros f. induction f; cbn; congruence. Qed.

Lemma has_set : forall f n, has_param (set_nullability f n) = has_param f.
Proof. intros f n. induction f; cbn; congruence. Qed.
Lemma params_set : forall f n, get_params (set_nullability f n) = get_params f.
Proof.
  intros f n. induction f; try reflexivity. cbn [set_nullability]. cbn [get_params]. rewrite IHf. cbn [has_param]. rewrite has_set. reflexivity.
Qed.
Lemma leaf_set : forall f n, leaf_params (set_nullability f n) = leaf_params f.
Proof. intros f n. induction f; try reflexivity. cbn [set_nullability leaf_params has_param]. rewrite IHf, has_set. reflexivity. Qed.
Lemma without_set : forall f n t, match_without (set_nullability f n) t = match_without f t.
Proof. intros f n t. induction f; try reflexivity. cbn [set_nullability match_without]. exact IHf. Qed.
(** Its short name, parameters, what it binds, the user-defined types in it, and the arguments it accepts apart from nullability stay as they were. *)
Theorem C81_kept : forall f n,
  fdt_short (set_nullability f n) = fdt_short f /\ has_param (set_nullability f n) = has_param f /\ get_params (set_nullability f n) = get_params f /\
  leaf_params (set_nullability f n) = leaf_params f /\ user_types (set_nullability f n) = user_types f /\
  (forall t, match_without (set_nullability f n) t = match_without f t) /\
  (forall t b, bind_any (set_nullability f n) t b = bind_any f t b) /\ (forall x t, unwrap_any x (set_nullability f n) t = unwrap_any x f t).
Proof.
  intros f n. split; [induction f; try reflexivity; cbn [set_nullability fdt_short]; assumption|].
  split; [apply has_set|]. split; [apply params_set|]. split; [apply leaf_set|].
  split; [induction f; try reflexivity; cbn [set_nullability user_types]; assumption|].
  split; [intros t; apply without_set|]. split; intros; destruct f; reflexivity.
Qed.
(** With nullability it accepts arguments of the nullability set only, and of those the ones it would accept if it had always been declared with it. *)
Theorem C81_accepted : forall f n t,
  (match_with (set_nullability f n) t = true <-> n = get_nullability t /\ match_with (set_nullability f (get_nullability t)) t = true) /\
  (fdt_nullability f = get_nullability t -> match_with (set_nullability f (get_nullability t)) t = match_with f t) /\
  (match_with f t = true -> (match_with (set_nullability f n) t = true <-> n = get_nullability t)).
Proof.
  intros f n t.
  assert (A : match_with (set_nullability f n) t = true <-> n = get_nullability t /\ match_with (set_nullability f (get_nullability t)) t = true).
  { assert (N : match_with (set_nullability f n) t = true -> n = get_nullability t).
    { intros M. assert (E : Z.eqb (fdt_nullability (set_nullability f n)) (get_nullability t) = true) by (destruct (set_nullability f n); cbn [match_with] in M; apply andb_prop in M; exact (proj1 M)).
      rewrite C81_reported in E. apply Z.eqb_eq, E. }
    split; [intros M; pose proof (N M) as E; rewrite <- E; auto|intros [-> M]; exact M]. }
  assert (B : fdt_nullability f = get_nullability t -> match_with (set_nullability f (get_nullability t)) t = match_with f t) by (intros <-; rewrite C81_same; reflexivity).
  split; [exact A|]. split; [exact B|]. intros M. rewrite A. split; [tauto|]. intros E. split; [exact E|].
  rewrite B; [exact M|]. assert (X : Z.eqb (fdt_nullability f) (get_nullability t) = true) by (destruct f; cbn [match_with] in M; apply andb_prop in M; exact (proj1 M)).
  apply Z.eqb_eq, X.
Qed.
(** The text has a question mark at one place exactly if the nullability set is NULLABLE, and is otherwise the same; enumerations have none. *)
Theorem C81_text : forall f,
  (~ is_enum f -> exists before after, forall n, fdt_string (set_nullability f n) = before ++ (if Z.eqb n NullNullable then "?" else "") ++ after) /\
  (is_enum f -> forall n, fdt_string (set_nullability f n) = fdt_string f).
Proof.
  assert (NIL : forall s : string, s ++ "" = s) by (induction s as [|c s IH]; cbn; [|rewrite IH]; reflexivity).
  assert (ASS : forall a b c : string, (a ++ b) ++ c = a ++ b ++ c) by (induction a as [|c a IH]; intros; cbn; [|rewrite IH]; reflexivity).
  intros f. split.
  - induction f; intros E.
    2: destruct E; constructor.
    10: { destruct IHf as (x & y & IH); [intros X; apply E; constructor; exact X|]. eexists (_ ++ x), y. intros n. cbn [set_nullability fdt_string]. rewrite IH. rewrite ASS. reflexivity. }
    all: cbn [set_nullability fdt_string]; unfold str_nullable.
    1: { eexists _, "". intros m. rewrite NIL. reflexivity. }
    3: { eexists _, "". intros m. rewrite NIL. reflexivity. }
    7: { eexists ("u!" ++ name), _. intros m. rewrite ASS. reflexivity. }
    all: eexists _, _; intros m; reflexivity.
  - intros E n. induction E; [reflexivity|]. cbn [set_nullability fdt_string]. rewrite IHE. reflexivity.
Qed.

Lemma with_set : forall f n vs, with_parameters (set_nullability f n) vs = match with_parameters f vs with Ok t => Ok (with_nullability n t) | Err => Err | Panic => Panic end.
Proof.
  intros f n vs. destruct f; cbn [set_nullability]; try reflexivity; cbn [with_parameters].
  - unfold single_with_parameters. destruct vs as [|a [|b vs]]; [destruct i|destruct a|destruct i]; try reflexivity; destruct k; reflexivity.
  - unfold decimal_with_parameters. destruct vs as [|a [|b [|c vs]]]; try (destruct precision, scale; reflexivity). destruct a, b; reflexivity.
  - destruct vs as [|a [|b vs]]; try reflexivity; destruct a; reflexivity.
  -
    destruct vs as [|a [|b [|c vs]]]; try (destruct a, b; reflexivity);
      (destruct (has_param f1 || has_param f2); [reflexivity|]; destruct (return_type f1 [] []); cbn [bind]; try reflexivity; destruct (return_type f2 [] []); reflexivity).
  - destruct (negb _); [reflexivity|]. match goal with |- bind ?r _ = _ => destruct r; reflexivity end.
  - match goal with |- bind ?r _ = _ => destruct r; cbn [bind]; try reflexivity end. destruct (with_parameters f vs); reflexivity.
  - destruct (negb _); [reflexivity|]. match goal with |- bind ?r _ = _ => destruct r; reflexivity end.
Qed.
(** The result type of a function is the same but for the nullability set. *)
Theorem C81_result : forall f n ps args, (forall name v m, f <> FAny name v m) -> (forall c m v name opts, f <> FEnum c m v name opts) ->
  return_type (set_nullability f n) ps args = match return_type f ps args with Ok t => Ok (with_nullability n t) | Err => Err | Panic => Panic end.
Proof.
  intros f n ps args NA NE. destruct f; try (destruct (NA _ _ _ eq_refl)); try (destruct (NE _ _ _ _ _ eq_refl)); cbn [set_nullability]; try reflexivity; cbn [return_type].
  - destruct i; [destruct k; reflexivity|]. cbn [get_params has_param]. match goal with |- bind ?r _ = _ => destruct r as [vs| |]; cbn [bind]; try reflexivity end. apply (with_set (FSingle k n0 v (IVar _))).
  - assert (W : forall vs, decimal_with_parameters n precision scale vs = match decimal_with_parameters n0 precision scale vs with Ok t => Ok (with_nullability n t) | Err => Err | Panic => Panic end)
      by (intros vs; apply (with_set (FDecimal n0 v precision scale))).
    cbn [get_params has_param]. destruct precision, scale; try reflexivity; match goal with |- bind ?r _ = _ => destruct r as [vs| |]; cbn [bind]; try reflexivity end; apply W.
  - destruct (return_type f ps args); reflexivity.
  - destruct (return_type f1 ps args); cbn [bind]; try reflexivity. destruct (return_type f2 ps args); reflexivity.
  - match goal with |- bind ?r _ = _ => destruct r; reflexivity end.
  - match goal with |- bind ?r _ = _ => destruct r; cbn [bind]; try reflexivity end. destruct (return_type f ps args); reflexivity.
  - match goal with |- bind ?r _ = _ => destruct r; reflexivity end.
  - rewrite params_set. match goal with |- bind ?r _ = _ => destruct r as [vs| |]; cbn [bind]; try reflexivity end. apply with_set.
Qed.
(** An enumeration keeps being what it is; any type takes the argument's type, made nullable exactly if NULLABLE was set. *)
Theorem C81_result_enum : forall c m v name opts n ps args, return_type (set_nullability (FEnum c m v name opts) n) ps args = Ok (TEnum c n v name opts).
Proof. reflexivity. Qed.
Theorem C81_result_any : forall name v m n ps args,
  return_type (set_nullability (FAny name v m) n) ps args =
  match return_type (FAny name v NullRequired) ps args with Ok t => Ok (if Z.eqb n NullNullable then with_nullability n t else t) | Err => Err | Panic => Panic end.
Proof.
  intros name v m n ps args. cbn [set_nullability return_type]. unfold any_return_type. destruct (first_some _ ps args) as [[t|]| |]; cbn [bind]; try reflexivity.
  destruct (Z.eqb_spec n NullNullable) as [->|]; reflexivity.
Qed.

(** A result type obtained before changes when the declared type is set, exactly if that is a primitive type or an enumeration, or a derivation that ends in a
    primitive type, and had another nullability. *)
Theorem C81_seen : forall f ps args n t, return_type f ps args = Ok t ->
  exists u, result_seen_after f ps args n = Ok u /\
  (u <> t <-> fdt_nullability f <> n /\ ((exists p m v, f = FPrim p m v \/ exists l, f = FDeriv l (FPrim p m v)) \/ exists c m v name opts, f = FEnum c m v name opts)).
Proof.
  intros f ps args n t R. unfold result_seen_after. rewrite R. cbn [bind]. eexists. split; [reflexivity|].
  destruct f; cbn [returns_itself]; try (split; [intros X; congruence|intros [_ [(p' & m & v' & [X|(l & X)])|(c' & m & v' & nm & o & X)]]; discriminate]).
  - cbn in R. injection R as <-. cbn. split; [intros X; split; [congruence|left; eauto]|intros [X _]; congruence].
  - cbn in R. injection R as <-. cbn. split; [intros X; split; [congruence|right; eauto 6]|intros [X _]; congruence].
  - destruct f; try (split; [intros X; congruence|intros [_ [(p' & m & v' & [X|(l & X)])|(c' & m & v' & nm & o & X)]]; discriminate]).
    cbn [return_type with_parameters] in R. destruct (derivation_params _ _ _ _); cbn [bind] in R; [|discriminate..]. injection R as <-. cbn.
    split; [intros X; split; [congruence|left; eauto 6]|intros [X _]; congruence].
Qed.
(** What a function returned as its result type can be changed by setting the declared type afterwards. *)
Theorem C81_shared_refuted : exists f t, return_type f [] [] = Ok t /\ result_seen_after f [] [] NullNullable <> Ok t.
Proof. exists (FPrim PrimI64 NullRequired 0), (TPrim PrimI64 NullRequired 0). split; [reflexivity|discriminate]. Qed.
(** Setting does not reach the parts: a list accepts lists of the nullability set with elements that are accepted with the nullability declared for them. *)
Theorem C81_parts : forall m v e n t,
  match_with (set_nullability (FList m v e) n) t = true <-> exists w u, t = TList n w u /\ match_with e u = true.
Proof.
  intros m v e n t. cbn [set_nullability match_with fdt_nullability]. rewrite andb_true_iff, Z.eqb_eq. split.
  - intros [N M]. destruct t; try discriminate M. cbn in N. subst n. eauto.
  - intros (w & u & -> & M). split; [reflexivity|exact M].
Qed.

Example C81_nonvacuous :
  let f := FList NullRequired 0 (FAny "any1" 0 NullRequired) in
  fdt_string (set_nullability f NullNullable) = "list?<any1>" /\
  return_type (set_nullability f NullNullable) [FAny "any1" 0 NullRequired] [TPrim PrimI64 NullRequired 0] = Ok (TList NullNullable 0 (TPrim PrimI64 NullRequired 0)) /\
  match_with f (TList NullRequired 0 (TPrim PrimI64 NullRequired 0)) = true /\ ~ is_enum f.
Proof. cbv zeta. do 3 (split; [reflexivity|]). intros E. inversion E. Qed.

Print Assumptions C81_set.
Print Assumptions C81_reported.
Print Assumptions C81_last.
Print Assumptions C81_same.
Print Assumptions C81_kept.
Print Assumptions C81_accepted.
Print Assumptions C81_text.
Print Assumptions C81_result.
Print Assumptions C81_result_enum.
Print Assumptions C81_result_any.
Print Assumptions C81_seen.
Print Assumptions C81_shared_refuted.
Print Assumptions C81_parts.
Print Assumptions C81_nonvacuous.
