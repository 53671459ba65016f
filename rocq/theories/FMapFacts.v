(** Facts about FMap.v. *)

From Coq Require Import List Bool ZArith Permutation Lia.
From Verif Require Import FMap.
Import ListNotations.

Section Facts.
  Context {K V : Type}.
  Variable eqb : K -> K -> bool.
  Hypothesis eqb_spec : forall a b, eqb a b = true <-> a = b.

  Notation get := (@fm_get K V eqb).
  Notation set := (@fm_set K V eqb).
  Notation del := (@fm_del K V eqb).

  Lemma eqb_refl' : forall a, eqb a a = true.
  Proof. intros; apply eqb_spec; auto. Qed.

  Lemma eqb_neq' : forall a b, a <> b -> eqb a b = false.
  Proof. intros a b H. destruct (eqb a b) eqn:E; auto. apply eqb_spec in E. contradiction. Qed.

  Lemma get_del_same : forall k m, get k (del k m) = None.
  Proof.
    induction m as [|[k' v] m IH]; simpl; auto.
    destruct (eqb k k') eqn:E; simpl; auto. rewrite E. auto.
  Qed.

  Lemma get_del_other : forall k k' m, k <> k' -> get k (del k' m) = get k m.
  Proof.
    induction m as [|[k2 v] m IH]; intros Hne; simpl; auto.
    destruct (eqb k' k2) eqn:E; simpl.
    - apply eqb_spec in E; subst. rewrite (eqb_neq' _ _ Hne). auto.
    - destruct (eqb k k2); auto.
  Qed.

  Lemma get_set_same : forall k v m, get k (set k v m) = Some v.
  Proof. intros; unfold fm_set; simpl. rewrite eqb_refl'; auto. Qed.

  Lemma get_set_other : forall k k' v m, k <> k' -> get k (set k' v m) = get k m.
  Proof.
    intros; unfold fm_set; simpl. rewrite eqb_neq' by auto. apply get_del_other; auto.
  Qed.

  Lemma get_some_in : forall k v m, get k m = Some v -> In (k, v) m.
  Proof.
    induction m as [|[k' v'] m IH]; simpl; intros H; try discriminate.
    destruct (eqb k k') eqn:E; auto.
    apply eqb_spec in E; subst. inversion H; auto.
  Qed.

  Lemma in_get : forall k v m, NoDup (fm_keys m) -> In (k, v) m -> get k m = Some v.
  Proof.
    induction m as [|[k' v'] m IH]; simpl; intros Hn Hi; [contradiction|].
    inversion Hn; subst. destruct Hi as [Hi|Hi].
    - inversion Hi; subst. rewrite eqb_refl'; auto.
    - rewrite eqb_neq'; auto. intros ->. apply H1. apply (in_map fst) in Hi. exact Hi.
  Qed.

  Lemma get_none_notin : forall k m, get k m = None <-> ~ In k (fm_keys m).
  Proof.
    induction m as [|[k' v'] m IH]; simpl; split; intros H; auto.
    - destruct (eqb k k') eqn:E; [discriminate|]. intros [->|Hi].
      + rewrite eqb_refl' in E; discriminate.
      + apply IH; auto.
    - rewrite eqb_neq'; [apply IH|]; intuition.
  Qed.

  Lemma keys_del : forall k m x, In x (fm_keys (del k m)) -> In x (fm_keys m) /\ x <> k.
  Proof.
    intros k m x H. unfold fm_keys, fm_del in *. apply in_map_iff in H as [[a b] [<- H]].
    apply filter_In in H as [H1 H2]. simpl in *. split.
    - apply (in_map fst) in H1; auto.
    - intros ->. rewrite eqb_refl' in H2; discriminate.
  Qed.

  Lemma nodup_del : forall k m, NoDup (fm_keys m) -> NoDup (fm_keys (del k m)).
  Proof.
    induction m as [|[k' v'] m IH]; simpl; intros H; auto.
    inversion H; subst. destruct (eqb k k'); simpl; auto.
    constructor; auto. intros Hi. apply keys_del in Hi as [Hi _]. contradiction.
  Qed.

  Lemma nodup_set : forall k v m, NoDup (fm_keys m) -> NoDup (fm_keys (set k v m)).
  Proof.
    intros k v m H. unfold fm_set. simpl. constructor.
    - intros Hi. apply keys_del in Hi as [_ Hi]. auto.
    - apply nodup_del; auto.
  Qed.

  Lemma del_notin : forall k m, get k m = None -> del k m = m.
  Proof.
    induction m as [|[k' v'] m IH]; simpl; intros H; auto.
    destruct (eqb k k') eqn:E; [discriminate|]. simpl. rewrite IH; auto.
  Qed.

  Lemma len_set_fresh : forall k v m, get k m = None -> fm_len (set k v m) = (fm_len m + 1)%Z.
  Proof.
    intros k v m H. unfold fm_len, fm_set. rewrite del_notin by auto.
    simpl length. lia.
  Qed.

  Lemma perm_keys : forall (m m' : fmap K V), Permutation m m' -> Permutation (fm_keys m) (fm_keys m').
  Proof. intros; unfold fm_keys; apply Permutation_map; auto. Qed.

  Lemma get_perm : forall k m m', NoDup (fm_keys m) -> Permutation m m' -> get k m = get k m'.
  Proof.
    intros k m m' Hn Hp.
    assert (Hn' : NoDup (fm_keys m')).
    { eapply Permutation_NoDup; [apply perm_keys; eauto|auto]. }
    destruct (get k m) eqn:E.
    - symmetry. apply in_get; auto. eapply Permutation_in; eauto. apply get_some_in; auto.
    - symmetry. apply get_none_notin. intros Hi. apply get_none_notin in E. apply E.
      eapply Permutation_in; [apply Permutation_sym, perm_keys; eauto|auto].
  Qed.

  Lemma get_in_keys : forall k v m, get k m = Some v -> In k (fm_keys m).
  Proof. intros k v m H. apply get_some_in in H. apply (in_map fst) in H. auto. Qed.

  Lemma get_filter_spec : forall k m, get k m = None \/ exists v, get k m = Some v.
  Proof. intros. destruct (get k m); eauto. Qed.
End Facts.
