(** Proofs about the extension set. *)

From Coq Require Import List ZArith String Bool Lia Permutation.
From Verif Require Import Base FMap FMapFacts ExtSetModel ExtSetSpec.
Import ListNotations.
Local Open Scope Z_scope.

Ltac ands := repeat match goal with |- _ /\ _ => split end.

Lemma Forall2_impl' : forall A B (P Q : A -> B -> Prop) l l',
  (forall x y, P x y -> Q x y) -> Forall2 P l l' -> Forall2 Q l l'.
Proof. intros A B P Q l l' H HF. induction HF; constructor; auto. Qed.

Lemma ext_id_eqb_spec : forall a b, ext_id_eqb a b = true <-> a = b.
Proof.
  intros [u n] [u' n']; unfold ext_id_eqb; simpl. rewrite andb_true_iff, !String.eqb_eq.
  split; [intros [-> ->]; auto | intros H; inversion H; auto].
Qed.

Definition zspec : forall a b, Z.eqb a b = true <-> a = b := Z.eqb_eq.
Definition sspec : forall a b, String.eqb a b = true <-> a = b := String.eqb_eq.

(** ** first_uses *)
Section FU.
  Context {A : Type}.
  Variable dec : forall a b : A, {a = b} + {a <> b}.

  Lemma in_remove_iff : forall l x y, In x (remove dec y l) <-> In x l /\ x <> y.
  Proof.
    intros; split; intros H.
    - split; [eapply in_remove; eauto|]. intros ->. eapply remove_In; eauto.
    - apply in_in_remove; tauto.
  Qed.

  Lemma first_uses_in : forall l x, In x (first_uses dec l) <-> In x l.
  Proof.
    induction l as [|a l IH]; simpl; [tauto|]. intros x. rewrite in_remove_iff, IH.
    destruct (dec a x); intuition congruence.
  Qed.

  Lemma nodup_remove : forall l x, NoDup l -> NoDup (remove dec x l).
  Proof.
    induction l as [|a l IH]; simpl; intros x H; auto.
    inversion H; subst. destruct (dec x a); auto. constructor; auto.
    rewrite in_remove_iff. tauto.
  Qed.

  Lemma first_uses_nodup : forall l, NoDup (first_uses dec l).
  Proof.
    induction l as [|a l IH]; simpl; constructor.
    - apply remove_In.
    - apply nodup_remove; auto.
  Qed.

  Lemma remove_app' : forall x l1 l2, remove dec x (l1 ++ l2) = (remove dec x l1 ++ remove dec x l2)%list.
  Proof. intros. apply remove_app. Qed.

  Lemma first_uses_snoc : forall l x,
    first_uses dec (l ++ [x])%list =
    if in_dec dec x l then first_uses dec l else (first_uses dec l ++ [x])%list.
  Proof.
    induction l as [|a l IH]; intros x; simpl; auto.
    rewrite IH. destruct (dec a x) as [->|Hne].
    - destruct (in_dec dec x l); auto.
      rewrite remove_app'. simpl. destruct (dec x x); [|congruence]. rewrite app_nil_r. auto.
    - destruct (in_dec dec x l); auto.
      rewrite remove_app'. simpl. destruct (dec a x); [congruence|]. auto.
  Qed.

  Lemma remove_length_le : forall l x, (List.length (remove dec x l) <= List.length l)%nat.
  Proof. induction l as [|a l IH]; simpl; intros; auto. destruct (dec x a); simpl; specialize (IH x); lia. Qed.

  Lemma first_uses_length : forall l, (List.length (first_uses dec l) <= List.length l)%nat.
  Proof.
    induction l as [|a l IH]; simpl; auto.
    pose proof (remove_length_le (first_uses dec l) a). lia.
  Qed.

  Lemma first_uses_prefix : forall l l', exists t,
    first_uses dec (l ++ l') = (first_uses dec l ++ t)%list.
  Proof.
    intros l l'. revert l. induction l' as [|x l' IH]; intros l.
    - exists []. rewrite !app_nil_r. auto.
    - destruct (IH (l ++ [x])%list) as [t Ht]. rewrite <- app_assoc in Ht. simpl in Ht.
      rewrite Ht, first_uses_snoc. destruct (in_dec dec x l); eauto.
      rewrite <- app_assoc. eauto.
  Qed.
End FU.

(** ** numbered *)
Section Num.
  Context {A : Type}.
  Implicit Types (l : list A) (x : A).

  Lemma numbered_in : forall a x l, numbered a x l -> In x l.
  Proof. intros a x l [_ H]. eapply nth_error_In; eauto. Qed.

  Lemma in_numbered : forall x l, In x l -> exists a, numbered a x l /\ a <= Z.of_nat (List.length l).
  Proof.
    intros x l H. apply In_nth_error in H as [n Hn]. exists (Z.of_nat n + 1).
    assert (n < List.length l)%nat by (apply nth_error_Some; congruence).
    split; [|lia]. split; [lia|]. replace (Z.to_nat (Z.of_nat n + 1 - 1)) with n by lia. auto.
  Qed.

  Lemma numbered_bound : forall a x l, numbered a x l -> 1 <= a <= Z.of_nat (List.length l).
  Proof.
    intros a x l [H1 H2].
    assert (Z.to_nat (a - 1) < List.length l)%nat by (apply nth_error_Some; congruence). lia.
  Qed.

  Lemma numbered_fun : forall a x y l, numbered a x l -> numbered a y l -> x = y.
  Proof. intros a x y l [_ H1] [_ H2]. congruence. Qed.

  Lemma numbered_inj : forall a b x l, NoDup l -> numbered a x l -> numbered b x l -> a = b.
  Proof.
    intros a b x l Hn [Ha H1] [Hb H2].
    assert (Z.to_nat (a - 1) = Z.to_nat (b - 1)).
    { eapply NoDup_nth_error; eauto; [apply nth_error_Some; congruence|congruence]. }
    lia.
  Qed.

  Lemma numbered_app : forall a x l t, numbered a x l -> numbered a x (l ++ t).
  Proof.
    intros a x l t [H1 H2]. split; auto. rewrite nth_error_app1; auto.
    apply nth_error_Some; congruence.
  Qed.

  Lemma numbered_snoc : forall a x l y, numbered a x (l ++ [y]) <->
    numbered a x l \/ (a = Z.of_nat (List.length l) + 1 /\ x = y).
  Proof.
    intros a x l y. split.
    - intros [H1 H2]. destruct (Z_le_gt_dec a (Z.of_nat (List.length l))).
      + left. split; auto. rewrite nth_error_app1 in H2; auto. lia.
      + right. rewrite nth_error_app2 in H2 by lia.
        destruct (Z.to_nat (a - 1) - List.length l)%nat eqn:E; simpl in H2.
        * inversion H2. split; auto. lia.
        * destruct n; discriminate.
    - intros [H|[-> ->]]; [apply numbered_app; auto|].
      split; [lia|]. rewrite nth_error_app2 by lia.
      replace (Z.to_nat (Z.of_nat (List.length l) + 1 - 1) - List.length l)%nat with 0%nat by lia. auto.
  Qed.

  Lemma numbered_at : forall a l, 1 <= a <= Z.of_nat (List.length l) -> exists x, numbered a x l.
  Proof.
    intros a l H. destruct (nth_error l (Z.to_nat (a - 1))) eqn:E.
    - exists a0. split; auto. lia.
    - apply nth_error_None in E. lia.
  Qed.

  Lemma numbered_nil : forall a x, ~ numbered a x (@nil A).
  Proof. intros a x [_ H]. destruct (Z.to_nat (a - 1)); discriminate. Qed.
End Num.

(** ** one pair of tables against the list of ids *)
Definition tinv (L : list ext_id) (d : fmap Z ext_id) (e : fmap ext_id Z) : Prop :=
  NoDup L /\ NoDup (fm_keys d) /\ NoDup (fm_keys e) /\
  (forall id a, fm_get ext_id_eqb id e = Some a <-> numbered a id L) /\
  (forall a id, fm_get Z.eqb a d = Some id <-> numbered a id L) /\
  fm_len e = Z.of_nat (List.length L).

Definition uinv (L : list string) (m : fmap Z string) : Prop :=
  NoDup L /\ NoDup (fm_keys m) /\
  (forall a u, fm_get Z.eqb a m = Some u <-> numbered a u L) /\
  fm_len m = Z.of_nat (List.length L).

Lemma option_iff_none : forall A (o : option A), (forall x, o <> Some x) -> o = None.
Proof. intros A [x|] H; auto. exfalso; eapply H; eauto. Qed.

Lemma numbered_succ_none : forall (A : Type) (L : list A) x,
  ~ numbered (Z.of_nat (List.length L) + 1) x L.
Proof. intros A L x H. apply numbered_bound in H. lia. Qed.

Lemma tinv_nil : tinv [] [] [].
Proof.
  repeat split; try constructor; simpl; intros; try discriminate;
    exfalso; eapply numbered_nil; eauto.
Qed.

Lemma uinv_nil : uinv [] [].
Proof.
  repeat split; try constructor; simpl; intros; try discriminate;
    exfalso; eapply numbered_nil; eauto.
Qed.

Lemma NoDup_snoc : forall A (l : list A) x, NoDup l -> ~ In x l -> NoDup (l ++ [x]).
Proof.
  intros A l x H Hi. apply NoDup_rev in H. rewrite <- (rev_involutive (l ++ [x])).
  apply NoDup_rev. rewrite rev_unit. constructor; auto. rewrite <- in_rev. auto.
Qed.

Lemma tinv_add : forall L d e id, tinv L d e -> ~ In id L ->
  let a := Z.of_nat (List.length L) + 1 in
  tinv (L ++ [id]) (fm_set Z.eqb a id d) (fm_set ext_id_eqb id a e).
Proof.
  intros L d e id (H1 & H2 & H3 & H4 & H5 & H6) Hn a.
  assert (Hf : fm_get ext_id_eqb id e = None).
  { apply option_iff_none. intros x Hx. apply H4 in Hx. apply numbered_in in Hx. auto. }
  unfold tinv; ands.
  - apply NoDup_snoc; auto.
  - apply nodup_set; auto. apply zspec.
  - apply nodup_set; auto. apply ext_id_eqb_spec.
  - intros id0 a0. split; intros H.
    { apply numbered_snoc.
    destruct (ext_id_dec id0 id) as [->|Hne].
    + rewrite get_set_same in H by apply ext_id_eqb_spec. inversion H; auto.
    + rewrite get_set_other in H by (auto; apply ext_id_eqb_spec). left. apply H4; auto. }
    apply numbered_snoc in H as [H|[-> ->]].
    + rewrite get_set_other; [apply H4; auto | apply ext_id_eqb_spec |].
      intros ->. apply Hn. eapply numbered_in; eauto.
    + rewrite get_set_same by apply ext_id_eqb_spec. auto.
  - intros a0 id0. split; intros H.
    { apply numbered_snoc.
    destruct (Z.eq_dec a0 a) as [->|Hne].
    + rewrite get_set_same in H by apply zspec. inversion H; auto.
    + rewrite get_set_other in H by (auto; apply zspec). left. apply H5; auto. }
    apply numbered_snoc in H as [H|[-> ->]].
    + rewrite get_set_other; [apply H5; auto | apply zspec |].
      intros ->. eapply numbered_succ_none; eauto.
    + rewrite get_set_same by apply zspec. auto.
  - rewrite len_set_fresh by auto. rewrite app_length. simpl. lia.
Qed.

Lemma find_urn_some : forall u m k, find_urn u m = Some k -> In (k, u) m.
Proof.
  induction m as [|[k' v] m IH]; simpl; intros k H; [discriminate|].
  destruct (String.eqb v u) eqn:E; auto. apply String.eqb_eq in E. inversion H; subst; auto.
Qed.

Lemma find_urn_none : forall u m, find_urn u m = None -> forall k, ~ In (k, u) m.
Proof.
  induction m as [|[k' v] m IH]; simpl; intros H k; [tauto|].
  destruct (String.eqb v u) eqn:E; [discriminate|]. apply String.eqb_neq in E.
  intros [Hi|Hi]; [inversion Hi; congruence|]. eapply IH; eauto.
Qed.

Lemma uwrap_small : forall z, 0 <= z < 2 ^ 32 -> uwrap 32 z = z.
Proof. intros. unfold uwrap. apply Z.mod_small. auto. Qed.

Lemma uinv_add : forall L m u, uinv L m -> Z.of_nat (List.length L) < 2 ^ 32 - 1 ->
  exists m' a, add_or_get_urn u m = Ok (m', a) /\
    uinv (if in_dec string_dec u L then L else L ++ [u])%list m'.
Proof.
  intros L m u (H1 & H2 & H3 & H4) Hb. unfold add_or_get_urn.
  destruct (find_urn u m) as [k|] eqn:E.
  - exists m, k. split; auto. apply find_urn_some in E.
    apply in_get with (eqb := Z.eqb) in E; auto; [|apply zspec]. apply H3 in E.
    apply numbered_in in E. destruct (in_dec string_dec u L); [|contradiction]. unfold uinv; ands; auto.
  - rewrite H4.
    assert (Hw : uwrap 32 (uwrap 32 (Z.of_nat (List.length L)) + 1) = Z.of_nat (List.length L) + 1).
    { rewrite (uwrap_small (Z.of_nat _)) by lia. apply uwrap_small. lia. }
    rewrite Hw. set (a := Z.of_nat (List.length L) + 1).
    assert (Hf : fm_get Z.eqb a m = None).
    { apply option_iff_none. intros x Hx. apply H3 in Hx. eapply numbered_succ_none; eauto. }
    rewrite Hf. exists (fm_set Z.eqb a u m), a. split; auto.
    assert (Hn : ~ In u L).
    { intros Hi. apply in_numbered in Hi as [b [Hi _]]. apply H3 in Hi.
      apply get_some_in in Hi; [|apply zspec]. eapply find_urn_none; eauto. }
    destruct (in_dec string_dec u L); [contradiction|].
    unfold uinv; ands.
    + apply NoDup_snoc; auto.
    + apply nodup_set; auto. apply zspec.
    + intros a0 u0. split; intros H.
      { apply numbered_snoc.
      destruct (Z.eq_dec a0 a) as [->|Hne].
      * rewrite get_set_same in H by apply zspec. inversion H; auto.
      * rewrite get_set_other in H by (auto; apply zspec). left. apply H3; auto. }
      apply numbered_snoc in H as [H|[-> ->]].
      * rewrite get_set_other; [apply H3; auto | apply zspec |].
        intros ->. eapply numbered_succ_none; eauto.
      * rewrite get_set_same by apply zspec. auto.
    + rewrite len_set_fresh by auto. rewrite app_length. simpl. lia.
Qed.

(** ** the whole set *)
Definition urns_of (rs : list request) : list string := map (fun r => id_urn (r_id r)) rs.

Definition sinv (rs : list request) (s : eset) : Prop :=
  uinv (first_uses string_dec (urns_of rs)) (s_urns s) /\
  tinv (first_uses ext_id_dec (ids_of KType rs)) (s_types_map s) (s_types s) /\
  tinv (first_uses ext_id_dec (ids_of KVar rs)) (s_var_map s) (s_vars s) /\
  tinv (first_uses ext_id_dec (ids_of KFunc rs)) (s_func_map s) (s_funcs s).

Lemma ids_of_snoc : forall k rs r, ids_of k (rs ++ [r]) =
  if kind_dec (r_kind r) k then (ids_of k rs ++ [r_id r])%list else ids_of k rs.
Proof.
  intros. unfold ids_of. rewrite filter_app, map_app. simpl.
  destruct (kind_dec (r_kind r) k); simpl; auto. apply app_nil_r.
Qed.

Lemma ids_of_in : forall k rs id, In id (ids_of k rs) <-> In (Req k id) rs.
Proof.
  intros k rs id. unfold ids_of. rewrite in_map_iff. split.
  - intros [[k' i] [<- H]]. apply filter_In in H as [H1 H2]. simpl in *.
    destruct (kind_dec k' k); [subst; auto|discriminate].
  - intros H. exists (Req k id). split; auto. apply filter_In. split; auto. simpl.
    destruct (kind_dec k k); auto.
Qed.

Lemma ids_of_length : forall k rs, (List.length (ids_of k rs) <= List.length rs)%nat.
Proof.
  intros. unfold ids_of. rewrite map_length.
  induction rs as [|r rs IH]; simpl; auto. destruct (kind_dec (r_kind r) k); simpl; lia.
Qed.

Lemma fu_ids_bound : forall k rs,
  Z.of_nat (List.length (first_uses ext_id_dec (ids_of k rs))) <= Z.of_nat (List.length rs).
Proof.
  intros. pose proof (first_uses_length ext_id_dec (ids_of k rs)).
  pose proof (ids_of_length k rs). lia.
Qed.

Lemma fu_urns_bound : forall rs,
  Z.of_nat (List.length (first_uses string_dec (urns_of rs))) <= Z.of_nat (List.length rs).
Proof.
  intros. pose proof (first_uses_length string_dec (urns_of rs)).
  unfold urns_of in *. rewrite map_length in H. lia.
Qed.

Lemma tinv_get_none : forall L d e id, tinv L d e -> fm_get ext_id_eqb id e = None -> ~ In id L.
Proof.
  intros L d e id (_ & _ & _ & H & _) Hn Hi. apply in_numbered in Hi as [a [Hi _]].
  apply H in Hi. congruence.
Qed.

Lemma wrap_len : forall L d e, tinv L d e -> Z.of_nat (List.length L) < 2 ^ 32 - 1 ->
  uwrap 32 (uwrap 32 (fm_len e) + 1) = Z.of_nat (List.length L) + 1.
Proof.
  intros L d e (_ & _ & _ & _ & _ & H) Hb. rewrite H.
  rewrite (uwrap_small (Z.of_nat _)) by lia. apply uwrap_small. lia.
Qed.

Lemma sinv_step : forall rs s r,
  Z.of_nat (List.length rs) < 2 ^ 32 - 1 -> sinv rs s ->
  exists s' a, get_anchor r s = Ok (s', a) /\ sinv (rs ++ [r]) s' /\
    numbered a (r_id r) (first_uses ext_id_dec (ids_of (r_kind r) (rs ++ [r]))).
Proof.
  intros rs s [k id] Hb (HU & HT & HV & HF).
  pose proof (fu_urns_bound rs) as Bu.
  pose proof (fu_ids_bound KType rs) as Bt.
  pose proof (fu_ids_bound KVar rs) as Bv.
  pose proof (fu_ids_bound KFunc rs) as Bf.
  destruct (uinv_add _ _ (id_urn id) HU) as (m' & ua & Eu & HU'); [lia|].
  (* ids already present have a present urn *)
  assert (Hpres : forall k, In id (first_uses ext_id_dec (ids_of k rs)) -> In (id_urn id) (urns_of rs)).
  { intros k0 Hi. apply first_uses_in in Hi. apply ids_of_in in Hi. unfold urns_of.
    apply in_map_iff. exists (Req k0 id). auto. }
  assert (HUs : forall b : bool, uinv (if in_dec string_dec (id_urn id) (first_uses string_dec (urns_of rs))
                then first_uses string_dec (urns_of rs)
                else first_uses string_dec (urns_of rs) ++ [id_urn id])%list m' ->
      uinv (first_uses string_dec (urns_of (rs ++ [Req k id]))) m').
  { intros _ H. unfold urns_of in *. rewrite map_app. simpl. rewrite first_uses_snoc.
    match type of H with context [in_dec ?d ?x ?l] => destruct (in_dec d x l) as [Hi|Hi] end;
    match goal with |- context [in_dec ?d ?x ?l] => destruct (in_dec d x l) as [Hj|Hj] end; auto;
    exfalso; [apply Hj|apply Hi]; eapply first_uses_in; eauto. }
  specialize (HUs true HU').
  assert (Htab : forall d e, tinv (first_uses ext_id_dec (ids_of k rs)) d e ->
     (exists a, fm_get ext_id_eqb id e = Some a /\ In (id_urn id) (urns_of rs) /\
                tinv (first_uses ext_id_dec (ids_of k (rs ++ [Req k id]))) d e /\
                numbered a id (first_uses ext_id_dec (ids_of k (rs ++ [Req k id])))) \/
     (fm_get ext_id_eqb id e = None /\ exists a, uwrap 32 (uwrap 32 (fm_len e) + 1) = a /\
        tinv (first_uses ext_id_dec (ids_of k (rs ++ [Req k id])))
             (fm_set Z.eqb a id d) (fm_set ext_id_eqb id a e) /\
        numbered a id (first_uses ext_id_dec (ids_of k (rs ++ [Req k id]))))).
  { intros d e Hinv. rewrite ids_of_snoc. simpl. destruct (kind_dec k k); [|congruence].
    rewrite first_uses_snoc.
    destruct (fm_get ext_id_eqb id e) as [a|] eqn:E.
    - left. exists a. split; auto. pose proof Hinv as (_ & _ & _ & He & _). apply He in E.
      pose proof (numbered_in _ _ _ E) as Hi. split; [eapply Hpres; eauto|].
      apply first_uses_in in Hi.
      destruct (in_dec ext_id_dec id (ids_of k rs)); [|contradiction]. auto.
    - right. split; auto. pose proof (tinv_get_none _ _ _ _ Hinv E) as Hni.
      eexists; split; [reflexivity|]. rewrite (wrap_len _ _ _ Hinv).
      2:{ pose proof (fu_ids_bound k rs). lia. }
      destruct (in_dec ext_id_dec id (ids_of k rs)) as [Hi|Hi].
      { exfalso. apply Hni. apply first_uses_in; auto. }
      split; [apply tinv_add; auto|].
      apply numbered_snoc. right. auto. }
  assert (Hsame : forall k', k' <> k -> ids_of k' (rs ++ [Req k id]) = ids_of k' rs).
  { intros k' Hne. rewrite ids_of_snoc. simpl. destruct (kind_dec k k'); congruence. }
  assert (HUold : In (id_urn id) (urns_of rs) ->
      uinv (first_uses string_dec (urns_of (rs ++ [Req k id]))) (s_urns s)).
  { intros Hi. unfold urns_of. rewrite map_app. simpl. rewrite first_uses_snoc.
    match goal with |- context [in_dec ?d ?x ?l] => destruct (in_dec d x l) as [Hj|Hj] end; auto.
    contradiction. }
  destruct k; unfold get_anchor; simpl r_kind; simpl r_id.
  - unfold get_type_anchor.
    destruct (Htab _ _ HT) as [(a & -> & Hu & HT' & Hn)|(-> & a & -> & HT' & Hn)].
    + exists s, a. split; auto. split; auto.
      split; [auto|]. split; [auto|].
      rewrite !Hsame by congruence. auto.
    + rewrite Eu. eexists _, a. split; [reflexivity|]. split; auto.
      split; [auto|]. split; [auto|]. rewrite !Hsame by congruence. auto.
  - unfold get_var_anchor.
    destruct (Htab _ _ HV) as [(a & -> & Hu & HT' & Hn)|(-> & a & -> & HT' & Hn)].
    + exists s, a. split; auto. split; auto.
      split; [auto|]. rewrite (Hsame KType), (Hsame KFunc) by congruence. auto.
    + rewrite Eu. eexists _, a. split; [reflexivity|]. split; auto.
      split; [auto|]. rewrite (Hsame KType), (Hsame KFunc) by congruence. auto.
  - unfold get_func_anchor.
    destruct (Htab _ _ HF) as [(a & -> & Hu & HT' & Hn)|(-> & a & -> & HT' & Hn)].
    + exists s, a. split; auto. split; auto.
      split; [auto|]. rewrite (Hsame KType), (Hsame KVar) by congruence. auto.
    + rewrite Eu. eexists _, a. split; [reflexivity|]. split; auto.
      split; [auto|]. rewrite (Hsame KType), (Hsame KVar) by congruence. auto.
Qed.

Lemma run_snoc : forall rs r s, run (rs ++ [r]) s =
  (let! (s1, l) := run rs s in let! (s2, a) := get_anchor r s1 in Ok (s2, (l ++ [a])%list)).
Proof.
  induction rs as [|x rs IH]; intros r s; simpl.
  - destruct (get_anchor r s) as [[s1 a]| |]; auto.
  - destruct (get_anchor x s) as [[s1 a]| |]; simpl; auto.
    rewrite IH. destruct (run rs s1) as [[s2 l]| |]; simpl; auto.
    destruct (get_anchor r s2) as [[s3 b]| |]; auto.
Qed.

Lemma sinv_nil : sinv [] new_set.
Proof. unfold sinv; ands; try apply uinv_nil; apply tinv_nil. Qed.

Definition answers (rs : list request) (r : request) (a : Z) : Prop :=
  numbered a (r_id r) (first_uses ext_id_dec (ids_of (r_kind r) rs)).

Lemma answers_app : forall rs rs' r a, answers rs r a -> answers (rs ++ rs') r a.
Proof.
  intros rs rs' r a H. unfold answers in *.
  assert (E : ids_of (r_kind r) (rs ++ rs') = (ids_of (r_kind r) rs ++ ids_of (r_kind r) rs')%list).
  { unfold ids_of. rewrite filter_app, map_app. auto. }
  rewrite E. destruct (first_uses_prefix ext_id_dec (ids_of (r_kind r) rs) (ids_of (r_kind r) rs')) as [t ->].
  apply numbered_app. auto.
Qed.

Lemma run_inv : forall rs, Z.of_nat (List.length rs) < 2 ^ 32 ->
  exists s l, run rs new_set = Ok (s, l) /\ sinv rs s /\ Forall2 (answers rs) rs l.
Proof.
  induction rs as [|r rs IH] using rev_ind; intros Hb.
  - exists new_set, []. simpl. split; auto. split; [apply sinv_nil|constructor].
  - rewrite app_length in Hb. simpl in Hb. destruct IH as (s & l & E & Hs & Hf); [lia|].
    destruct (sinv_step rs s r ltac:(lia) Hs) as (s' & a & E' & Hs' & Hn).
    exists s', (l ++ [a])%list. rewrite run_snoc, E. simpl. rewrite E'. simpl. split; auto.
    split; auto. apply Forall2_app; [|constructor; auto].
    eapply Forall2_impl'; [|exact Hf]. intros. apply answers_app; auto.
Qed.

Lemma run_app : forall rs rs' s, run (rs ++ rs') s =
  (let! (s1, l) := run rs s in let! (s2, l') := run rs' s1 in Ok (s2, (l ++ l')%list)).
Proof.
  induction rs as [|x rs IH]; intros rs' s; simpl.
  - destruct (run rs' s) as [[s1 a]| |]; auto.
  - destruct (get_anchor x s) as [[s1 a]| |]; simpl; auto.
    rewrite IH. destruct (run rs s1) as [[s2 l]| |]; simpl; auto.
    destruct (run rs' s2) as [[s3 b]| |]; auto.
Qed.

(** ** round trip *)

(** the consistency of a set that serialization needs: every table pair is a
    bijection, every id's URN has an anchor, and URN anchors are unambiguous *)
Definition tables_ok (urns : fmap Z string) (d : fmap Z ext_id) (e : fmap ext_id Z) : Prop :=
  NoDup (fm_keys e) /\
  (forall a id, fm_get Z.eqb a d = Some id <-> fm_get ext_id_eqb id e = Some a) /\
  (forall id a, fm_get ext_id_eqb id e = Some a -> exists b, fm_get Z.eqb b urns = Some (id_urn id)).

Definition set_ok (s : eset) : Prop :=
  NoDup (fm_keys (s_urns s)) /\
  (forall a b u, fm_get Z.eqb a (s_urns s) = Some u -> fm_get Z.eqb b (s_urns s) = Some u -> a = b) /\
  tables_ok (s_urns s) (s_types_map s) (s_types s) /\
  tables_ok (s_urns s) (s_var_map s) (s_vars s) /\
  tables_ok (s_urns s) (s_func_map s) (s_funcs s).

Lemma insert_perm : forall A (key : A -> Z) x l, Permutation (insert key x l) (x :: l).
Proof.
  induction l as [|y l IH]; simpl; auto. destruct (key x <=? key y); auto.
  rewrite IH. apply perm_swap.
Qed.

Lemma isort_perm : forall A (key : A -> Z) l, Permutation (isort key l) l.
Proof. induction l as [|x l IH]; simpl; auto. rewrite insert_perm. auto. Qed.

(** a fold of [fm_set] over a list with distinct keys stores exactly that list *)
Lemma fold_set_get : forall K V (eqb : K -> K -> bool) (sp : forall a b, eqb a b = true <-> a = b)
   (l : list (K * V)) m k,
  NoDup (map fst l) ->
  fm_get eqb k (fold_left (fun m kv => fm_set eqb (fst kv) (snd kv) m) l m) =
  match fm_get eqb k l with Some v => Some v | None => fm_get eqb k m end.
Proof.
  induction l as [|[k' v] l IH]; intros m k Hn; simpl; auto.
  inversion Hn; subst. rewrite IH by auto. destruct (eqb k k') eqn:E.
  - apply sp in E; subst.
    assert (fm_get eqb k' l = None) as ->.
    { apply get_none_notin; auto. }
    apply get_set_same; auto.
  - destruct (fm_get eqb k l); auto. apply get_set_other; auto.
    intros ->. rewrite (proj2 (sp k' k') eq_refl) in E. discriminate.
Qed.

Lemma back_ref_get : forall urns u a,
  NoDup (fm_keys urns) ->
  (forall a b u, fm_get Z.eqb a urns = Some u -> fm_get Z.eqb b urns = Some u -> a = b) ->
  fm_get Z.eqb a urns = Some u -> back (urn_back_ref urns) u = a.
Proof.
  intros urns u a Hn Hu Ha. unfold urn_back_ref, back.
  assert (E : fold_left (fun m kv => fm_set String.eqb (snd kv) (fst kv) m) urns [] =
     fold_left (fun m kv => fm_set String.eqb (fst kv) (snd kv) m) (map (fun kv => (snd kv, fst kv)) urns) []).
  { generalize (@nil (string * Z)). clear. induction urns as [|x l IH]; simpl; auto. }
  rewrite E. rewrite fold_set_get.
  2: apply sspec.
  - assert (fm_get String.eqb u (map (fun kv : Z * string => (snd kv, fst kv)) urns) = Some a) as ->; auto.
    assert (Hnd : NoDup (map fst (map (fun kv : Z * string => (snd kv, fst kv)) urns))).
    { rewrite map_map. simpl. clear E Ha.
      assert (Hu' : forall a b u, In (a, u) urns -> In (b, u) urns -> a = b).
      { intros x y v H1 H2. eapply Hu; apply in_get; eauto; apply zspec. }
      clear Hu. induction urns as [|[k v] l IH]; simpl; constructor.
      - intros Hi. apply in_map_iff in Hi as [[k' v'] [Hv Hi]]. simpl in Hv. subst.
        assert (k' = k) by (eapply Hu'; [right; eauto|left; eauto]). subst.
        inversion Hn; subst. apply H1. apply (in_map fst) in Hi. auto.
      - inversion Hn; subst. apply IH; auto. intros. eapply Hu'; right; eauto. }
    apply in_get; auto; [apply sspec|]. apply in_map_iff. exists (a, u). split; auto.
    apply get_some_in in Ha; auto. apply zspec.
  - rewrite map_map. simpl. clear E Ha.
    assert (Hu' : forall a b u, In (a, u) urns -> In (b, u) urns -> a = b).
    { intros x y v H1 H2. eapply Hu; apply in_get; eauto; apply zspec. }
    clear Hu. induction urns as [|[k v] l IH]; simpl; constructor.
    + intros Hi. apply in_map_iff in Hi as [[k' v'] [Hv Hi]]. simpl in Hv. subst.
      assert (k' = k) by (eapply Hu'; [right; eauto|left; eauto]). subst.
      inversion Hn; subst. apply H1. apply (in_map fst) in Hi. auto.
    + inversion Hn; subst. apply IH; auto. intros. eapply Hu'; right; eauto.
Qed.

(** reading declarations: what a list of declarations contributes *)
Definition decl_entry (urns : fmap Z string) (d : decl_msg) : option (kind * Z * ext_id) :=
  match d with
  | DType r a n => match fm_get Z.eqb r urns with Some u => Some (KType, a, ExtId u n) | None => None end
  | DVar r a n => match fm_get Z.eqb r urns with Some u => Some (KVar, a, ExtId u n) | None => None end
  | DFunc r a n => match fm_get Z.eqb r urns with Some u => Some (KFunc, a, ExtId u n) | None => None end
  | DUnset => None
  end.

Definition apply_entry (e : kind * Z * ext_id) (s : eset) : eset :=
  match e with
  | (KType, a, id) => encode_type a id s
  | (KVar, a, id) => encode_var a id s
  | (KFunc, a, id) => encode_func a id s
  end.

Lemma apply_entry_urns : forall e s, s_urns (apply_entry e s) = s_urns s.
Proof. intros [[[| |] a] id] s; auto. Qed.

Lemma read_decls_entries : forall loaded ds s es,
  Forall2 (fun d e => decl_entry (s_urns s) d = Some e) ds es ->
  Forall (fun e => loaded (id_urn (snd e)) = true) es ->
  read_decls loaded ds s = Ok (fold_left (fun s e => apply_entry e s) es s).
Proof.
  induction ds as [|d ds IH]; intros s es H HL; inversion H; subst; auto.
  inversion HL; subst. simpl.
  assert (E : read_decl loaded d s = Ok (apply_entry y s)).
  { unfold decl_entry in H2. destruct d; simpl in *; try discriminate;
    unfold resolve_ref; destruct (fm_get Z.eqb urn_ref (s_urns s)) as [u|]; try discriminate;
    inversion H2; subst; simpl in *; rewrite H3; reflexivity. }
  rewrite E. simpl. apply IH; auto. rewrite apply_entry_urns. auto.
Qed.

Lemma fold_entries_urns : forall es s,
  s_urns (fold_left (fun s e => apply_entry e s) es s) = s_urns s.
Proof. induction es; simpl; intros; auto. rewrite IHes. apply apply_entry_urns. Qed.

(** a fold of entries fills the tables of each kind with its own entries *)
Definition pairs_of (k : kind) (es : list (kind * Z * ext_id)) : list (Z * ext_id) :=
  map (fun e => (snd (fst e), snd e)) (filter (fun e => if kind_dec (fst (fst e)) k then true else false) es).

Definition tbl_dec (k : kind) (s : eset) : fmap Z ext_id :=
  match k with KType => s_types_map s | KVar => s_var_map s | KFunc => s_func_map s end.

Lemma fold_entries_dec : forall k es s,
  tbl_dec k (fold_left (fun s e => apply_entry e s) es s) =
  fold_left (fun m kv => fm_set Z.eqb (fst kv) (snd kv) m) (pairs_of k es) (tbl_dec k s).
Proof.
  induction es as [|[[k' a] id] es IH]; intros s; auto. simpl fold_left at 1. rewrite IH.
  unfold pairs_of. simpl filter. destruct (kind_dec k' k); subst; simpl.
  - destruct k; auto.
  - destruct k', k; auto; congruence.
Qed.

Lemma fold_entries_enc : forall k es s,
  anchors k (fold_left (fun s e => apply_entry e s) es s) =
  fold_left (fun m kv => fm_set ext_id_eqb (fst kv) (snd kv) m)
    (map (fun p => (snd p, fst p)) (pairs_of k es)) (anchors k s).
Proof.
  induction es as [|[[k' a] id] es IH]; intros s; auto. simpl fold_left at 1. rewrite IH.
  unfold pairs_of. simpl filter. destruct (kind_dec k' k); subst; simpl.
  - destruct k; auto.
  - destruct k', k; auto; congruence.
Qed.

Definition mk_entry (k : kind) (kv : ext_id * Z) : kind * Z * ext_id := (k, snd kv, fst kv).

Lemma pairs_of_app : forall k a b, pairs_of k (a ++ b) = (pairs_of k a ++ pairs_of k b)%list.
Proof. intros. unfold pairs_of. rewrite filter_app, map_app. auto. Qed.

Lemma pairs_of_perm : forall k a b, Permutation a b -> Permutation (pairs_of k a) (pairs_of k b).
Proof.
  intros k a b H. unfold pairs_of. apply Permutation_map.
  induction H; simpl; auto.
  - destruct (kind_dec (fst (fst x)) k); auto.
  - destruct (kind_dec (fst (fst x)) k), (kind_dec (fst (fst y)) k); auto. apply perm_swap.
  - etransitivity; eauto.
Qed.

Lemma pairs_of_mk : forall k k' l, pairs_of k (map (mk_entry k') l) =
  if kind_dec k' k then map (fun kv => (snd kv, fst kv)) l else [].
Proof.
  intros k k' l. unfold pairs_of. induction l as [|[id a] l IH]; simpl.
  - destruct (kind_dec k' k); auto.
  - destruct (kind_dec k' k); simpl; auto. f_equal. auto.
Qed.

Lemma get_map_swap : forall (l : fmap ext_id Z), map (fun p => (snd p, fst p)) (map (fun kv : ext_id * Z => (snd kv, fst kv)) l) = l.
Proof. induction l as [|[a b] l IH]; simpl; auto. f_equal; auto. Qed.

Lemma perm_Forall2 : forall A B (R : A -> B -> Prop) a a' , Permutation a a' ->
  forall b, Forall2 R a b -> exists b', Permutation b b' /\ Forall2 R a' b'.
Proof.
  intros A B R a a' H. induction H; intros b HF.
  - inversion HF; subst. exists []; auto.
  - inversion HF; subst. destruct (IHPermutation _ H4) as (b' & Hp & HF').
    exists (y :: b'). split; auto.
  - inversion HF; subst. inversion H3; subst. exists (y1 :: y0 :: l'0).
    split; [apply perm_swap|]. repeat constructor; auto.
  - destruct (IHPermutation1 _ HF) as (b1 & Hp1 & HF1).
    destruct (IHPermutation2 _ HF1) as (b2 & Hp2 & HF2).
    exists b2. split; auto. etransitivity; eauto.
Qed.

Lemma Forall_perm : forall A (P : A -> Prop) a b, Permutation a b -> Forall P a -> Forall P b.
Proof.
  intros A P a b H HF. apply Forall_forall. intros x Hx. rewrite Forall_forall in HF.
  apply HF. eapply Permutation_in; [apply Permutation_sym; eauto|auto].
Qed.

Lemma tables_ok_perm_nodup : forall (e : fmap ext_id Z) d urns, tables_ok urns d e ->
  NoDup (map snd e).
Proof.
  intros e d urns (H1 & H2 & _).
  assert (Hu : forall id id' a, In (id, a) e -> In (id', a) e -> id = id').
  { intros id id' a Hi Hi'.
    apply in_get with (eqb := ext_id_eqb) in Hi; auto; [|apply ext_id_eqb_spec].
    apply in_get with (eqb := ext_id_eqb) in Hi'; auto; [|apply ext_id_eqb_spec].
    apply H2 in Hi. apply H2 in Hi'. congruence. }
  clear H2. induction e as [|[k v] l IH]; simpl; constructor.
  - intros Hi. apply in_map_iff in Hi as [[k' v'] [Hv Hi]]. simpl in Hv. subst.
    assert (k' = k) by (eapply Hu; [right; eauto|left; eauto]). subst.
    inversion H1; subst. apply H2. apply (in_map fst) in Hi. auto.
  - inversion H1; subst. apply IH; auto. intros. eapply Hu; right; eauto.
Qed.

Lemma read_tables : forall (d : fmap Z ext_id) (e : fmap ext_id Z) urns ps,
  tables_ok urns d e ->
  Permutation ps (map (fun kv => (snd kv, fst kv)) e) ->
  (forall a, fm_get Z.eqb a (fold_left (fun m kv => fm_set Z.eqb (fst kv) (snd kv) m) ps []) = fm_get Z.eqb a d) /\
  (forall id, fm_get ext_id_eqb id (fold_left (fun m kv => fm_set ext_id_eqb (fst kv) (snd kv) m)
       (map (fun p => (snd p, fst p)) ps) []) = fm_get ext_id_eqb id e).
Proof.
  intros d e urns ps Hok Hp.
  pose proof (tables_ok_perm_nodup _ _ _ Hok) as Hnd.
  destruct Hok as (H1 & H2 & _).
  assert (Hp2 : Permutation (map (fun p => (snd p, fst p)) ps) e).
  { rewrite Hp. rewrite get_map_swap. auto. }
  assert (N1 : NoDup (map fst ps)).
  { eapply Permutation_NoDup; [apply Permutation_map, Permutation_sym; eauto|].
    rewrite map_map. simpl. auto. }
  assert (N2 : NoDup (fm_keys (map (fun p : Z * ext_id => (snd p, fst p)) ps))).
  { eapply Permutation_NoDup; [apply perm_keys, Permutation_sym; eauto|]. auto. }
  split.
  - intros a. rewrite fold_set_get; auto; [|apply zspec]. simpl.
    destruct (fm_get Z.eqb a ps) as [id|] eqn:E.
    + apply get_some_in in E; [|apply zspec]. symmetry. apply H2. apply in_get; auto.
      apply ext_id_eqb_spec. eapply Permutation_in; eauto. apply in_map_iff. exists (a, id). auto.
    + symmetry. apply option_iff_none. intros id Hid. apply H2 in Hid.
      apply get_some_in in Hid; [|apply ext_id_eqb_spec].
      apply get_none_notin in E; [|apply zspec]. apply E.
      apply in_map_iff. exists (a, id). split; auto.
      eapply Permutation_in; [apply Permutation_sym; eauto|]. apply in_map_iff. exists (id, a); auto.
  - intros id. rewrite fold_set_get; auto; [|apply ext_id_eqb_spec]. simpl.
    rewrite (get_perm _ ext_id_eqb_spec id _ _ N2 Hp2). destruct (fm_get ext_id_eqb id e); auto.
Qed.

Lemma tables_ok_iter : forall urns d e e', tables_ok urns d e -> Permutation e e' -> tables_ok urns d e'.
Proof.
  intros urns d e e' (H1 & H2 & H3) Hp.
  assert (Hg : forall id, fm_get ext_id_eqb id e = fm_get ext_id_eqb id e').
  { intros. apply get_perm; auto. apply ext_id_eqb_spec. }
  repeat split.
  - eapply Permutation_NoDup; [apply perm_keys; eauto|auto].
  - intros H. apply H2 in H. rewrite <- Hg. auto.
  - intros H. rewrite <- Hg in H. apply H2. auto.
  - intros id a H. rewrite <- Hg in H. eauto.
Qed.

Lemma map_decl_entries : forall (mk : Z -> Z -> string -> decl_msg) k urns d e iu,
  (forall r a n, decl_entry urns (mk r a n) =
     match fm_get Z.eqb r urns with Some u => Some (k, a, ExtId u n) | None => None end) ->
  NoDup (fm_keys iu) ->
  (forall a, fm_get Z.eqb a iu = fm_get Z.eqb a urns) ->
  (forall a b u, fm_get Z.eqb a urns = Some u -> fm_get Z.eqb b urns = Some u -> a = b) ->
  tables_ok urns d e ->
  Forall2 (fun x y => decl_entry urns x = Some y)
    (map (fun kv => mk (back (urn_back_ref iu) (id_urn (fst kv))) (snd kv) (id_name (fst kv))) e)
    (map (mk_entry k) e).
Proof.
  intros mk k urns d e iu Hmk Hnd Hg Hu (H1 & _ & H3).
  assert (Hall : forall kv, In kv e -> exists b, fm_get Z.eqb b urns = Some (id_urn (fst kv))).
  { intros [id a] Hi. simpl. eapply H3. apply in_get; eauto. apply ext_id_eqb_spec. }
  clear H1 H3. induction e as [|[id a] e IH]; simpl; constructor.
  - rewrite Hmk. destruct (Hall (id, a)) as [b Hb]; [left; auto|]. simpl in Hb.
    assert (E : back (urn_back_ref iu) (id_urn id) = b).
    { apply back_ref_get; auto.
      - intros x y v. rewrite !Hg. apply Hu.
      - rewrite Hg. auto. }
    rewrite E, Hb. destruct id; reflexivity.
  - apply IH. intros kv Hi. apply Hall. right; auto.
Qed.

Lemma round_trip : forall loaded s iu it iv jf shuf us ds,
  set_ok s ->
  (forall a u, fm_get Z.eqb a (s_urns s) = Some u -> loaded u = true) ->
  Permutation (s_urns s) iu -> Permutation (s_types s) it -> Permutation (s_vars s) iv ->
  Permutation (s_funcs s) jf -> (forall l, Permutation (shuf l) l) ->
  to_proto iu it iv jf shuf = Ok (us, ds) ->
  exists s', get_extension_set loaded us ds = Ok s' /\ same_answers s s'.
Proof.
  intros loaded s iu it iv jf shuf us ds (HN & HU & HT & HV & HF) HL Pu Pt Pv Pf Psh E.
  pose proof (tables_ok_iter _ _ _ _ HT Pt) as HT'.
  pose proof (tables_ok_iter _ _ _ _ HV Pv) as HV'.
  pose proof (tables_ok_iter _ _ _ _ HF Pf) as HF'.
  assert (HN' : NoDup (fm_keys iu)) by (eapply Permutation_NoDup; [apply perm_keys; eauto|auto]).
  assert (Hgu : forall a, fm_get Z.eqb a iu = fm_get Z.eqb a (s_urns s)).
  { intros. symmetry. apply get_perm; auto. apply zspec. }
  unfold to_proto in E.
  match type of E with (if ?b then _ else _) = _ => destruct b; [discriminate|] end.
  inversion E; subst us ds; clear E.
  set (br := urn_back_ref iu) in *.
  set (T0 := map (fun kv => DType (back br (id_urn (fst kv))) (snd kv) (id_name (fst kv))) it).
  set (V0 := map (fun kv => DVar (back br (id_urn (fst kv))) (snd kv) (id_name (fst kv))) iv).
  set (F0 := map (fun kv => DFunc (back br (id_urn (fst kv))) (snd kv) (id_name (fst kv))) jf).
  match goal with |- context [get_extension_set _ _ ((_ ++ _) ++ ?F)%list] => set (FF := F) end.
  assert (PF : Permutation FF F0).
  { unfold FF. destruct (isort decl_anchor T0 ++ isort decl_anchor V0)%list; auto. apply isort_perm. }
  assert (Pall : Permutation ((T0 ++ V0) ++ F0) ((isort decl_anchor T0 ++ isort decl_anchor V0) ++ FF)).
  { apply Permutation_app; [apply Permutation_app; apply Permutation_sym, isort_perm|].
    apply Permutation_sym; auto. }
  assert (HE : Forall2 (fun x y => decl_entry (s_urns s) x = Some y) ((T0 ++ V0) ++ F0)
    ((map (mk_entry KType) it ++ map (mk_entry KVar) iv) ++ map (mk_entry KFunc) jf)).
  { apply Forall2_app; [apply Forall2_app|].
    - eapply (map_decl_entries DType KType); eauto.
    - eapply (map_decl_entries DVar KVar); eauto.
    - eapply (map_decl_entries DFunc KFunc); eauto. }
  assert (HLd : Forall (fun e => loaded (id_urn (snd e)) = true)
    ((map (mk_entry KType) it ++ map (mk_entry KVar) iv) ++ map (mk_entry KFunc) jf)).
  { assert (Hone : forall k d e, tables_ok (s_urns s) d e -> Forall (fun e => loaded (id_urn (snd e)) = true) (map (mk_entry k) e)).
    { intros k d e (H1 & _ & H3). apply Forall_forall. intros x Hx. apply in_map_iff in Hx as [[id a] [<- Hi]].
      simpl. apply in_get with (eqb := ext_id_eqb) in Hi; auto; [|apply ext_id_eqb_spec].
      destruct (H3 _ _ Hi) as [b Hb]. eapply HL; eauto. }
    rewrite !Forall_app. repeat split; eapply Hone; eauto. }
  destruct (perm_Forall2 _ _ _ _ _ Pall _ HE) as (es & Pes & HE').
  pose proof (Forall_perm _ _ _ _ Pes HLd) as HLd'.
  set (us := isort um_anchor (map (fun kv : Z * string => UrnMsg (fst kv) (snd kv)) iu)).
  assert (Hru : forall a, fm_get Z.eqb a (read_urns us) = fm_get Z.eqb a (s_urns s)).
  { intros a. unfold read_urns.
    assert (Em : forall l m, fold_left (fun m u => fm_set Z.eqb (um_anchor u) (um_urn u) m) l m =
       fold_left (fun m kv => fm_set Z.eqb (fst kv) (snd kv) m) (map (fun u => (um_anchor u, um_urn u)) l) m).
    { induction l; simpl; auto. }
    rewrite Em.
    assert (Pm : Permutation (map (fun u => (um_anchor u, um_urn u)) us) iu).
    { unfold us. rewrite isort_perm. rewrite map_map. simpl.
      assert (map (fun x : Z * string => (fst x, snd x)) iu = iu) as ->; auto.
      clear. induction iu as [|[x y] l IH]; simpl; f_equal; auto. }
    assert (Nm : NoDup (fm_keys (map (fun u => (um_anchor u, um_urn u)) us))).
    { eapply Permutation_NoDup; [apply perm_keys, Permutation_sym; eauto|auto]. }
    rewrite fold_set_get; auto; [|apply zspec]. simpl.
    rewrite (get_perm _ zspec a _ _ Nm Pm), Hgu. destruct (fm_get Z.eqb a (s_urns s)); auto. }
  set (s0 := with_urns (read_urns us) new_set).
  assert (HE2 : Forall2 (fun d e => decl_entry (s_urns s0) d = Some e)
     ((isort decl_anchor T0 ++ isort decl_anchor V0) ++ FF) es).
  { eapply Forall2_impl'; [|exact HE']. intros x y Hxy. unfold s0; simpl.
    destruct x; simpl in *; auto; rewrite Hru; auto. }
  unfold get_extension_set. fold s0.
  rewrite (read_decls_entries loaded _ s0 es HE2 HLd').
  eexists. split; [reflexivity|].
  assert (Ppairs : forall k, Permutation (pairs_of k es)
     (map (fun kv => (snd kv, fst kv)) (match k with KType => it | KVar => iv | KFunc => jf end))).
  { intros k. rewrite (pairs_of_perm k _ _ (Permutation_sym Pes)).
    rewrite !pairs_of_app, !pairs_of_mk. destruct k; simpl; rewrite ?app_nil_r; auto. }
  assert (Hdec : forall k, tbl_dec k s0 = []) by (intros []; auto).
  assert (Henc : forall k, anchors k s0 = []) by (intros []; auto).
  assert (RT := read_tables _ _ _ _ HT' (Ppairs KType)).
  assert (RV := read_tables _ _ _ _ HV' (Ppairs KVar)).
  assert (RF := read_tables _ _ _ _ HF' (Ppairs KFunc)).
  assert (Hge : forall (e e' : fmap ext_id Z) d, tables_ok (s_urns s) d e -> Permutation e e' ->
     forall id, fm_get ext_id_eqb id e = fm_get ext_id_eqb id e').
  { intros e e' d (H1 & _) Hp id. apply get_perm; auto. apply ext_id_eqb_spec. }
  split; [|split; [|split; [|split]]].
  - intros k a.
    pose proof (fold_entries_dec k es s0) as Hfd. rewrite Hdec in Hfd.
    destruct k; simpl in *; unfold decode_type, decode_var, decode_func; rewrite Hfd; symmetry;
      [apply RT|apply RV|apply RF].
  - intros id. pose proof (fold_entries_enc KType es s0) as Hfe. rewrite Henc in Hfe. simpl in Hfe.
    rewrite Hfe, (proj2 RT). eapply Hge; eauto.
  - intros id. pose proof (fold_entries_enc KVar es s0) as Hfe. rewrite Henc in Hfe. simpl in Hfe.
    rewrite Hfe, (proj2 RV). eapply Hge; eauto.
  - intros id. pose proof (fold_entries_enc KFunc es s0) as Hfe. rewrite Henc in Hfe. simpl in Hfe.
    rewrite Hfe, (proj2 RF). eapply Hge; eauto.
  - intros a. rewrite fold_entries_urns. simpl. symmetry. apply Hru.
Qed.

Lemma sinv_set_ok : forall rs s, sinv rs s -> set_ok s.
Proof.
  intros rs s ((U1 & U2 & U3 & U4) & HT & HV & HF).
  assert (Htab : forall k d e, tinv (first_uses ext_id_dec (ids_of k rs)) d e -> tables_ok (s_urns s) d e).
  { intros k d e (H1 & H2 & H3 & H4 & H5 & H6). unfold tables_ok; ands; auto.
    - intros a id. rewrite H5, H4. tauto.
    - intros id a H. apply H4 in H. apply numbered_in in H.
      apply first_uses_in, ids_of_in in H.
      assert (Hi : In (id_urn id) (first_uses string_dec (urns_of rs))).
      { apply first_uses_in. unfold urns_of. apply in_map_iff. exists (Req k id); auto. }
      apply in_numbered in Hi as [b [Hi _]]. exists b. apply U3; auto. }
  unfold set_ok; ands; auto.
  - intros a b u Ha Hb. apply U3 in Ha. apply U3 in Hb. exact (numbered_inj a b u _ U1 Ha Hb).
  - apply (Htab KType _ _ HT).
  - apply (Htab KVar _ _ HV).
  - apply (Htab KFunc _ _ HF).
Qed.

(** ** what one request does to an arbitrary set *)
Lemma get_anchor_known : forall r s a,
  fm_get ext_id_eqb (r_id r) (anchors (r_kind r) s) = Some a -> get_anchor r s = Ok (s, a).
Proof.
  intros [k id] s a H. destruct k; simpl in *; unfold get_anchor, get_type_anchor, get_var_anchor, get_func_anchor;
  simpl; rewrite H; auto.
Qed.

Lemma get_anchor_new : forall r s,
  fm_get ext_id_eqb (r_id r) (anchors (r_kind r) s) = None ->
  get_anchor r s =
  match add_or_get_urn (id_urn (r_id r)) (s_urns s) with
  | Ok (u, _) =>
      let a := uwrap 32 (uwrap 32 (fm_len (anchors (r_kind r) s)) + 1) in
      Ok (apply_entry (r_kind r, a, r_id r) (with_urns u s), a)
  | _ => Panic
  end.
Proof.
  intros [k id] s H. destruct k; simpl in *; unfold get_anchor, get_type_anchor, get_var_anchor, get_func_anchor;
  simpl; rewrite H; auto.
Qed.

Lemma decode_tbl : forall k a s, decode k a s = fm_get Z.eqb a (tbl_dec k s).
Proof. intros [] a s; auto. Qed.

Lemma apply_entry_dec : forall k a id s k',
  tbl_dec k' (apply_entry (k, a, id) s) = if kind_dec k k' then fm_set Z.eqb a id (tbl_dec k' s) else tbl_dec k' s.
Proof. intros k a id s k'; destruct (kind_dec k k') as [->|]; [destruct k'; auto|destruct k, k'; auto; congruence]. Qed.

Lemma apply_entry_enc : forall k a id s k',
  anchors k' (apply_entry (k, a, id) s) = if kind_dec k k' then fm_set ext_id_eqb id a (anchors k' s) else anchors k' s.
Proof. intros k a id s k'; destruct (kind_dec k k') as [->|]; [destruct k'; auto|destruct k, k'; auto; congruence]. Qed.

Lemma with_urns_dec : forall k u s, tbl_dec k (with_urns u s) = tbl_dec k s.
Proof. intros []; auto. Qed.
Lemma with_urns_enc : forall k u s, anchors k (with_urns u s) = anchors k s.
Proof. intros []; auto. Qed.

Lemma add_or_get_cases : forall u m, fm_len m < 2 ^ 32 - 1 ->
  (exists a, In (a, u) m /\ add_or_get_urn u m = Ok (m, a)) \/
  ((forall a, ~ In (a, u) m) /\ fm_get Z.eqb (fm_len m + 1) m = None /\
     add_or_get_urn u m = Ok (fm_set Z.eqb (fm_len m + 1) u m, fm_len m + 1)) \/
  ((forall a, ~ In (a, u) m) /\ fm_get Z.eqb (fm_len m + 1) m <> None /\ add_or_get_urn u m = Err).
Proof.
  intros u m Hb. unfold add_or_get_urn. destruct (find_urn u m) as [k|] eqn:E.
  - left. exists k. split; auto. apply find_urn_some; auto.
  - right. pose proof (find_urn_none _ _ E) as Hn.
    assert (Hw : uwrap 32 (uwrap 32 (fm_len m) + 1) = fm_len m + 1).
    { assert (0 <= fm_len m) by (unfold fm_len; lia).
      rewrite (uwrap_small (fm_len m)) by lia. apply uwrap_small. lia. }
    rewrite Hw. destruct (fm_get Z.eqb (fm_len m + 1) m) eqn:G.
    + right. split; auto. split; auto. discriminate.
    + left. auto.
Qed.

(** reading never leaves an id without its URN, and keeps keys distinct *)
Lemma read_decl_err : forall loaded d s, read_decl loaded d s <> Panic.
Proof.
  intros loaded d s. destruct d; simpl; unfold resolve_ref; try discriminate;
  destruct (fm_get Z.eqb urn_ref (s_urns s)) as [u|]; simpl; try discriminate;
  destruct (loaded u); simpl; discriminate.
Qed.

Lemma read_decl_urns : forall loaded d s s', read_decl loaded d s = Ok s' -> s_urns s' = s_urns s.
Proof.
  intros loaded d s s' H. destruct d; simpl in H; unfold resolve_ref in H;
  try (destruct (fm_get Z.eqb urn_ref (s_urns s)) as [u|]; simpl in H; try discriminate;
  destruct (loaded u); simpl in H; try discriminate); inversion H; auto.
Qed.

Lemma read_urns_get : forall us a, fm_get Z.eqb a (read_urns us) = urn_at us a.
Proof.
  induction us as [|u us IH] using rev_ind; intros a; auto.
  unfold read_urns, urn_at in *. rewrite fold_left_app, rev_unit. cbn [fold_left find].
  destruct (um_anchor u =? a) eqn:E.
  - apply Z.eqb_eq in E; subst. apply get_set_same. apply zspec.
  - apply Z.eqb_neq in E. rewrite get_set_other by (auto; apply zspec). apply IH.
Qed.

Lemma read_decls_snoc : forall loaded ds d s, read_decls loaded (ds ++ [d]) s =
  (let! s' := read_decls loaded ds s in read_decl loaded d s').
Proof.
  induction ds as [|x ds IH]; intros d s; simpl.
  - destruct (read_decl loaded d s); auto.
  - destruct (read_decl loaded x s); simpl; auto.
Qed.

Lemma read_decl_char : forall loaded us d s, s_urns s = read_urns us ->
  (usable loaded us d /\ read_decl loaded d s =
     Ok (match declared us d with Some e => apply_entry e s | None => s end)) \/
  (~ usable loaded us d /\ read_decl loaded d s = Err).
Proof.
  intros loaded us d s Hs. unfold usable, declared.
  destruct d; simpl; unfold resolve_ref; rewrite ?Hs, ?read_urns_get; try (left; auto; fail);
  destruct (urn_at us urn_ref) as [u|] eqn:E; simpl;
  try (right; split; [intros (v & Hv & _); discriminate|auto]; fail);
  destruct (loaded u) eqn:L; simpl;
  try (left; split; [eauto|auto]; fail);
  right; split; auto; intros (v & Hv & Hl); inversion Hv; subst; congruence.
Qed.

Lemma read_decls_char : forall loaded us ds,
  (Forall (usable loaded us) ds /\ exists s, get_extension_set loaded us ds = Ok s /\
     s_urns s = read_urns us /\
     (forall k a, decode k a s = last_at us ds k a) /\
     (forall k id, fm_get ext_id_eqb id (anchors k s) = last_for us ds k id)) \/
  (~ Forall (usable loaded us) ds /\ get_extension_set loaded us ds = Err).
Proof.
  intros loaded us ds. unfold get_extension_set.
  induction ds as [|d ds IH] using rev_ind.
  - left. split; [constructor|]. eexists. split; [reflexivity|]. split; [auto|].
    split; intros []; auto.
  - rewrite read_decls_snoc. destruct IH as [(HF & s & E & Hu & Hd & Ha)|(HF & E)]; rewrite E; simpl.
    + destruct (read_decl_char loaded us d s Hu) as [(Hus & E2)|(Hus & E2)]; rewrite E2.
      * left. split; [apply Forall_app; auto|]. eexists. split; [reflexivity|].
        unfold last_at, last_for. rewrite map_app. simpl. setoid_rewrite rev_unit. simpl.
        destruct (declared us d) as [[[k0 a0] id0]|] eqn:ED.
        -- split; [rewrite apply_entry_urns; auto|]. split.
           ++ intros k a. rewrite decode_tbl, apply_entry_dec. cbn [is_entry_at].
              destruct (kind_dec k0 k); cbn [andb].
              ** destruct (Z.eqb_spec a0 a); subst.
                 --- apply get_set_same. apply zspec.
                 --- rewrite get_set_other by (auto; apply zspec). rewrite <- decode_tbl, Hd. auto.
              ** rewrite <- decode_tbl, Hd. auto.
           ++ intros k id. rewrite apply_entry_enc. cbn [is_entry_for].
              destruct (kind_dec k0 k); cbn [andb].
              ** destruct (ext_id_dec id0 id); subst.
                 --- apply get_set_same. apply ext_id_eqb_spec.
                 --- rewrite get_set_other by (auto; apply ext_id_eqb_spec). rewrite Ha. auto.
              ** rewrite Ha. auto.
        -- split; auto. 
      * right. split; auto. rewrite Forall_app. intros [_ H]. inversion H; auto.
    + right. split; auto. rewrite Forall_app. tauto.
Qed.

Lemma insert_increasing : forall A (key : A -> Z) x l,
  increasing (map key l) -> ~ In (key x) (map key l) -> increasing (map key (insert key x l)).
Proof.
  induction l as [|y l IH]; intros H Hn; simpl in *.
  - split; auto. intros z [].
  - destruct H as [H1 H2]. destruct (key x <=? key y) eqn:E.
    + apply Z.leb_le in E. simpl. split; [|auto]. intros z [<-|Hz]; [lia|]. specialize (H1 _ Hz). lia.
    + apply Z.leb_gt in E. simpl. split.
      * intros z Hz. apply in_map_iff in Hz as [w [<- Hw]].
        eapply Permutation_in in Hw; [|apply insert_perm]. destruct Hw as [<-|Hw]; [lia|].
        apply H1. apply in_map; auto.
      * apply IH; auto.
Qed.

Lemma isort_increasing : forall A (key : A -> Z) l, NoDup (map key l) -> increasing (map key (isort key l)).
Proof.
  induction l as [|x l IH]; simpl; intros H; auto. inversion H; subst.
  apply insert_increasing; auto. intros Hi. apply H2.
  exact (Permutation_in _ (Permutation_map key (isort_perm A key l)) Hi).
Qed.
