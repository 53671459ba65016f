(** Proofs about SigModel.v.  The final statements are in SigProps.v. *)

From Coq Require Import List ZArith String Bool Lia.
From Verif Require Import Base FMap FMapFacts TypesModel TypesSpec TypesProofs ExtSetModel ExtSetProofs
  TimeProofs SigModel SigSpec.
Import ListNotations.
Local Open Scope string_scope.

Section FdtInd.
  Variable P : fdt -> Prop.
  Variable Q : udtp -> Prop.
  Hypothesis Hprim : forall p n v, P (FPrim p n v).
  Hypothesis Henum : forall c n v s o, P (FEnum c n v s o).
  Hypothesis Hsingle : forall k n v i, P (FSingle k n v i).
  Hypothesis Hdec : forall n v p s, P (FDecimal n v p s).
  Hypothesis Hany : forall x v n, P (FAny x v n).
  Hypothesis Hlist : forall n v e, P e -> P (FList n v e).
  Hypothesis Hmap : forall n v k x, P k -> P x -> P (FMap n v k x).
  Hypothesis Hstruct : forall n v fs, Forall P fs -> P (FStruct n v fs).
  Hypothesis Hfunc : forall n ps r, Forall P ps -> P r -> P (FFunc n ps r).
  Hypothesis Huser : forall n v ps name, Forall Q ps -> P (FUser n v ps name).
  Hypothesis Hderiv : forall l f, P f -> P (FDeriv l f).
  Hypothesis Hdata : forall f, P f -> Q (UData f).
  Hypothesis Hint : forall z, Q (UInt z).
  Hypothesis Hstr : forall s, Q (UStr s).

  Fixpoint fdt_ind' (f : fdt) : P f :=
    match f with
    | FPrim p n v => Hprim p n v
    | FEnum c n v s o => Henum c n v s o
    | FSingle k n v i => Hsingle k n v i
    | FDecimal n v p s => Hdec n v p s
    | FAny x v n => Hany x v n
    | FList n v e => Hlist n v e (fdt_ind' e)
    | FMap n v k x => Hmap n v k x (fdt_ind' k) (fdt_ind' x)
    | FStruct n v fs => Hstruct n v fs
        ((fix go l : Forall P l :=
           match l with [] => Forall_nil _ | x :: l' => Forall_cons x (fdt_ind' x) (go l') end) fs)
    | FFunc n ps r => Hfunc n ps r
        ((fix go l : Forall P l :=
           match l with [] => Forall_nil _ | x :: l' => Forall_cons x (fdt_ind' x) (go l') end) ps)
        (fdt_ind' r)
    | FUser n v ps name => Huser n v ps name
        ((fix go l : Forall Q l :=
           match l with [] => Forall_nil _ | x :: l' => Forall_cons x (udtp_ind' x) (go l') end) ps)
    | FDeriv l f => Hderiv l f (fdt_ind' f)
    end
  with udtp_ind' (p : udtp) : Q p :=
    match p with
    | UData f => Hdata f (fdt_ind' f)
    | UInt z => Hint z
    | UStr s => Hstr s
    end.
End FdtInd.

Lemma fdt_udtp_ind : forall (P : fdt -> Prop) (Q : udtp -> Prop),
  (forall f, match f with
     | FList _ _ _ | FMap _ _ _ _ | FStruct _ _ _ | FFunc _ _ _ | FUser _ _ _ _ | FDeriv _ _ => False
     | _ => True end -> P f) ->
  (forall n v e, P e -> P (FList n v e)) ->
  (forall n v k x, P k -> P x -> P (FMap n v k x)) ->
  (forall n v fs, Forall P fs -> P (FStruct n v fs)) ->
  (forall n ps r, Forall P ps -> P r -> P (FFunc n ps r)) ->
  (forall n v ps name, Forall Q ps -> P (FUser n v ps name)) ->
  (forall l f, P f -> P (FDeriv l f)) ->
  (forall p, match p with UData _ => False | _ => True end -> Q p) ->
  (forall f, P f -> Q (UData f)) ->
  (forall f, P f) /\ (forall p, Q p).
Proof.
  intros P Q H1 H2 H3 H4 H5 H6 H7 H8 H9; split.
  - apply fdt_ind' with (Q := Q); auto; intros; try (apply H1; exact I); try (apply H8; exact I).
  - apply udtp_ind' with (P := P); auto; intros; try (apply H1; exact I); try (apply H8; exact I).
Qed.

(** ** C05 *)

Lemma compatible_fits : forall i z, iparam_compatible i z = true <-> fits i z.
Proof. intros [c|x] z; simpl; [apply Z.eqb_eq | tauto]. Qed.

Lemma all2b_Forall2 : forall A B (f : A -> B -> bool) (R : A -> B -> Prop) l,
  Forall (fun x => forall y, f x y = true <-> R x y) l ->
  forall m, all2b f l m = true <-> Forall2 R l m.
Proof.
  intros A B f R l H. induction H as [|x l Hx Hl IH]; intros [|y m]; simpl.
  - split; auto.
  - split; [discriminate | inversion 1].
  - split; [discriminate | inversion 1].
  - rewrite andb_true_iff, Hx, IH. split.
    + intros [? ?]; constructor; auto.
    + inversion 1; auto.
Qed.

Lemma match_without_instance_all :
  (forall f t, match_without f t = true <-> instance f t) /\
  (forall p q, udt_match_without p q = true <-> instance_param p q).
Proof.
  apply fdt_udtp_ind.
  - intros f Hf t. destruct f; try contradiction; simpl.
    + destruct t; simpl; try (split; [discriminate | inversion 1]).
      rewrite prim_eqb_spec. split; [intros ->; constructor | inversion 1; auto].
    + destruct t; simpl; try (split; [discriminate | inversion 1]).
      destruct is_common0.
      * split; intros; [constructor | reflexivity].
      * rewrite andb_true_iff, String.eqb_eq, strings_eqb_spec.
        split; [intros [-> ->]; constructor | inversion 1; auto].
    + destruct k; destruct t; simpl; try (split; [discriminate | inversion 1]);
        try (rewrite compatible_fits; split; [intros; constructor; auto | inversion 1; auto]).
      destruct (fixedk_eqb k k0) eqn:E.
      * apply fixedk_eqb_spec in E; subst. rewrite compatible_fits.
        split; [intros; constructor; auto | inversion 1; auto].
      * split; [discriminate | inversion 1; subst].
        assert (fixedk_eqb k0 k0 = true) by (apply fixedk_eqb_spec; auto). congruence.
    + destruct t; simpl; try (split; [discriminate | inversion 1]).
      rewrite andb_true_iff, !compatible_fits.
      split; [intros [? ?]; constructor; auto | inversion 1; auto].
    + split; intros; [constructor | reflexivity].
  - intros n v e IH t. destruct t; simpl; try (split; [discriminate | inversion 1]).
    rewrite IH. split; [intros; constructor; auto | inversion 1; auto].
  - intros n v k x IHk IHx t. destruct t; simpl; try (split; [discriminate | inversion 1]).
    rewrite andb_true_iff, IHk, IHx. split; [intros [? ?]; constructor; auto | inversion 1; auto].
  - intros n v fs IH t. destruct t; simpl; try (split; [discriminate | inversion 1]).
    rewrite (all2b_Forall2 _ _ _ instance fs IH).
    split; [intros; constructor; auto | inversion 1; auto].
  - intros n ps r IH IHr t. destruct t; simpl; try (split; [discriminate | inversion 1]).
    rewrite andb_true_iff, (all2b_Forall2 _ _ _ instance ps IH), IHr.
    split; [intros [? ?]; constructor; auto | inversion 1; auto].
  - intros n v ps name IH t. destruct t; simpl; try (split; [discriminate | inversion 1]).
    rewrite (all2b_Forall2 _ _ _ instance_param ps IH).
    split; [intros; constructor; auto | inversion 1; auto].
  - intros l f IH t. simpl. rewrite IH. split; [intros; constructor; auto | inversion 1; auto].
  - intros p Hp q. destruct p; try contradiction; destruct q; simpl; try (split; [discriminate | inversion 1]).
    + rewrite Z.eqb_eq. split; [intros E; constructor; auto | inversion 1; auto].
    + rewrite String.eqb_eq. split; [intros ->; constructor | inversion 1; auto].
  - intros f IH q. destruct q; simpl; try (split; [discriminate | inversion 1]).
    rewrite IH. split; [intros; constructor; auto | inversion 1; auto].
Qed.

Lemma match_without_instance : forall f t, match_without f t = true <-> instance f t.
Proof. apply match_without_instance_all. Qed.
Lemma udt_match_without_instance : forall p q, udt_match_without p q = true <-> instance_param p q.
Proof. apply match_without_instance_all. Qed.

Lemma declared_nullability_eq : forall f, fdt_nullability f = declared_nullability f.
Proof. induction f; simpl; auto. Qed.
Lemma outer_nullability_eq : forall t, get_nullability t = outer_nullability t.
Proof. destruct t; reflexivity. Qed.

Lemma all2b_split : forall A B (f : A -> B -> bool) (R S : A -> B -> Prop) l,
  Forall (fun x => forall y, f x y = true <-> R x y /\ S x y) l ->
  forall m, all2b f l m = true <-> Forall2 R l m /\ AllZip S l m.
Proof.
  intros A B f R S l H. induction H as [|x l Hx Hl IH]; intros [|y m]; simpl.
  - split; auto.
  - split; [discriminate | intros [H _]; inversion H].
  - split; [discriminate | intros [H _]; inversion H].
  - rewrite andb_true_iff, Hx, IH. split.
    + intros [[? ?] [? ?]]; repeat split; auto.
    + intros [H1 [H2 H3]]. inversion H1; auto.
Qed.

Lemma match_with_spec : forall f t, match_with f t = true <-> instance f t /\ nulls false f t.
Proof.
  intros f. pattern f.
  apply fdt_ind' with (Q := fun _ => True); auto; clear f.
  - intros p n v t. cbn [match_with nulls]. rewrite andb_true_iff, Z.eqb_eq, declared_nullability_eq,
      outer_nullability_eq, match_without_instance. simpl. destruct t; tauto.
  - intros c n v s o t. cbn [match_with nulls]. rewrite andb_true_iff, Z.eqb_eq, declared_nullability_eq,
      outer_nullability_eq, match_without_instance. simpl. destruct t; tauto.
  - intros k n v i t. cbn [match_with nulls]. rewrite andb_true_iff, Z.eqb_eq, declared_nullability_eq,
      outer_nullability_eq, match_without_instance. simpl. destruct t; tauto.
  - intros n v p s t. cbn [match_with nulls]. rewrite andb_true_iff, Z.eqb_eq, declared_nullability_eq,
      outer_nullability_eq, match_without_instance. simpl. destruct t; tauto.
  - intros x v n t. cbn [match_with nulls]. rewrite andb_true_iff, Z.eqb_eq, declared_nullability_eq,
      outer_nullability_eq. assert (instance (FAny x v n) t) by constructor. simpl. destruct t; tauto.
  - intros n v e IH t. cbn [match_with nulls]. rewrite andb_true_iff, Z.eqb_eq, declared_nullability_eq,
      outer_nullability_eq.
    destruct t; try (split; [intros [_ ?]; discriminate | intros [H _]; inversion H]).
    rewrite IH. split.
    + intros (?&?&?). repeat split; auto. constructor; auto.
    + intros [H [? ?]]. inversion H; auto.
  - intros n v k x IHk IHx t. cbn [match_with nulls]. rewrite andb_true_iff, Z.eqb_eq, declared_nullability_eq,
      outer_nullability_eq.
    destruct t; try (split; [intros [_ ?]; discriminate | intros [H _]; inversion H]).
    rewrite andb_true_iff, IHk, IHx. split.
    + intros (?&[? ?]&[? ?]). repeat split; auto. constructor; auto.
    + intros [H [? [? ?]]]. inversion H; auto.
  - intros n v fs IH t. cbn [match_with nulls]. rewrite andb_true_iff, Z.eqb_eq, declared_nullability_eq,
      outer_nullability_eq.
    destruct t; try (split; [intros [_ ?]; discriminate | intros [H _]; inversion H]).
    rewrite (all2b_split _ _ _ instance (nulls false) fs IH). split.
    + intros (?&?&?). repeat split; auto. constructor; auto.
    + intros [H [? ?]]. inversion H; auto.
  - intros n ps r _ _ t. cbn [match_with nulls]. rewrite andb_true_iff, Z.eqb_eq, declared_nullability_eq,
      outer_nullability_eq, match_without_instance.
    destruct t; try (split; [intros [_ H]; inversion H | intros [H _]; inversion H]; fail).
    split.
    + intros [? ?]; repeat split; auto; discriminate.
    + intros [? [? ?]]; auto.
  - intros n v ps name _ t. cbn [match_with nulls]. rewrite andb_true_iff, Z.eqb_eq, declared_nullability_eq,
      outer_nullability_eq.
    destruct t; try (split; [intros [_ ?]; discriminate | intros [H _]; inversion H]).
    rewrite (all2b_split _ _ _ instance_param
      (fun p q => match p, q with
                | UData g, TPdata u =>
                    declared_nullability g = outer_nullability u /\ (false = true -> nulls false g u)
                | _, _ => True
                end) ps).
    + split.
      * intros (?&?&?). repeat split; auto. constructor; auto.
      * intros [H [? ?]]. inversion H; auto.
    + clear. induction ps as [|p ps IH]; constructor; auto.
      intros q. unfold udt_match_with. destruct p as [g|z|s].
      * rewrite andb_true_iff, udt_match_without_instance.
        destruct q; try (split; [intros [_ ?]; discriminate | intros [H _]; inversion H]).
        rewrite Z.eqb_eq, declared_nullability_eq, outer_nullability_eq.
        split; [intros [? ?]; repeat split; auto; discriminate | intros (?&?&?); auto].
      * rewrite udt_match_without_instance. tauto.
      * rewrite udt_match_without_instance. tauto.
  - intros l g _ t. cbn [match_with nulls]. rewrite andb_true_iff, Z.eqb_eq, declared_nullability_eq,
      outer_nullability_eq, match_without_instance.
    split.
    + intros [? ?]; split; auto. split; auto. discriminate.
    + intros [? [? ?]]; auto.
Qed.

Lemma AllZip_iff : forall A B (P P' : A -> B -> Prop) l,
  Forall (fun x => forall y, P x y <-> P' x y) l -> forall m, AllZip P l m <-> AllZip P' l m.
Proof.
  intros A B P P' l H. induction H as [|x l Hx Hl IH]; intros [|y m]; simpl; try tauto.
  rewrite Hx, IH. tauto.
Qed.

Lemma nulls_checked_everywhere : forall f t, checked_everywhere f -> (nulls true f t <-> nulls false f t).
Proof.
  intros f. pattern f.
  apply fdt_ind' with (Q := fun _ => True); auto; clear f; try (intros; simpl in *; tauto).
  - intros n v e IH t H. simpl in *. destruct t; try tauto. rewrite IH by auto. tauto.
  - intros n v k x IHk IHx t [Hk Hx]. simpl. destruct t; try tauto. rewrite IHk, IHx by auto. tauto.
  - intros n v fs IH t H. simpl in *. destruct t; try tauto.
    apply All_Forall in H.
    rewrite (AllZip_iff _ _ _ (nulls false) fs); [tauto|].
    clear - IH H. induction IH as [|g l Hg Hl IHl]; constructor; inversion H; auto.
  - intros n v ps name _ t H. simpl in *. destruct t; try tauto.
    apply All_Forall in H.
    rewrite (AllZip_iff _ _ _ (fun p q => match p, q with
                | UData g, TPdata u =>
                    declared_nullability g = outer_nullability u /\ (false = true -> nulls false g u)
                | _, _ => True
                end) ps); [tauto|].
    clear - H. induction H as [|p l Hp Hl IHl]; constructor; auto.
    intros q. destruct p as [g|z|s]; try tauto. destruct q; try tauto.
    destruct g; try contradiction; simpl; split; intros [? ?]; repeat split; auto; try discriminate.
Qed.

(** ** Bases of types *)

Lemma sb_refl : forall t, same_but_nullability t t.
Proof. destruct t; constructor. Qed.
Lemma sb_sym : forall t u, same_but_nullability t u -> same_but_nullability u t.
Proof. intros t u H; inversion H; constructor. Qed.
Lemma sb_trans : forall t u w, same_but_nullability t u -> same_but_nullability u w -> same_but_nullability t w.
Proof. intros t u w H1 H2. inversion H1; subst; inversion H2; subst; constructor. Qed.

Lemma same_base_refl : forall t, same_base t t.
Proof. intros; apply sb_refl. Qed.
Lemma same_base_sym : forall t u, same_base t u -> same_base u t.
Proof. intros; apply sb_sym; auto. Qed.
Lemma same_base_trans : forall t u w, same_base t u -> same_base u w -> same_base t w.
Proof. unfold same_base; intros; eapply sb_trans; eauto. Qed.

Lemma plain_with_nullability : forall n t, plain t -> plain (with_nullability n t).
Proof. destruct t; simpl; auto. Qed.

Lemma same_type_base : forall n t u, plain t -> get_nullability t = n ->
  (same_type t (with_nullability n u) <-> same_base t u).
Proof.
  unfold same_type, same_base. intros n t u Hp Hn.
  destruct t; simpl in Hn; subst; destruct u; simpl in *;
    try contradiction;
    (split; [intros H; inversion H; subst; constructor | intros H; inversion H; subst; reflexivity]).
Qed.

Lemma base_with_null_l : forall n t u, same_base (with_nullability n t) u <-> same_base t u.
Proof.
  unfold same_base. intros n t u; destruct t; simpl; (split; intros H; inversion H; subst; constructor).
Qed.

(** the comparison made on any-bindings *)
Lemma base_equals : forall u t, arg_type u -> arg_type t ->
  exists b, type_equals (with_nullability NullRequired u) (with_nullability NullRequired t) = Ok b /\
            (b = true <-> same_base u t).
Proof.
  intros u t [Hu|Hu] Ht.
  - destruct (proj1 eq_char_all (with_nullability NullRequired u)) with (u := with_nullability NullRequired t)
      as [b [Hb He]]; [apply plain_with_nullability; auto|].
    exists b; split; auto. rewrite He, same_type_base.
    + apply base_with_null_l.
    + apply plain_with_nullability; auto.
    + apply with_nullability_same.
  - subst u. destruct Ht as [Ht|Ht].
    + exists false. split.
      * destruct t; simpl in *; try contradiction; auto.
      * split; [discriminate|]. unfold same_base. destruct t; simpl in *; try contradiction; inversion 1.
    + subst. exists true. split; auto. split; auto. intros _. apply same_base_refl.
Qed.

(** the comparison made on variadic arguments *)
Lemma adjacent_equals : forall a b, arg_type a -> arg_type b ->
  exists e, type_equals a (with_nullability (get_nullability a) b) = Ok e /\ (e = true <-> same_base a b).
Proof.
  intros u t [Hu|Hu] Ht.
  - destruct (proj1 eq_char_all u) with (u := with_nullability (get_nullability u) t)
      as [b [Hb He]]; [auto|].
    exists b; split; auto. rewrite He, same_type_base; auto. tauto.
  - subst u. destruct Ht as [Ht|Ht].
    + exists false. split.
      * destruct t; simpl in *; try contradiction; auto.
      * split; [discriminate|]. unfold same_base. destruct t; simpl in *; try contradiction; inversion 1.
    + subst. exists true. split; auto. split; auto. intros _. apply same_base_refl.
Qed.

Lemma uniform_cons : forall a l, uniform_from 0 (a :: l) <->
  (forall b, nth_error l 0 = Some b -> same_base a b) /\ uniform_from 0 l.
Proof.
  intros a l. split.
  - intros H. split.
    + intros b Hb. apply (H 0%nat 1%nat a b); auto; lia.
    + intros i j x y _ _ Hx Hy. apply (H (S i) (S j) x y); auto; lia.
  - intros [H1 H2].
    assert (Hz : forall j y, nth_error (a :: l) j = Some y -> same_base a y).
    { intros [|j] y Hy; simpl in Hy.
      - inversion Hy. apply same_base_refl.
      - destruct l as [|b l]; [destruct j; discriminate|].
        apply same_base_trans with b; [apply H1; reflexivity|].
        apply (H2 0%nat j b y); auto; lia. }
    intros i j x y _ _ Hx Hy. apply same_base_trans with a; [apply same_base_sym|]; eauto.
Qed.

Lemma adjacent_uniform : forall l, Forall arg_type l ->
  exists b, adjacent_equal l = Ok b /\ (b = true <-> uniform_from 0 l).
Proof.
  intros l H. induction H as [|a l Ha Hl IH].
  - exists true. split; auto. split; auto. intros _ i j x y _ _ Hx. destruct i; discriminate.
  - destruct l as [|b l].
    + exists true. split; auto. split; auto. intros _.
      apply uniform_cons. split; [discriminate|]. intros i j x y _ _ Hx; destruct i; discriminate.
    + inversion Hl as [|b' l' Hb Hl']; subst.
      destruct (adjacent_equals a b Ha Hb) as [e [He Hs]].
      change (adjacent_equal (a :: b :: l)) with
        (let! e := type_equals a (with_nullability (get_nullability a) b) in
         if e then adjacent_equal (b :: l) else Ok false).
      rewrite He. simpl bind. destruct e.
      * destruct IH as [b' [Hb' Hu]]. exists b'. split; auto.
        rewrite Hu, (uniform_cons a). simpl. split.
        -- intros; split; auto. intros b0 E; inversion E; subst. apply Hs; auto.
        -- tauto.
      * exists false. split; auto. split; [discriminate|]. intros Hun.
        apply uniform_cons in Hun. destruct Hun as [Hun _].
        assert (same_base a b) by (apply Hun; reflexivity). apply Hs in H. discriminate.
Qed.

Lemma nth_error_skipn' : forall A k (l : list A) i, nth_error (skipn k l) i = nth_error l (k + i).
Proof.
  induction k; intros l i; simpl; auto. destruct l; simpl; auto. destruct i; auto.
Qed.

Lemma uniform_skipn : forall k l, uniform_from 0 (skipn k l) <-> uniform_from k l.
Proof.
  intros k l. split.
  - intros H i j a b Hi Hj Ha Hb.
    apply (H (i - k)%nat (j - k)%nat a b); try lia; rewrite nth_error_skipn'.
    + replace (k + (i - k))%nat with i by lia; auto.
    + replace (k + (j - k))%nat with j by lia; auto.
  - intros H i j a b _ _ Ha Hb. rewrite nth_error_skipn' in Ha, Hb.
    apply (H (k + i)%nat (k + j)%nat a b); auto; lia.
Qed.

Lemma skipn_skipn' : forall A a b (l : list A), skipn a (skipn b l) = skipn (b + a) l.
Proof.
  intros A a b. revert a. induction b; intros a l; simpl; auto.
  destruct l; simpl; auto. destruct a; auto.
Qed.

Lemma Forall_skipn : forall A (P : A -> Prop) k l, Forall P l -> Forall P (skipn k l).
Proof.
  intros A P k. induction k; intros l H; simpl; auto. destruct l; auto. inversion H; auto.
Qed.

(** ** Lists and zips *)

Lemma AllZip_nth : forall A B (P : A -> B -> Prop) l m,
  AllZip P l m <-> forall i x y, nth_error l i = Some x -> nth_error m i = Some y -> P x y.
Proof.
  intros A B P l. induction l as [|x l IH]; intros [|y m]; simpl.
  - split; auto. intros _ [|i]; discriminate.
  - split; auto. intros _ [|i]; discriminate.
  - split; auto. intros _ [|i] ? ? ?; discriminate.
  - rewrite IH. split.
    + intros [H1 H2] [|i] a b Ha Hb; simpl in *; [inversion Ha; inversion Hb; subst; auto | eauto].
    + intros H. split; [apply (H 0%nat); auto | intros i a b Ha Hb; apply (H (S i)); auto].
Qed.

Lemma nth_error_rev_last : forall A (l init : list A) x, rev l = x :: init ->
  l = (rev init ++ [x])%list /\ nth_error l (List.length l - 1) = Some x.
Proof.
  intros A l init x H.
  assert (E : l = (rev init ++ [x])%list) by (rewrite <- (rev_involutive l), H; reflexivity).
  split; auto. rewrite E, app_length. simpl.
  replace (List.length (rev init) + 1 - 1)%nat with (List.length (rev init)) by lia.
  rewrite nth_error_app2 by lia. rewrite Nat.sub_diag. reflexivity.
Qed.

Lemma declared_at_spec : forall fs pos,
  declared_at fs pos = match declared_for fs pos with Some f => Ok f | None => Panic end.
Proof.
  intros fs pos. unfold declared_at, declared_for.
  destruct (nth_error fs pos); auto.
  destruct (rev fs) as [|f init] eqn:E.
  - assert (fs = []) by (rewrite <- (rev_involutive fs), E; reflexivity). subst. reflexivity.
  - apply nth_error_rev_last in E. destruct E as [_ ->]. reflexivity.
Qed.

Lemma declared_for_in : forall A (l : list A) i x, declared_for l i = Some x -> In x l.
Proof.
  unfold declared_for; intros A l i x. destruct (nth_error l i) eqn:E.
  - intros H; inversion H; subst. eapply nth_error_In; eauto.
  - apply nth_error_In.
Qed.

Lemma declared_for_some : forall A (l : list A) i, l <> [] -> exists x, declared_for l i = Some x.
Proof.
  unfold declared_for; intros A l i H. destruct (nth_error l i) eqn:E; eauto.
  destruct (nth_error l (List.length l - 1)) eqn:E2; eauto.
  exfalso. apply nth_error_None in E2. destruct l; [congruence|]. simpl in E2. lia.
Qed.

(** ** C07: any binding *)

Definition sub_bindings (b b' : bindings) : Prop :=
  forall x u, fm_get String.eqb x b = Some u -> fm_get String.eqb x b' = Some u.
Definition good_bindings (b : bindings) : Prop :=
  forall x u, fm_get String.eqb x b = Some u -> arg_type u.
Definition respects (sigma : string -> ty) (b : bindings) : Prop :=
  forall x u, fm_get String.eqb x b = Some u -> same_base (sigma x) u.

Lemma str_spec : forall a b, String.eqb a b = true <-> a = b.
Proof. exact String.eqb_eq. Qed.

Lemma get_set_str : forall x y (u : ty) b,
  fm_get String.eqb x (fm_set String.eqb y u b) = if String.eqb x y then Some u else fm_get String.eqb x b.
Proof.
  intros. destruct (String.eqb x y) eqn:E.
  - apply String.eqb_eq in E; subst. apply get_set_same, str_spec.
  - apply String.eqb_neq in E. apply get_set_other; [apply str_spec | auto].
Qed.

Definition bind_ok (p : fdt) : Prop := forall t b, arg_type t -> good_bindings b ->
  match bind_any p t b with
  | Ok b' => good_bindings b' /\ sub_bindings b b' /\
             (forall sigma, respects sigma b' -> any_fits false sigma p t) /\
             (forall sigma, respects sigma b -> any_fits false sigma p t -> respects sigma b')
  | Err => forall sigma, respects sigma b -> ~ any_fits false sigma p t
  | Panic => False
  end.

Lemma sub_refl : forall b, sub_bindings b b.
Proof. intros b x u H; exact H. Qed.
Lemma sub_trans : forall a b c, sub_bindings a b -> sub_bindings b c -> sub_bindings a c.
Proof. unfold sub_bindings; eauto. Qed.
Lemma respects_sub : forall s a b, sub_bindings a b -> respects s b -> respects s a.
Proof. unfold respects, sub_bindings; eauto. Qed.

Lemma bind_same : forall b (P : (string -> ty) -> Prop), good_bindings b -> (forall s, P s) ->
  good_bindings b /\ sub_bindings b b /\ (forall s, respects s b -> P s) /\
  (forall s, respects s b -> P s -> respects s b).
Proof. intros b P H1 H2. repeat split; auto using sub_refl. Qed.

Lemma fold2M_bind : forall fs, Forall bind_ok fs -> forall ts b, Forall arg_type ts -> good_bindings b ->
  match fold2M bind_any fs ts b with
  | Ok b' => good_bindings b' /\ sub_bindings b b' /\
             (forall sigma, respects sigma b' -> AllZip (any_fits false sigma) fs ts) /\
             (forall sigma, respects sigma b -> AllZip (any_fits false sigma) fs ts -> respects sigma b')
  | Err => forall sigma, respects sigma b -> ~ AllZip (any_fits false sigma) fs ts
  | Panic => False
  end.
Proof.
  intros fs H. induction H as [|p fs Hp Hfs IH]; intros [|t ts] b Ht Hb; simpl;
    try (repeat split; auto using sub_refl; fail).
  inversion Ht as [|t' ts' Ht1 Ht2]; subst.
  specialize (Hp t b Ht1 Hb). destruct (bind_any p t b) as [b1| |] eqn:E; simpl; auto.
  - destruct Hp as (Hg & Hs & Hf & Hc).
    specialize (IH ts b1 Ht2 Hg).
    change ((fix go (l : list fdt) (m : list ty) (s : bindings) {struct l} : res bindings :=
           match l with
           | [] => Ok s
           | x :: l' => match m with
                        | [] => Ok s
                        | y :: m' => let! s' := bind_any x y s in go l' m' s'
                        end
           end) fs ts b1) with (fold2M bind_any fs ts b1).
    destruct (fold2M bind_any fs ts b1) as [b2| |]; auto.
    + destruct IH as (Hg2 & Hs2 & Hf2 & Hc2). split; [auto|]. split; [eapply sub_trans; eauto|]. split.
      * intros s Hr. split; [apply Hf; eapply respects_sub; eauto | apply Hf2; auto].
      * intros s Hr [H1 H2]. apply Hc2; auto.
    + intros s Hr [H1 H2]. apply (IH s); auto.
  - intros s Hr [H1 H2]. apply (Hp s); auto.
Qed.

Lemma plain_arg : forall t, plain t -> arg_type t.
Proof. unfold arg_type; auto. Qed.

Lemma arg_list : forall n v e, arg_type (TList n v e) -> arg_type e.
Proof. intros n v e [H|H]; [apply plain_arg; exact H | discriminate]. Qed.
Lemma arg_map : forall n v k x, arg_type (TMap n v k x) -> arg_type k /\ arg_type x.
Proof. intros n v k x [H|H]; [simpl in H; destruct H; split; apply plain_arg; auto | discriminate]. Qed.
Lemma arg_struct : forall n v fs, arg_type (TStruct n v fs) -> Forall arg_type fs.
Proof.
  intros n v fs [H|H]; [|discriminate]. simpl in H. apply All_Forall in H.
  eapply Forall_impl; [|apply H]. apply plain_arg.
Qed.

Lemma bind_any_spec : forall p, bind_ok p.
Proof.
  intros p. pattern p.
  apply fdt_ind' with (Q := fun _ => True); auto; clear p;
    try (intros; intros t b Ht Hb; simpl bind_any; apply bind_same; auto; intros; cbn [any_fits];
         destruct t; first [exact I | intros; discriminate]).
  - (* any *)
    intros x v n t b Ht Hb. cbn [bind_any any_fits].
    destruct (String.eqb x "any") eqn:E.
    + apply String.eqb_eq in E. apply bind_same; auto.
    + apply String.eqb_neq in E. destruct (fm_get String.eqb x b) as [u|] eqn:G.
      * destruct (base_equals u t (Hb _ _ G) Ht) as [e [He Hs]]. rewrite He. simpl.
        destruct e.
        -- repeat split; auto using sub_refl.
           intros s Hr. assert (x = "any" \/ same_base (s x) t); [right|destruct t; auto].
           apply same_base_trans with u; [apply Hr; auto | apply Hs; auto].
        -- intros s Hr HH. assert (HH' : x = "any" \/ same_base (s x) t) by (destruct t; exact HH).
           destruct HH' as [?|HH']; [contradiction|].
           assert (same_base u t) by (eapply same_base_trans; [apply same_base_sym, Hr, G | exact HH']).
           apply Hs in H. discriminate.
      * repeat split.
        -- intros y u. rewrite get_set_str. destruct (String.eqb y x); intros H; [inversion H; subst; auto | eauto].
        -- intros y u H. rewrite get_set_str. destruct (String.eqb y x) eqn:Ey; auto.
           apply String.eqb_eq in Ey; subst. congruence.
        -- intros s Hr. assert (x = "any" \/ same_base (s x) t); [right|destruct t; auto].
           apply Hr. rewrite get_set_str, String.eqb_refl. reflexivity.
        -- intros s Hr HH y u. rewrite get_set_str.
           assert (HH' : x = "any" \/ same_base (s x) t) by (destruct t; exact HH).
           destruct (String.eqb y x) eqn:Ey; intros H; [|eauto].
           inversion H; subst. apply String.eqb_eq in Ey; subst. destruct HH'; [contradiction|auto].
  - (* list *)
    intros n v e IH t b Ht Hb. cbn [bind_any].
    destruct t; try (apply bind_same; simpl; auto; fail).
    simpl. apply IH; auto. eapply arg_list; eauto.
  - (* map *)
    intros n v k x IHk IHx t b Ht Hb. cbn [bind_any].
    destruct t; try (apply bind_same; simpl; auto; fail).
    apply arg_map in Ht. destruct Ht as [H1 H2]. cbn [any_fits].
    specialize (IHk t1 b H1 Hb). destruct (bind_any k t1 b) as [b1| |]; simpl bind; auto.
    + destruct IHk as (Hg & Hs & Hf & Hc).
      specialize (IHx t2 b1 H2 Hg). destruct (bind_any x t2 b1) as [b2| |]; auto.
      * destruct IHx as (Hg2 & Hs2 & Hf2 & Hc2).
        split; [auto|]. split; [eapply sub_trans; eauto|]. split.
        -- intros s Hr. split; auto. apply Hf. eapply respects_sub; eauto.
        -- intros s Hr [A1 A2]. auto.
      * intros s Hr [A1 A2]. apply (IHx s); auto.
    + intros s Hr [A1 A2]. apply (IHk s); auto.
  - (* struct *)
    intros n v fs IH t b Ht Hb. cbn [bind_any].
    destruct t; try (apply bind_same; simpl; auto; fail).
    apply arg_struct in Ht. cbn [any_fits].
    destruct (Nat.eqb (List.length fields) (List.length fs)) eqn:E.
    + apply Nat.eqb_eq in E. pose proof (fold2M_bind fs IH fields b Ht Hb) as H.
      destruct (fold2M bind_any fs fields b) as [b'| |]; auto.
      * destruct H as (Hg & Hs & Hf & Hc). repeat split; auto.
      * intros s Hr HH. apply (H s); auto.
    + apply Nat.eqb_neq in E. apply bind_same; auto. intros s Hl. congruence.
Qed.

Lemma validate_fold : forall fs args, Forall arg_type args ->
  match fold2M bind_any fs args [] with
  | Ok _ => exists sigma, AllZip (any_fits false sigma) fs args
  | Err => forall sigma, ~ AllZip (any_fits false sigma) fs args
  | Panic => False
  end.
Proof.
  intros fs args Ha.
  assert (Hall : Forall bind_ok fs) by (apply Forall_forall; intros; apply bind_any_spec).
  assert (Hg : good_bindings []) by (intros x u H; discriminate).
  pose proof (fold2M_bind fs Hall args [] Ha Hg) as H.
  destruct (fold2M bind_any fs args []) as [b| |]; auto.
  - destruct H as (Hg' & _ & Hf & _).
    exists (fun x => match fm_get String.eqb x b with Some u => u | None => TPrim PrimBool 0 0 end).
    apply Hf. intros x u E. rewrite E. apply same_base_refl.
  - intros s HH. apply (H s); auto. intros x u E; discriminate.
Qed.

Lemma expand_spec : forall fs v n fs', expand_params fs (Some v) n = Ok fs' ->
  (List.length fs <= n)%nat -> fs <> [] ->
  List.length fs' = n /\ forall i, (i < n)%nat -> nth_error fs' i = declared_for fs i.
Proof.
  intros fs v n fs' H Hle Hne. unfold expand_params in H.
  destruct (Nat.ltb (List.length fs) n) eqn:E.
  - apply Nat.ltb_lt in E. destruct (rev fs) as [|last init] eqn:R; [discriminate|].
    apply nth_error_rev_last in R. destruct R as [R1 R2].
    inversion H; subst fs'; clear H.
    assert (Hl : List.length fs = S (List.length (rev init))) by (rewrite R1, app_length; simpl; lia).
    split; [rewrite app_length, repeat_length; lia|].
    intros i Hi. unfold declared_for.
    destruct (Nat.ltb i (List.length (rev init))) eqn:Ei.
    + apply Nat.ltb_lt in Ei. rewrite nth_error_app1 by auto.
      rewrite R1, nth_error_app1 by auto.
      destruct (nth_error (rev init) i) eqn:N; auto. apply nth_error_None in N. lia.
    + apply Nat.ltb_ge in Ei. rewrite nth_error_app2 by auto.
      rewrite nth_error_repeat by lia.
      destruct (nth_error fs i) eqn:N; [|symmetry; auto].
      assert (i < List.length fs)%nat by (apply nth_error_Some; congruence).
      assert (i = List.length (rev init)) by lia. subst i.
      rewrite R1, nth_error_app2 in N by lia. rewrite Nat.sub_diag in N. simpl in N. congruence.
  - apply Nat.ltb_ge in E. inversion H; subst. split; [lia|].
    intros i Hi. unfold declared_for. destruct (nth_error fs' i) eqn:N; auto.
    apply nth_error_None in N. lia.
Qed.

