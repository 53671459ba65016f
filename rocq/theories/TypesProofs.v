(** Proofs about TypesModel.v.  The final statements are in TypesProps.v. *)

From Coq Require Import List ZArith String Bool Lia.
From Verif Require Import Base TypesModel TypesSpec.
Import ListNotations.
Local Open Scope string_scope.

(** * Induction principles *)

Section TyInd.
  Variable P : ty -> Prop.
  Variable Q : tparam -> Prop.
  Hypothesis Hprim : forall p n v, P (TPrim p n v).
  Hypothesis Hfixed : forall k n v l, P (TFixed k n v l).
  Hypothesis Hdec : forall n v p s, P (TDecimal n v p s).
  Hypothesis Hpt : forall n v p, P (TPrecTime n v p).
  Hypothesis Hpts : forall n v p, P (TPrecTs n v p).
  Hypothesis Hptstz : forall n v p, P (TPrecTsTz n v p).
  Hypothesis Hiday : forall n v p, P (TIntervalDay n v p).
  Hypothesis Hicomp : forall b n v p, P (TIntervalCompound b n v p).
  Hypothesis Hiym : forall n v, P (TIntervalYearToMonth n v).
  Hypothesis Henum : forall c n v s o, P (TEnum c n v s o).
  Hypothesis Hstruct : forall n v fs, Forall P fs -> P (TStruct n v fs).
  Hypothesis Hfunc : forall n ps r, Forall P ps -> P r -> P (TFunc n ps r).
  Hypothesis Hlist : forall n v e, P e -> P (TList n v e).
  Hypothesis Hmap : forall n v k x, P k -> P x -> P (TMap n v k x).
  Hypothesis Huser : forall n v r ps, Forall Q ps -> P (TUser n v r ps).
  Hypothesis Hnil : Q TPnil.
  Hypothesis Hnull : Q TPnull.
  Hypothesis Hbool : forall b, Q (TPbool b).
  Hypothesis Hdata : forall t, P t -> Q (TPdata t).
  Hypothesis Hint : forall z, Q (TPint z).
  Hypothesis Hen : forall s, Q (TPenum s).
  Hypothesis Hstr : forall s, Q (TPstring s).

  Fixpoint ty_ind' (t : ty) : P t :=
    match t with
    | TPrim p n v => Hprim p n v
    | TFixed k n v l => Hfixed k n v l
    | TDecimal n v p s => Hdec n v p s
    | TPrecTime n v p => Hpt n v p
    | TPrecTs n v p => Hpts n v p
    | TPrecTsTz n v p => Hptstz n v p
    | TIntervalDay n v p => Hiday n v p
    | TIntervalCompound b n v p => Hicomp b n v p
    | TIntervalYearToMonth n v => Hiym n v
    | TEnum c n v s o => Henum c n v s o
    | TStruct n v fs => Hstruct n v fs
        ((fix go l : Forall P l :=
           match l with [] => Forall_nil _ | x :: l' => Forall_cons x (ty_ind' x) (go l') end) fs)
    | TFunc n ps r => Hfunc n ps r
        ((fix go l : Forall P l :=
           match l with [] => Forall_nil _ | x :: l' => Forall_cons x (ty_ind' x) (go l') end) ps)
        (ty_ind' r)
    | TList n v e => Hlist n v e (ty_ind' e)
    | TMap n v k x => Hmap n v k x (ty_ind' k) (ty_ind' x)
    | TUser n v r ps => Huser n v r ps
        ((fix go l : Forall Q l :=
           match l with [] => Forall_nil _ | x :: l' => Forall_cons x (tparam_ind' x) (go l') end) ps)
    end
  with tparam_ind' (p : tparam) : Q p :=
    match p with
    | TPnil => Hnil
    | TPnull => Hnull
    | TPbool b => Hbool b
    | TPdata t => Hdata t (ty_ind' t)
    | TPint z => Hint z
    | TPenum s => Hen s
    | TPstring s => Hstr s
    end.
End TyInd.

Section PtypeInd.
  Variable P : ptype -> Prop.
  Variable Q : pparam -> Prop.
  Hypothesis Hleaf : forall m,
    match m with
    | PT_struct _ _ _ | PT_func _ _ _ | PT_list _ _ _ | PT_map _ _ _ _
    | PT_user_defined _ _ _ _ => False | _ => True end -> P m.
  Hypothesis Hstruct : forall n v fs, Forall P fs -> P (PT_struct n v fs).
  Hypothesis Hfunc : forall n ps r, Forall P ps -> P r -> P (PT_func n ps r).
  Hypothesis Hlist : forall n v e, P e -> P (PT_list n v e).
  Hypothesis Hmap : forall n v k x, P k -> P x -> P (PT_map n v k x).
  Hypothesis Huser : forall n v r ps, Forall Q ps -> P (PT_user_defined n v r ps).
  Hypothesis Hpleaf : forall p, match p with PP_data _ => False | _ => True end -> Q p.
  Hypothesis Hdata : forall t, P t -> Q (PP_data t).

  Fixpoint ptype_ind' (m : ptype) : P m :=
    match m with
    | PT_struct n v fs => Hstruct n v fs
        ((fix go l : Forall P l :=
           match l with [] => Forall_nil _ | x :: l' => Forall_cons x (ptype_ind' x) (go l') end) fs)
    | PT_func n ps r => Hfunc n ps r
        ((fix go l : Forall P l :=
           match l with [] => Forall_nil _ | x :: l' => Forall_cons x (ptype_ind' x) (go l') end) ps)
        (ptype_ind' r)
    | PT_list n v e => Hlist n v e (ptype_ind' e)
    | PT_map n v k x => Hmap n v k x (ptype_ind' k) (ptype_ind' x)
    | PT_user_defined n v r ps => Huser n v r ps
        ((fix go l : Forall Q l :=
           match l with [] => Forall_nil _ | x :: l' => Forall_cons x (pparam_ind' x) (go l') end) ps)
    | m => Hleaf m I
    end
  with pparam_ind' (p : pparam) : Q p :=
    match p with
    | PP_data t => Hdata t (ptype_ind' t)
    | p => Hpleaf p I
    end.
End PtypeInd.

Lemma ty_tparam_ind : forall (P : ty -> Prop) (Q : tparam -> Prop),
  (forall t, match t with
     | TStruct _ _ _ | TFunc _ _ _ | TList _ _ _ | TMap _ _ _ _ | TUser _ _ _ _ => False
     | _ => True end -> P t) ->
  (forall n v fs, Forall P fs -> P (TStruct n v fs)) ->
  (forall n ps r, Forall P ps -> P r -> P (TFunc n ps r)) ->
  (forall n v e, P e -> P (TList n v e)) ->
  (forall n v k x, P k -> P x -> P (TMap n v k x)) ->
  (forall n v r ps, Forall Q ps -> P (TUser n v r ps)) ->
  (forall p, match p with TPdata _ => False | _ => True end -> Q p) ->
  (forall t, P t -> Q (TPdata t)) ->
  (forall t, P t) /\ (forall p, Q p).
Proof.
  intros P Q Hl Hs Hf Hli Hm Hu Hpl Hd.
  split.
  - apply (ty_ind' P Q); auto.
  - apply (tparam_ind' P Q); auto.
Qed.

Lemma ptype_pparam_ind : forall (P : ptype -> Prop) (Q : pparam -> Prop),
  (forall m, match m with
    | PT_struct _ _ _ | PT_func _ _ _ | PT_list _ _ _ | PT_map _ _ _ _
    | PT_user_defined _ _ _ _ => False | _ => True end -> P m) ->
  (forall n v fs, Forall P fs -> P (PT_struct n v fs)) ->
  (forall n ps r, Forall P ps -> P r -> P (PT_func n ps r)) ->
  (forall n v e, P e -> P (PT_list n v e)) ->
  (forall n v k x, P k -> P x -> P (PT_map n v k x)) ->
  (forall n v r ps, Forall Q ps -> P (PT_user_defined n v r ps)) ->
  (forall p, match p with PP_data _ => False | _ => True end -> Q p) ->
  (forall t, P t -> Q (PP_data t)) ->
  (forall t, P t) /\ (forall p, Q p).
Proof.
  intros P Q Hl Hs Hf Hli Hm Hu Hpl Hd.
  split.
  - apply (ptype_ind' P Q); auto.
  - apply (pparam_ind' P Q); auto.
Qed.

(** * mapM *)

Lemma mapM_ok_inv : forall A B (f : A -> res B) l ys,
  mapM f l = Ok ys -> Forall2 (fun x y => f x = Ok y) l ys.
Proof.
  induction l as [|x l IH]; simpl; intros ys H.
  - inversion H; constructor.
  - destruct (f x) eqn:E; try discriminate.
    destruct (mapM f l) eqn:E2; try discriminate.
    inversion H; subst. constructor; auto.
Qed.

Lemma mapM_ok : forall A B (f : A -> res B) l ys,
  Forall2 (fun x y => f x = Ok y) l ys -> mapM f l = Ok ys.
Proof.
  induction 1; simpl; auto. rewrite H, IHForall2. reflexivity.
Qed.

Lemma mapM_all_ok : forall A B (f : A -> res B) l,
  Forall (fun x => exists y, f x = Ok y) l -> exists ys, mapM f l = Ok ys.
Proof.
  induction 1; simpl; eauto.
  destruct H as [y Hy]. destruct IHForall as [ys Hys].
  rewrite Hy, Hys. eauto.
Qed.

Lemma mapM_not_err : forall A B (f : A -> res B) l,
  Forall (fun x => f x <> Err) l -> mapM f l <> Err.
Proof.
  induction 1; simpl; [discriminate|].
  destruct (f x); try discriminate; [|congruence].
  destruct (mapM f l); congruence.
Qed.

Lemma mapM_ext : forall A B (f g : A -> res B) l,
  Forall (fun x => f x = g x) l -> mapM f l = mapM g l.
Proof.
  induction 1; simpl; auto. rewrite H, IHForall. reflexivity.
Qed.

Lemma mapM_length : forall A B (f : A -> res B) l ys,
  mapM f l = Ok ys -> List.length ys = List.length l.
Proof.
  intros A B f l ys H. apply mapM_ok_inv in H.
  induction H; simpl; auto.
Qed.

Lemma All_Forall : forall A (P : A -> Prop) l, All P l <-> Forall P l.
Proof.
  induction l as [|x l IH]; simpl; split; intros H; auto.
  - destruct H; constructor; auto. apply IH; auto.
  - inversion H; subst; split; auto. apply IH; auto.
Qed.

Lemma mapM_decide : forall A B (f : A -> res B) (D : A -> Prop) l,
  Forall (fun x => (D x /\ exists y, f x = Ok y) \/ (~ D x /\ f x = Panic)) l ->
  (All D l /\ exists ys, mapM f l = Ok ys) \/ (~ All D l /\ mapM f l = Panic).
Proof.
  induction 1; simpl; eauto.
  destruct H as [[Hd [y Hy]]|[Hd Hp]].
  - rewrite Hy. destruct IHForall as [[Ha [ys Hys]]|[Ha Hp]].
    + left. rewrite Hys. eauto.
    + right. rewrite Hp. tauto.
  - right. rewrite Hp. tauto.
Qed.

(** * C01: round trips *)

Lemma ptp_ok : forall p, prec_ok p -> must (proto_to_time_precision p) = Ok p.
Proof.
  intros p [H1 H2]. unfold proto_to_time_precision.
  assert ((p <? 0)%Z = false) as -> by lia.
  assert ((p >? 9)%Z = false) as -> by lia. reflexivity.
Qed.

Lemma ptp_bad : forall p, ~ prec_ok p -> must (proto_to_time_precision p) = Panic.
Proof.
  intros p H. unfold proto_to_time_precision, prec_ok in *.
  destruct ((p <? 0)%Z) eqn:E; simpl; auto.
  destruct ((p >? 9)%Z) eqn:E2; simpl; auto. exfalso; lia.
Qed.

Lemma prec_dec : forall p, prec_ok p \/ ~ prec_ok p.
Proof. intros; unfold prec_ok; lia. Qed.

Definition from_char (m : ptype) : Prop :=
  (decodable m /\ exists t, type_from_proto m = Ok t) \/
  (~ decodable m /\ type_from_proto m = Panic).
Definition from_char_p (m : pparam) : Prop :=
  (decodable_param m /\ exists t, type_param_from_proto m = Ok t) \/
  (~ decodable_param m /\ type_param_from_proto m = Panic).

Lemma from_char_all :
  (forall m, from_char m) /\ (forall p, from_char_p p).
Proof.
  apply ptype_pparam_ind.
  - intros m Hm. unfold from_char.
    destruct m; try contradiction; simpl in *; eauto.
    + destruct prec as [p|]; [|left; eauto].
      destruct (prec_dec p) as [H|H]; [left|right]; split; auto.
      * rewrite (ptp_ok _ H); simpl; eauto.
      * rewrite (ptp_bad _ H); simpl; eauto.
    + destruct (prec_dec prec) as [H|H]; [left|right]; split; auto.
      * rewrite (ptp_ok _ H); simpl; eauto.
      * rewrite (ptp_bad _ H); simpl; eauto.
    + destruct (prec_dec prec) as [H|H]; [left|right]; split; auto.
      * rewrite (ptp_ok _ H); simpl; eauto.
      * rewrite (ptp_bad _ H); simpl; eauto.
    + destruct (prec_dec prec) as [H|H]; [left|right]; split; auto.
      * rewrite (ptp_ok _ H); simpl; eauto.
      * rewrite (ptp_bad _ H); simpl; eauto.
    + destruct (prec_dec prec) as [H|H]; [left|right]; split; auto.
      * rewrite (ptp_ok _ H); simpl; eauto.
      * rewrite (ptp_bad _ H); simpl; eauto.
  - intros n v fs H. unfold from_char. simpl.
    destruct (mapM_decide _ _ _ _ _ H) as [[Ha [ys Hys]]|[Ha Hp]].
    + left. rewrite Hys. simpl. eauto.
    + right. rewrite Hp. auto.
  - intros n ps r H Hr. unfold from_char in *. simpl.
    destruct (mapM_decide _ _ _ _ _ H) as [[Ha [ys Hys]]|[Ha Hp]].
    + rewrite Hys. simpl. destruct Hr as [[Hd [t Ht]]|[Hd Hp]].
      * left. rewrite Ht. simpl. eauto.
      * right. rewrite Hp. tauto.
    + right. rewrite Hp. tauto.
  - intros n v e [[Hd [t Ht]]|[Hd Hp]]; [left|right]; simpl.
    + rewrite Ht. simpl; eauto.
    + rewrite Hp. auto.
  - intros n v k x Hk Hx. unfold from_char in *; simpl.
    destruct Hk as [[Hd [t Ht]]|[Hd Hp]].
    + rewrite Ht. simpl. destruct Hx as [[Hd2 [t2 Ht2]]|[Hd2 Hp]].
      * left. rewrite Ht2. simpl. eauto.
      * right. rewrite Hp. tauto.
    + right. rewrite Hp. tauto.
  - intros n v r ps H. unfold from_char. simpl.
    destruct (mapM_decide _ _ _ _ _ H) as [[Ha [ys Hys]]|[Ha Hp]].
    + left. rewrite Hys. simpl. eauto.
    + right. rewrite Hp. auto.
  - intros p Hp. unfold from_char_p. destruct p; try contradiction; simpl; eauto.
  - intros t [[Hd [x Hx]]|[Hd Hp]]; [left|right]; simpl.
    + rewrite Hx. simpl; eauto.
    + rewrite Hp. auto.
Qed.

Lemma from_iff_decodable : forall m,
  (decodable m -> exists t, type_from_proto m = Ok t) /\
  (~ decodable m -> type_from_proto m = Panic).
Proof.
  intros m. destruct (proj1 from_char_all m) as [[H1 H2]|[H1 H2]]; split; auto; tauto.
Qed.

(** decode then encode *)
Definition dec_enc (m : ptype) : Prop := forall t, type_from_proto m = Ok t ->
  (no_compound_no_unset m /\ type_to_proto t = Ok (explicit m)) \/
  (~ no_compound_no_unset m /\ type_to_proto t = Panic).
Definition dec_enc_p (m : pparam) : Prop := forall t, type_param_from_proto m = Ok t ->
  (no_compound_no_unset_param m /\ tparam_to_proto t = Ok (explicit_param m)) \/
  (~ no_compound_no_unset_param m /\ tparam_to_proto t = Panic).

Lemma mapM_dec_enc : forall A B (f : A -> res B) (g : B -> res A) (N : A -> Prop) (e : A -> A) l ys,
  Forall (fun x => forall t, f x = Ok t ->
     (N x /\ g t = Ok (e x)) \/ (~ N x /\ g t = Panic)) l ->
  mapM f l = Ok ys ->
  (All N l /\ mapM g ys = Ok (map e l)) \/ (~ All N l /\ mapM g ys = Panic).
Proof.
  intros A B f g N e l ys H. revert ys. induction H; simpl; intros ys Hm.
  - inversion Hm; subst. left; auto.
  - destruct (f x) eqn:E; try discriminate.
    destruct (mapM f l) eqn:E2; try discriminate.
    inversion Hm; subst. simpl.
    destruct (H _ eq_refl) as [[Hn Hg]|[Hn Hg]]; rewrite Hg.
    + destruct (IHForall _ eq_refl) as [[Ha Hg2]|[Ha Hg2]]; rewrite Hg2; [left|right]; tauto.
    + right. tauto.
Qed.

Lemma dec_enc_all : (forall m, dec_enc m) /\ (forall p, dec_enc_p p).
Proof.
  apply ptype_pparam_ind.
  - intros m Hm t. unfold dec_enc.
    destruct m; try contradiction; simpl in *;
      try (intros E; inversion E; subst; left; split; [exact I|reflexivity]);
      try discriminate.
    + destruct prec as [p|].
      * destruct (prec_dec p) as [H|H].
        -- rewrite (ptp_ok _ H). simpl. intros E; inversion E; subst. left; auto.
        -- rewrite (ptp_bad _ H). discriminate.
      * intros E; inversion E; subst. left; auto.
    + destruct (prec_dec prec) as [H|H].
      * rewrite (ptp_ok _ H). simpl. intros E; inversion E; subst. right; auto.
      * rewrite (ptp_bad _ H). discriminate.
    + destruct (prec_dec prec) as [H|H].
      * rewrite (ptp_ok _ H). simpl. intros E; inversion E; subst. left; auto.
      * rewrite (ptp_bad _ H). discriminate.
    + destruct (prec_dec prec) as [H|H].
      * rewrite (ptp_ok _ H). simpl. intros E; inversion E; subst. left; auto.
      * rewrite (ptp_bad _ H). discriminate.
    + destruct (prec_dec prec) as [H|H].
      * rewrite (ptp_ok _ H). simpl. intros E; inversion E; subst. left; auto.
      * rewrite (ptp_bad _ H). discriminate.
  - intros n v fs H t. simpl.
    destruct (mapM type_from_proto fs) eqn:E; simpl; try discriminate.
    intros Ht; inversion Ht; subst. simpl.
    destruct (mapM_dec_enc _ _ _ _ _ _ _ _ H E) as [[Ha Hg]|[Ha Hg]]; rewrite Hg; simpl; auto.
  - intros n ps r H Hr t. simpl.
    destruct (mapM type_from_proto ps) eqn:E; simpl; try discriminate.
    destruct (type_from_proto r) eqn:E2; simpl; try discriminate.
    intros Ht; inversion Ht; subst. simpl.
    destruct (mapM_dec_enc _ _ _ _ _ _ _ _ H E) as [[Ha Hg]|[Ha Hg]]; rewrite Hg; simpl; [|tauto].
    destruct (Hr _ E2) as [[Hn Hg2]|[Hn Hg2]]; rewrite Hg2; simpl; tauto.
  - intros n v e He t. simpl.
    destruct (type_from_proto e) eqn:E2; simpl; try discriminate.
    intros Ht; inversion Ht; subst. simpl.
    destruct (He _ E2) as [[Hn Hg2]|[Hn Hg2]]; rewrite Hg2; simpl; tauto.
  - intros n v k x Hk Hx t. simpl.
    destruct (type_from_proto k) eqn:E; simpl; try discriminate.
    destruct (type_from_proto x) eqn:E2; simpl; try discriminate.
    intros Ht; inversion Ht; subst. simpl.
    destruct (Hk _ E) as [[Hn Hg]|[Hn Hg]]; rewrite Hg; simpl; [|tauto].
    destruct (Hx _ E2) as [[Hn2 Hg2]|[Hn2 Hg2]]; rewrite Hg2; simpl; tauto.
  - intros n v r ps H t. simpl.
    destruct (mapM type_param_from_proto ps) eqn:E; simpl; try discriminate.
    intros Ht; inversion Ht; subst. simpl.
    destruct (mapM_dec_enc _ _ _ _ _ _ _ _ H E) as [[Ha Hg]|[Ha Hg]]; rewrite Hg; simpl; auto.
  - intros p Hp t. destruct p; try contradiction; simpl; intros E; inversion E; subst; simpl;
      auto.
  - intros m Hm t. simpl. destruct (type_from_proto m) eqn:E; simpl; try discriminate.
    intros Ht; inversion Ht; subst. simpl.
    destruct (Hm _ E) as [[Hn Hg]|[Hn Hg]]; rewrite Hg; simpl; auto.
Qed.

(** encode then decode *)
Definition ser_char (t : ty) : Prop :=
  (serializable t /\ exists m, type_to_proto t = Ok m) \/
  (~ serializable t /\ type_to_proto t = Panic).
Definition ser_char_p (t : tparam) : Prop :=
  (serializable_param t /\ exists m, tparam_to_proto t = Ok m) \/
  (~ serializable_param t /\ tparam_to_proto t = Panic).

Lemma ser_char_all : (forall t, ser_char t) /\ (forall p, ser_char_p p).
Proof.
  apply ty_tparam_ind.
  - intros t Ht. unfold ser_char. destruct t; try contradiction; simpl; eauto.
    + destruct k; eauto.
    + destruct is_ptr; [right|left]; split; eauto; discriminate.
  - intros n v fs H. unfold ser_char. simpl.
    destruct (mapM_decide _ _ _ _ _ H) as [[Ha [ys Hys]]|[Ha Hp]].
    + left. rewrite Hys. simpl. eauto.
    + right. rewrite Hp. auto.
  - intros n ps r H Hr. unfold ser_char in *. simpl.
    destruct (mapM_decide _ _ _ _ _ H) as [[Ha [ys Hys]]|[Ha Hp]].
    + rewrite Hys. simpl. destruct Hr as [[Hd [t Ht]]|[Hd Hp]].
      * left. rewrite Ht. simpl. eauto.
      * right. rewrite Hp. tauto.
    + right. rewrite Hp. tauto.
  - intros n v e [[Hd [t Ht]]|[Hd Hp]]; [left|right]; simpl.
    + rewrite Ht. simpl; eauto.
    + rewrite Hp. auto.
  - intros n v k x Hk Hx. unfold ser_char in *; simpl.
    destruct Hk as [[Hd [t Ht]]|[Hd Hp]].
    + rewrite Ht. simpl. destruct Hx as [[Hd2 [t2 Ht2]]|[Hd2 Hp]].
      * left. rewrite Ht2. simpl. eauto.
      * right. rewrite Hp. tauto.
    + right. rewrite Hp. tauto.
  - intros n v r ps H. unfold ser_char. simpl.
    destruct (mapM_decide _ _ _ _ _ H) as [[Ha [ys Hys]]|[Ha Hp]].
    + left. rewrite Hys. simpl. eauto.
    + right. rewrite Hp. auto.
  - intros p Hp. unfold ser_char_p. destruct p; try contradiction; simpl; eauto.
  - intros t [[Hd [x Hx]]|[Hd Hp]]; [left|right]; simpl.
    + rewrite Hx. simpl; eauto.
    + rewrite Hp. auto.
Qed.

Definition enc_dec (t : ty) : Prop := forall m, type_to_proto t = Ok m -> precisions_ok t ->
  exists t', type_from_proto m = Ok t' /\ same_type t' t.
Definition enc_dec_p (t : tparam) : Prop := forall m, tparam_to_proto t = Ok m -> precisions_ok_param t ->
  exists t', type_param_from_proto m = Ok t' /\ forget_ptr_param t' = forget_ptr_param t.

Lemma mapM_enc_dec : forall A B (f : A -> res B) (g : B -> res A) (N : A -> Prop) (e : A -> A) l ys,
  Forall (fun x => forall t, f x = Ok t -> N x ->
     exists x', g t = Ok x' /\ e x' = e x) l ->
  mapM f l = Ok ys -> All N l ->
  exists l', mapM g ys = Ok l' /\ map e l' = map e l.
Proof.
  intros A B f g N e l ys H. revert ys. induction H; simpl; intros ys Hm Ha.
  - inversion Hm; subst. exists []. auto.
  - destruct (f x) eqn:E; try discriminate.
    destruct (mapM f l) eqn:E2; try discriminate.
    inversion Hm; subst. simpl. destruct Ha as [Ha1 Ha2].
    destruct (H _ eq_refl Ha1) as [x' [Hx' Hex]]. rewrite Hx'.
    destruct (IHForall _ eq_refl Ha2) as [l' [Hl' Hel]]. rewrite Hl'.
    exists (x' :: l'). simpl. split; congruence.
Qed.

Lemma enc_dec_all : (forall t, enc_dec t) /\ (forall p, enc_dec_p p).
Proof.
  unfold same_type.
  apply ty_tparam_ind; unfold enc_dec, enc_dec_p, same_type.
  - intros t Ht m. destruct t; try contradiction; simpl in *.
    + destruct p; simpl; intros E _; inversion E; subst; simpl; eauto.
    + destruct k; simpl; intros E _; inversion E; subst; simpl; eauto.
    + intros E _; inversion E; subst; simpl; eauto.
    + intros E H; inversion E; subst; simpl; rewrite (ptp_ok _ H); simpl; eauto.
    + intros E H; inversion E; subst; simpl; rewrite (ptp_ok _ H); simpl; eauto.
    + intros E H; inversion E; subst; simpl; rewrite (ptp_ok _ H); simpl; eauto.
    + intros E H; inversion E; subst; simpl; rewrite (ptp_ok _ H); simpl; eauto.
    + destruct is_ptr; [discriminate|].
      intros E H; inversion E; subst; simpl; rewrite (ptp_ok _ H); simpl; eauto.
    + discriminate.
    + discriminate.
  - intros n v fs H m. simpl.
    destruct (mapM type_to_proto fs) eqn:E; simpl; try discriminate.
    intros Hm Hp; inversion Hm; subst. simpl.
    destruct (mapM_enc_dec _ _ _ _ _ _ _ _ H E Hp) as [l' [Hl He]]. rewrite Hl. simpl.
    eexists; split; eauto. simpl. rewrite He. reflexivity.
  - intros n ps r H Hr m. simpl.
    destruct (mapM type_to_proto ps) eqn:E; simpl; try discriminate.
    destruct (type_to_proto r) eqn:E2; simpl; try discriminate.
    intros Hm [Hp1 Hp2]; inversion Hm; subst. simpl.
    destruct (mapM_enc_dec _ _ _ _ _ _ _ _ H E Hp1) as [l' [Hl He]]. rewrite Hl. simpl.
    destruct (Hr _ eq_refl Hp2) as [r' [Hr1 Hr2]]. rewrite Hr1. simpl.
    eexists; split; eauto. simpl. rewrite He, Hr2. reflexivity.
  - intros n v e He m. simpl.
    destruct (type_to_proto e) eqn:E2; simpl; try discriminate.
    intros Hm Hp; inversion Hm; subst. simpl.
    destruct (He _ eq_refl Hp) as [r' [Hr1 Hr2]]. rewrite Hr1. simpl.
    eexists; split; eauto. simpl. rewrite Hr2. reflexivity.
  - intros n v k x Hk Hx m. simpl.
    destruct (type_to_proto k) eqn:E; simpl; try discriminate.
    destruct (type_to_proto x) eqn:E2; simpl; try discriminate.
    intros Hm [Hp1 Hp2]; inversion Hm; subst. simpl.
    destruct (Hk _ eq_refl Hp1) as [k' [Hk1 Hk2]]. rewrite Hk1. simpl.
    destruct (Hx _ eq_refl Hp2) as [x' [Hx1 Hx2]]. rewrite Hx1. simpl.
    eexists; split; eauto. simpl. rewrite Hk2, Hx2. reflexivity.
  - intros n v r ps H m. simpl.
    destruct (mapM tparam_to_proto ps) eqn:E; simpl; try discriminate.
    intros Hm Hp; inversion Hm; subst. simpl.
    destruct (mapM_enc_dec _ _ _ _ _ _ _ _ H E Hp) as [l' [Hl He]]. rewrite Hl. simpl.
    eexists; split; eauto. simpl. rewrite He. reflexivity.
  - intros p Hp m. destruct p; try contradiction; simpl; intros E _; inversion E; subst; simpl; eauto.
  - intros t Ht m. simpl. destruct (type_to_proto t) eqn:E; simpl; try discriminate.
    intros Hm Hp; inversion Hm; subst. simpl.
    destruct (Ht _ eq_refl Hp) as [t' [Ht1 Ht2]]. rewrite Ht1. simpl.
    eexists; split; eauto. simpl. rewrite Ht2. reflexivity.
Qed.

(** * C02: equality *)

Lemma prim_eqb_spec : forall p q, prim_eqb p q = true <-> p = q.
Proof. destruct p, q; simpl; split; congruence. Qed.

Lemma fixedk_eqb_spec : forall p q, fixedk_eqb p q = true <-> p = q.
Proof. destruct p, q; simpl; split; congruence. Qed.

Definition eq_char (t : ty) : Prop := plain t -> forall u,
  exists b, type_equals t u = Ok b /\ (b = true <-> same_type t u).
Definition eq_char_p (t : tparam) : Prop := plain_param t -> forall u,
  exists b, tparam_equals t u = Ok b /\ (b = true <-> forget_ptr_param t = forget_ptr_param u).

Lemma all2M_char : forall A (f : A -> A -> res bool) (P : A -> Prop) (e : A -> A) l m,
  Forall (fun x => P x -> forall u, exists b, f x u = Ok b /\ (b = true <-> e x = e u)) l ->
  All P l -> List.length l = List.length m ->
  exists b, all2M f l m = Ok b /\ (b = true <-> map e l = map e m).
Proof.
  intros A f P e l m H. revert m. induction H; intros m Ha Hl; destruct m; simpl in *; try discriminate.
  - exists true. tauto.
  - destruct Ha as [Ha1 Ha2]. inversion Hl as [Hl'].
    destruct (H Ha1 a) as [b [Hb Hbe]]. rewrite Hb.
    destruct b.
    + destruct (IHForall m Ha2 Hl') as [b' [Hb' He']]. rewrite Hb'.
      exists b'. split; auto. rewrite He'. split; intros Hx.
      * rewrite Hx. f_equal. apply Hbe; auto.
      * inversion Hx; auto.
    + exists false. split; auto. split; [discriminate|].
      intros Hx. inversion Hx. apply Hbe; auto.
Qed.

Lemma same_len_of_map : forall A B (e : A -> B) l m, map e l = map e m -> List.length l = List.length m.
Proof. intros A B e l m H. rewrite <- (map_length e l), H, map_length. reflexivity. Qed.

Ltac zeq := repeat rewrite ?andb_true_iff, ?Z.eqb_eq, ?prim_eqb_spec, ?fixedk_eqb_spec.

Ltac leaf_eq :=
  eexists; split; [reflexivity|]; unfold same_type; simpl; zeq;
  split; [intros; intuition congruence | intros HH; inversion HH; subst; intuition ].

Lemma eq_char_all : (forall t, eq_char t) /\ (forall p, eq_char_p p).
Proof.
  apply ty_tparam_ind.
  - intros t Ht Hp u. destruct t; try contradiction; simpl;
      destruct u; simpl; try leaf_eq.
  - intros n v fs H Hp u. simpl in Hp. unfold same_type. simpl.
    destruct u; simpl; try leaf_eq.
    destruct (Z.eqb n n0) eqn:E1; simpl; [|leaf_eq; apply Z.eqb_neq in E1; congruence].
    destruct (Z.eqb v v0) eqn:E2; simpl; [|leaf_eq; apply Z.eqb_neq in E2; congruence].
    destruct (Nat.eqb (List.length fs) (List.length fields)) eqn:E3; simpl.
    + apply Nat.eqb_eq in E3. apply Z.eqb_eq in E1, E2. subst.
      destruct (all2M_char _ _ _ _ _ _ H Hp E3) as [b [Hb He]].
      exists b. split; auto. rewrite He. split; [intros ->; auto| intros Hx; inversion Hx; auto].
    + eexists; split; [reflexivity|]. split; [discriminate|]. intros Hx.
      inversion Hx as [[Ha Hb Hc]]. apply same_len_of_map in Hc. apply Nat.eqb_neq in E3. congruence.
  - intros n ps r H Hr [Hp1 Hp2] u. unfold same_type. simpl.
    destruct u; simpl; try leaf_eq.
    destruct (Z.eqb n n0) eqn:E1; simpl; [|leaf_eq; apply Z.eqb_neq in E1; congruence].
    destruct (Nat.eqb (List.length ps) (List.length params)) eqn:E3; simpl.
    + apply Nat.eqb_eq in E3. apply Z.eqb_eq in E1. subst.
      destruct (Hr Hp2 u) as [b [Hb He]]. rewrite Hb. simpl.
      destruct b; simpl.
      * destruct (all2M_char _ _ _ _ _ _ H Hp1 E3) as [b' [Hb' He']].
        exists b'. split; auto. rewrite He'.
        assert (forget_ptr r = forget_ptr u) by (apply He; auto).
        split; [intros ->; congruence| intros Hx; inversion Hx; auto].
      * eexists; split; [reflexivity|]. split; [discriminate|]. intros Hx. inversion Hx.
        apply He; auto.
    + eexists; split; [reflexivity|]. split; [discriminate|]. intros Hx.
      inversion Hx as [[Ha Hb Hc]]. apply same_len_of_map in Hb. apply Nat.eqb_neq in E3. congruence.
  - intros n v e H Hp u. simpl in Hp. unfold same_type. simpl.
    destruct u; simpl; try leaf_eq.
    destruct (Z.eqb n n0) eqn:E1; simpl; [|leaf_eq; apply Z.eqb_neq in E1; congruence].
    destruct (Z.eqb v v0) eqn:E2; simpl; [|leaf_eq; apply Z.eqb_neq in E2; congruence].
    apply Z.eqb_eq in E1, E2. subst.
    destruct (H Hp u) as [b [Hb He]]. exists b. split; auto.
    rewrite He. unfold same_type. split; [intros ->; auto|intros Hx; inversion Hx; auto].
  - intros n v k x Hk Hx [Hp1 Hp2] u. unfold same_type. simpl.
    destruct u; simpl; try leaf_eq.
    destruct (Z.eqb n n0) eqn:E1; simpl; [|leaf_eq; apply Z.eqb_neq in E1; congruence].
    destruct (Z.eqb v v0) eqn:E2; simpl; [|leaf_eq; apply Z.eqb_neq in E2; congruence].
    apply Z.eqb_eq in E1, E2. subst.
    destruct (Hk Hp1 u1) as [b [Hb He]]. rewrite Hb. simpl.
    destruct b.
    + destruct (Hx Hp2 u2) as [b' [Hb' He']]. exists b'. split; auto.
      assert (same_type k u1) by (apply He; auto).
      rewrite He'. unfold same_type in *.
      split; [congruence|intros HH; inversion HH; auto].
    + eexists; split; [reflexivity|]. split; [discriminate|]. intros HH. inversion HH.
      apply He; auto.
  - intros n v r ps H Hp u. simpl in Hp. unfold same_type. simpl.
    destruct u; simpl; try leaf_eq.
    destruct (Z.eqb n n0) eqn:E1; simpl; [|leaf_eq; apply Z.eqb_neq in E1; congruence].
    destruct (Z.eqb v v0) eqn:E2; simpl; [|leaf_eq; apply Z.eqb_neq in E2; congruence].
    destruct (Z.eqb r ref) eqn:E4; simpl; [|leaf_eq; apply Z.eqb_neq in E4; congruence].
    destruct (Nat.eqb (List.length ps) (List.length params)) eqn:E3; simpl.
    + apply Nat.eqb_eq in E3. apply Z.eqb_eq in E1, E2, E4. subst.
      destruct (all2M_char _ _ _ _ _ _ H Hp E3) as [b [Hb He]].
      exists b. split; auto. rewrite He. split; [intros ->; auto| intros Hx; inversion Hx; auto].
    + eexists; split; [reflexivity|]. split; [discriminate|]. intros Hx.
      inversion Hx as [[Ha Hb Hc Hd]]. apply same_len_of_map in Hd. apply Nat.eqb_neq in E3. congruence.
  - intros p Hp Hpl u. destruct p; try contradiction; simpl; destruct u;
      (eexists; split; [reflexivity|]); simpl;
      rewrite ?Bool.eqb_true_iff, ?Z.eqb_eq, ?String.eqb_eq; split; try congruence.
  - intros t Ht Hpl u. simpl. destruct u; simpl;
     try (eexists; split; [reflexivity|]; split; congruence).
    destruct (Ht Hpl t0) as [b [Hb He]]. exists b; split; auto.
    rewrite He. unfold same_type. split; congruence.
Qed.

Lemma strings_eqb_spec : forall a b, strings_eqb a b = true <-> a = b.
Proof.
  induction a as [|x a IH]; destruct b as [|y b]; simpl; split; try congruence.
  - rewrite andb_true_iff, String.eqb_eq, IH. intros [-> ->]; auto.
  - intros H; inversion H; subst. rewrite andb_true_iff, String.eqb_eq, IH. auto.
Qed.

(** * C03 *)
Lemma with_nullability_same : forall n t,
  same_but_nullability t (with_nullability n t) /\ get_nullability (with_nullability n t) = n.
Proof. intros n t; destruct t; simpl; split; auto; constructor. Qed.

Lemma with_nullability_unique : forall n t u,
  plain t -> same_but_nullability t u -> get_nullability u = n ->
  same_type (with_nullability n t) u.
Proof. intros n t u Hp H; inversion H; subst; simpl in *; intros; subst; try contradiction; reflexivity. Qed.

Lemma nth_error_replace_other : forall A (h : list A) a x i, i <> a -> (a < List.length h)%nat ->
  nth_error (firstn a h ++ x :: skipn (S a) h)%list i = nth_error h i.
Proof.
  induction h; intros a0 x i Hne Hlt; simpl in *; [lia|].
  destruct a0; destruct i; simpl; try congruence; auto.
  - apply IHh; lia.
Qed.

Lemma nth_error_replace_same : forall A (h : list A) a x, (a < List.length h)%nat ->
  nth_error (firstn a h ++ x :: skipn (S a) h)%list a = Some x.
Proof.
  induction h; intros a0 x Hlt; simpl in *; [lia|].
  destruct a0; simpl; auto. apply IHh; lia.
Qed.

(** * C04 *)
Lemma fold_count : forall (f : ty -> nat) l acc,
  fold_left (fun count x => count + 1 + f x) l acc = acc + fold_left (fun count x => count + 1 + f x) l 0.
Proof.
  induction l as [|x l IH]; intros acc; simpl; [lia|].
  rewrite (IH (acc + 1 + f x)), (IH (S (f x))). lia.
Qed.

Lemma nested_count_spec : forall t, nested_name_count t = List.length (inner_fields t).
Proof.
  apply (ty_ind' (fun t => nested_name_count t = List.length (inner_fields t)) (fun _ => True));
    simpl; auto.
  - intros n v fs H. induction H; simpl; auto.
    rewrite fold_count. rewrite IHForall. simpl. rewrite app_length, H. lia.
  - intros n v k x H1 H2. rewrite app_length. lia.
Qed.

Lemma depth_first_count_spec : forall fs, depth_first_name_count fs = List.length (named_fields fs).
Proof.
  unfold depth_first_name_count, named_fields.
  induction fs as [|x l IH]; simpl; auto.
  rewrite fold_count, IH, app_length, nested_count_spec. lia.
Qed.

Lemma sappend_assoc : forall a b c : string, (a ++ b) ++ c = a ++ (b ++ c).
Proof. induction a; simpl; intros; auto. rewrite IHa; auto. Qed.

Lemma sappend_nil : forall a : string, a ++ "" = a.
Proof. induction a; simpl; congruence. Qed.

Lemma sapp_conv : forall a b : string, (a ++ b)%string = append a b.
Proof. reflexivity. Qed.

(** text of the remaining fields, each preceded by the separator *)
Fixpoint with_sep (l : list string) : string :=
  match l with [] => "" | x :: l' => ", " ++ x ++ with_sep l' end.

Lemma concat_with_sep : forall x l, String.concat ", " (x :: l) = x ++ with_sep l.
Proof.
  intros x l. revert x. induction l as [|y l IH]; intros x.
  - simpl. symmetry. apply sappend_nil.
  - change (String.concat ", " (x :: y :: l)) with (x ++ ", " ++ String.concat ", " (y :: l)).
    rewrite IH. simpl. reflexivity.
Qed.

Section WriteSpec.
  Variable names : list string.
  Let nm (i : nat) : string := nth i names "".
  Definition write_ok (t : ty) : Prop := forall idx,
    (idx + List.length (inner_fields t) <= List.length names ->
       write_type names t idx = Ok (render nm type_string t idx, idx + List.length (inner_fields t))) /\
    (List.length names < idx + List.length (inner_fields t) -> idx <= List.length names ->
       write_type names t idx = Panic).

  Lemma str_nullable_mark : forall n, str_nullable n = nullable_mark n.
  Proof. reflexivity. Qed.

  Lemma take_name_ok : forall idx, idx < List.length names -> take_name names idx = Ok (nm idx).
  Proof.
    intros idx H. unfold take_name, nm.
    destruct (nth_error names idx) eqn:E.
    - erewrite nth_error_nth; eauto.
    - apply nth_error_None in E. lia.
  Qed.

  Lemma write_fields_ok : forall fs, Forall write_ok fs -> forall first idx,
    (idx + List.length (named_fields fs) <= List.length names ->
       write_fields names (write_type names) first fs idx =
         Ok (if first then String.concat ", " (render_fields nm (render nm type_string) fs idx)
             else with_sep (render_fields nm (render nm type_string) fs idx),
             idx + List.length (named_fields fs))) /\
    (List.length names < idx + List.length (named_fields fs) -> idx <= List.length names ->
       write_fields names (write_type names) first fs idx = Panic).
  Proof.
    induction 1 as [|f fs Hf Hfs IH]; intros first idx.
    - simpl. split; [|lia]. intros _. rewrite Nat.add_0_r. destruct first; reflexivity.
    - change (named_fields (f :: fs)) with (f :: inner_fields f ++ named_fields fs)%list.
      change (render_fields nm (render nm type_string) (f :: fs) idx) with
        ((nm idx ++ ": " ++ render nm type_string f (S idx)) ::
         render_fields nm (render nm type_string) fs (S idx + List.length (inner_fields f))).
      change (write_fields names (write_type names) first (f :: fs) idx) with
        (let! n0 := take_name names idx in
         let! (s, idx1) := write_type names f (S idx) in
         let! (rest, idx2) := write_fields names (write_type names) false fs idx1 in
         Ok ((if first then "" else ", ") ++ n0 ++ ": " ++ s ++ rest, idx2)).
      cbn [List.length]. rewrite app_length.
      destruct (Hf (S idx)) as [Hok Hbad].
      split; intros H.
      + rewrite take_name_ok by lia. cbn [bind]. rewrite Hok by lia. cbn [bind].
        destruct (IH false (S idx + List.length (inner_fields f))) as [IHok _].
        rewrite IHok by lia. cbn [bind].
        rewrite concat_with_sep. cbn [with_sep]. rewrite !sappend_assoc. f_equal. f_equal; [|lia].
        destruct first; reflexivity.
      + intros Hle.
        destruct (le_lt_dec (List.length names) idx) as [Hn|Hn].
        * unfold take_name. destruct (nth_error names idx) eqn:E; simpl; auto.
          assert (idx < List.length names) by (apply nth_error_Some; congruence). lia.
        * rewrite take_name_ok by lia. cbn [bind].
          destruct (le_lt_dec (S idx + List.length (inner_fields f)) (List.length names)) as [Hl|Hl].
          -- rewrite Hok by lia. cbn [bind].
             destruct (IH false (S idx + List.length (inner_fields f))) as [_ IHbad].
             rewrite IHbad by lia. reflexivity.
          -- rewrite Hbad by lia. reflexivity.
  Qed.

  Lemma write_type_ok : forall t, write_ok t.
  Proof.
    apply (ty_ind' write_ok (fun _ => True)); auto;
      try (intros; intros idx; simpl; rewrite Nat.add_0_r; split; [reflexivity|lia]).
    - intros n v fs H idx. simpl.
      destruct (write_fields_ok _ H true idx) as [Hok Hbad].
      unfold named_fields in *. split; intros.
      + rewrite Hok by lia. simpl. rewrite str_nullable_mark. reflexivity.
      + rewrite Hbad by lia. reflexivity.
    - intros n v e He idx. simpl. destruct (He idx) as [Hok Hbad]. split; intros.
      + rewrite Hok by lia. simpl. reflexivity.
      + rewrite Hbad by lia. reflexivity.
    - intros n v k x Hk Hx idx. simpl. rewrite app_length.
      destruct (Hk idx) as [Hok Hbad].
      destruct (Hx (idx + List.length (inner_fields k))) as [Hok2 Hbad2].
      split; intros.
      + rewrite Hok by lia. simpl. rewrite Hok2 by lia. simpl.
        rewrite Nat.add_assoc. reflexivity.
      + destruct (le_lt_dec (idx + List.length (inner_fields k)) (List.length names)) as [Hl|Hl].
        * rewrite Hok by lia. simpl. rewrite Hbad2 by lia. reflexivity.
        * rewrite Hbad by lia. reflexivity.
  Qed.

  Lemma named_struct_string_ok : forall fs,
    (List.length (named_fields fs) <= List.length names ->
       named_struct_string names fs = Ok (render_schema nm type_string fs)) /\
    (List.length names < List.length (named_fields fs) -> named_struct_string names fs = Panic).
  Proof.
    intros fs. unfold named_struct_string.
    destruct (write_fields_ok fs (proj2 (Forall_forall _ _) (fun t _ => write_type_ok t)) true 0) as [H1 H2].
    split; intros.
    - rewrite H1 by lia. reflexivity.
    - rewrite H2 by lia. reflexivity.
  Qed.
End WriteSpec.

(** * Named structs and record types *)

Lemma named_struct_roundtrip : forall names n v ts,
  All decodable ts -> All no_compound_no_unset ts ->
  exists s, named_struct_from_proto (Some (PNamedStruct names (Some (n, v, ts)))) = Ok s /\
    named_struct_to_proto s = Ok (PNamedStruct names (Some (n, v, map explicit ts))).
Proof.
  intros names n v ts Hd Hn. unfold named_struct_from_proto.
  assert (HF : Forall (fun x => exists y, type_from_proto x = Ok y) ts).
  { apply All_Forall in Hd. eapply Forall_impl; [|exact Hd].
    intros m Hm. apply from_iff_decodable; auto. }
  destruct (mapM_all_ok _ _ _ _ HF) as [ys Hys]. rewrite Hys. simpl.
  eexists; split; [reflexivity|]. unfold named_struct_to_proto. simpl.
  destruct (mapM_dec_enc _ _ _ _ _ _ ts ys
     (proj2 (Forall_forall _ _) (fun m _ => proj1 dec_enc_all m)) Hys) as [[_ H]|[H _]].
  - rewrite H. reflexivity.
  - contradiction.
Qed.

Lemma record_equals_spec : forall r o, All plain r ->
  exists b, record_equals r o = Ok b /\ (b = true <-> Forall2 same_type r o).
Proof.
  intros r o Hp. unfold record_equals.
  destruct (proj1 eq_char_all (TStruct NullRequired 0 r) Hp (TStruct NullRequired 0 o)) as [b [Hb He]].
  exists b. split; auto. rewrite He. unfold same_type. simpl.
  clear. split.
  - intros H. injection H as H. revert o H. induction r; destruct o; simpl; intros; try discriminate.
    + constructor.
    + injection H as H1 H2. constructor; auto.
  - intros H. f_equal. induction H; simpl; auto. rewrite H, IHForall2. reflexivity.
Qed.

Lemma record_get_field_ref_spec : forall r i,
  ((0 <= i < Z.of_nat (List.length r))%Z ->
     exists t, nth_error r (Z.to_nat i) = Some t /\ record_get_field_ref r i = Ok t) /\
  (~ (0 <= i < Z.of_nat (List.length r))%Z -> record_get_field_ref r i = Panic).
Proof.
  intros r i. unfold record_get_field_ref.
  destruct (Z.ltb_spec i 0); split; intros; try lia; auto.
  - destruct (nth_error r (Z.to_nat i)) eqn:E; eauto.
    apply nth_error_None in E. lia.
  - destruct (nth_error r (Z.to_nat i)) eqn:E; eauto.
    assert (Z.to_nat i < List.length r) by (apply nth_error_Some; congruence). lia.
Qed.
