(** Proofs about relations: mappings, output schemas, builders, grouping sets, plans. *)

From Coq Require Import ZArith String Bool Arith Lia Sorted List.
From Verif Require Import Base TypesModel TypesProofs ExprModel ExprOpsModel ExprSpec
  PlanModel PlanOpsModel PlanSpec.
Import ListNotations.
Local Open Scope Z_scope.

(** ** generic *)

Lemma mapM_F2 : forall A B (f : A -> res B) l out,
  mapM f l = Ok out <-> Forall2 (fun x y => f x = Ok y) l out.
Proof.
  intros A B f. induction l as [|x l IH]; intros out; cbn.
  - split; intros H; inversion H; subst; auto.
  - destruct (f x) as [y| |] eqn:E; cbn.
    + specialize (IH (tl out)). fold (mapM f l) in *. destruct (mapM f l) as [ys| |] eqn:E2; cbn.
      * split; intros H.
        -- inversion H; subst. constructor; auto. apply IH. reflexivity.
        -- inversion H; subst. cbn in IH. assert (X : Ok ys = Ok l') by (apply IH; auto). congruence.
      * split; intros H; [discriminate|]. inversion H; subst. apply IH in H4. discriminate.
      * split; intros H; [discriminate|]. inversion H; subst. apply IH in H4. discriminate.
    + split; intros H; [discriminate|]. inversion H; congruence.
    + split; intros H; [discriminate|]. inversion H; congruence.
Qed.

Lemma F2_iff : forall A B (P Q : A -> B -> Prop) l m, (forall x y, P x y <-> Q x y) ->
  Forall2 P l m <-> Forall2 Q l m.
Proof. intros A B P Q l m H. split; intros F; induction F; constructor; auto; apply H; auto. Qed.

Lemma F2_len : forall A B (P : A -> B -> Prop) l m, Forall2 P l m -> List.length l = List.length m.
Proof. intros A B P l m F. induction F; cbn; auto. Qed.

Lemma col_ok : forall A (l : list A) i t, col l i = Ok t <-> 0 <= i /\ nth_error l (Z.to_nat i) = Some t.
Proof.
  intros A l i t. unfold col. destruct (Z.ltb_spec i 0).
  - split; [discriminate|]. intros [H' _]. lia.
  - destruct (nth_error l (Z.to_nat i)); split; intros H'; try discriminate.
    + inversion H'; subst. auto.
    + destruct H' as [_ H']. inversion H'. reflexivity.
    + destruct H'; discriminate.
Qed.
Lemma col_total : forall A (l : list A) i, in_width (List.length l) i <-> exists t, col l i = Ok t.
Proof.
  intros A l i. unfold in_width. split.
  - intros [H1 H2]. destruct (nth_error l (Z.to_nat i)) as [t|] eqn:E.
    + exists t. apply col_ok. auto.
    + apply nth_error_None in E. lia.
  - intros [t H]. apply col_ok in H as [H1 H2]. split; auto.
    assert (nth_error l (Z.to_nat i) <> None) by congruence. apply nth_error_Some in H. lia.
Qed.

Lemma picks_iff : forall A (m : list Z) (cols out : list A), mapM (col cols) m = Ok out <-> picks m cols out.
Proof. intros A m cols out. rewrite mapM_F2. apply F2_iff. intros i t. apply col_ok. Qed.
Lemma picks_total : forall A (m : list Z) (cols : list A),
  Forall (in_width (List.length cols)) m <-> exists out, picks m cols out.
Proof.
  intros A m cols. induction m as [|i m IH].
  - split; [exists []; constructor|constructor].
  - split.
    + intros H. inversion H; subst. apply IH in H3 as [out H3]. apply col_total in H2 as [t H2].
      exists (t :: out). constructor; auto. apply col_ok. auto.
    + intros [out H]. inversion H; subst. constructor; [|apply IH; eauto].
      apply col_total. exists y. apply col_ok. auto.
Qed.
Lemma picks_len : forall A (m : list Z) (cols out : list A), picks m cols out -> List.length out = List.length m.
Proof. intros A m cols out H. symmetry. eapply F2_len; eauto. Qed.
Lemma picks_fun : forall A (m : list Z) (cols a b : list A), picks m cols a -> picks m cols b -> a = b.
Proof. intros A m cols a b H1 H2. apply picks_iff in H1, H2. congruence. Qed.

Lemma picks_seq : forall A (cols : list A) m, List.length m = List.length cols -> sequential_from 0 m = true ->
  picks m cols cols.
Proof.
  intros A cols m HL HS.
  enough (G : forall (m : list Z) (pre suf : list A), List.length m = List.length suf ->
     sequential_from (Z.of_nat (List.length pre)) m = true -> picks m (pre ++ suf) suf).
  { apply (G m [] cols); auto. }
  clear. induction m as [|i m IH]; intros pre suf HL HS; destruct suf as [|t suf]; cbn in HL; try discriminate.
  - constructor.
  - cbn in HS. apply andb_prop in HS as [H1 H2]. apply Z.eqb_eq in H1. subst i.
    constructor.
    + split; [lia|]. rewrite Nat2Z.id, nth_error_app2, Nat.sub_diag by lia. reflexivity.
    + specialize (IH (pre ++ [t]) suf). rewrite <- app_assoc in IH. apply IH; [cbn in HL; lia|].
      rewrite app_length. cbn [List.length]. rewrite Nat2Z.inj_add. exact H2.
Qed.

(** ** C29 *)

Lemma copy_self : forall r, rel_copy r (get_inputs r) = Ok r.
Proof. destruct r; reflexivity. Qed.

Lemma set_mapping_common : forall m r, common_of (set_mapping m r) = Common (c_hint (common_of r)) m (c_adv (common_of r)).
Proof. destruct r; reflexivity. Qed.
Lemma set_mapping_direct : forall m r, direct_schema (set_mapping m r) = direct_schema r.
Proof. destruct r; reflexivity. Qed.
Lemma set_mapping_same : forall m r, same_but_mapping r (set_mapping m r).
Proof. destruct r; constructor; split; reflexivity. Qed.
Lemma rel_type_eq : forall r, rel_type r = let! l := direct_schema r in remap (c_map (common_of r)) l.
Proof. destruct r; reflexivity. Qed.
Lemma same_set_mapping : forall r r', same_but_mapping r r' -> r' = set_mapping (c_map (common_of r')) r.
Proof.
  intros r r' H. destruct H as [a b ? ? [H1 H2]|a b ? ? ? [H1 H2]|a b ? ? ? ? ? ? [H1 H2]|a b ? ? ? [H1 H2]|a b ? ? ? ? [H1 H2]
   |a b ? ? ? ? ? [H1 H2]|a b ? ? ? [H1 H2]|a b ? ? ? [H1 H2]|a b ? ? ? [H1 H2]|a b ? ? [H1 H2]|a b ? [H1 H2]|a b ? ? [H1 H2]
   |a b ? ? ? ? ? ? [H1 H2]|a b ? ? ? ? ? ? [H1 H2]|a b ? ? ? ? ? ? [H1 H2]];
  unfold set_mapping; cbn [common_of with_common]; f_equal; destruct a, b; cbn in *; congruence.
Qed.

Lemma type_mapped : forall r out, rel_type r = Ok out <->
  match c_map (common_of r) with
  | None => direct_schema r = Ok out
  | Some m => exists cols, direct_schema r = Ok cols /\ picks m cols out
  end.
Proof.
  intros r out. rewrite rel_type_eq. destruct (direct_schema r) as [cols| |]; cbn; destruct (c_map (common_of r)) as [m|]; cbn;
    try (split; [discriminate|]; try (intros (c & H & _)); discriminate); try tauto.
  rewrite picks_iff. split; [eauto|]. intros (c & H & P). inversion H; subst; auto.
Qed.

Lemma compose_ok : forall n old m out, compose_mapping n old m = Ok out ->
  Forall (in_width n) m /\ match old with [] => out = m | _ => picks m old out end.
Proof.
  intros n old. induction m as [|i m IH]; intros out H; cbn in H.
  - inversion H; subst. split; [constructor|]. destruct old; [auto|constructor].
  - destruct ((i <? 0) || (i >=? Z.of_nat n)) eqn:E; [discriminate|].
    apply orb_false_iff in E as [E1 E2]. apply Z.ltb_ge in E1.
    assert (in_width n i). { split; auto. rewrite Z.geb_leb in E2. apply Z.leb_gt in E2. lia. }
    destruct old as [|o old].
    + cbn in H. destruct (compose_mapping n [] m) as [rest| |] eqn:Er; inversion H; subst.
      destruct (IH _ eq_refl) as [F ->]. split; auto.
    + destruct (col (o :: old) i) as [x| |] eqn:Ex; cbn in H; try discriminate.
      destruct (compose_mapping n (o :: old) m) as [rest| |] eqn:Er; inversion H; subst.
      destruct (IH _ eq_refl) as [F P]. split; auto. constructor; auto. apply col_ok. auto.
Qed.
Lemma compose_total : forall n old m, (old = [] \/ List.length old = n) ->
  (Forall (in_width n) m /\ exists out, compose_mapping n old m = Ok out) \/
  (~ Forall (in_width n) m /\ compose_mapping n old m = Err).
Proof.
  intros n old m HO. induction m as [|i m IH]; cbn.
  - left. split; eauto.
  - destruct ((i <? 0) || (i >=? Z.of_nat n)) eqn:E.
    + right. split; auto. intros F. inversion F; subst. destruct H1. rewrite Z.geb_leb in E.
      apply orb_true_iff in E as [E|E]; [apply Z.ltb_lt in E|apply Z.leb_le in E]; lia.
    + apply orb_false_iff in E as [E1 E2]. apply Z.ltb_ge in E1. rewrite Z.geb_leb in E2. apply Z.leb_gt in E2.
      assert (W : in_width n i) by (split; lia).
      assert (exists x, match old with [] => Ok i | _ :: _ => col old i end = Ok x) as [x Ex].
      { destruct old as [|o old]; eauto. destruct HO as [HO|HO]; [discriminate|].
        apply col_total. rewrite HO. auto. }
      rewrite Ex. cbn. destruct IH as [[F [out ->]]|[F ->]]; cbn.
      * left. split; eauto.
      * right. split; auto. intros F'. inversion F'; auto.
Qed.

(** picking from a picked list *)
Lemma picks_comp : forall A (m1 m2 m : list Z) (cols mid out : list A),
  picks m1 cols mid -> picks m2 m1 m -> picks m cols out <-> picks m2 mid out.
Proof.
  intros A m1 m2 m cols mid out P1 P2.
  assert (K : forall i j, 0 <= i -> nth_error m1 (Z.to_nat i) = Some j ->
     0 <= j /\ nth_error cols (Z.to_nat j) = nth_error mid (Z.to_nat i)).
  { intros i j _ H. clear P2. revert mid P1 H. generalize (Z.to_nat i). clear i. induction m1 as [|a m1 IH]; intros n mid P1 H.
    - destruct n; discriminate.
    - inversion P1; subst. destruct n as [|n]; cbn in *.
      + inversion H; subst. destruct H2 as [X Y]. split; auto.
      + eapply IH; eauto. }
  revert out. induction P2 as [|i j m2 m [Hi Hj] P2 IH]; intros out.
  - split; intros H; inversion H; constructor.
  - destruct (K i j Hi Hj) as [K1 K2]. split; intros H; inversion H; subst; constructor; try (apply IH; auto).
    + destruct H2 as [X Y]. split; auto. congruence.
    + destruct H2 as [X Y]. split; auto. congruence.
Qed.

Lemma remap_char : forall r m cols, rel_type r = Ok cols ->
  (Forall (in_width (List.length cols)) m /\ exists x out,
     remap_helper r m = Ok (set_mapping x r, if is_leaf r then set_mapping x r else r) /\
     rel_type (set_mapping x r) = Ok out /\ picks m cols out) \/
  (~ Forall (in_width (List.length cols)) m /\ remap_helper r m = Err).
Proof.
  intros r m cols HT. unfold remap_helper. rewrite copy_self. cbn [bind].
  assert (HT' := HT). apply type_mapped in HT'.
  assert (exists d, direct_schema r = Ok d) as [d Ed].
  { destruct (c_map (common_of r)); [destruct HT' as (d & H & _)|]; eauto. }
  assert (G : forall x out, match x with None => d = out | Some l => picks l d out end ->
     rel_type (set_mapping x r) = Ok out).
  { intros x out H. apply type_mapped. rewrite set_mapping_common, set_mapping_direct. cbn.
    destruct x; [eauto|congruence]. }
  destruct m as [|i m].
  - left. split; [constructor|]. exists (Some []), []. split; [reflexivity|]. split; [|constructor].
    apply G. constructor.
  - rewrite HT. cbn [bind]. set (m0 := i :: m) in *.
    set (old := match c_map (common_of r) with Some l => l | None => [] end).
    assert (HO : old = [] \/ List.length old = List.length cols).
    { unfold old. destruct (c_map (common_of r)) as [l|]; auto. right. destruct HT' as (d' & _ & P).
      symmetry. eapply picks_len; eauto. }
    destruct (compose_total (List.length cols) old m0 HO) as [[F [m' E]]|[F E]]; rewrite E; cbn [bind]; [|right; auto].
    left. split; auto. rewrite Ed. cbn [bind].
    apply compose_ok in E as [_ E].
    destruct (proj1 (picks_total _ m0 cols) F) as [out P].
    (* the composed mapping picks the same columns from the direct schema *)
    assert (P' : picks m' d out).
    { unfold old in E. destruct (c_map (common_of r)) as [l|].
      - destruct HT' as (d' & Ed' & Pl). assert (d' = d) by congruence. subst d'. destruct l as [|o l].
        + (* an empty mapping: no columns, so the mapping must be empty *)
          inversion Pl; subst. inversion F; subst. destruct H1. cbn in *. lia.
        + apply (picks_comp _ (o :: l) m0 m' d cols out Pl E). auto.
      - subst m'. assert (d = cols) by congruence. subst. auto. }
    destruct (Nat.eqb (List.length m') (List.length d) && sequential_from 0 m') eqn:S.
    + apply andb_prop in S as [S1 S2]. apply Nat.eqb_eq in S1.
      exists None, out. split; [reflexivity|]. split; auto. apply G.
      eapply picks_fun; [|exact P']. apply picks_seq; auto.
    + exists (Some m'), out. split; [reflexivity|]. split; auto.
Qed.

Lemma leaf_iff : forall r, is_leaf r = true <-> leaf r.
Proof.
  intros r. unfold leaf. split.
  - destruct r; try discriminate; [left|right]; eauto.
  - intros [(c & b & k & ->)|(c & d & ->)]; reflexivity.
Qed.

Lemma picks_all_total : forall r ms cols, rel_type r = Ok cols ->
  (exists r' out, remap_all r ms = Ok r' /\ rel_type r' = Ok out /\ picks_all ms cols out /\ same_but_mapping r r') \/
  (remap_all r ms = Err /\ ~ exists out, picks_all ms cols out).
Proof.
  intros r ms. revert r. induction ms as [|m ms IH]; intros r cols HT.
  - left. exists r, cols. repeat split; auto. destruct r; constructor; split; reflexivity.
  - cbn. destruct (remap_char r m cols HT) as [[F (x & mid & -> & HT' & P)]|[F ->]]; cbn [bind].
    + destruct (IH _ _ HT') as [(r' & out & E & HT2 & P2 & S2)|[E H]].
      * left. exists r', out. repeat split; eauto. apply same_set_mapping in S2. rewrite S2.
        destruct r; constructor; split; reflexivity.
      * right. split; auto. intros (out & mid' & P1 & P2). apply H. exists out.
        rewrite (picks_fun _ _ _ _ _ P P1). auto.
    + right. split; auto. intros (out & mid' & P1 & P2). apply F. apply picks_total. eauto.
Qed.

(** ** C30 *)

Lemma nullables_iff : forall l l', all_nullable l = Ok l' <-> nullables l l'.
Proof. intros l l'. apply mapM_F2. Qed.
Lemma nullables_app : forall l r out, all_nullable (l ++ r) = Ok out <->
  exists l' r', nullables l l' /\ nullables r r' /\ out = (l' ++ r')%list.
Proof.
  intros l r out. rewrite nullables_iff. unfold nullables. split.
  - intros H. apply Forall2_app_inv_l in H as (l' & r' & H1 & H2 & ->). eauto.
  - intros (l' & r' & H1 & H2 & ->). apply Forall2_app; auto.
Qed.

Lemma join_char : forall jt l r out, 1 <= jt <= 10 ->
  join_schema jt (Ok l) (Ok r) = Ok out <-> join_columns jt l r out.
Proof.
  intros jt l r out H.
  assert (C : jt = 1 \/ jt = 2 \/ jt = 3 \/ jt = 4 \/ jt = 5 \/ jt = 6 \/ jt = 7 \/ jt = 8 \/ jt = 9 \/ jt = 10) by lia.
  destruct C as [->|[->|[->|[->|[->|[->|[->|[->|[->| ->]]]]]]]]]; cbn.
  - split; intros X; inversion X; subst; constructor.
  - rewrite nullables_app. split.
    + intros (l' & r' & H1 & H2 & ->). constructor; auto.
    + intros X. inversion X; subst; eauto 6.
  - destruct (all_nullable r) as [r'| |] eqn:E; cbn.
    + split; intros X; inversion X; subst; [constructor; apply nullables_iff; auto|].
      apply nullables_iff in H0. congruence.
    + split; intros X; inversion X; subst. apply nullables_iff in H0. congruence.
    + split; intros X; inversion X; subst. apply nullables_iff in H0. congruence.
  - destruct (all_nullable l) as [l'| |] eqn:E; cbn.
    + split; intros X; inversion X; subst; [constructor; apply nullables_iff; auto|].
      apply nullables_iff in H0. congruence.
    + split; intros X; inversion X; subst. apply nullables_iff in H0. congruence.
    + split; intros X; inversion X; subst. apply nullables_iff in H0. congruence.
  - split; intros X; inversion X; subst; constructor.
  - split; intros X; inversion X; subst; constructor.
  - destruct (all_nullable r) as [r'| |] eqn:E; cbn.
    + split; intros X; inversion X; subst; [constructor; apply nullables_iff; auto|].
      apply nullables_iff in H0. congruence.
    + split; intros X; inversion X; subst. apply nullables_iff in H0. congruence.
    + split; intros X; inversion X; subst. apply nullables_iff in H0. congruence.
  - split; intros X; inversion X; subst; constructor.
  - split; intros X; inversion X; subst; constructor.
  - destruct (all_nullable l) as [l'| |] eqn:E; cbn.
    + split; intros X; inversion X; subst; [constructor; apply nullables_iff; auto|].
      apply nullables_iff in H0. congruence.
    + split; intros X; inversion X; subst. apply nullables_iff in H0. congruence.
    + split; intros X; inversion X; subst. apply nullables_iff in H0. congruence.
Qed.

Lemma nullables_total : forall l, ~ In XNil l -> exists l', nullables l l'.
Proof.
  induction l as [|x l IH]; intros H; [exists []; constructor|].
  destruct IH as [l' IH]; [intros X; apply H; right; auto|].
  assert (exists y, x_with_nullability NullNullable x = Ok y) as [y Ey].
  { destruct x; cbn; eauto. exfalso. apply H. left; auto. }
  exists (y :: l'). constructor; auto.
Qed.

Lemma join_columns_total : forall jt l r, 1 <= jt <= 10 -> ~ In XNil l -> ~ In XNil r ->
  exists out, join_columns jt l r out.
Proof.
  intros jt l r H HL HR. destruct (nullables_total l HL) as [l' Hl]. destruct (nullables_total r HR) as [r' Hr].
  assert (C : jt = 1 \/ jt = 2 \/ jt = 3 \/ jt = 4 \/ jt = 5 \/ jt = 6 \/ jt = 7 \/ jt = 8 \/ jt = 9 \/ jt = 10) by lia.
  destruct C as [->|[->|[->|[->|[->|[->|[->|[->|[->| ->]]]]]]]]]; eexists; econstructor; eauto.
Qed.

(** ** C31 *)

Lemma check_map_char : forall n m,
  (Forall (in_width n) m /\ check_map n (Some m) = Ok tt) \/ (~ Forall (in_width n) m /\ check_map n (Some m) = Err).
Proof.
  intros n m. unfold check_map. destruct (forallb _ m) eqn:E.
  - left. split; auto. apply Forall_forall. intros i Hi. rewrite forallb_forall in E. specialize (E i Hi).
    apply andb_prop in E as [E1 E2]. apply Z.leb_le in E1. apply Z.ltb_lt in E2. split; auto.
  - right. split; auto. intros F. assert (X : forallb (fun i => (0 <=? i) && (i <? Z.of_nat n)) m = true); [|congruence].
    apply forallb_forall. intros i Hi. rewrite Forall_forall in F. destruct (F i Hi).
    apply andb_true_intro. split; [apply Z.leb_le|apply Z.ltb_lt]; auto.
Qed.
Lemma check_map_none : forall n, check_map n None = Ok tt.
Proof. reflexivity. Qed.

(** a builder whose bound is the width of the unmapped relation *)
Definition checked (f : option (list Z) -> res rel) : Prop :=
  (exists r0 cols, f None = Ok r0 /\ unmapped r0 /\ rel_type r0 = Ok cols /\
     forall m, (Forall (in_width (List.length cols)) m /\ f (Some m) = Ok (set_mapping (Some m) r0)) \/
               (~ Forall (in_width (List.length cols)) m /\ f (Some m) = Err)) \/
  (forall o r, f o <> Ok r).

Lemma checked_step : forall (X : Type) (pre : res X) (f : X -> option (list Z) -> res rel),
  (forall x, pre = Ok x -> checked (f x)) -> checked (fun m => let! x := pre in f x m).
Proof.
  intros X pre f H. destruct pre as [x| |]; cbn; [apply H; auto| |]; right; intros; discriminate.
Qed.
Lemma checked_ext : forall f g, (forall m, f m = g m) -> checked g -> checked f.
Proof.
  intros f g E [(r0 & cols & H1 & H2 & H3 & H4)|H].
  - left. exists r0, cols. rewrite E. repeat split; auto. intros m. rewrite E. auto.
  - right. intros o r. rewrite E. auto.
Qed.
Lemma checked_last : forall n mk cols,
  rel_type (mk None) = Ok cols -> List.length cols = n ->
  unmapped (mk None) -> (forall m, mk m = set_mapping m (mk None)) ->
  checked (fun m => let! _ := check_map n m in Ok (mk m)).
Proof.
  intros n mk cols HC HN HU HM. left. exists (mk None), cols. split; [reflexivity|]. split; auto. split; auto.
  intros m. rewrite <- HM, HN. destruct (check_map_char n m) as [[F ->]|[F ->]]; cbn [bind]; auto.
Qed.
Lemma checked_post : forall n mk cols (X : Type) (post : res X),
  rel_type (mk None) = Ok cols -> List.length cols = n ->
  unmapped (mk None) -> (forall m, mk m = set_mapping m (mk None)) ->
  checked (fun m => let! _ := check_map n m in let! _ := post in Ok (mk m)).
Proof.
  intros n mk cols X post HC HN HU HM. destruct post as [u| |].
  - apply (checked_last n mk cols); auto.
  - right. intros o r. destruct (check_map n o); discriminate.
  - right. intros o r. destruct (check_map n o); discriminate.
Qed.

Lemma type_none : forall r, unmapped r -> rel_type r = direct_schema r.
Proof. intros r H. rewrite rel_type_eq. rewrite H. destruct (direct_schema r); reflexivity. Qed.

Lemma checked_fail : forall f, (forall o, f o = Err \/ f o = Panic) -> checked f.
Proof. intros f H. right. intros o r. destruct (H o) as [-> | ->]; discriminate. Qed.

Lemma typed_all : forall es, Forall typed es -> exists ts, mapM (expr_type rel_type) es = Ok ts /\ List.length ts = List.length es.
Proof.
  intros es H. induction H as [|e es [t Ht] _ (ts & IH & IL)].
  - exists []. auto.
  - exists (t :: ts). cbn. rewrite Ht. cbn. change (mapM (expr_type rel_type) es) with (mapM (expr_type rel_type) es) in IH.
    rewrite IH. cbn. auto.
Qed.

Lemma checked_project : forall i es, Forall typed es -> checked (fun m => project_remap i m es).
Proof.
  intros i es HT. unfold project_remap. apply checked_step. intros x _.
  destruct es as [|e es]; [apply checked_fail; auto|]. set (l := e :: es) in *.
  apply checked_step. intros t Ht. destruct (typed_all l HT) as (ts & Hts & Hl).
  apply (checked_last _ (fun m => RProject (mapped m) x l None) (t ++ ts)%list); try reflexivity.
  - rewrite type_none by reflexivity. unfold direct_schema. cbn [direct_with]. rewrite Ht. cbn [bind]. rewrite Hts. reflexivity.
  - rewrite app_length. lia.
Qed.
Lemma checked_cross : forall l r, checked (cross_remap l r).
Proof.
  intros l r. unfold cross_remap. apply checked_step. intros x _. apply checked_step. intros y _.
  apply checked_step. intros lt Hl. apply checked_step. intros rt Hr.
  apply (checked_last _ (fun m => RCross (mapped m) x y None) (lt ++ rt)%list); try reflexivity.
  - rewrite type_none by reflexivity. unfold direct_schema. cbn [direct_with]. rewrite Hl. cbn [bind]. rewrite Hr. reflexivity.
  - apply app_length.
Qed.
Lemma checked_fetch : forall i o n, checked (fetch_remap i o n).
Proof.
  intros i o n. unfold fetch_remap. apply checked_step. intros x _. apply checked_step. intros t Ht.
  apply (checked_last _ (fun m => RFetch (mapped m) x o n None) t); try reflexivity.
  rewrite type_none by reflexivity. exact Ht.
Qed.
Lemma checked_filter : forall i e, (forall r, i = Some r -> unmapped r) -> checked (filter_remap i e).
Proof.
  intros i e HU. unfold filter_remap. apply checked_step. intros x Hx.
  destruct (is_nil_expr e); [apply checked_fail; auto|]. apply checked_step. intros _ _.
  apply checked_step. intros t Ht.
  apply (checked_last _ (fun m => RFilter (mapped m) x e None) t); try reflexivity.
  rewrite type_none by reflexivity. unfold direct_schema at 1. cbn [direct_with].
  rewrite type_none; auto. apply HU. destruct i; inversion Hx; auto.
Qed.
Lemma checked_join : forall l r e p jt, checked (join_remap l r e p jt).
Proof.
  intros l r e p jt. unfold join_remap. apply checked_step. intros x _. apply checked_step. intros y _.
  destruct (is_nil_expr e); [apply checked_fail; auto|]. apply checked_step. intros _ _.
  destruct (jt =? JoinUnspecified); [apply checked_fail; auto|]. apply checked_step. intros _ _.
  unfold direct_schema. cbn [direct_with]. apply checked_step. intros t Ht.
  apply (checked_last _ (fun m => RJoin (mapped m) x y e p jt None) t); try reflexivity.
  rewrite type_none by reflexivity. exact Ht.
Qed.
Lemma checked_scan : forall ns sch, checked (scan_remap ns sch).
Proof.
  intros ns sch. unfold scan_remap.
  apply (checked_last _ (fun m => RRead (mapped m) (RBase sch nil_expr nil_expr None None) (KNamed ns None)) (sc_types sch)); reflexivity.
Qed.
Lemma mapM_len : forall A B (f : A -> res B) l out, mapM f l = Ok out -> List.length out = List.length l.
Proof. intros A B f l out H. apply mapM_F2 in H. symmetry. eapply F2_len; eauto. Qed.
Lemma checked_virtual : forall ns rows, checked (fun m => virtual_remap ns m rows).
Proof.
  intros ns rows. unfold virtual_remap. destruct rows as [|row rest]; [apply checked_fail; auto|].
  destruct (Nat.eqb (List.length row) (List.length ns)) eqn:E; [|apply checked_fail; auto]. cbn [negb].
  apply Nat.eqb_eq in E. destruct (mapM (expr_type rel_type) row) as [ts| |] eqn:Et; cbn [bind].
  - apply (checked_post _ (fun m => RRead (mapped m)
      (RBase (Schema ns NullRequired 0 ts) nil_expr nil_expr None None) (KVirtual (row :: rest))) ts); try reflexivity.
    apply mapM_len in Et. congruence.
  - apply checked_fail. intros o. destruct (check_map (List.length ns) o); auto.
  - apply checked_fail. intros o. destruct (check_map (List.length ns) o); auto.
Qed.
Lemma checked_sort : forall i ss, checked (fun m => sort_remap i m ss).
Proof.
  intros i ss. unfold sort_remap. apply checked_step. intros x _. apply checked_step. intros t Ht.
  destruct ss as [|k ss].
  - apply checked_fail. intros o. destruct (check_map (List.length t) o); auto.
  - apply (checked_last _ (fun m => RSort (mapped m) x (k :: ss) None) t); try reflexivity.
    rewrite type_none by reflexivity. exact Ht.
Qed.
Lemma checked_set : forall op is, checked (fun m => set_remap op m is).
Proof.
  intros op is. unfold set_remap. destruct (op =? 0); [apply checked_fail; auto|].
  destruct (Nat.ltb (List.length is) 2); [apply checked_fail; auto|].
  apply checked_step. intros l _. destruct l as [|i rest]; [apply checked_fail; auto|].
  apply checked_step. intros t Ht.
  apply (checked_post _ (fun m => RSet (mapped m) (i :: rest) op None) t); try reflexivity.
  rewrite type_none by reflexivity. exact Ht.
Qed.

Lemma checked_use : forall f, checked f ->
  (forall r0, f None = Ok r0 -> exists cols, rel_type r0 = Ok cols /\ unmapped r0 /\
     forall m, (Forall (in_width (List.length cols)) m /\ exists r out, f (Some m) = Ok r /\
                  same_but_mapping r0 r /\ c_map (common_of r) = Some m /\ rel_type r = Ok out /\ picks m cols out) \/
               (~ Forall (in_width (List.length cols)) m /\ f (Some m) = Err)) /\
  (forall m r, f (Some m) = Ok r -> exists r0, f None = Ok r0).
Proof.
  intros f [(r0 & cols & H1 & H2 & H3 & H4)|H].
  - split; [|eauto]. intros r0' E. assert (r0' = r0) by congruence. subst r0'. exists cols. repeat split; auto.
    intros m. destruct (H4 m) as [[F E']|X]; auto. left. split; auto.
    destruct (proj1 (picks_total _ m cols) F) as [out P].
    exists (set_mapping (Some m) r0), out. repeat split; auto.
    + apply set_mapping_same.
    + rewrite set_mapping_common. reflexivity.
    + apply type_mapped. rewrite set_mapping_common, set_mapping_direct. cbn. exists cols.
      rewrite <- type_none; auto.
  - split; [intros r0 E|intros m r E]; apply H in E; contradiction.
Qed.

(** ** C52 *)

Lemma mapM_map : forall A B C (g : A -> B) (f : B -> res C) l, mapM f (map g l) = mapM (fun x => f (g x)) l.
Proof.
  intros A B C g f l. induction l as [|x l IH]; cbn; auto. destruct (f (g x)); cbn; auto. 
  change (mapM f (map g l)) with (mapM f (map g l)) in IH. rewrite IH. reflexivity.
Qed.

Lemma refs_types_iff : forall es g out, refs_types (map (expr_type rel_type) es) g = Ok out <->
  group_columns (expr_type rel_type) es g out.
Proof.
  intros es g out. unfold refs_types, group_columns. rewrite mapM_F2. apply F2_iff. intros i t.
  destruct (col (map (expr_type rel_type) es) i) as [x| |] eqn:E; cbn.
  - apply col_ok in E as [E1 E2]. rewrite nth_error_map in E2. destruct (nth_error es (Z.to_nat i)) as [e|]; inversion E2; subst x.
    split; [intros H; exists e; auto|]. intros (e' & _ & H & H'). congruence.
  - split; [discriminate|]. intros (e & H1 & H2 & H3).
    assert (X : col (map (expr_type rel_type) es) i = Ok (Ok t)); [|congruence].
    apply col_ok. split; auto. rewrite nth_error_map, H2. cbn. congruence.
  - split; [discriminate|]. intros (e & H1 & H2 & H3).
    assert (X : col (map (expr_type rel_type) es) i = Ok (Ok t)); [|congruence].
    apply col_ok. split; auto. rewrite nth_error_map, H2. cbn. congruence.
Qed.

Lemma bind_ok' : forall A B (x : res A) (f : A -> res B) b,
  bind x f = Ok b <-> exists a, x = Ok a /\ f a = Ok b.
Proof.
  intros A B x f b. destruct x; cbn; split; intros H; try discriminate; eauto.
  - destruct H as (y & E & H). inversion E; subst. auto.
  - destruct H as (y & E & _). discriminate.
  - destruct H as (y & E & _). discriminate.
Qed.

Lemma two_sides : forall l r out, (let! a := rel_type l in let! b := rel_type r in Ok (a ++ b)%list) = Ok out <->
  exists a b, rel_type l = Ok a /\ rel_type r = Ok b /\ out = (a ++ b)%list.
Proof.
  intros l r out. rewrite bind_ok'. split.
  - intros (a & Ha & H). apply bind_ok' in H as (b & Hb & H). inversion H. eauto.
  - intros (a & b & Ha & Hb & ->). exists a. split; auto. rewrite Hb. reflexivity.
Qed.

Lemma join_schema_other : forall jt l r, jt < 1 \/ 10 < jt -> join_schema jt l r = Ok [].
Proof.
  intros jt l r H. unfold join_schema, JoinInner, JoinLeftSemi, JoinOuter, JoinLeft, JoinLeftSingle, JoinRight,
    JoinRightSingle, JoinLeftAnti, JoinRightSemi, JoinRightAnti.
  repeat match goal with |- context [jt =? ?k] => destruct (Z.eqb_spec jt k); [lia|] end. reflexivity.
Qed.
Lemma join_both : forall jt l r out, In jt [1; 2; 3; 4; 7; 10] -> join_schema jt l r = Ok out ->
  exists lt rt, l = Ok lt /\ r = Ok rt.
Proof.
  intros jt l r out H E. cbn in H.
  destruct H as [<-|[<-|[<-|[<-|[<-|[<-|[]]]]]]]; cbn in E; destruct l, r; try discriminate; eauto.
Qed.

Lemma direct_iff : forall r out, direct_schema r = Ok out <-> direct_columns r out.
Proof.
  intros r out. unfold direct_schema.
  destruct r as [c b k|c i es v|c l r e p jt v|c l r v|c i o n v|c i ms es gs v|c i ss v|c i e v|c is op v|c i d|c d|c is d
     |c l r ks p jt v|c l r ks p jt v|c ns v sch op i md]; cbn [direct_with].
  - split; intros H; inversion H; subst; constructor.
  - rewrite bind_ok'. split.
    + intros (l & Hl & H). apply bind_ok' in H as (ts & Ht & H). apply mapM_F2 in Ht. inversion H. constructor; auto.
    + intros H. inversion H; subst. exists l. split; auto. apply bind_ok'. exists ts. split; auto. apply mapM_F2. auto.
  - destruct (Z_lt_dec jt 1) as [L|L]; [|destruct (Z_lt_dec 10 jt) as [L'|L']].
    + rewrite join_schema_other by auto. split; intros H; [inversion H; apply DC_join_other; auto|].
      inversion H; subst; auto; cbn in *; lia.
    + rewrite join_schema_other by auto. split; intros H; [inversion H; apply DC_join_other; auto|].
      inversion H; subst; auto; cbn in *; lia.
    + assert (C : In jt [1;2;3;4;7;10] \/ In jt [5;6] \/ In jt [8;9]) by (cbn; lia).
      split; intros H.
      * destruct C as [C|[C|C]].
        -- destruct (join_both _ _ _ _ C H) as (lt & rt & E1 & E2). rewrite E1, E2 in H.
           apply (DC_join c l r e p jt v lt rt); auto. apply join_char; auto. lia.
        -- apply DC_join_left; auto. destruct C as [<-|[<-|[]]]; exact H.
        -- apply DC_join_right; auto. destruct C as [<-|[<-|[]]]; exact H.
      * inversion H; subst; try lia.
        -- match goal with X : In jt [5; 6] |- _ => destruct X as [<-|[<-|[]]]; auto end.
        -- match goal with X : In jt [8; 9] |- _ => destruct X as [<-|[<-|[]]]; auto end.
        -- repeat match goal with X : rel_type _ = Ok _ |- _ => rewrite X; clear X end. apply join_char; auto. lia.
  - rewrite two_sides. split; [intros (a & b & Ha & Hb & ->); constructor; auto|intros H; inversion H; subst; eauto].
  - split; intros H; [constructor; auto|inversion H; auto].
  - rewrite bind_ok'. split.
    + intros (gc & Hg & H). apply bind_ok' in H as (mc & Hm & H). inversion H; subst. apply mapM_F2 in Hg, Hm. constructor.
      * eapply F2_iff; [|exact Hg]. intros x y. symmetry. apply refs_types_iff.
      * eapply F2_iff; [|exact Hm]. intros m t. unfold measure_column, measure_type. destruct (ms_fn m); split; try discriminate.
        -- intros (f & E & ->). inversion E; auto.
        -- intros X. inversion X. eauto.
        -- intros (f & E & _). discriminate.
    + intros H. inversion H; subst. exists gcols. split.
      * apply mapM_F2. eapply F2_iff; [|eassumption]. intros x y. apply refs_types_iff.
      * apply bind_ok'. exists mcols. split; auto. apply mapM_F2. eapply F2_iff; [|eassumption].
        intros m t. unfold measure_column, measure_type. destruct (ms_fn m); split; try discriminate.
        -- intros X. inversion X. eauto.
        -- intros (f & E & ->). inversion E; auto.
        -- intros (f & E & _). discriminate.
  - split; intros H; [constructor; auto|inversion H; auto].
  - split; intros H; [constructor; auto|inversion H; auto].
  - destruct is as [|i is]; split; intros H; try discriminate; inversion H; subst; auto; constructor; auto.
  - destruct d; cbn; (split; intros H; [constructor; auto|inversion H; auto]).
  - destruct d; cbn; split; intros H; try (inversion H; subst; auto; constructor; auto).
  - destruct d; cbn.
    + destruct is as [|i [|j is]]; cbn; split; intros H; inversion H; subst; try constructor; auto; try discriminate; try congruence.
      cbn in *. congruence.
    + split; intros H; [constructor; auto|inversion H; auto].
  - rewrite two_sides. split; [intros (a & b & Ha & Hb & ->); constructor; auto|intros H; inversion H; subst; eauto].
  - rewrite two_sides. split; [intros (a & b & Ha & Hb & ->); constructor; auto|intros H; inversion H; subst; eauto].
  - unfold ModeNoOutput, ModeModified, ModeUnspecified. destruct (Z.eqb_spec md 1) as [->|N1]; [|destruct (Z.eqb_spec md 2) as [->|N2];
      [|destruct (Z.eqb_spec md 0) as [->|N3]]]; split; intros H; try discriminate;
      inversion H; subst; auto; try (constructor; auto; discriminate); try contradiction; try lia.
Qed.

Lemma type_iff : forall r out, rel_type r = Ok out <->
  match c_map (common_of r) with
  | None => direct_columns r out
  | Some m => exists cols, direct_columns r cols /\ picks m cols out
  end.
Proof.
  intros r out. rewrite type_mapped. destruct (c_map (common_of r)) as [m|]; [|apply direct_iff].
  split; intros (cols & H & P); exists cols; split; auto; apply direct_iff; auto.
Qed.
