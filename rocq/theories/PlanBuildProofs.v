(** Proofs about the builders: which calls succeed, grouping sets, plans, virtual tables,
    subqueries. *)

From Coq Require Import ZArith String Bool Arith Lia Sorted List.
From Verif Require Import Base TypesModel TypesProofs ExprModel ExprOpsModel ExprSpec ExprVisitProofs
  PlanModel PlanOpsModel PlanSpec PlanProofs.
From Verif Require TypesSpec.
Import ListNotations.
Local Open Scope Z_scope.

Lemma bind_ok : forall A B (x : res A) (f : A -> res B) b,
  bind x f = Ok b <-> exists a, x = Ok a /\ f a = Ok b.
Proof.
  intros A B x f b. destruct x; cbn; split; intros H; try discriminate; eauto.
  - destruct H as (y & E & H). inversion E; subst. auto.
  - destruct H as (y & E & _). discriminate.
  - destruct H as (y & E & _). discriminate.
Qed.
Lemma nil_iff : forall R (e : expr R), is_nil_expr e = true <-> e = blank.
Proof. intros R e. split; [|intros ->; reflexivity]. destruct e as [[]| | | | | | | | | | | | | | | | |]; try discriminate. auto. Qed.
Lemma not_nil_iff : forall R (e : expr R), is_nil_expr e = false <-> e <> blank.
Proof.
  intros R e. split; intros H.
  - intros ->. discriminate.
  - destruct (is_nil_expr e) eqn:E; auto. apply nil_iff in E. contradiction.
Qed.

(** ** conditions *)

Lemma check_bool_iff : forall e u, check_bool e = Ok u <-> boolean e.
Proof.
  intros e u. unfold check_bool, boolean. rewrite bind_ok. split.
  - intros (t & Ht & H). apply bind_ok in H as (t' & Ht' & H). apply bind_ok in H as (b & Hb & H).
    destruct b; [|discriminate]. clear H u. rewrite Ht.
    destruct t as [|t|n v l|n v x|n v k x|n ps x]; cbn in Ht'; inversion Ht'; subst t'; cbn in Hb; try discriminate.
    + destruct t as [p n v| | | | | | | | | | | | | |]; cbn in Hb; try discriminate.
      * injection Hb as Hb. apply andb_prop in Hb as [Hb Hv]. apply andb_prop in Hb as [Hp _].
        destruct v; try discriminate. destruct p; try discriminate. eauto.
  - intros (n & H). exists (XTy (TPrim PrimBool n 0)). split; auto. destruct u. reflexivity.
Qed.

(** ** which calls succeed *)

Lemma nonnil_ok : forall X (o : option X) x, nonnil o = Ok x <-> o = Some x.
Proof. intros X [y|] x; cbn; split; intros H; inversion H; auto. Qed.
Lemma mapM_nonnil : forall (l : list (option rel)) out, mapM nonnil l = Ok out <-> l = map Some out.
Proof.
  intros l out. rewrite mapM_F2. split.
  - intros H. induction H; cbn; auto. apply nonnil_ok in H. subst. auto.
  - intros ->. induction out; cbn; constructor; auto.
Qed.

Lemma project_iff : forall i es r, project_remap i None es = Ok r <->
  exists x, i = Some x /\ es <> [] /\ has_type_rel x /\ r = RProject (Common None None None) x es None.
Proof.
  intros i es r. unfold project_remap. rewrite bind_ok. split.
  - intros (x & Hx & H). apply nonnil_ok in Hx. destruct es as [|e es]; [discriminate|].
    apply bind_ok in H as (t & Ht & H). cbn in H. inversion H. exists x. repeat split; eauto; [discriminate|].
    exists t; auto.
  - intros (x & -> & Hes & (t & Ht) & ->). exists x. split; auto. destruct es; [contradiction|].
    rewrite Ht. reflexivity.
Qed.
Lemma cross_iff : forall l r out, cross_remap l r None = Ok out <->
  exists x y, l = Some x /\ r = Some y /\ has_type_rel x /\ has_type_rel y /\ out = RCross (Common None None None) x y None.
Proof.
  intros l r out. unfold cross_remap. rewrite bind_ok. split.
  - intros (x & Hx & H). apply bind_ok in H as (y & Hy & H). apply bind_ok in H as (t & Ht & H).
    apply bind_ok in H as (u & Hu & H). apply nonnil_ok in Hx, Hy. cbn in H. inversion H. exists x, y.
    repeat split; auto; [exists t|exists u]; auto.
  - intros (x & y & -> & -> & (t & Ht) & (u & Hu) & ->). exists x. split; auto. cbn. rewrite Ht. cbn. rewrite Hu. reflexivity.
Qed.
Lemma fetch_iff : forall i o n r, fetch_remap i o n None = Ok r <->
  exists x, i = Some x /\ has_type_rel x /\ r = RFetch (Common None None None) x o n None.
Proof.
  intros i o n r. unfold fetch_remap. rewrite bind_ok. split.
  - intros (x & Hx & H). apply nonnil_ok in Hx. apply bind_ok in H as (t & Ht & H). cbn in H. inversion H. exists x. repeat split; auto. exists t; auto.
  - intros (x & -> & (t & Ht) & ->). exists x. split; auto. rewrite Ht. reflexivity.
Qed.
Lemma filter_iff : forall i e r, filter_remap i e None = Ok r <->
  exists x, i = Some x /\ e <> blank /\ boolean e /\ (exists t, direct_schema x = Ok t) /\
    r = RFilter (Common None None None) x e None.
Proof.
  intros i e r. unfold filter_remap. rewrite bind_ok. split.
  - intros (x & Hx & H). apply nonnil_ok in Hx. destruct (is_nil_expr e) eqn:N; [discriminate|]. apply not_nil_iff in N.
    apply bind_ok in H as (u & Hb & H). apply check_bool_iff in Hb. apply bind_ok in H as (t & Ht & H).
    cbn in H. inversion H. exists x. repeat split; eauto.
  - intros (x & -> & N & B & (t & Ht) & ->). exists x. split; auto. apply not_nil_iff in N. rewrite N.
    rewrite (proj2 (check_bool_iff e tt) B). cbn [bind]. rewrite Ht. reflexivity.
Qed.
Lemma sort_iff : forall i ss r, sort_remap i None ss = Ok r <->
  exists x, i = Some x /\ ss <> [] /\ has_type_rel x /\ r = RSort (Common None None None) x ss None.
Proof.
  intros i ss r. unfold sort_remap. rewrite bind_ok. split.
  - intros (x & Hx & H). apply nonnil_ok in Hx. apply bind_ok in H as (t & Ht & H). cbn in H.
    destruct ss as [|k ss]; inversion H. exists x. repeat split; eauto; [discriminate|exists t; auto].
  - intros (x & -> & N & (t & Ht) & ->). exists x. split; auto. rewrite Ht. cbn. destruct ss; [contradiction|reflexivity].
Qed.
Lemma join_iff : forall l r e p jt out, join_remap l r e p jt None = Ok out <->
  exists x y, l = Some x /\ r = Some y /\ e <> blank /\ boolean e /\ (p = blank \/ boolean p) /\ jt <> 0 /\
    has_type_rel (RJoin (Common None None None) x y e p jt None) /\
    out = RJoin (Common None None None) x y e p jt None.
Proof.
  intros l r e p jt out. unfold join_remap. rewrite bind_ok. split.
  - intros (x & Hx & H). apply bind_ok in H as (y & Hy & H). apply nonnil_ok in Hx, Hy.
    destruct (is_nil_expr e) eqn:N; [discriminate|]. apply not_nil_iff in N.
    apply bind_ok in H as (u & Hb & H). apply check_bool_iff in Hb. destruct (Z.eqb_spec jt JoinUnspecified) as [|Hj]; [discriminate|].
    apply bind_ok in H as (u' & Hp & H). cbv zeta in H. apply bind_ok in H as (t & Ht & H). cbn in H. inversion H. exists x, y.
    repeat split; auto.
    + destruct (is_nil_expr p) eqn:E; [left; apply nil_iff; auto|right; eapply check_bool_iff; eauto].
    + exists t. rewrite type_none by reflexivity. exact Ht.
  - intros (x & y & -> & -> & N & B & P & J & (t & Ht) & ->). exists x. split; auto. cbn [nonnil bind].
    apply not_nil_iff in N. rewrite N. rewrite (proj2 (check_bool_iff e tt) B). cbn [bind].
    destruct (Z.eqb_spec jt JoinUnspecified) as [|_]; [contradiction|].
    assert (E : (if is_nil_expr p then Ok tt else check_bool p) = Ok tt).
    { destruct (is_nil_expr p) eqn:E; auto. destruct P as [P|P]; [apply nil_iff in P; congruence|].
      apply check_bool_iff. auto. }
    rewrite E. cbn [bind]. rewrite type_none in Ht by reflexivity.
    change (mapped None) with (Common None None None). rewrite Ht. reflexivity.
Qed.
Lemma scan_iff : forall ns sch r, scan_remap ns sch None = Ok r <->
  r = RRead (Common None None None) (RBase sch blank blank None None) (KNamed ns None).
Proof. intros ns sch r. unfold scan_remap. cbn. split; intros H; [inversion H; auto|subst; auto]. Qed.

Lemma all_equal_iff : forall out l u, all_equal_from out l = Ok u <->
  Forall (fun r => exists t, rel_type r = Ok t /\ record_eq out t = Ok true) l.
Proof.
  intros out l u. induction l as [|r l IH]; cbn.
  - split; [constructor|]. destruct u; auto.
  - rewrite bind_ok. split.
    + intros (t & Ht & H). apply bind_ok in H as (b & Hb & H). destruct b; [|discriminate].
      constructor; eauto. apply IH. auto.
    + intros H. inversion H as [|? ? (t & Ht & Hb) H2]; subst. exists t. split; auto. rewrite Hb. cbn. apply IH. auto.
Qed.
Lemma set_iff : forall op is r, set_remap op None is = Ok r <->
  exists a b l t, is = map Some (a :: b :: l) /\ op <> 0 /\ rel_type a = Ok t /\
    Forall (fun x => exists t', rel_type x = Ok t' /\ record_eq t t' = Ok true) (b :: l) /\
    r = RSet (Common None None None) (a :: b :: l) op None.
Proof.
  intros op is r. unfold set_remap. destruct (Z.eqb_spec op 0) as [Hop|Hop].
  { split; [discriminate|]. intros (a & b & l & t & _ & N & _). contradiction. }
  destruct (Nat.ltb (List.length is) 2) eqn:L.
  { split; [discriminate|]. intros (a & b & l & t & -> & _). rewrite map_length in L. discriminate. }
  rewrite bind_ok. split.
  - intros (l & Hl & H). apply mapM_nonnil in Hl. subst is. rewrite map_length in L. apply Nat.ltb_ge in L.
    destruct l as [|a l]; [discriminate|]. apply bind_ok in H as (t & Ht & H). cbn [check_map forallb bind] in H.
    apply bind_ok in H as (u & Hu & H). destruct l as [|b l]; [cbn in L; lia|].
    apply all_equal_iff in Hu. inversion H. exists a, b, l, t. repeat split; auto.
  - intros (a & b & l & t & -> & _ & Ht & F & ->). exists (a :: b :: l). split; [apply mapM_nonnil; auto|].
    rewrite Ht. cbn [bind check_map forallb]. rewrite (proj2 (all_equal_iff t (b :: l) tt) F). reflexivity.
Qed.

Lemma write_iff : forall i op md m ns sch r, write_remap i op md m ns sch = Ok r <->
  exists x t, i = Some x /\ rel_type x = Ok t /\
    Forall (in_width (List.length t)) (match m with Some l => l | None => [] end) /\
    r = RWrite (Common None m None) ns None sch op x md.
Proof.
  intros i op md m ns sch r. unfold write_remap. rewrite bind_ok.
  assert (C : forall n, check_map n m = Ok tt <-> Forall (in_width n) (match m with Some l => l | None => [] end)).
  { intros n. destruct m as [l|].
    - destruct (check_map_char n l) as [[F ->]|[F ->]]; split; intros; auto; [discriminate|contradiction].
    - split; intros; [constructor|reflexivity]. }
  split.
  - intros (x & Hx & H). apply nonnil_ok in Hx. apply bind_ok in H as (t & Ht & H). apply bind_ok in H as ([] & Hm & H).
    apply C in Hm. inversion H. exists x, t. auto.
  - intros (x & t & -> & Ht & F & ->). exists x. split; auto. rewrite Ht. cbn [bind]. rewrite (proj2 (C _) F). reflexivity.
Qed.

Lemma ext1_iff : forall i d r, extension_single i d = Ok r <->
  exists x y, i = Some x /\ d = Some y /\ r = RExt1 (Common None None None) x y.
Proof.
  intros [x|] [y|] r; cbn; unfold zero_common; split; intros H; try discriminate; try (destruct H as (a & b & H1 & H2 & H3); congruence).
  inversion H. eauto.
Qed.
Lemma ext0_iff : forall d r, extension_leaf d = Ok r <-> exists y, d = Some y /\ r = RExt0 (Common None None None) y.
Proof.
  intros [y|] r; cbn; unfold zero_common; split; intros H; try discriminate; try (destruct H as (b & H2 & H3); congruence).
  inversion H. eauto.
Qed.
Lemma extN_iff : forall is d r, extension_multi is d = Ok r <->
  exists l y, is = map Some l /\ l <> [] /\ d = Some y /\ r = RExtN (Common None None None) l y.
Proof.
  intros is d r. unfold extension_multi. destruct is as [|i is].
  - split; [discriminate|]. intros (l & y & E & N & _). destruct l; [contradiction|discriminate].
  - rewrite bind_ok. split.
    + intros (l & Hl & H). apply mapM_nonnil in Hl. apply bind_ok in H as (y & Hy & H). apply nonnil_ok in Hy.
      inversion H. exists l, y. repeat split; auto. intros ->. discriminate.
    + intros (l & y & E & N & -> & ->). exists l. split; [apply mapM_nonnil; auto|]. reflexivity.
Qed.

(** ** C43 *)

Lemma check_row_iff : forall ts row u, check_row ts row = Ok u <->
  exists used rest, ts = (used ++ rest)%list /\ Forall2 fits used row.
Proof.
  intros ts row u. revert ts. induction row as [|e row IH]; intros ts; cbn.
  - split; [|destruct u, ts; auto]. intros _. exists [], ts. split; auto.
  - destruct ts as [|t ts].
    + split; [discriminate|]. intros (used & rest & E & F). inversion F; subst. discriminate.
    + cbn. rewrite bind_ok. split.
      * intros (t' & Ht & H). assert (N : t <> XNil) by (intros ->; discriminate).
        assert (H' : bind (x_equals t t') (fun b : bool => if b then check_row ts row else Err) = Ok u) by (destruct t; auto; contradiction).
        clear H. apply bind_ok in H' as (b & Hb & H). destruct b; [|discriminate].
        apply IH in H as (used & rest & -> & F). exists (t :: used), rest. split; auto. constructor; auto.
        split; eauto.
      * intros (used & rest & E & F). inversion F as [|? ? ? ? (N & t' & Ht & Hb) F']; subst.
        cbn in E. injection E as -> ->. exists t'. split; auto.
        assert (check_row (l ++ rest) row = Ok u) by (apply IH; eauto).
        destruct x; try contradiction; rewrite Hb; auto.
Qed.
Lemma check_rows_iff : forall ts rows u, check_rows ts rows = Ok u <->
  Forall (fun row => exists used rest, ts = (used ++ rest)%list /\ Forall2 fits used row) rows.
Proof.
  intros ts rows u. induction rows as [|row rows IH]; cbn.
  - split; [constructor|destruct u; auto].
  - rewrite bind_ok. split.
    + intros (v & Hv & H). constructor; [eapply check_row_iff; eauto|apply IH; auto].
    + intros H. inversion H; subst. exists tt. split; [apply check_row_iff; auto|apply IH; auto].
Qed.
Lemma virtual_iff : forall ns rows r, virtual_remap ns None rows = Ok r <->
  exists row rest ts, rows = row :: rest /\ List.length row = List.length ns /\
    Forall2 (fun e t => expr_type rel_type e = Ok t) row ts /\
    Forall (fun row' => exists used more, ts = (used ++ more)%list /\ Forall2 fits used row') rest /\
    r = RRead (Common None None None) (RBase (Schema ns NullRequired 0 ts) blank blank None None) (KVirtual rows).
Proof.
  intros ns rows r. unfold virtual_remap. destruct rows as [|row rest].
  - split; [discriminate|]. intros (? & ? & ? & E & _). discriminate.
  - destruct (Nat.eqb_spec (List.length row) (List.length ns)) as [L|L]; cbn [negb].
    + cbn [check_map forallb bind]. rewrite bind_ok. split.
      * intros (ts & Ht & H). apply mapM_F2 in Ht. apply bind_ok in H as (u & Hu & H). apply check_rows_iff in Hu.
        inversion H. exists row, rest, ts. auto.
      * intros (row' & rest' & ts & E & _ & Ht & F & ->). injection E as <- <-. exists ts. split; [apply mapM_F2; auto|].
        rewrite (proj2 (check_rows_iff ts rest tt) F). reflexivity.
    + split; [discriminate|]. intros (? & ? & ? & E & N & _). injection E as <- <-. contradiction.
Qed.
(** a longer row whose values fit *)
Lemma long_row_panics : forall ts row e more, Forall2 fits ts row -> check_row ts (row ++ e :: more) = Panic.
Proof.
  intros ts row e more F. induction F as [|t x ts row (N & t' & Ht & Hb) F IH]; cbn; auto.
  rewrite Ht. cbn [bind]. destruct t; try contradiction; rewrite Hb; cbn [bind]; auto.
Qed.

(** ** C44 *)

Lemma existsb_nil : forall l : list (expr rel), existsb is_nil_expr l = false <-> Forall (fun e => e <> blank) l.
Proof.
  induction l as [|e l IH]; cbn; [split; auto; constructor|]. rewrite orb_false_iff, IH, not_nil_iff.
  split; [intros []; constructor; auto|]. intros H. inversion H; auto.
Qed.
Lemma in_iff : forall ns h e, in_subquery ns h = Ok e <->
  exists r t, h = Some r /\ ns <> [] /\ Forall (fun x => x <> blank) ns /\ rel_type r = Ok t /\
    List.length ns = List.length t /\ e = ESubIn ns r.
Proof.
  intros ns h e. unfold in_subquery. rewrite bind_ok. split.
  - intros (r & Hr & H). apply nonnil_ok in Hr. destruct ns as [|x ns]; [discriminate|].
    destruct (existsb is_nil_expr (x :: ns)) eqn:E; [discriminate|]. apply existsb_nil in E.
    apply bind_ok in H as (t & Ht & H). destruct (Nat.eqb_spec (List.length (x :: ns)) (List.length t)); inversion H.
    exists r, t. repeat split; auto. discriminate.
  - intros (r & t & -> & N & F & Ht & L & ->). exists r. split; auto. destruct ns as [|x ns]; [contradiction|].
    apply existsb_nil in F. rewrite F, Ht. cbn [bind]. rewrite L, Nat.eqb_refl. reflexivity.
Qed.
Lemma set_subquery_iff : forall h op e, set_subquery h op = Ok e <-> exists r, h = Some r /\ op <> 0 /\ e = ESubSet op r.
Proof.
  intros [r|] op e; cbn; [|split; [discriminate|]; intros (x & E & _); discriminate].
  destruct (Z.eqb_spec op 0); split; intros H; try discriminate.
  - destruct H as (x & _ & N & _). contradiction.
  - inversion H. eauto.
  - destruct H as (x & E & _ & ->). congruence.
Qed.
Lemma cmp_subquery_iff : forall l h red cmp e, cmp_subquery l h red cmp = Ok e <->
  exists r, h = Some r /\ red <> 0 /\ cmp <> 0 /\ l <> blank /\ e = ESubCmp red cmp l r.
Proof.
  intros l h red cmp e. unfold cmp_subquery. destruct (Z.eqb_spec red 0).
  { split; [discriminate|]. intros (r & _ & N & _). contradiction. }
  destruct (Z.eqb_spec cmp 0).
  { split; [discriminate|]. intros (r & _ & _ & N & _). contradiction. }
  destruct (is_nil_expr l) eqn:E.
  { apply nil_iff in E. split; [discriminate|]. intros (r & _ & _ & _ & N & _). contradiction. }
  apply not_nil_iff in E. destruct h as [r|]; cbn; split; intros H; try discriminate.
  - inversion H. exists r. auto.
  - destruct H as (r' & E' & _ & _ & _ & ->). congruence.
  - destruct H as (r' & E' & _). discriminate.
Qed.
