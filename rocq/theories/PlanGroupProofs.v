(** Proofs about grouping sets (builders.go 308-336, 815-947; plan.go 56-78) and about plans
    with several relations (builders.go 764-797). *)

From Coq Require Import ZArith String Bool Arith Lia Sorted List.
From Verif Require Import Base TypesModel TypesProofs ExprModel ExprOpsModel ExprSpec
  PlanModel PlanOpsModel PlanSpec PlanProofs PlanBuildProofs.
From Verif Require TypesSpec.
Import ListNotations.
Local Open Scope Z_scope.

Lemma Forall2_in_r : forall A B (P : A -> B -> Prop) l m, Forall2 P l m -> forall y, In y m -> exists x, In x l /\ P x y.
Proof.
  intros A B P l m F. induction F as [|x y l m H F IH]; intros z Hz; [destruct Hz|].
  destruct Hz as [<-|Hz]; [exists x; split; auto; left; auto|]. destruct (IH z Hz) as (w & W1 & W2). exists w. split; auto. right; auto.
Qed.
Arguments Forall2_in_r {A B P l m}.

(** ** cubes *)

Section Cube.
Local Open Scope nat_scope.

Definition bits (n k : nat) : list nat := filter (Nat.testbit k) (seq 0 n).

Lemma extract_places : forall (refs : list Z) bit k,
  at_places refs (map (fun i => i - bit) (filter (Nat.testbit k) (seq bit (List.length refs)))) (extract_group refs bit k).
Proof.
  induction refs as [|x refs IH]; intros bit k; cbn; [constructor|].
  assert (G : at_places (x :: refs) (map (fun i => i - bit) (filter (Nat.testbit k) (seq (S bit) (List.length refs))))
                (extract_group refs (S bit) k)).
  { specialize (IH (S bit) k). unfold at_places in *.
    assert (In' : forall i, In i (filter (Nat.testbit k) (seq (S bit) (List.length refs))) -> S bit <= i).
    { intros i Hi. apply filter_In in Hi as [Hi _]. apply in_seq in Hi. lia. }
    revert In' IH. generalize (filter (Nat.testbit k) (seq (S bit) (List.length refs))) as l.
    generalize (extract_group refs (S bit) k) as out. intros out l. revert out.
    induction l as [|i l IHl]; intros out In' H; cbn in *; inversion H; subst; constructor.
    - specialize (In' i (or_introl eq_refl)). replace (i - bit) with (S (i - S bit)) by lia. auto.
    - apply IHl; auto. }
  destruct (Nat.testbit k bit); auto. cbn. constructor; auto. rewrite Nat.sub_diag. reflexivity.
Qed.
Lemma extract_bits : forall (refs : list Z) k, at_places refs (bits (List.length refs) k) (extract_group refs 0 k).
Proof.
  intros refs k. assert (H := extract_places refs 0 k).
  replace (map (fun i => i - 0) (filter (Nat.testbit k) (seq 0 (List.length refs)))) with (bits (List.length refs) k) in H; auto.
  unfold bits. rewrite <- (map_id (filter _ _)) at 1. apply map_ext. intros; lia.
Qed.

Lemma seq_sorted : forall n a, StronglySorted lt (seq a n).
Proof.
  induction n; intros a; cbn; constructor; auto. apply Forall_forall. intros x Hx. apply in_seq in Hx. lia.
Qed.
Lemma filter_sorted : forall f l, StronglySorted lt l -> StronglySorted lt (filter f l).
Proof.
  intros f l H. induction H as [|x l H IH F]; cbn; [constructor|]. destruct (f x); auto. constructor; auto.
  apply Forall_forall. intros y Hy. apply filter_In in Hy as [Hy _]. rewrite Forall_forall in F. auto.
Qed.
Lemma sorted_ext : forall l m, StronglySorted lt l -> StronglySorted lt m -> (forall x, In x l <-> In x m) -> l = m.
Proof.
  intros l m Hl. revert m. induction Hl as [|x l Hl IH F]; intros m Hm E.
  - destruct m as [|y m]; auto. exfalso. apply (E y). left; auto.
  - destruct Hm as [|y m Hm G].
    + exfalso. apply (E x). left; auto.
    + rewrite Forall_forall in F, G. assert (x = y).
      { destruct (proj1 (E x) (or_introl eq_refl)) as [|A]; auto.
        destruct (proj2 (E y) (or_introl eq_refl)) as [|B]; auto. apply F in B. apply G in A. lia. }
      subst y. f_equal. apply IH; auto. intros z. split; intros Hz.
      * destruct (proj1 (E z) (or_intror Hz)) as [<-|]; auto. apply F in Hz. lia.
      * destruct (proj2 (E z) (or_intror Hz)) as [<-|]; auto. apply G in Hz. lia.
Qed.
Lemma bits_in : forall n k i, In i (bits n k) <-> i < n /\ Nat.testbit k i = true.
Proof. intros n k i. unfold bits. rewrite filter_In, in_seq. intuition lia. Qed.

Lemma high_bits : forall n k i, k < 2 ^ n -> n <= i -> Nat.testbit k i = false.
Proof.
  intros n k i H L. destruct k as [|k]; [apply Nat.bits_0|]. apply Nat.bits_above_log2.
  apply Nat.log2_lt_pow2; [lia|]. apply Nat.lt_le_trans with (2 ^ n); auto. apply Nat.pow_le_mono_r; lia.
Qed.
Lemma bits_inj : forall n k k', k < 2 ^ n -> k' < 2 ^ n -> bits n k = bits n k' -> k = k'.
Proof.
  intros n k k' H H' E. apply Nat.bits_inj. intros i. destruct (le_lt_dec n i) as [L|L].
  - rewrite !(high_bits n); auto.
  - assert (X := bits_in n k i). rewrite E, bits_in in X.
    destruct (Nat.testbit k i), (Nat.testbit k' i); auto; exfalso.
    + assert (false = true) by (apply X; auto). discriminate.
    + assert (false = true) by (apply X; auto). discriminate.
Qed.
Definition num (ps : list nat) : nat := fold_right (fun i a => Nat.setbit a i) 0 ps.
Lemma num_bit : forall ps i, Nat.testbit (num ps) i = true <-> In i ps.
Proof.
  induction ps as [|p ps IH]; intros i; cbn.
  - rewrite Nat.bits_0. intuition discriminate.
  - fold (num ps). rewrite Nat.setbit_iff, IH. intuition auto.
Qed.
Lemma num_bound : forall n ps, Forall (fun i => i < n) ps -> num ps < 2 ^ n.
Proof.
  intros n ps F. rewrite Forall_forall in F.
  assert (E : num ps mod 2 ^ n = num ps).
  { apply Nat.bits_inj. intros i. destruct (le_lt_dec n i) as [L|L].
    - rewrite Nat.mod_pow2_bits_high by lia. symmetry. destruct (Nat.testbit (num ps) i) eqn:E; auto.
      apply num_bit in E. apply F in E. lia.
    - apply Nat.mod_pow2_bits_low. auto. }
  rewrite <- E. apply Nat.mod_upper_bound. apply Nat.pow_nonzero. lia.
Qed.

Lemma cube_places : forall n,
  let pss := map (bits n) (seq 1 (2 ^ n - 1)) in NoDup pss /\ (forall ps, In ps pss <-> places n ps).
Proof.
  intros n pss. subst pss. assert (B : forall k, In k (seq 1 (2 ^ n - 1)) <-> 1 <= k < 2 ^ n).
  { intros k. rewrite in_seq. assert (2 ^ n <> 0) by (apply Nat.pow_nonzero; lia). lia. }
  split.
  - assert (B' : forall k, In k (seq 1 (2 ^ n - 1)) -> k < 2 ^ n) by (intros k Hk; apply B in Hk; lia). clear B.
    assert (ND := seq_NoDup (2 ^ n - 1) 1). revert B' ND. generalize (seq 1 (2 ^ n - 1)) as l.
    induction l as [|k l IH]; intros B ND; cbn; constructor.
    + intros H. apply in_map_iff in H as (k' & E & Hk'). inversion ND; subst.
      apply bits_inj in E; [subst; auto| |]; apply B; cbn; auto.
    + inversion ND; subst. apply IH; auto. intros; apply B; cbn; auto.
  - intros ps. rewrite in_map_iff. split.
    + intros (k & <- & Hk). apply B in Hk. split; [|split].
      * intros E. assert (k = 0); [|lia]. apply (bits_inj n); [lia| |].
        -- assert (2 ^ n <> 0) by (apply Nat.pow_nonzero; lia). lia.
        -- rewrite E. unfold bits. symmetry. assert (forall l, filter (Nat.testbit 0) l = []) as ->; auto.
           induction l as [|x l IHl]; cbn [filter]; auto. rewrite Nat.bits_0. auto.
      * apply filter_sorted, seq_sorted.
      * apply Forall_forall. intros i Hi. apply bits_in in Hi. tauto.
    + intros (N & S & F). exists (num ps). split.
      * apply sorted_ext; auto; [apply filter_sorted, seq_sorted|]. intros i. rewrite bits_in, num_bit.
        rewrite Forall_forall in F. split; [tauto|]. intros; split; auto.
      * apply B. split; [|apply num_bound; auto]. destruct ps as [|p ps]; [contradiction|].
        assert (Nat.testbit (num (p :: ps)) p = true) by (apply num_bit; left; auto).
        destruct (num (p :: ps)); [rewrite Nat.bits_0 in H; discriminate|lia].
Qed.

Lemma rollup_prefixes : forall (refs : list Z) n,
  map (fun i => firstn i refs) (rev (seq 1 n)) = prefixes_longest_first n refs.
Proof.
  induction n as [|n IH]; auto. rewrite seq_S, rev_app_distr. cbn [rev app map].
  rewrite IH. replace (1 + n) with (S n) by lia. reflexivity.
Qed.
End Cube.

(** ** the builder *)

Lemma same_obj_iff : forall a b, same_obj a b = true <-> same_object a b.
Proof.
  intros a b. unfold same_obj, same_object, is_blank. destruct (is_nil_expr (snd a)) eqn:A, (is_nil_expr (snd b)) eqn:B; cbn;
    first [apply nil_iff in A | apply not_nil_iff in A]; first [apply nil_iff in B | apply not_nil_iff in B].
  - tauto.
  - split; [discriminate|]. tauto.
  - split; [discriminate|]. tauto.
  - rewrite Nat.eqb_eq. tauto.
Qed.

Lemma find_obj_spec : forall e l i, match find_obj e i l with
  | Some k => exists j x, k = i + Z.of_nat j /\ nth_error l j = Some x /\ same_object x e
  | None => Forall (fun x => ~ same_object x e) l
  end.
Proof.
  intros e. induction l as [|x l IH]; intros i; cbn; [constructor|].
  destruct (same_obj x e) eqn:S.
  - apply same_obj_iff in S. exists O, x. split; [lia|]. auto.
  - specialize (IH (i + 1)). destruct (find_obj e (i + 1) l).
    + destruct IH as (j & y & -> & H1 & H2). exists (Datatypes.S j), y. split; [lia|]. auto.
    + constructor; auto. rewrite <- same_obj_iff. congruence.
Qed.

Lemma add_expression_spec : forall e b b' i, add_expression e b = (b', i) ->
  ab_input b' = ab_input b /\ ab_measures b' = ab_measures b /\ ab_refs b' = ab_refs b /\
  0 <= i /\ (exists x, nth_error (ab_exprs b') (Z.to_nat i) = Some x /\ same_object x e) /\
  (ab_exprs b' = ab_exprs b \/
   Forall (fun x => ~ same_object x e) (ab_exprs b) /\ ab_exprs b' = (ab_exprs b ++ [e])%list /\
   i = Z.of_nat (List.length (ab_exprs b))).
Proof.
  intros e b b' i H. unfold add_expression in H. assert (F := find_obj_spec e (ab_exprs b) 0).
  destruct (find_obj e 0 (ab_exprs b)) as [k|]; inversion H; subst; cbn.
  - destruct F as (j & x & -> & H1 & H2). repeat split; auto; [lia|]. exists x. rewrite Z.add_0_l, Nat2Z.id. auto.
  - repeat split; auto; [lia|]. exists e. rewrite Nat2Z.id, nth_error_app2, Nat.sub_diag by lia. split; auto.
    unfold same_object, is_blank. destruct (is_nil_expr (snd e)) eqn:N.
    + apply nil_iff in N. auto.
    + apply not_nil_iff in N. auto.
Qed.

Lemma same_object_sym : forall a b, same_object a b -> same_object b a.
Proof. intros a b [[]|(A & B & E)]; [left|right]; auto. Qed.

Lemma add_expression_distinct : forall e b b' i, add_expression e b = (b', i) ->
  distinct_objects (ab_exprs b) -> distinct_objects (ab_exprs b').
Proof.
  intros e b b' i H D. apply add_expression_spec in H as (_ & _ & _ & _ & _ & [-> |(F & -> & _)]); auto.
  intros j k x y Hj Hk S. rewrite Forall_forall in F.
  destruct (lt_dec j (List.length (ab_exprs b))) as [Lj|Lj], (lt_dec k (List.length (ab_exprs b))) as [Lk|Lk].
  - rewrite nth_error_app1 in Hj, Hk by auto. eapply D; eauto.
  - rewrite nth_error_app1 in Hj by auto. rewrite nth_error_app2 in Hk by lia.
    destruct (k - List.length (ab_exprs b))%nat as [|n] eqn:En; cbn in Hk; [|destruct n; discriminate].
    inversion Hk; subst y. exfalso. eapply F; eauto. eapply nth_error_In; eauto.
  - rewrite nth_error_app1 in Hk by auto. rewrite nth_error_app2 in Hj by lia.
    destruct (j - List.length (ab_exprs b))%nat as [|n] eqn:En; cbn in Hj; [|destruct n; discriminate].
    inversion Hj; subst x. exfalso. eapply F; [eapply nth_error_In; eauto|]. apply same_object_sym. auto.
  - rewrite nth_error_app2 in Hj, Hk by lia.
    destruct (j - List.length (ab_exprs b))%nat as [|n] eqn:En; cbn in Hj; [|destruct n; discriminate].
    destruct (k - List.length (ab_exprs b))%nat as [|n] eqn:En'; cbn in Hk; [|destruct n; discriminate].
    lia.
Qed.

(** building *)
Lemma build_iff : forall b r, build_agg b = Ok r <->
  exists i, ab_input b = Some i /\
    (ab_measures b <> [] \/ ab_refs b <> [] /\ ab_exprs b <> []) /\
    Forall (fun o => ~ is_blank o) (ab_exprs b) /\
    Forall (Forall (fun k => k < Z.of_nat (List.length (ab_exprs b)))) (ab_refs b) /\
    r = RAgg (Common None None None) i (ab_measures b) (map snd (ab_exprs b)) (ab_refs b) None.
Proof.
  intros [input ms es rs] r. unfold build_agg, validate_agg. cbn.
  assert (E1 : negb (existsb (fun o : obj => is_nil_expr (snd o)) es) = true <-> Forall (fun o => ~ is_blank o) es).
  { unfold is_blank. rewrite negb_true_iff. induction es as [|e es IH]; cbn; [split; auto; constructor|].
    rewrite orb_false_iff, IH, not_nil_iff. split; [intros []; constructor; auto|intros H; inversion H; auto]. }
  assert (E2 : forallb (forallb (fun i => i <? Z.of_nat (List.length es))) rs = true <->
     Forall (Forall (fun k => k < Z.of_nat (List.length es))) rs).
  { rewrite forallb_forall, Forall_forall. split; intros H x Hx.
    - apply Forall_forall. intros y Hy. apply Z.ltb_lt. specialize (H x Hx). rewrite forallb_forall in H. auto.
    - apply forallb_forall. intros y Hy. apply Z.ltb_lt. specialize (H x Hx). rewrite Forall_forall in H. auto. }
  destruct input as [i|]; cbn.
  2:{ split; [discriminate|]. intros (i & E & _). discriminate. }
  split.
  - intros H. match type of H with (if ?c then _ else _) = _ => destruct c eqn:C end; [|discriminate].
    apply andb_prop in C as [C C4]. apply andb_prop in C as [C C3]. apply andb_prop in C as [C1 C2].
    exists i. split; auto. split; [|split; [apply E1; auto|split; [apply E2; auto|inversion H; auto]]].
    clear - C1 C2. destruct ms; [|left; discriminate]. right. destruct rs, es; cbn in *; try discriminate. split; discriminate.
  - intros (i' & E & M & F1 & F2 & ->). inversion E; subst i'. apply E1 in F1. apply E2 in F2.
    unfold obj in F1. rewrite F1, F2.
    assert (C1 : negb match ms with [] => match rs with [] => true | _ :: _ => false end | _ :: _ => false end = true).
    { destruct ms; auto. destruct rs; auto. destruct M as [M|[M _]]; contradiction. }
    assert (C2 : negb match ms with [] => match es with [] => true | _ :: _ => false end | _ :: _ => false end = true).
    { destruct ms; auto. destruct es; auto. destruct M as [M|[_ M]]; contradiction. }
    rewrite C1, C2. reflexivity.
Qed.

(** ** C36 *)

Lemma honest_sub : forall l m, honest m -> incl l m -> honest l.
Proof. intros l m H I a b A B. apply H; auto. Qed.

Lemma same_object_value : forall l a b, honest l -> In a l -> In b l -> same_object a b -> snd a = snd b.
Proof. intros l a b H A B [[X Y]|(_ & _ & E)]; [congruence|auto]. Qed.

Lemma add_all_spec : forall U g b b' is, honest U -> incl g U -> incl (ab_exprs b) U -> distinct_objects (ab_exprs b) ->
  add_all g b = (b', is) ->
  ab_input b' = ab_input b /\ ab_measures b' = ab_measures b /\ ab_refs b' = ab_refs b /\
  incl (ab_exprs b') U /\ distinct_objects (ab_exprs b') /\
  (exists more, ab_exprs b' = (ab_exprs b ++ more)%list /\ incl more g) /\
  resolves_to (map snd (ab_exprs b')) is (map snd g).
Proof.
  intros U g. induction g as [|e g IH]; intros b b' is HU HG HB D H; cbn in H.
  - inversion H; subst. repeat split; auto; [|constructor]. exists []. rewrite app_nil_r. split; auto. intros x [].
  - destruct (add_expression e b) as [b1 i] eqn:E1. destruct (add_all g b1) as [b2 is'] eqn:E2. inversion H; subst b' is.
    assert (D1 := add_expression_distinct _ _ _ _ E1 D).
    destruct (add_expression_spec _ _ _ _ E1) as (S1 & S2 & S3 & S4 & (x & S5 & S6) & S7).
    assert (exists more, ab_exprs b1 = (ab_exprs b ++ more)%list /\ incl more [e]) as (m1 & Em1 & Im1).
    { destruct S7 as [-> |(_ & -> & _)]; [exists []; rewrite app_nil_r; split; auto; intros y []|exists [e]; split; auto; apply incl_refl]. }
    assert (B1 : incl (ab_exprs b1) U).
    { rewrite Em1. intros y Hy. apply in_app_or in Hy as [Hy|Hy]; auto. apply HG. apply Im1 in Hy as [<-|[]]. left; auto. }
    assert (HG' : incl g U) by (intros y Hy; apply HG; right; auto).
    destruct (IH b1 b2 is' HU HG' B1 D1 E2) as (T1 & T2 & T3 & T4 & T5 & (m2 & Em2 & Im2) & T7).
    repeat split; try congruence; auto.
    + exists (m1 ++ m2)%list. split; [rewrite Em2, Em1, app_assoc; auto|]. intros y Hy. apply in_app_or in Hy as [Hy|Hy].
      * apply Im1 in Hy as [<-|[]]. left; auto.
      * right. auto.
    + cbn. constructor; auto. split; auto. rewrite Em2, map_app, nth_error_app1.
      * rewrite nth_error_map, S5. cbn. f_equal. apply (same_object_value U); auto; [apply B1; eapply nth_error_In; eauto|].
        apply HG. left; auto.
      * rewrite map_length. apply nth_error_Some. congruence.
Qed.

Lemma resolves_mono : forall A (es more : list A) refs g, resolves_to es refs g -> resolves_to (es ++ more) refs g.
Proof.
  intros A es more refs g H. induction H as [|i e refs g [H1 H2] H IH]; constructor; auto. split; auto.
  rewrite nth_error_app1; auto. apply nth_error_Some. congruence.
Qed.

Lemma add_sets_spec : forall U gs b, honest U -> incl (List.concat gs) U -> incl (ab_exprs b) U -> distinct_objects (ab_exprs b) ->
  let b' := add_sets gs b in
  ab_input b' = ab_input b /\ ab_measures b' = ab_measures b /\
  distinct_objects (ab_exprs b') /\
  exists more refs, ab_exprs b' = (ab_exprs b ++ more)%list /\ incl more (List.concat gs) /\
    ab_refs b' = (ab_refs b ++ refs)%list /\
    Forall2 (resolves_to (map snd (ab_exprs b'))) refs (map (map snd) gs).
Proof.
  intros U gs. induction gs as [|g gs IH]; intros b HU HG HB D; cbn.
  - repeat split; auto. exists [], []. rewrite !app_nil_r. repeat split; auto. intros x [].
  - destruct (add_all g b) as [b1 is] eqn:E. cbn in HG.
    destruct (add_all_spec U g b b1 is HU) as (T1 & T2 & T3 & T4 & T5 & (m & Em & Im) & T7); auto.
    { intros y Hy. apply HG. apply in_or_app. auto. }
    destruct (IH (add_grouping_set is b1)) as (S1 & S2 & S3 & more & refs & S4 & S5 & S6 & S7); auto.
    { intros y Hy. apply HG. apply in_or_app. auto. }
    cbn in S1, S2, S4, S6. rewrite T1 in S1. rewrite T2 in S2. repeat split; auto.
    exists (m ++ more)%list, (is :: refs). repeat split.
    + rewrite S4, Em, app_assoc. auto.
    + intros y Hy. apply in_or_app. apply in_app_or in Hy as [Hy|Hy]; auto.
    + rewrite S6, T3, <- app_assoc. auto.
    + cbn. constructor; auto. rewrite S4, map_app. apply resolves_mono. auto.
Qed.

Lemma distinct_nil : distinct_objects [].
Proof. intros i j a b H. destruct i; discriminate. Qed.

(** every expression that is resolved to is listed *)
Lemma resolves_in : forall A (es : list A) refs g, resolves_to es refs g -> incl g es.
Proof.
  intros A es refs g H. induction H as [|i e refs g [H1 H2] H IH]; intros x Hx; [destruct Hx|].
  destruct Hx as [<-|Hx]; auto. eapply nth_error_In; eauto.
Qed.
Lemma resolves_range : forall A (es : list A) refs g, resolves_to es refs g ->
  Forall (fun k => 0 <= k < Z.of_nat (List.length es)) refs.
Proof.
  intros A es refs g H. induction H as [|i e refs g [H1 H2] H IH]; constructor; auto. split; auto.
  assert (nth_error es (Z.to_nat i) <> None) by congruence. apply nth_error_Some in H0. lia.
Qed.

Lemma aggregate_exprs_char : forall input ms gs, honest (List.concat gs) ->
  exists objs refs,
    distinct_objects objs /\ incl objs (List.concat gs) /\
    Forall2 (resolves_to (map snd objs)) refs (map (map snd) gs) /\
    forall r, aggregate_exprs input ms gs = Ok r <->
      exists i, input = Some i /\ (ms <> [] \/ List.concat gs <> []) /\ Forall (fun o => ~ is_blank o) (List.concat gs) /\
        r = RAgg (Common None None None) i ms (map snd objs) refs None.
Proof.
  intros input ms gs HU. unfold aggregate_exprs.
  destruct (add_sets_spec (List.concat gs) gs (new_agg_builder input ms) HU) as (S1 & S2 & S3 & more & refs & S4 & S5 & S6 & S7).
  { apply incl_refl. } { intros x []. } { apply distinct_nil. }
  cbn in S1, S2, S4, S6. set (b := add_sets gs (new_agg_builder input ms)) in *.
  exists (ab_exprs b), refs. rewrite S4 in *. cbn [app] in *.
  assert (NE : List.concat gs <> [] <-> more <> []).
  { split; intros H E.
    - destruct (List.concat gs) as [|o l] eqn:EC; [contradiction|].
      assert (In o (List.concat gs)) by (rewrite EC; left; auto). apply in_concat in H0 as (g & Hg & Ho).
      destruct (Forall2_in_r S7 (map snd g)) as (rf & _ & Hr); [apply in_map; auto|].
      apply resolves_in in Hr. assert (X := Hr (snd o) (in_map snd g o Ho)). rewrite E in X. destruct X.
    - apply H. destruct more as [|x more]; auto. assert (X := S5 x (or_introl eq_refl)). rewrite E in X. destruct X. }
  assert (BL : Forall (fun o => ~ is_blank o) more <-> Forall (fun o => ~ is_blank o) (List.concat gs)).
  { rewrite !Forall_forall. split; intros H o Ho; [|auto]. intros B. apply in_concat in Ho as (g & Hg & Ho).
    destruct (Forall2_in_r S7 (map snd g)) as (rf & _ & Hr); [apply in_map; auto|].
    apply resolves_in in Hr. assert (X := Hr (snd o) (in_map snd g o Ho)). apply in_map_iff in X as (o' & E & Ho').
    apply (H o' Ho'). unfold is_blank in *. congruence. }
  split; auto. split; auto. split; auto.
  intros r. rewrite build_iff, S1, S2, S4, S6. cbn [app].
  assert (RG : Forall (Forall (fun k => k < Z.of_nat (List.length more))) refs).
  { clear - S7. induction S7 as [|rf g refs gs' H _ IH]; constructor; auto. apply resolves_range in H.
    rewrite map_length in H. eapply Forall_impl; [|exact H]. intros a [_ X]. exact X. }
  assert (RN : more <> [] -> refs <> []).
  { intros N E. rewrite E in S7. inversion S7 as [E'|]. destruct gs; [|discriminate]. apply NE in N. apply N. reflexivity. }
  split.
  - intros (i & Hi & M & F & _ & ->). exists i. split; auto. split; [|split; [apply BL; auto|auto]].
    destruct M as [M|[_ M]]; auto. right. apply NE. auto.
  - intros (i & Hi & M & F & ->). exists i. split; auto. split; [|split; [apply BL; auto|auto]].
    destruct M as [M|M]; auto. apply NE in M. auto.
Qed.

(** ** the reader's groups (plan.go 56-78) *)

Section Reader.
Context {E : Type}.
Variable equals : E -> E -> res bool.

Definition stands_for (es : list E) (i : Z) (e : E) : Prop :=
  0 <= i /\ exists x, nth_error es (Z.to_nat i) = Some x /\ (x = e \/ equals x e = Ok true).

Lemma find_equal_spec : forall seen i e o, find_equal equals seen i e = Ok o ->
  match o with
  | Some k => exists j x, k = (i + j)%nat /\ nth_error seen j = Some x /\ equals x e = Ok true
  | None => Forall (fun x => equals x e = Ok false) seen
  end.
Proof.
  induction seen as [|x seen IH]; intros i e o H; cbn in H.
  - inversion H; subst. constructor.
  - destruct (equals x e) as [b| |] eqn:Eb; cbn in H; try discriminate. destruct b.
    + inversion H; subst. exists O, x. split; [lia|]. auto.
    + apply IH in H. destruct o as [k|].
      * destruct H as (j & y & -> & H1 & H2). exists (S j), y. split; [lia|]. auto.
      * constructor; auto.
Qed.

(** no expression in the list equals a later one *)
Definition apart (l : list E) : Prop :=
  forall i j x y, (i < j)%nat -> nth_error l i = Some x -> nth_error l j = Some y -> equals x y = Ok false.

Lemma apart_snoc : forall l e, apart l -> Forall (fun x => equals x e = Ok false) l -> apart (l ++ [e]).
Proof.
  intros l e A F i j x y L Hi Hj. rewrite Forall_forall in F.
  destruct (lt_dec j (List.length l)) as [Lj|Lj].
  - rewrite nth_error_app1 in Hi, Hj by lia. apply (A i j); auto.
  - rewrite nth_error_app2 in Hj by lia. destruct (j - List.length l)%nat as [|n] eqn:En; cbn in Hj; [|destruct n; discriminate].
    inversion Hj; subst y. rewrite nth_error_app1 in Hi by lia. apply F. eapply nth_error_In; eauto.
Qed.
Lemma stands_mono : forall es more i e, stands_for es i e -> stands_for (es ++ more) i e.
Proof.
  intros es more i e (H1 & x & H2 & H3). split; auto. exists x. split; auto. rewrite nth_error_app1; auto.
  apply nth_error_Some. congruence.
Qed.

Lemma group_refs_spec : forall g seen seen' refs, group_refs equals seen g = Ok (seen', refs) -> apart seen ->
  apart seen' /\ (exists more, seen' = (seen ++ more)%list /\ incl more g) /\ Forall2 (stands_for seen') refs g.
Proof.
  induction g as [|e g IH]; intros seen seen' refs H A; cbn in H.
  - inversion H; subst. split; auto. split; [exists []; rewrite app_nil_r; split; auto; intros x []|constructor].
  - destruct (find_equal equals seen 0 e) as [o| |] eqn:Ef; cbn in H; try discriminate.
    apply find_equal_spec in Ef. destruct o as [k|].
    + destruct Ef as (j & x & -> & H1 & H2). cbn [Nat.add] in H.
      destruct (group_refs equals seen g) as [[s1 r1]| |] eqn:Eg; cbn in H; try discriminate. inversion H; subst.
      destruct (IH _ _ _ Eg A) as (A' & (more & -> & I) & F). split; auto. split.
      * exists more. split; auto. intros y Hy; right; auto.
      * constructor; auto. apply stands_mono. split; [lia|]. exists x. rewrite Nat2Z.id. auto.
    + destruct (group_refs equals (seen ++ [e]) g) as [[s1 r1]| |] eqn:Eg; cbn in H; try discriminate. inversion H; subst.
      destruct (IH _ _ _ Eg (apart_snoc _ _ A Ef)) as (A' & (more & -> & I) & F). split; auto. split.
      * exists (e :: more). rewrite <- app_assoc. split; auto. intros y [<-|Hy]; [left; auto|right; auto].
      * constructor; auto. apply stands_mono. split; [lia|]. exists e. rewrite Nat2Z.id, nth_error_app2, Nat.sub_diag by lia. auto.
Qed.
Lemma groups_refs_spec : forall gs seen es refs, groups_refs equals seen gs = Ok (es, refs) -> apart seen ->
  apart es /\ (exists more, es = (seen ++ more)%list /\ incl more (List.concat gs)) /\
  Forall2 (Forall2 (stands_for es)) refs gs.
Proof.
  induction gs as [|g gs IH]; intros seen es refs H A; cbn in H.
  - inversion H; subst. split; auto. split; [exists []; rewrite app_nil_r; split; auto; intros x []|constructor].
  - destruct (group_refs equals seen g) as [[s1 r1]| |] eqn:E1; cbn in H; try discriminate.
    destruct (groups_refs equals s1 gs) as [[s2 r2]| |] eqn:E2; cbn in H; try discriminate. inversion H; subst.
    destruct (group_refs_spec _ _ _ _ E1 A) as (A1 & (m1 & -> & I1) & F1).
    destruct (IH _ _ _ E2 A1) as (A2 & (m2 & -> & I2) & F2). split; auto. split.
    + exists (m1 ++ m2)%list. rewrite app_assoc. split; auto. cbn. intros y Hy. apply in_or_app.
      apply in_app_or in Hy as [Hy|Hy]; auto.
    + constructor; auto. clear - F1. induction F1; constructor; auto. apply stands_mono. auto.
Qed.
Lemma grouping_exprs_spec : forall gs es refs, grouping_exprs equals gs = Ok (es, refs) ->
  apart es /\ incl es (List.concat gs) /\ Forall2 (Forall2 (stands_for es)) refs gs.
Proof.
  intros gs es refs H. assert (A : apart []) by (intros i j x y _ Hi; destruct i; discriminate).
  destruct (groups_refs_spec gs [] es refs H A) as (A' & (more & -> & I) & F). auto.
Qed.

Lemma grouping_total : forall gs,
  (forall a b, In a (List.concat gs) -> In b (List.concat gs) -> exists t, equals a b = Ok t) -> exists p, grouping_exprs equals gs = Ok p.
Proof.
  intros gs0 T0. cut (forall all, (forall a b, In a all -> In b all -> exists t, equals a b = Ok t) ->
    incl (List.concat gs0) all -> exists p, grouping_exprs equals gs0 = Ok p).
  { intros H. apply (H _ T0). apply incl_refl. }
  clear T0. intros all T I.
  assert (F : forall seen i e, incl seen all -> In e all -> exists o, find_equal equals seen i e = Ok o).
  { induction seen as [|x seen IH]; intros i e Is Ie; cbn; eauto. destruct (T x e) as [b ->]; [apply Is; left; auto|auto|]. cbn.
    destruct b; eauto. apply IH; auto. intros y Hy. apply Is. right; auto. }
  assert (G : forall g seen, incl seen all -> incl g all -> exists a b, group_refs equals seen g = Ok (a, b) /\ incl a all).
  { induction g as [|e g IH]; intros seen Is Ig; cbn; eauto. destruct (F seen O e) as [o ->]; [auto|apply Ig; left; auto|].
    cbn. destruct o.
    - destruct (IH seen) as (a & b & -> & Ia); [auto|intros y Hy; apply Ig; right; auto|]. cbn. eauto.
    - destruct (IH (seen ++ [e])%list) as (a & b & -> & Ia); [|intros y Hy; apply Ig; right; auto|].
      + intros y Hy. apply in_app_iff in Hy as [Hy|[<-|[]]]; auto. apply Ig. left; auto.
      + cbn. eauto. }
  unfold grouping_exprs. assert (N : incl (@nil E) all) by (intros ? []). revert I N. generalize (@nil E). revert gs0.
  intros gs. induction gs as [|g gs IH]; intros seen Ig Is; cbn; eauto. cbn in Ig.
  destruct (G g seen) as (a & b & -> & Ia); [auto|intros y Hy; apply Ig, in_app_iff; auto|]. cbn.
  destruct (IH a) as [[c d] ->]; [intros y Hy; apply Ig, in_app_iff; auto|auto|]. cbn. eauto.
Qed.
End Reader.

(** ** columns *)

Lemma all_typed_map : forall l ts, all_typed l = Some ts -> map XTy ts = l.
Proof.
  induction l as [|x l IH]; intros ts H; cbn in H; [inversion H; auto|].
  destruct x; try discriminate. fold (all_typed l) in H. destruct (all_typed l) as [us|]; inversion H; subst.
  cbn. f_equal. apply IH; auto.
Qed.
Lemma expose_struct : forall n v l, expose (x_struct n v l) = XStruct n v l.
Proof. intros n v l. unfold x_struct. destruct (all_typed l) as [ts|] eqn:E; auto. cbn. f_equal. apply all_typed_map; auto. Qed.

Lemma ref_at_char : forall cols i,
  match nth_error cols (Z.to_nat i) with
  | Some t => if i <? 0 then ref_at cols i = Err else ref_at cols i = Ok (ERef RRoot (RefSeg [SField i]) t)
  | None => ref_at cols i = Err
  end.
Proof.
  intros cols i. unfold ref_at. destruct (i <? 0) eqn:L; cbn [orb].
  { destruct (nth_error cols (Z.to_nat i)); auto. }
  apply Z.ltb_ge in L. unfold new_field_ref. cbn [seg_type].
  rewrite expose_struct. assert (L' := L). apply Z.ltb_ge in L'. rewrite L'. cbn [orb].
  destruct (nth_error cols (Z.to_nat i)) as [t|] eqn:E.
  - assert (nth_error cols (Z.to_nat i) <> None) by congruence. apply nth_error_Some in H.
    rewrite Z.gtb_ltb. destruct (Z.ltb_spec (Z.of_nat (List.length cols)) i); [lia|].
    destruct (Z.leb_spec (Z.of_nat (List.length cols)) i); [lia|]. reflexivity.
  - apply nth_error_None in E. destruct (i >? Z.of_nat (List.length cols)); auto.
    destruct (Z.leb_spec (Z.of_nat (List.length cols)) i); [auto|lia].
Qed.
Lemma ref_at_iff : forall cols i e, ref_at cols i = Ok e <->
  exists t, 0 <= i /\ nth_error cols (Z.to_nat i) = Some t /\ e = ERef RRoot (RefSeg [SField i]) t.
Proof.
  intros cols i e. assert (H := ref_at_char cols i). destruct (nth_error cols (Z.to_nat i)) as [t|].
  - destruct (Z.ltb_spec i 0); rewrite H; split; try discriminate.
    + intros (t' & L & _). lia.
    + intros X. inversion X. eauto.
    + intros (t' & _ & X & ->). inversion X. auto.
  - rewrite H. split; [discriminate|]. intros (t' & _ & X & _). discriminate.
Qed.
Lemma ref_at_err : forall cols i, ~ in_width (List.length cols) i -> ref_at cols i = Err.
Proof.
  intros cols i H. assert (X := ref_at_char cols i). destruct (nth_error cols (Z.to_nat i)) as [t|] eqn:E; auto.
  destruct (Z.ltb_spec i 0) as [L|L]; auto. exfalso. apply H. split; auto.
  assert (Y : nth_error cols (Z.to_nat i) <> None) by congruence. apply nth_error_Some in Y. lia.
Qed.

(** objects numbered from [k] on are all new *)
Lemma find_fresh : forall (e : expr rel) k l i, Forall (fun o : obj => (fst o < k)%nat /\ snd o <> blank) l -> e <> blank ->
  find_obj (k, e) i l = None.
Proof.
  intros e k l i F N. revert i. induction F as [|x l [L Hx] F IH]; intros i; cbn; auto.
  assert (S : same_obj x (k, e) = false).
  { unfold same_obj. cbn. apply not_nil_iff in N, Hx. rewrite N, Hx. cbn. apply Nat.eqb_neq. lia. }
  rewrite S. auto.
Qed.
Lemma add_fresh : forall es k b, Forall (fun o : obj => (fst o < k)%nat /\ snd o <> blank) (ab_exprs b) ->
  Forall (fun e => e <> blank) es ->
  add_all (combine (seq k (List.length es)) es) b =
  (AggBuilder (ab_input b) (ab_measures b) (ab_exprs b ++ combine (seq k (List.length es)) es) (ab_refs b),
   map Z.of_nat (seq (List.length (ab_exprs b)) (List.length es))).
Proof.
  induction es as [|e es IH]; intros k b F N; cbn.
  - rewrite app_nil_r. destruct b; reflexivity.
  - inversion N; subst. unfold add_expression. rewrite find_fresh by auto.
    rewrite IH; auto.
    + cbn. rewrite <- app_assoc, app_length. cbn. replace (List.length (ab_exprs b) + 1)%nat with (S (List.length (ab_exprs b))) by lia.
      reflexivity.
    + cbn. apply Forall_app. split; [|constructor; auto; cbn; split; auto; lia].
      eapply Forall_impl; [|exact F]. cbn. intros a [A1 A2]. split; auto; lia.
Qed.

Lemma columns_iff : forall input ms cols r, cols <> [] -> aggregate_columns (Some input) ms cols = Ok r <->
  exists types ts, rel_type input = Ok types /\ picks cols types ts /\
    r = RAgg (Common None None None) input ms
          (map (fun p => ERef RRoot (RefSeg [SField (fst p)]) (snd p)) (combine cols ts))
          [map Z.of_nat (seq 0 (List.length cols))] None.
Proof.
  intros input ms cols r N. unfold aggregate_columns. destruct cols as [|c0 cols0]; [contradiction|]. set (cols := c0 :: cols0) in *.
  clearbody cols. clear c0 cols0.
  assert (P : forall refs, mapM (root_field_ref input) cols = Ok refs <->
     exists types ts, rel_type input = Ok types /\ picks cols types ts /\
       refs = map (fun p => ERef RRoot (RefSeg [SField (fst p)]) (snd p)) (combine cols ts)).
  { intros refs. rewrite mapM_F2. unfold root_field_ref. destruct (rel_type input) as [types| |] eqn:Et; cbn [bind].
    - split.
      + intros F. assert (X : exists ts, picks cols types ts /\
            refs = map (fun p => ERef RRoot (RefSeg [SField (fst p)]) (snd p)) (combine cols ts)).
        { clear N. induction F as [|i e cols refs H F (ts & IH1 & IH2)].
          - exists []. split; auto; constructor.
          - apply ref_at_iff in H as (t & H1 & H2 & ->). exists (t :: ts). split; [constructor; auto|]. cbn. f_equal; auto. }
        destruct X as (ts & X1 & X2). exists types, ts. auto.
      + intros (types' & ts & Ht & Hp & ->). inversion Ht; subst types'. clear N Ht.
        induction Hp as [|i t cols ts [H1 H2] Hp IH]; cbn; constructor; auto. apply ref_at_iff. eauto.
    - split; [|intros (? & ? & H & _); discriminate]. intros F. destruct cols; [contradiction|]. inversion F; discriminate.
    - split; [|intros (? & ? & H & _); discriminate]. intros F. destruct cols; [contradiction|]. inversion F; discriminate. }
  rewrite bind_ok.
  assert (B : forall refs, mapM (root_field_ref input) cols = Ok refs ->
    (let '(b, is) := add_all (combine (seq 0 (List.length refs)) refs) (new_agg_builder (Some input) ms) in build_agg (add_grouping_set is b))
     = Ok (RAgg (Common None None None) input ms refs [map Z.of_nat (seq 0 (List.length cols))] None)).
  { intros refs H. assert (L := mapM_len _ _ _ _ _ H). apply P in H as (types & ts & _ & Hp & E).
    assert (NB : Forall (fun e : expr rel => e <> blank) refs).
    { rewrite E. apply Forall_forall. intros x Hx. apply in_map_iff in Hx as (y & <- & _). discriminate. }
    rewrite add_fresh; [|constructor|auto]. cbn [ab_input ab_measures ab_exprs ab_refs new_agg_builder app List.length].
    assert (S : map snd (combine (seq 0 (List.length refs)) refs) = refs).
    { clear. generalize O. induction refs; intros k; cbn; auto. f_equal; auto. }
    apply build_iff. exists input. cbn. split; auto. split.
    - right. split; [discriminate|]. destruct refs; [|discriminate]. destruct cols; [contradiction|discriminate].
    - split; [|split].
      + apply Forall_forall. intros o Ho Hb. apply (in_map snd) in Ho. rewrite S in Ho. rewrite Forall_forall in NB. apply (NB _ Ho). exact Hb.
      + constructor; [|constructor]. apply Forall_forall. intros z Hz. apply in_map_iff in Hz as (n & <- & Hn). apply in_seq in Hn.
        unfold obj. rewrite combine_length, seq_length. lia.
      + rewrite S, L. reflexivity. }
  split.
  - intros (refs & H & H'). rewrite (B refs H) in H'. apply P in H as (types & ts & H1 & H2 & ->). inversion H'. eauto 6.
  - intros (types & ts & H1 & H2 & ->). eexists. split; [apply P; eauto|]. rewrite (B _ (proj2 (P _) (ex_intro _ _ (ex_intro _ _ (conj H1 (conj H2 eq_refl)))))).
    reflexivity.
Qed.

(** ** plans *)

Lemma x_count : forall x, x_name_count x = List.length (x_inner x).
Proof.
  fix IH 1. intros x. destruct x as [|t|n v l|n v e|n v k e|n ps r]; cbn; auto.
  - rewrite map_length. apply nested_count_spec.
  - change (fold_left (fun (n : nat) f => (n + 1 + x_name_count f)%nat) l 0%nat = List.length (flat_map (fun f => f :: x_inner f) l)).
    assert (G : forall a, fold_left (fun (n : nat) f => (n + 1 + x_name_count f)%nat) l a =
               (a + List.length (flat_map (fun f => f :: x_inner f) l))%nat); [|apply G].
    induction l as [|f l IHl]; intros a; cbn; [lia|]. rewrite IHl, app_length, IH. cbn. lia.
  - rewrite app_length, !IH. auto.
Qed.
Lemma schema_count : forall l, schema_name_count l = List.length (x_named l).
Proof.
  intros l. unfold schema_name_count, x_named.
  assert (G : forall a, fold_left (fun (n : nat) f => (n + 1 + x_name_count f)%nat) l a =
               (a + List.length (flat_map (fun f => f :: x_inner f) l))%nat); [|apply G].
  induction l as [|f l IHl]; intros a; cbn; [lia|]. rewrite IHl, app_length, x_count. cbn. lia.
Qed.

Lemma put_others_spec : forall others i pre l, List.length pre = i -> (List.length others <= List.length l)%nat ->
  put_others i others (pre ++ l)%list =
  (pre ++ map (fun p => Relation (rl_root (fst p)) (Some (snd p))) (combine l others) ++ skipn (List.length others) l)%list.
Proof.
  induction others as [|o others IH]; intros i pre l HL HN; cbn.
  - destruct l; reflexivity.
  - destruct l as [|r l]; cbn in HN; [lia|]. rewrite nth_error_app2, HL, Nat.sub_diag by lia. cbn.
    assert (E : set_nth i (Relation (rl_root r) (Some o)) (pre ++ r :: l) = ((pre ++ [Relation (rl_root r) (Some o)]) ++ l)%list).
    { rewrite <- app_assoc. cbn. clear - HL. revert i HL. induction pre as [|x pre IHp]; intros i HL; cbn in *; subst i; cbn; auto.
      f_equal. apply IHp. auto. }
    rewrite E, IH; [|rewrite app_length; cbn; lia|lia]. rewrite <- app_assoc. reflexivity.
Qed.
Lemma put_others_plan : forall root others,
  put_others 0 others (Relation root None :: repeat (Relation None None) (List.length others)) =
  match others with
  | [] => [Relation root None]
  | o :: os => (Relation root (Some o) :: map (fun x => Relation None (Some x)) os ++ [Relation None None])%list
  end.
Proof.
  intros root others.
  assert (H := put_others_spec others 0 [] (Relation root None :: repeat (Relation None None) (List.length others)) eq_refl).
  cbn [app] in H. rewrite H; [|cbn; rewrite repeat_length; lia]. clear H. destruct others as [|o os]; auto. cbn.
  f_equal. f_equal.
  - cbn. induction os as [|x os IH]; cbn; auto. f_equal; auto.
  - clear. change (skipn (List.length os) (repeat (Relation None None) (S (List.length os))) = [Relation None None]).
    induction os; cbn in *; auto.
Qed.
