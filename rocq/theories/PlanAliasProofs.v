(** Proofs for C39 and C40. *)

From Coq Require Import ZArith Bool Arith Lia List.
From Verif Require Import Base TypesModel ExprModel PlanModel PlanAliasModel PlanSpec PlanProofs PlanAliasSpec.
Import ListNotations.

Section Heaps.
Context {A : Type}.
Implicit Type h : heap A.

Lemma put_length : forall B i (y : B) l, List.length (put i y l) = List.length l.
Proof. intros B i y l. revert i. induction l; intros [|i]; cbn; auto. Qed.
Lemma put_nth : forall B i (y : B) l j, nth_error (put i y l) j = if Nat.eqb i j then (if j <? List.length l then Some y else None) else nth_error l j.
Proof.
  intros B i y l. revert i. induction l as [|x l IH]; intros i j.
  - destruct i; cbn; destruct j; cbn; auto; destruct (Nat.eqb _ _); reflexivity.
  - destruct i as [|i], j as [|j]; cbn; auto. rewrite IH. reflexivity.
Qed.
Lemma put_all_length : forall (ys l : list A) i, List.length (put_all i ys l) = List.length l.
Proof. induction ys; intros l i; cbn; auto. rewrite IHys, put_length. auto. Qed.
Lemma put_all_nth : forall (ys l : list A) i j, i + List.length ys <= List.length l ->
  nth_error (put_all i ys l) j = if (i <=? j) && (j <? i + List.length ys) then nth_error ys (j - i) else nth_error l j.
Proof.
  induction ys as [|y ys IH]; intros l i j L; cbn [put_all List.length] in *.
  - replace (i + 0) with i by lia. destruct (Nat.leb_spec i j), (Nat.ltb_spec j i); cbn; auto; lia.
  - rewrite IH by (rewrite put_length; lia). rewrite put_nth.
    destruct (Nat.leb_spec (S i) j), (Nat.leb_spec i j), (Nat.ltb_spec j (S i + List.length ys)), (Nat.ltb_spec j (i + S (List.length ys))),
      (Nat.eqb_spec i j); cbn [andb]; try lia; auto.
    + replace (j - i) with (S (j - S i)) by lia. reflexivity.
    + subst j. rewrite Nat.sub_diag. destruct (Nat.ltb_spec i (List.length l)); auto; lia.
Qed.

Lemma nth_arr : forall h a arr, nth_error h a = Some arr -> nth a h [] = arr.
Proof. intros h a arr H. apply nth_error_nth. auto. Qed.

Lemma read_shows : forall h s, valid h s -> shows h s (read h s).
Proof.
  intros h [v|] V; cbn in *; auto. destruct V as (arr & E & L1 & L2). rewrite (nth_arr _ _ _ E). split.
  - rewrite firstn_length, skipn_length. lia.
  - intros i Hi. unfold cell. rewrite E.
    assert (G : forall n (l : list A) i, i < n -> nth_error (firstn n l) i = nth_error l i).
    { induction n; intros [|x l] [|k] Hk; cbn; auto; try lia. apply IHn. lia. }
    rewrite G by auto. clear. revert arr. induction (sl_off v); intros arr; cbn; auto. destruct arr; auto. destruct i; reflexivity.
Qed.
Lemma shows_read : forall h s l, valid h s -> shows h s l -> l = read h s.
Proof.
  intros h s l V S. assert (R := read_shows h s V). destruct s as [v|]; cbn in S, R; [|subst; reflexivity].
  destruct S as [S1 S2], R as [R1 R2]. 
  assert (G : forall (a b : list A), List.length a = List.length b -> (forall i, i < List.length a -> nth_error a i = nth_error b i) -> a = b).
  { induction a as [|x a IH]; intros [|y b] L H; cbn in *; try discriminate; auto. assert (X := H 0 ltac:(lia)). cbn in X. injection X as ->.
    f_equal. apply IH; [lia|]. intros i Hi. apply (H (S i)). lia. }
  cbn [read]. apply G; [congruence|]. intros i Hi. rewrite S2, R2; auto; lia.
Qed.

Lemma untouched_refl : forall h, untouched h h.
Proof. intros h a arr H. auto. Qed.
Lemma untouched_trans : forall h1 h2 h3, untouched h1 h2 -> untouched h2 h3 -> untouched h1 h3.
Proof. intros h1 h2 h3 H1 H2 a arr H. auto. Qed.
Lemma untouched_length : forall h h', untouched h h' -> List.length h <= List.length h'.
Proof.
  intros h h' U. destruct (le_lt_dec (List.length h) (List.length h')) as [|L]; auto. exfalso.
  destruct (nth_error h (List.length h')) as [arr|] eqn:E.
  - apply U in E. assert (X : nth_error h' (List.length h') <> None) by congruence. apply nth_error_Some in X. lia.
  - apply nth_error_None in E. lia.
Qed.
Lemma untouched_valid : forall h h' s, untouched h h' -> valid h s -> valid h' s.
Proof. intros h h' [v|] U V; cbn in *; auto. destruct V as (arr & E & L). exists arr. split; auto. Qed.
Lemma untouched_read : forall h h' s, untouched h h' -> valid h s -> read h' s = read h s.
Proof.
  intros h h' [v|] U V; cbn in *; auto. destruct V as (arr & E & L). rewrite (nth_arr _ _ _ E), (nth_arr _ _ _ (U _ _ E)). auto.
Qed.
Lemma untouched_shows : forall h h' s l, untouched h h' -> valid h s -> shows h s l -> shows h' s l.
Proof.
  intros h h' s l U V S. rewrite (shows_read h s l V S). rewrite <- (untouched_read h h' s U V). apply read_shows.
  eapply untouched_valid; eauto.
Qed.

Variable pad : A.
Lemma alloc_spec : forall h l n h' s, alloc pad h l n = (h', s) ->
  untouched h h' /\ valid h' s /\ read h' s = l /\
  (exists v, s = Some v /\ sl_arr v = List.length h /\ sl_off v = 0 /\ sl_len v = List.length l /\ sl_cap v = List.length l + n) /\
  List.length h' = S (List.length h).
Proof.
  intros h l n h' s H. unfold alloc in H. injection H as <- <-.
  assert (E : nth_error (h ++ [(l ++ repeat pad n)%list]) (List.length h) = Some (l ++ repeat pad n)%list).
  { rewrite nth_error_app2, Nat.sub_diag by lia. reflexivity. }
  repeat split.
  - intros a arr Ha. rewrite nth_error_app1; auto. apply nth_error_Some. congruence.
  - cbn. exists (l ++ repeat pad n)%list. rewrite app_length, repeat_length. repeat split; auto; lia.
  - cbn. rewrite (nth_arr _ _ _ E), firstn_app, Nat.sub_diag. cbn. rewrite firstn_all, app_nil_r. auto.
  - eexists. split; [reflexivity|]. auto.
  - rewrite app_length. cbn. lia.
Qed.

Lemma update_nth : forall h a i ys b arr, nth_error h a = Some arr ->
  nth_error (update h a i ys) b = if Nat.eqb a b then Some (put_all i ys arr) else nth_error h b.
Proof.
  intros h a i ys b arr H. unfold update. rewrite put_nth, (nth_arr _ _ _ H).
  destruct (Nat.eqb_spec a b) as [<-|N]; auto. assert (X : nth_error h a <> None) by congruence. apply nth_error_Some in X.
  apply Nat.ltb_lt in X. rewrite X. auto.
Qed.
Lemma update_length : forall h a i ys, List.length (update h a i ys) = List.length h.
Proof. intros. apply put_length. Qed.
Lemma update_nil : forall h a i, update h a i [] = h.
Proof.
  intros h a i. unfold update. cbn [put_all]. revert a. induction h as [|x h IH]; intros [|a]; cbn; auto. f_equal. apply IH.
Qed.
Lemma update_untouched : forall h a i ys b arr, a <> b -> nth_error h b = Some arr -> nth_error (update h a i ys) b = Some arr.
Proof.
  intros h a i ys b arr N H. unfold update. rewrite put_nth. apply Nat.eqb_neq in N. rewrite N. auto.
Qed.

(** a slice made longer in place *)
Lemma extend_read : forall h v ys, valid h (Some v) -> sl_len v + List.length ys <= sl_cap v ->
  let h' := update h (sl_arr v) (sl_off v + sl_len v) ys in
  let s' := Some (Sl (sl_arr v) (sl_off v) (sl_len v + List.length ys) (sl_cap v)) in
  valid h' s' /\ read h' s' = (read h (Some v) ++ ys)%list.
Proof.
  intros h v ys V L h' s'. assert (R := read_shows h (Some v) V). destruct V as (arr & E & L1 & L2). subst h' s'.
  assert (V' : valid (update h (sl_arr v) (sl_off v + sl_len v) ys) (Some (Sl (sl_arr v) (sl_off v) (sl_len v + List.length ys) (sl_cap v)))).
  { cbn. rewrite (update_nth _ _ _ _ _ _ E), Nat.eqb_refl. eexists. split; [reflexivity|]. rewrite put_all_length. lia. }
  split; auto. symmetry. apply shows_read; auto. cbn in R. destruct R as [R1 R2]. cbn. split; [rewrite app_length; lia|].
  intros i Hi. unfold cell. cbn. rewrite (update_nth _ _ _ _ _ _ E), Nat.eqb_refl, put_all_nth by lia.
  destruct (lt_dec i (sl_len v)) as [Li|Li].
  - rewrite nth_error_app1, R2 by lia. unfold cell. rewrite E.
    destruct (Nat.leb_spec (sl_off v + sl_len v) (sl_off v + i)); [lia|]. reflexivity.
  - rewrite nth_error_app2, R1 by lia.
    destruct (Nat.leb_spec (sl_off v + sl_len v) (sl_off v + i)); [|lia].
    destruct (Nat.ltb_spec (sl_off v + i) (sl_off v + sl_len v + List.length ys)); [|lia]. cbn. f_equal. lia.
Qed.
(** a slice overwritten in place *)
Lemma overwrite_read : forall h v ys, valid h (Some v) -> List.length ys = sl_len v ->
  let h' := update h (sl_arr v) (sl_off v) ys in valid h' (Some v) /\ read h' (Some v) = ys.
Proof.
  intros h v ys V L h'. destruct V as (arr & E & L1 & L2). subst h'.
  assert (V' : valid (update h (sl_arr v) (sl_off v) ys) (Some v)).
  { cbn. rewrite (update_nth _ _ _ _ _ _ E), Nat.eqb_refl. eexists. split; [reflexivity|]. rewrite put_all_length. lia. }
  split; auto. symmetry. apply shows_read; auto. cbn. split; auto.
  intros i Hi. unfold cell. rewrite (update_nth _ _ _ _ _ _ E), Nat.eqb_refl, put_all_nth by lia.
  destruct (Nat.leb_spec (sl_off v) (sl_off v + i)); [|lia]. destruct (Nat.ltb_spec (sl_off v + i) (sl_off v + List.length ys)); [|lia].
  cbn. f_equal. lia.
Qed.

(** where the result of a computation from [h] may live: in a new array, or in an old one
    without room *)
Definition placed (h : heap A) (s : slice) : Prop :=
  match s with None => True | Some v => List.length h <= sl_arr v \/ tight s end.

Variable spare : nat -> nat.
Lemma append_spec : forall h0 h s ys h' s', untouched h0 h -> valid h s -> placed h0 s -> append pad spare h s ys = (h', s') ->
  untouched h0 h' /\ valid h' s' /\ placed h0 s' /\ read h' s' = (read h s ++ ys)%list /\
  (ys <> [] -> exists v, s' = Some v /\ List.length h0 <= sl_arr v).
Proof.
  intros h0 h s ys h' s' U V P H. assert (LU := untouched_length _ _ U). destruct s as [v|]; cbn [append] in H.
  - destruct (Nat.leb_spec (sl_len v + List.length ys) (sl_cap v)) as [L|L].
    + injection H as <- <-. destruct (extend_read h v ys V L) as [V' R']. split; [|split; [exact V'|split; [|split; [exact R'|]]]].
      * destruct ys as [|y ys]; [rewrite update_nil; auto|]. intros a arr Ha. apply update_untouched; auto.
        intros <-. assert (X : nth_error h0 (sl_arr v) <> None) by congruence. apply nth_error_Some in X. cbn in P, L. destruct P; lia.
      * cbn in P |- *. destruct P as [P|P]; auto. destruct ys; cbn in *; [right; lia|lia].
      * intros N. eexists. split; [reflexivity|]. cbn in P |- *. destruct P as [P|P]; auto. destruct ys; [congruence|]. cbn in L. lia.
    + cbn [read] in *. apply alloc_spec in H as (H1 & H2 & H3 & (w & -> & H4 & _) & _). split; [eapply untouched_trans; eauto|].
      split; auto. split; [left; lia|]. split; auto. intros _. exists w. split; auto. lia.
  - destruct ys as [|y ys].
    + injection H as <- <-. repeat split; auto. congruence.
    + apply alloc_spec in H as (H1 & H2 & H3 & (w & -> & H4 & _) & _). split; [eapply untouched_trans; eauto|].
      split; auto. split; [left; lia|]. split; auto. intros _. exists w. split; auto. lia.
Qed.
End Heaps.

(** ** C39 *)
Lemma write_char : forall A (h : heap A) v i y, valid h (Some v) -> i < sl_len v ->
  exists h', write h (Some v) i y = Ok h' /\ List.length h' = List.length h /\ valid h' (Some v) /\
    (forall b arr, b <> sl_arr v -> nth_error h b = Some arr -> nth_error h' b = Some arr).
Proof.
  intros A h v i y V L. unfold write. apply Nat.ltb_lt in L as L'. rewrite L'. eexists. split; [reflexivity|].
  split; [apply update_length|]. destruct V as (arr & E & V1 & V2). split.
  - cbn. rewrite (update_nth _ _ _ _ _ _ E), Nat.eqb_refl. eexists. split; [reflexivity|]. rewrite put_all_length. auto.
  - intros b arr' N H. apply update_untouched; auto.
Qed.
Lemma writes_others : forall A ws (h : heap A) v h', valid h (Some v) -> writes h (Some v) ws = Ok h' ->
  forall b arr, b <> sl_arr v -> nth_error h b = Some arr -> nth_error h' b = Some arr.
Proof.
  intros A ws. induction ws as [|[i y] ws IH]; intros h v h' V H b arr N E; cbn [writes] in H.
  - injection H as <-. auto.
  - destruct (Nat.ltb_spec i (sl_len v)) as [L|L].
    + destruct (write_char A h v i y V L) as (h1 & W & _ & V1 & O). rewrite W in H. cbn [bind] in H. eapply IH; eauto.
    + unfold write in H. apply Nat.ltb_ge in L. rewrite L in H. discriminate.
Qed.
Lemma mapping_copy : forall h m h' s, valid h m -> output_mapping h m = (h', s) ->
  untouched h h' /\ valid h' s /\ read h' s = read h m /\ (s = None <-> m = None) /\
  (forall ws h'', writes h' s ws = Ok h'' -> shows h'' m (read h m)).
Proof.
  intros h [v|] h' s V H; cbn [output_mapping] in H.
  - apply alloc_spec in H as (U & V' & R & (w & -> & W1 & _) & _). split; auto. split; auto. split; auto. split; [split; discriminate|].
    intros ws h'' HW.
    assert (U' : untouched h h'').
    { intros a arr Ha. eapply writes_others; eauto. intros ->. rewrite W1 in Ha. assert (X : nth_error h (List.length h) <> None) by congruence.
      apply nth_error_Some in X. lia. }
    rewrite <- (untouched_read h h'' (Some v) U' V). apply read_shows. eapply untouched_valid; eauto.
  - injection H as <- <-. repeat split; auto using untouched_refl.
Qed.

(** ** C40 *)
Section Records.
Variable spare : nat -> nat.

Definition good (h h' : heap xtype) (s : slice) (cols : list xtype) : Prop :=
  untouched h h' /\ valid h' s /\ placed h s /\ read h' s = cols.

Lemma mapped_iff : forall m cols out, remap m cols = Ok out <-> mapped_columns m cols out.
Proof. intros [l|] cols out; cbn; [apply picks_iff|]. split; congruence. Qed.
Lemma remap_good : forall h0 h s cols m, good h0 h s cols ->
  (forall out, mapped_columns m cols out -> exists h' s', remap_heap m h s = Ok (h', s') /\ good h0 h' s' out) /\
  (forall h' s', remap_heap m h s = Ok (h', s') -> exists out, mapped_columns m cols out /\ good h0 h' s' out).
Proof.
  intros h0 h s cols m (U & V & P & R). destruct m as [l|]; cbn [remap_heap mapped_columns].
  - rewrite R. assert (G : forall ts h' s', alloc XNil h ts 0 = (h', s') -> good h0 h' s' ts).
    { intros ts h' s' E. apply alloc_spec in E as (U' & V' & R' & (w & -> & W & _) & _). split; [eapply untouched_trans; eauto|].
      split; auto. split; auto. left. apply untouched_length in U. lia. }
    split.
    + intros out Pk. apply picks_iff in Pk. rewrite Pk. cbn [bind]. destruct (alloc XNil h out 0) as [h' s'] eqn:E. exists h', s'. split; auto.
    + intros h' s' H. destruct (mapM (col cols) l) as [ts| |] eqn:E; try discriminate. cbn [bind] in H.
      destruct (alloc XNil h ts 0) as [a b] eqn:EA. injection H as <- <-. exists ts. split; [apply picks_iff; auto|]. apply G. auto.
  - split.
    + intros out ->. exists h, s. split; auto. split; auto.
    + intros h' s' H. injection H as <- <-. exists cols. split; auto. split; auto.
Qed.

Lemma placed_mono : forall A (h h' : heap A) s, List.length h <= List.length h' -> placed h' s -> placed h s.
Proof. intros A h h' [v|] L P; cbn in *; auto. destruct P; [left; lia|auto]. Qed.

(** moving to a larger heap *)
Lemma safe_mono : forall h h' r, untouched h h' -> safe h r -> safe h' r /\ (forall cols, has_columns h r cols <-> has_columns h' r cols).
Proof.
  intros h h' r U S. induction S as [m s V T|m ts|m i ts S [IH1 IH2]|m i S [IH1 IH2]|m l r S1 [I1 J1] S2 [I2 J2]|m jt l r S1 [I1 J1] S2 [I2 J2] N].
  - split; [constructor; auto; eapply untouched_valid; eauto|].
    assert (V' : valid h' s) by (eapply untouched_valid; eauto).
    intros cols. split; intros H; inversion H; subst; econstructor; eauto.
    + eapply untouched_shows; eauto.
    + rewrite (shows_read h' s cols0), (untouched_read h h'); auto. apply read_shows. auto.
  - split; [constructor|]. intros cols. split; intros H; inversion H; subst; econstructor; eauto.
  - split; [constructor; auto|]. intros cols. split; intros H; inversion H; subst; econstructor; eauto; apply IH2; auto.
  - split; [constructor; auto|]. intros cols. split; intros H; inversion H; subst; econstructor; eauto; apply IH2; auto.
  - split; [constructor; auto|]. intros cols. split; intros H; inversion H; subst; econstructor; eauto; first [apply J1|apply J2]; auto.
  - split.
    + constructor; auto. intros E X. apply (N E). apply J2. auto.
    + intros cols. split; intros H; inversion H; subst.
      * eapply HC_join_left; eauto. apply J1; auto.
      * eapply HC_join_right; eauto. apply J2; auto.
      * eapply HC_join; eauto; [apply J1|apply J2]; auto.
      * eapply HC_join_other; eauto.
      * eapply HC_join_left; eauto. apply J1; auto.
      * eapply HC_join_right; eauto. apply J2; auto.
      * eapply HC_join; eauto; [apply J1|apply J2]; auto.
      * eapply HC_join_other; eauto.
Qed.

Lemma nullables_len : forall l l', nullables l l' -> List.length l' = List.length l.
Proof. intros l l' H. symmetry. eapply F2_len; eauto. Qed.

(** what the two directions say of one relation *)
Definition right_record (r : arel) : Prop := forall h, safe h r ->
  (forall out, has_columns h r out -> exists h' s, record spare r h = Ok (h', s) /\ good h h' s out) /\
  (forall h' s, record spare r h = Ok (h', s) -> exists out, has_columns h r out /\ good h h' s out).

Lemma two_records : forall l r h, right_record l -> right_record r -> safe h l -> safe h r ->
  (forall lt rt, has_columns h l lt -> has_columns h r rt -> exists h1 s1 h2 s2,
     record spare l h = Ok (h1, s1) /\ record spare r h1 = Ok (h2, s2) /\
     good h h2 s1 lt /\ valid h2 s2 /\ read h2 s2 = rt) /\
  (forall h1 s1 h2 s2, record spare l h = Ok (h1, s1) -> record spare r h1 = Ok (h2, s2) -> exists lt rt,
     has_columns h l lt /\ has_columns h r rt /\ good h h2 s1 lt /\ valid h2 s2 /\ read h2 s2 = rt).
Proof.
  intros l r h RL RR SL SR. destruct (RL h SL) as [L1 L2].
  assert (G : forall h1 h2 s1 lt, good h h1 s1 lt -> untouched h1 h2 -> good h h2 s1 lt).
  { intros h1 h2 s1 lt (U & V & P & R) U2. split; [eapply untouched_trans; eauto|]. split; [eapply untouched_valid; eauto|]. split; auto.
    rewrite (untouched_read h1 h2); auto. }
  split.
  - intros lt rt HL HR. destruct (L1 lt HL) as (h1 & s1 & E1 & G1). destruct (safe_mono h h1 r (proj1 G1) SR) as [SR1 M].
    destruct (RR h1 SR1) as [R1 R2]. apply M in HR. destruct (R1 rt HR) as (h2 & s2 & E2 & U2 & V2 & P2 & D2).
    exists h1, s1, h2, s2. repeat split; auto; apply (G h1 h2 s1 lt); auto.
  - intros h1 s1 h2 s2 E1 E2. destruct (L2 h1 s1 E1) as (lt & HL & G1). destruct (safe_mono h h1 r (proj1 G1) SR) as [SR1 M].
    destruct (RR h1 SR1) as [R1 R2]. destruct (R2 h2 s2 E2) as (rt & HR & U2 & V2 & P2 & D2). apply M in HR.
    exists lt, rt. repeat split; auto; apply (G h1 h2 s1 lt); auto.
Qed.

Lemma null_place : forall h0 h v ts us, good h0 h (Some v) ts -> List.length h0 <= sl_arr v -> nullables ts us ->
  good h0 (update h (sl_arr v) (sl_off v) us) (Some v) us.
Proof.
  intros h0 h v ts us (U & V & P & R) L N. assert (LR := proj1 (read_shows h (Some v) V)). rewrite R in LR.
  destruct (overwrite_read h v us V) as [V' R']; [rewrite (nullables_len _ _ N); auto|]. repeat split; auto.
  intros a arr Ha. apply update_untouched; auto. intros <-. assert (X : nth_error h0 (sl_arr v) <> None) by congruence. apply nth_error_Some in X. lia.
Qed.
Lemma good_alloc : forall h0 h ts n h' s', untouched h0 h -> alloc XNil h ts n = (h', s') -> good h0 h' s' ts.
Proof.
  intros h0 h ts n h' s' U E. apply alloc_spec in E as (U' & V' & R' & (w & -> & W & _) & _). split; [eapply untouched_trans; eauto|].
  split; auto. split; auto. left. apply untouched_length in U. lia.
Qed.

Definition join_right (jt : Z) (l r : arel) (h : heap xtype) : Prop :=
  (forall cols, has_columns h (AJoin None jt l r) cols -> exists h' s, join_heap spare jt (record spare l) (record spare r) h = Ok (h', s) /\ good h h' s cols) /\
  (forall h' s, join_heap spare jt (record spare l) (record spare r) h = Ok (h', s) -> exists cols, has_columns h (AJoin None jt l r) cols /\ good h h' s cols).

Lemma join_num : forall jt : Z, (jt = 1 \/ jt = 2 \/ jt = 3 \/ jt = 4 \/ jt = 5 \/ jt = 6 \/ jt = 7 \/ jt = 8 \/ jt = 9 \/ jt = 10 \/ (jt < 1 \/ 10 < jt))%Z.
Proof. intros. lia. Qed.

Lemma has_join : forall h jt l r cols, In jt [1; 2; 3; 4; 7; 10]%Z -> has_columns h (AJoin None jt l r) cols <->
  exists lt rt, has_columns h l lt /\ has_columns h r rt /\ join_columns jt lt rt cols.
Proof.
  intros h jt l r cols J. split.
  - intros H. inversion H as [| | | | |? ? ? ? ? ? K|? ? ? ? ? ? K|? ? ? ? ? ? ? ? K ? ? ? M|? ? ? ? ? K]; subst.
    + exfalso. cbn in J, K. lia.
    + exfalso. cbn in J, K. lia.
    + cbn in M. subst. eauto.
    + exfalso. cbn in J. lia.
  - intros (lt & rt & H1 & H2 & H3). eapply HC_join; eauto. reflexivity.
Qed.

Lemma join_record : forall jt l r h, right_record l -> right_record r -> safe h (AJoin None jt l r) -> join_right jt l r h.
Proof.
  intros jt l r h RL RR S. inversion S as [| | | | |m' jt' l' r' SL SR NE]; subst. destruct (two_records l r h RL RR SL SR) as [T1 T2].
  assert (BOTH : forall (rest : heap xtype -> slice -> heap xtype -> slice -> res (heap xtype * slice)),
    In jt [1; 2; 3; 4; 7; 10]%Z ->
    (forall l r', join_heap spare jt (record spare l) (record spare r') h =
       let! (h1, s1) := record spare l h in let! (h2, s2) := record spare r' h1 in rest h1 s1 h2 s2) ->
    (forall h1 s1 h2 s2 lt rt, has_columns h r rt -> good h h2 s1 lt -> valid h2 s2 -> read h2 s2 = rt ->
       (forall cols, join_columns jt lt rt cols -> exists h' s, rest h1 s1 h2 s2 = Ok (h', s) /\ good h h' s cols) /\
       (forall h' s, rest h1 s1 h2 s2 = Ok (h', s) -> exists cols, join_columns jt lt rt cols /\ good h h' s cols)) ->
    join_right jt l r h).
  { intros rest J E R. split.
    - intros cols H. apply has_join in H as (lt & rt & HL & HR & JC); auto. destruct (T1 lt rt HL HR) as (h1 & s1 & h2 & s2 & E1 & E2 & G & V & D).
      rewrite E, E1. cbn [bind]. rewrite E2. cbn [bind]. apply (R h1 s1 h2 s2 lt rt); auto.
    - intros h' s H. rewrite E in H. destruct (record spare l h) as [[h1 s1]| |] eqn:E1; try discriminate. cbn [bind] in H.
      destruct (record spare r h1) as [[h2 s2]| |] eqn:E2; try discriminate. cbn [bind] in H.
      destruct (T2 h1 s1 h2 s2 eq_refl E2) as (lt & rt & HL & HR & G & V & D).
      destruct (proj2 (R h1 s1 h2 s2 lt rt HR G V D) h' s H) as (cols & JC & G'). exists cols. split; auto. apply has_join; eauto. }
  assert (LEFT : forall k, k = jt -> In jt [5; 6]%Z -> join_heap spare jt (record spare l) (record spare r) h = record spare l h -> join_right jt l r h).
  { intros k _ J E. unfold join_right. rewrite E. destruct (RL h SL) as [L1 L2]. split.
    - intros cols H. apply L1. inversion H as [| | | | |? ? ? ? ? ? K ? M|? ? ? ? ? ? K|? ? ? ? ? ? ? ? K|? ? ? ? ? K]; subst;
        [cbn in M; subst; auto|exfalso; cbn in J, K; lia|exfalso; cbn in J, K; lia|exfalso; cbn in J; lia].
    - intros h' s H. destruct (L2 h' s H) as (cols & HC & G). exists cols. split; auto. eapply HC_join_left; eauto. reflexivity. }
  assert (RIGHT : forall k, k = jt -> In jt [8; 9]%Z -> join_heap spare jt (record spare l) (record spare r) h = record spare r h -> join_right jt l r h).
  { intros k _ J E. unfold join_right. rewrite E. destruct (RR h SR) as [L1 L2]. split.
    - intros cols H. apply L1. inversion H as [| | | | |? ? ? ? ? ? K ? M|? ? ? ? ? ? K ? M|? ? ? ? ? ? ? ? K|? ? ? ? ? K]; subst;
        [exfalso; cbn in J, K; lia|cbn in M; subst; auto|exfalso; cbn in J, K; lia|exfalso; cbn in J; lia].
    - intros h' s H. destruct (L2 h' s H) as (cols & HC & G). exists cols. split; auto. eapply HC_join_right; eauto. reflexivity. }
  assert (LEFTN : forall k, In k [3; 7]%Z -> k = jt -> join_right jt l r h).
  { intros k K <-. apply (BOTH (fun h1 s1 h2 s2 => let! r' := all_nullable (read h2 s2) in Ok (alloc XNil h2 (read h2 s1 ++ r')%list 0))).
    - cbn in *. lia.
    - intros l' r'. destruct K as [<-|[<-|[]]]; reflexivity.
    - intros h1 s1 h2 s2 lt rt HR (U & V & P & D) V2 D2. rewrite D, D2. split.
      + intros cols JC. assert (exists rt', nullables rt rt' /\ cols = (lt ++ rt')%list) as (rt' & N & ->).
        { destruct K as [<-|[<-|[]]]; inversion JC; subst; eauto. }
        apply nullables_iff in N. rewrite N. cbn [bind]. destruct (alloc XNil h2 (lt ++ rt') 0) as [h' s'] eqn:E. exists h', s'. split; auto. eapply good_alloc; eauto.
      + intros h' s H. destruct (all_nullable rt) as [rt'| |] eqn:N; try discriminate. cbn [bind] in H. apply nullables_iff in N.
        exists (lt ++ rt')%list. split; [destruct K as [<-|[<-|[]]]; constructor; auto|]. destruct (alloc XNil h2 _ 0) as [a b] eqn:EA in H. injection H as <- <-. eapply good_alloc; eauto. }
  assert (RIGHTN : forall k, In k [4; 10]%Z -> k = jt -> join_right jt l r h).
  { intros k K <-. apply (BOTH (fun h1 s1 h2 s2 => let! l' := all_nullable (read h2 s1) in Ok (alloc XNil h2 (l' ++ read h2 s2)%list 0))).
    - cbn in *. lia.
    - intros l' r'. destruct K as [<-|[<-|[]]]; reflexivity.
    - intros h1 s1 h2 s2 lt rt HR (U & V & P & D) V2 D2. rewrite D, D2. split.
      + intros cols JC. assert (exists lt', nullables lt lt' /\ cols = (lt' ++ rt)%list) as (lt' & N & ->).
        { destruct K as [<-|[<-|[]]]; inversion JC; subst; eauto. }
        apply nullables_iff in N. rewrite N. cbn [bind]. destruct (alloc XNil h2 (lt' ++ rt) 0) as [h' s'] eqn:E. exists h', s'. split; auto. eapply good_alloc; eauto.
      + intros h' s H. destruct (all_nullable lt) as [lt'| |] eqn:N; try discriminate. cbn [bind] in H. apply nullables_iff in N.
        exists (lt' ++ rt)%list. split; [destruct K as [<-|[<-|[]]]; constructor; auto|]. destruct (alloc XNil h2 _ 0) as [a b] eqn:EA in H. injection H as <- <-. eapply good_alloc; eauto. }
  destruct (join_num jt) as [J|[J|[J|[J|[J|[J|[J|[J|[J|[J|J]]]]]]]]]].
  - apply (BOTH (fun h1 s1 h2 s2 => Ok (append XNil spare h2 s1 (read h2 s2)))).
    + subst. cbn. auto.
    + subst. reflexivity.
    + intros h1 s1 h2 s2 lt rt HR (U & V & P & D) V2 D2. destruct (append XNil spare h2 s1 (read h2 s2)) as [h' s'] eqn:E.
      apply (append_spec XNil spare h h2) in E as (U' & V' & P' & D' & _); auto. rewrite D, D2 in D'. split.
      * intros cols JC. subst jt. inversion JC; subst. exists h', s'. split; auto. repeat split; auto.
      * intros h0 s0 H. injection H as <- <-. exists (lt ++ rt)%list. split; [subst; constructor|]. repeat split; auto.
  - apply (BOTH (fun h1 s1 h2 s2 => let '(h3, s) := append XNil spare h2 s1 (read h2 s2) in let! h4 := nullable_in_place h3 s in Ok (h4, s))).
    + subst. cbn. auto.
    + subst. reflexivity.
    + intros h1 s1 h2 s2 lt rt HR (U & V & P & D) V2 D2. destruct (append XNil spare h2 s1 (read h2 s2)) as [h3 s3] eqn:E.
      apply (append_spec XNil spare h h2) in E as (U' & V' & P' & D' & F'); auto. rewrite D, D2 in D'.
      assert (NR : read h2 s2 <> []). { rewrite D2. intros ->. apply (NE J). auto. }
      destruct (F' NR) as (v & -> & LV). unfold nullable_in_place. rewrite D'. split.
      * intros cols JC. subst jt. inversion JC as [|? ? l' r' NL NR'| | | | | | | |]; subst.
        assert (NN : nullables (read h2 s1 ++ read h2 s2) (l' ++ r')) by (apply Forall2_app; auto).
        apply nullables_iff in NN as NN'. rewrite NN'. cbn [bind]. eexists _, _. split; [reflexivity|]. eapply null_place; eauto. repeat split; auto.
      * intros h' s H. destruct (all_nullable (lt ++ rt)) as [us| |] eqn:N; try discriminate. cbn [bind] in H. injection H as <- <-.
        assert (N' := N). apply nullables_iff in N'. apply nullables_app in N as (l' & r' & N1 & N2 & ->).
        exists (l' ++ r')%list. split; [subst; constructor; auto|]. eapply null_place; eauto. repeat split; auto.
  - apply (LEFTN 3%Z); cbn; auto.
  - apply (RIGHTN 4%Z); cbn; auto.
  - subst. apply (LEFT 5%Z); cbn; auto.
  - subst. apply (LEFT 6%Z); cbn; auto.
  - apply (LEFTN 7%Z); cbn; auto.
  - subst. apply (RIGHT 8%Z); cbn; auto.
  - subst. apply (RIGHT 9%Z); cbn; auto.
  - apply (RIGHTN 10%Z); cbn; auto.
  - assert (E : forall a b, join_heap spare jt a b h = Ok (h, None)).
    { intros a b. unfold join_heap, JoinInner, JoinOuter, JoinLeft, JoinRight, JoinLeftSemi, JoinLeftAnti, JoinLeftSingle, JoinRightSemi, JoinRightAnti, JoinRightSingle.
      repeat match goal with |- context [(jt =? ?k)%Z] => destruct (Z.eqb_spec jt k); [lia|] end. reflexivity. }
    assert (G : good h h None []) by (repeat split; auto using untouched_refl).
    split.
    + intros cols H. rewrite E. exists h, None. split; auto.
      inversion H as [| | | | |? ? ? ? ? ? K ? M|? ? ? ? ? ? K ? M|? ? ? ? ? ? ? ? K|? ? ? ? ? K M]; subst;
        [exfalso; cbn in K; lia|exfalso; cbn in K; lia|exfalso; cbn in K; lia|cbn in M; subst; auto].
    + intros h' s H. rewrite E in H. injection H as <- <-. exists []. split; auto. apply HC_join_other; auto. reflexivity.
Qed.

Lemma has_join_mapped : forall h m jt l r out, has_columns h (AJoin m jt l r) out <->
  exists cols, has_columns h (AJoin None jt l r) cols /\ mapped_columns m cols out.
Proof.
  intros h m jt l r out. split.
  - intros H. inversion H; subst; eexists; (split; [|eassumption]).
    + eapply HC_join_left; eauto. reflexivity.
    + eapply HC_join_right; eauto. reflexivity.
    + eapply HC_join; eauto. reflexivity.
    + eapply HC_join_other; eauto. reflexivity.
  - intros (cols & H & M). inversion H as [| | | | |? ? ? ? ? ? K ? N|? ? ? ? ? ? K ? N|? ? ? ? ? ? ? ? K ? ? ? N|? ? ? ? ? K N]; subst; cbn in N; subst.
    + eapply HC_join_left; eauto.
    + eapply HC_join_right; eauto.
    + eapply HC_join; eauto.
    + eapply HC_join_other; eauto.
Qed.

Theorem record_right : forall r, right_record r.
Proof.
  induction r as [m s|m ts|m i IH ts|m i IH|m l IHl r IHr|m jt l IHl r IHr]; intros h S; cbn [record].
  - inversion S; subst. assert (G : good h h s (read h s)).
    { repeat split; auto using untouched_refl. destruct s; cbn; auto. }
    destruct (remap_good h h s _ m G) as [R1 R2]. split.
    + intros out H. inversion H as [? ? cols ? Sh M| | | | | | | |]; subst. rewrite (shows_read h s cols) in M; auto.
    + intros h' s' H. destruct (R2 h' s' H) as (out & M & G'). exists out. split; auto. econstructor; eauto. apply read_shows; auto.
  - destruct (alloc XNil h ts (spare (List.length ts))) as [h1 s1] eqn:E.
    assert (G := good_alloc h h ts _ h1 s1 (untouched_refl h) E). destruct (remap_good h h1 s1 _ m G) as [R1 R2]. split.
    + intros out H. inversion H; subst. auto.
    + intros h' s' H. destruct (R2 h' s' H) as (out & M & G'). exists out. split; auto. econstructor; eauto.
  - inversion S; subst. destruct (IH h ltac:(auto)) as [I1 I2].
    assert (G : forall h1 s1 cols h2 s2, good h h1 s1 cols -> alloc XNil h1 (read h1 s1 ++ ts) (spare (List.length (read h1 s1 ++ ts))) = (h2, s2) ->
       good h h2 s2 (cols ++ ts)).
    { intros h1 s1 cols h2 s2 (U & V & P & D) E. rewrite D in E. eapply good_alloc; eauto. }
    split.
    + intros out H. inversion H as [| |? ? ? cols ? HC M| | | | | |]; subst. destruct (I1 cols HC) as (h1 & s1 & E & G1). rewrite E. cbn [bind].
      destruct (alloc XNil h1 (read h1 s1 ++ ts) (spare (List.length (read h1 s1 ++ ts)))) as [h2 s2] eqn:EA.
      apply (remap_good h h2 s2 _ m (G _ _ _ _ _ G1 EA)). auto.
    + intros h' s' H. destruct (record spare i h) as [[h1 s1]| |] eqn:E; try discriminate. cbn [bind] in H.
      destruct (I2 h1 s1 eq_refl) as (cols & HC & G1).
      destruct (alloc XNil h1 (read h1 s1 ++ ts) (spare (List.length (read h1 s1 ++ ts)))) as [h2 s2] eqn:EA.
      destruct (proj2 (remap_good h h2 s2 _ m (G _ _ _ _ _ G1 EA)) h' s' H) as (out & M & G'). exists out. split; auto. econstructor; eauto.
  - inversion S; subst. destruct (IH h ltac:(auto)) as [I1 I2]. split.
    + intros out H. inversion H as [| | |? ? cols ? HC M| | | | |]; subst. destruct (I1 cols HC) as (h1 & s1 & E & G1). rewrite E. cbn [bind].
      apply (remap_good h h1 s1 _ m G1). auto.
    + intros h' s' H. destruct (record spare i h) as [[h1 s1]| |] eqn:E; try discriminate. cbn [bind] in H.
      destruct (I2 h1 s1 eq_refl) as (cols & HC & G1).
      destruct (proj2 (remap_good h h1 s1 _ m G1) h' s' H) as (out & M & G'). exists out. split; auto. econstructor; eauto.
  - inversion S as [| | | |? ? ? SL SR|]; subst. destruct (two_records l r h IHl IHr SL SR) as [T1 T2].
    assert (G : forall h2 s1 s2 lt rt h3 s3, good h h2 s1 lt -> read h2 s2 = rt -> append XNil spare h2 s1 (read h2 s2) = (h3, s3) -> good h h3 s3 (lt ++ rt)).
    { intros h2 s1 s2 lt rt h3 s3 (U & V & P & D) D2 E. apply (append_spec XNil spare h h2) in E as (U' & V' & P' & D' & _); auto.
      rewrite D, D2 in D'. repeat split; auto. }
    split.
    + intros out H. inversion H as [| | | |? ? ? lt rt ? HL HR M| | | |]; subst. destruct (T1 lt rt HL HR) as (h1 & s1 & h2 & s2 & E1 & E2 & G1 & V2 & D2).
      rewrite E1. cbn [bind]. rewrite E2. cbn [bind]. destruct (append XNil spare h2 s1 (read h2 s2)) as [h3 s3] eqn:EA.
      apply (remap_good h h3 s3 _ m (G _ _ _ _ _ _ _ G1 D2 EA)). auto.
    + intros h' s' H. destruct (record spare l h) as [[h1 s1]| |] eqn:E1; try discriminate. cbn [bind] in H.
      destruct (record spare r h1) as [[h2 s2]| |] eqn:E2; try discriminate. cbn [bind] in H.
      destruct (T2 h1 s1 h2 s2 eq_refl E2) as (lt & rt & HL & HR & G1 & V2 & D2).
      destruct (append XNil spare h2 s1 (read h2 s2)) as [h3 s3] eqn:EA.
      destruct (proj2 (remap_good h h3 s3 _ m (G _ _ _ _ _ _ _ G1 D2 EA)) h' s' H) as (out & M & G'). exists out. split; auto. econstructor; eauto.
  - assert (S' : safe h (AJoin None jt l r)) by (inversion S; subst; constructor; auto).
    destruct (join_record jt l r h IHl IHr S') as [J1 J2]. split.
    + intros out H. apply has_join_mapped in H as (cols & HC & M). destruct (J1 cols HC) as (h1 & s1 & E & G1). rewrite E. cbn [bind].
      apply (remap_good h h1 s1 _ m G1). auto.
    + intros h' s' H. destruct (join_heap spare jt (record spare l) (record spare r) h) as [[h1 s1]| |] eqn:E; try discriminate. cbn [bind] in H.
      destruct (J2 h1 s1 eq_refl) as (cols & HC & G1).
      destruct (proj2 (remap_good h h1 s1 _ m G1) h' s' H) as (out & M & G'). exists out. split; auto. apply has_join_mapped; eauto.
Qed.
End Records.

(** ** the value model *)
Lemma shows_fun : forall A (h : heap A) s a b, shows h s a -> shows h s b -> a = b.
Proof.
  intros A h [v|] a b H1 H2; cbn in *; [|congruence]. destruct H1 as [L1 N1], H2 as [L2 N2].
  assert (G : forall (x y : list A), List.length x = List.length y -> (forall i, i < List.length x -> nth_error x i = nth_error y i) -> x = y).
  { induction x as [|x0 x IH]; intros [|y y'] L H; cbn in *; try discriminate; auto. assert (X := H 0 ltac:(lia)). cbn in X. injection X as ->.
    f_equal. apply IH; [lia|]. intros i Hi. apply (H (S i)). lia. }
  apply G; [congruence|]. intros i Hi. rewrite N1, N2; auto; lia.
Qed.
Lemma type_mapped_columns : forall r out, rel_type r = Ok out <-> exists cols, direct_columns r cols /\ mapped_columns (c_map (common_of r)) cols out.
Proof.
  intros r out. rewrite type_iff. destruct (c_map (common_of r)); cbn; [reflexivity|]. split; [eauto|]. intros (cols & H & ->). auto.
Qed.
Lemma F2_functional : forall A B (P : A -> B -> Prop) l a b, (forall x y z, P x y -> P x z -> y = z) -> Forall2 P l a -> Forall2 P l b -> a = b.
Proof.
  intros A B P l a b F H. revert b. induction H; intros b' Hb; inversion Hb; subst; auto. f_equal; eauto.
Qed.
Ltac of_mapped X := rewrite type_mapped_columns in X; cbn [common_of] in X; let cols := fresh "cols" in let D := fresh "D" in let M := fresh "M" in
  destruct X as (cols & D & M); inversion D; subst; clear D.
Ltac to_mapped := rewrite type_mapped_columns; cbn [common_of]; eexists; split; [|eassumption].
Lemma through_columns : forall h a m r out, (forall cols, direct_columns r cols <-> has_columns h a cols) -> m = c_map (common_of r) ->
  rel_type r = Ok out <-> has_columns h (AThrough m a) out.
Proof.
  intros h a m r out H ->. rewrite type_mapped_columns. split.
  - intros (cols & D & M). econstructor; eauto. apply H. auto.
  - intros X. inversion X; subst. eexists. split; [|eassumption]. apply H. auto.
Qed.
Lemma stored_columns : forall h s m r out cols, (forall cs, direct_columns r cs <-> cs = cols) -> shows h s cols -> m = c_map (common_of r) ->
  rel_type r = Ok out <-> has_columns h (AStored m s) out.
Proof.
  intros h s m r out cols H S ->. rewrite type_mapped_columns. split.
  - intros (cs & D & M). apply H in D. subst. econstructor; eauto.
  - intros X. inversion X as [? ? cs ? S' M| | | | | | | |]; subst. rewrite (shows_fun _ _ _ _ _ S' S) in M. exists cols. split; auto. apply H. auto.
Qed.
Lemma cat_columns : forall h a b l r m q out, (forall cols, rel_type l = Ok cols <-> has_columns h a cols) ->
  (forall cols, rel_type r = Ok cols <-> has_columns h b cols) ->
  (forall cols, direct_columns q cols <-> exists lt rt, rel_type l = Ok lt /\ rel_type r = Ok rt /\ cols = (lt ++ rt)%list) -> m = c_map (common_of q) ->
  rel_type q = Ok out <-> has_columns h (ACat m a b) out.
Proof.
  intros h a b l r m q out HA HB H ->. rewrite type_mapped_columns. split.
  - intros (cs & D & M). apply H in D as (lt & rt & D1 & D2 & ->). econstructor; [apply HA|apply HB|]; eauto.
  - intros X. inversion X as [| | | |? ? ? lt rt ? H1 H2 M| | | |]; subst. exists (lt ++ rt)%list. split; auto. apply H.
    exists lt, rt. split; [apply HA; auto|]. split; [apply HB; auto|auto].
Qed.
Lemma types_functional : forall es (a b : list xtype), Forall2 (fun e t => expr_type rel_type e = Ok t) es a ->
  Forall2 (fun e t => expr_type rel_type e = Ok t) es b -> a = b.
Proof. intros es a b. apply F2_functional. intros. congruence. Qed.

Lemma layout_columns : forall h r a, layout h r a -> forall out, rel_type r = Ok out <-> has_columns h a out.
Proof.
  intros h r a L. induction L as [c b k s S|c i es v a ts L IH T|c l r e p jt v a b L1 I1 L2 I2|c l r v a b L1 I1 L2 I2|c l r ks p jt v a b L1 I1 L2 I2
    |c l r ks p jt v a b L1 I1 L2 I2|c i o n v a L IH|c i ss v a L IH|c i e v a L IH|c i is op v a L IH|c i ms es gs v ts D|c ns v sch op i md N1 N2
    |c ns v sch op i s S|c i d a L IH|c d|c i d a L IH|c is d N]; intros out.
  - apply stored_columns with (cols := sc_types (rb_schema b)); auto. intros cs. split; [intros H; inversion H; auto|intros ->; constructor].
  - split; intros X.
    + of_mapped X. econstructor; [apply IH; eauto|]. rewrite (types_functional es ts ts0); auto.
    + inversion X; subst. to_mapped. constructor; auto. apply IH; auto.
  - split; intros X.
    + of_mapped X.
      * eapply HC_join_left; eauto. apply I1; auto.
      * eapply HC_join_right; eauto. apply I2; auto.
      * eapply HC_join; eauto; [apply I1|apply I2]; auto.
      * eapply HC_join_other; eauto.
    + inversion X; subst; to_mapped.
      * eapply DC_join_left; auto. apply I1; auto.
      * eapply DC_join_right; auto. apply I2; auto.
      * eapply DC_join; eauto; [apply I1|apply I2]; auto.
      * eapply DC_join_other; eauto.
  - eapply cat_columns; [exact I1|exact I2| |reflexivity]. intros cols. split; [intros H; inversion H; subst; eauto|intros (lt & rt & A & B & ->); constructor; auto].
  - eapply cat_columns; [exact I1|exact I2| |reflexivity]. intros cols. split; [intros H; inversion H; subst; eauto|intros (lt & rt & A & B & ->); constructor; auto].
  - eapply cat_columns; [exact I1|exact I2| |reflexivity]. intros cols. split; [intros H; inversion H; subst; eauto|intros (lt & rt & A & B & ->); constructor; auto].
  - apply through_columns; auto. intros cols. rewrite <- IH. split; [intros H; inversion H; auto|intros H; constructor; auto].
  - apply through_columns; auto. intros cols. rewrite <- IH. split; [intros H; inversion H; auto|intros H; constructor; auto].
  - apply through_columns; auto. intros cols. rewrite <- IH. split; [intros H; inversion H; auto|intros H; constructor; auto].
  - apply through_columns; auto. intros cols. rewrite <- IH. split; [intros H; inversion H; auto|intros H; constructor; auto].
  - rewrite type_mapped_columns. cbn [common_of]. split.
    + intros (cs & D' & M). apply direct_iff in D, D'. constructor. replace ts with cs by congruence. auto.
    + intros X. inversion X; subst. eauto.
  - apply stored_columns with (cols := []); auto; [|reflexivity]. intros cs. split; [intros H; inversion H; congruence|intros ->; constructor; auto].
  - apply stored_columns with (cols := sc_types sch); auto. intros cs. split; [intros H; inversion H; congruence|intros ->; constructor; auto].
  - apply through_columns; auto. intros cols. rewrite <- IH. split; [intros H; inversion H; auto|intros H; constructor; auto].
  - apply stored_columns with (cols := []); auto; [|reflexivity]. intros cs. split; [intros H; inversion H; congruence|intros ->; constructor; auto].
  - apply through_columns; auto. intros cols. rewrite <- IH. split; [intros H; inversion H; subst; auto; cbn in *; congruence|intros H; constructor; auto].
  - apply stored_columns with (cols := []); auto; [|reflexivity]. intros cs. split; [intros H; inversion H; subst; auto; cbn in *; congruence|intros ->; constructor; auto].
Qed.
