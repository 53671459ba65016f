(** C82: builders of aggregate relations, and the relations, are plain values although they share arrays.  Proofs and theorems. *)

From Coq Require Import ZArith Bool List Lia PeanoNat.
From Verif Require Import AggShareModel AggShareSpec.
Import ListNotations.
Local Open Scope nat_scope.

Lemma replace_nth : forall {T} n (x : T) l i, nth_error (replace n x l) i = if Nat.eqb n i then match nth_error l i with Some _ => Some x | None => None end else nth_error l i.
Proof.
  intros T. induction n as [|n IH]; intros x [|y l] [|i]; cbn; try reflexivity; [|apply IH]. destruct (Nat.eqb n i); reflexivity.
Qed.
Lemma replace_same : forall {T} n (x : T) l, nth_error l n = Some x -> replace n x l = l.
Proof. intros T. induction n as [|n IH]; intros x [|y l] E; cbn in *; try discriminate; [congruence|]. rewrite IH by exact E. reflexivity. Qed.
Lemma replace_map : forall {A B} (f : A -> B) n x l, map f (replace n x l) = replace n (f x) (map f l).
Proof. intros A B f. induction n as [|n IH]; intros x [|y l]; cbn; try reflexivity. rewrite IH. reflexivity. Qed.
Lemma replace_length : forall {T} n (x : T) l, List.length (replace n x l) = List.length l.
Proof. intros T. induction n as [|n IH]; intros x [|y l]; cbn; try reflexivity. rewrite IH. reflexivity. Qed.
Lemma replace_in : forall {T} n (x y : T) l, In y (replace n x l) -> y = x \/ In y l.
Proof. intros T. induction n as [|n IH]; intros x y [|z l]; cbn; intros I; try tauto; [destruct I; auto|]. destruct I as [I|I]; [auto|]. apply IH in I. tauto. Qed.

Section Slices.
Context {T : Type}.
Implicit Types (m : memory T) (s t : slice) (bs rs : list slice).

Lemma change_nth : forall a f m i, a < List.length m -> nth i (change a f m) [] = if Nat.eqb a i then f (nth i m []) else nth i m [].
Proof. induction a as [|a IH]; intros f [|l m] [|i] L; cbn in *; try lia; try reflexivity. apply IH. lia. Qed.
Lemma change_length : forall a f m, List.length (change a f m) = List.length m.
Proof. induction a as [|a IH]; intros f [|l m]; cbn; try reflexivity. rewrite IH. reflexivity. Qed.
Lemma write_prefix : forall i (x : T) l n, n <= i -> i <= List.length l -> firstn n (write_at i x l) = firstn n l.
Proof.
  intros i x l n L LL. unfold write_at. rewrite firstn_app, firstn_firstn, firstn_length, Nat.min_l by lia.
  replace (n - Nat.min i (List.length l)) with 0 by lia. cbn. apply app_nil_r.
Qed.
Lemma write_more : forall i (x : T) l, i <= List.length l -> firstn (S i) (write_at i x l) = (firstn i l ++ [x])%list.
Proof.
  intros i x l L. unfold write_at. rewrite firstn_app, firstn_firstn, firstn_length. replace (Nat.min (S i) i) with i by lia. replace (S i - Nat.min i (List.length l)) with 1 by lia. reflexivity.
Qed.
Lemma write_length : forall i (x : T) l, i <= List.length l -> List.length l <= List.length (write_at i x l) /\ S i <= List.length (write_at i x l).
Proof. intros i x l L. unfold write_at. rewrite app_length, firstn_length. cbn [List.length]. rewrite skipn_length. lia. Qed.

Definition spare s : Prop := s_len s < s_cap s.
Definition wf m s : Prop := (s_arr s < List.length m \/ s_len s = 0 /\ s_cap s = 0) /\ s_len s <= List.length (nth (s_arr s) m []).
Definition sep bs rs : Prop := forall i s, nth_error bs i = Some s -> spare s ->
  (forall j t, j <> i -> nth_error bs j = Some t -> s_arr t = s_arr s -> s_len t <= s_len s /\ ~ spare t) /\
  (forall t, In t rs -> s_arr t = s_arr s -> s_len t <= s_len s).
Definition inv m bs rs : Prop := (forall t, In t bs \/ In t rs -> wf m t) /\ sep bs rs.

Lemma more_elements : forall m l t, wf m t -> elements (m ++ [l]) t = elements m t.
Proof.
  intros m l t [[L|[Z _]] _]; unfold elements; [rewrite app_nth1 by exact L; reflexivity|]. rewrite Z. reflexivity.
Qed.
Lemma more_wf : forall m l t, wf m t -> wf (m ++ [l]) t.
Proof.
  intros m l t [[L|[Z C]] LL]; split.
  - left. rewrite app_length. lia.
  - rewrite app_nth1 by exact L. exact LL.
  - right. auto.
  - rewrite Z. lia.
Qed.
Lemma spare_in : forall m s, wf m s -> spare s -> s_arr s < List.length m.
Proof. intros m s [[L|[Z C]] _] S; [exact L|]. unfold spare in S. lia. Qed.

Lemma append_inv : forall grow m bs rs i s x m' s', inv m bs rs -> nth_error bs i = Some s -> append grow m s x = (m', s') ->
  inv m' (replace i s' bs) rs /\ elements m' s' = (elements m s ++ [x])%list /\
  (forall j t, j <> i -> nth_error bs j = Some t -> elements m' t = elements m t) /\ (forall t, In t rs -> elements m' t = elements m t).
Proof.
  intros grow m bs rs i s x m' s' [W S] N A. assert (WS : wf m s) by (apply W; left; eapply nth_error_In; eauto).
  assert (IN : forall t, In t (replace i s' bs) \/ In t rs -> t = s' \/ (In t bs \/ In t rs)) by (intros t [I|I]; [apply replace_in in I|]; tauto).
  unfold append in A. destruct (Nat.ltb_spec (s_len s) (s_cap s)) as [L|L]; injection A as <- <-.
  - pose proof (spare_in m s WS L) as LA. destruct WS as [_ LL]. destruct (S i s N L) as [SB SR].
    assert (EL : forall t, s_arr t <> s_arr s \/ s_len t <= s_len s -> elements (change (s_arr s) (write_at (s_len s) x) m) t = elements m t).
    { intros t C. unfold elements. rewrite change_nth by exact LA. destruct (Nat.eqb_spec (s_arr s) (s_arr t)) as [EQ|NE]; [|reflexivity]. rewrite <- EQ. apply write_prefix; [|exact LL]. destruct C; [congruence|assumption]. }
    assert (WF : forall t, wf m t -> wf (change (s_arr s) (write_at (s_len s) x) m) t).
    { intros t [A1 A2]. split; [rewrite change_length; exact A1|]. rewrite change_nth by exact LA. destruct (Nat.eqb_spec (s_arr s) (s_arr t)) as [EQ|NE]; [|exact A2].
      rewrite <- EQ in *. pose proof (write_length (s_len s) x _ LL). lia. }
    split; [split|split; [|split]].
    + intros t I. apply IN in I. destruct I as [->|I]; [|apply WF, W, I]. split; cbn; [left; rewrite change_length; exact LA|]. rewrite change_nth, Nat.eqb_refl by exact LA. apply write_length, LL.
    + intros k u K SP. rewrite replace_nth in K. destruct (Nat.eqb_spec i k) as [<-|NK].
      * rewrite N in K. injection K as <-. cbn. split.
        -- intros j t NJ J. rewrite replace_nth in J. destruct (Nat.eqb_spec i j) as [->|_]; [congruence|]. intros EQ. destruct (SB j t NJ J EQ) as [X Y]. split; [lia|exact Y].
        -- intros t I EQ. specialize (SR t I EQ). lia.
      * destruct (S k u K SP) as [UB UR]. split; [|exact UR]. intros j t NJ J EQ. rewrite replace_nth in J. destruct (Nat.eqb_spec i j) as [<-|NIJ]; [|apply (UB j t NJ J EQ)].
        rewrite N in J. injection J as <-. cbn in EQ. destruct (UB i s NJ N EQ) as [_ X]. destruct (X L).
    + unfold elements. cbn. rewrite change_nth, Nat.eqb_refl by exact LA. apply (write_more (s_len s) x _ LL).
    + intros j t NJ J. apply EL. destruct (Nat.eq_dec (s_arr t) (s_arr s)) as [EQ|NE]; [right; apply (SB j t NJ J EQ)|auto].
    + intros t I. apply EL. destruct (Nat.eq_dec (s_arr t) (s_arr s)) as [EQ|NE]; [right; apply (SR t I EQ)|auto].
  - assert (LE : List.length (elements m s) = s_len s) by (unfold elements; rewrite firstn_length; destruct WS; lia).
    assert (FR : forall t, wf m t -> s_arr t = List.length m -> s_len t = 0 /\ ~ spare t) by (intros t [[A|[Z C]] _] EQ; unfold spare; lia).
    split; [split|split; [|split]].
    + intros t I. apply IN in I. destruct I as [->|I]; [|apply more_wf, W, I]. split; cbn; [left; rewrite app_length; cbn; lia|]. rewrite app_nth2, Nat.sub_diag by lia. cbn. rewrite app_length, LE. cbn. lia.
    + intros k u K SP. rewrite replace_nth in K. destruct (Nat.eqb_spec i k) as [<-|NK].
      * rewrite N in K. injection K as <-. cbn. split.
        -- intros j t NJ J EQ. rewrite replace_nth in J. destruct (Nat.eqb_spec i j) as [->|_]; [congruence|]. destruct (FR t) as [X Y]; [apply W; left; eapply nth_error_In; eauto|exact EQ|]. split; [lia|exact Y].
        -- intros t I EQ. destruct (FR t) as [X Y]; [apply W; right; exact I|exact EQ|]. lia.
      * destruct (S k u K SP) as [UB UR]. split; [|exact UR]. intros j t NJ J EQ. rewrite replace_nth in J. destruct (Nat.eqb_spec i j) as [<-|NIJ]; [|apply (UB j t NJ J EQ)].
        rewrite N in J. injection J as <-. cbn in EQ. exfalso. assert (LU : s_arr u < List.length m) by (eapply spare_in; [apply W; left; eapply nth_error_In; eauto|exact SP]). lia.
    + unfold elements at 1. cbn [s_arr s_len]. rewrite app_nth2, Nat.sub_diag by lia. cbn [nth]. rewrite firstn_all2; [reflexivity|]. rewrite app_length, LE. cbn [List.length]. lia.
    + intros j t NJ J. apply more_elements, W. left. eapply nth_error_In; eauto.
    + intros t I. apply more_elements, W. right. exact I.
Qed.

Lemma snoc_nth : forall {A} (l : list A) x i y, nth_error (l ++ [x]) i = Some y -> nth_error l i = Some y \/ (i = List.length l /\ y = x).
Proof.
  intros A l x i y E. destruct (Nat.lt_ge_cases i (List.length l)) as [L|L]; [rewrite nth_error_app1 in E by exact L; auto|]. rewrite nth_error_app2 in E by exact L.
  destruct (i - List.length l) as [|k] eqn:D; [cbn in E; injection E as <-; right; split; [lia|reflexivity]|]. destruct k; discriminate.
Qed.
Lemma nil_wf : forall m, wf m nil_slice.
Proof. intros m. split; cbn; [right; auto|lia]. Qed.
Lemma new_inv : forall m bs rs s, inv m bs rs -> wf m s -> ~ spare s -> (forall t, In t bs -> spare t -> s_arr t = s_arr s -> s_len s = 0) -> inv m (bs ++ [s]) rs.
Proof.
  intros m bs rs s [W S] WS NS F. split.
  - intros t [I|I]; [|apply W; auto]. apply in_app_or in I. destruct I as [I|[<-|[]]]; [apply W; auto|exact WS].
  - intros i u N SP. apply snoc_nth in N. destruct N as [N|[_ ->]]; [|contradiction]. destruct (S i u N SP) as [SB SR]. split; [|exact SR].
    intros j t NJ J EQ. apply snoc_nth in J. destruct J as [J|[_ ->]]; [apply (SB j t NJ J EQ)|]. split; [|exact NS]. rewrite (F u); [lia|eapply nth_error_In; eauto|exact SP|congruence].
Qed.
Lemma clear_inv : forall m bs rs i, inv m bs rs -> inv m (replace i nil_slice bs) rs.
Proof.
  intros m bs rs i [W S]. split.
  - intros t [I|I]; [|apply W; auto]. apply replace_in in I. destruct I as [->|I]; [apply nil_wf|apply W; auto].
  - intros k u K SP. rewrite replace_nth in K. assert (K' : nth_error bs k = Some u /\ i <> k).
    { destruct (Nat.eqb_spec i k) as [->|NE]; [|auto]. destruct (nth_error bs k); [|discriminate]. injection K as <-. unfold spare in SP. cbn in SP. lia. }
    destruct K' as [K1 NE]. destruct (S k u K1 SP) as [SB SR]. split; [|exact SR]. intros j t NJ J EQ. rewrite replace_nth in J. destruct (Nat.eqb_spec i j) as [->|]; [|apply (SB j t NJ J EQ)].
    destruct (nth_error bs j); [|discriminate]. injection J as <-. unfold spare. cbn. lia.
Qed.
Lemma keep_inv : forall m bs rs s, inv m bs rs -> In s bs \/ In s rs -> inv m bs (rs ++ [s]).
Proof.
  intros m bs rs s [W S] IS. split.
  - intros t [I|I]; [apply W; auto|]. apply in_app_or in I. destruct I as [I|[<-|[]]]; apply W; auto.
  - intros i u N SP. destruct (S i u N SP) as [SB SR]. split; [exact SB|]. intros t I EQ. apply in_app_or in I. destruct I as [I|[<-|[]]]; [auto|].
    destruct IS as [IS|IS]; [|auto]. apply In_nth_error in IS. destruct IS as (j & J). destruct (Nat.eq_dec j i) as [->|NJ]; [rewrite N in J; injection J as <-; lia|]. apply (SB j s NJ J EQ).
Qed.
Lemma more_inv : forall m bs rs l, inv m bs rs -> inv (m ++ [l]) bs rs.
Proof. intros m bs rs l [W S]. split; [|exact S]. intros t I. apply more_wf, W, I. Qed.
Lemma fresh_spare : forall m bs rs t, inv m bs rs -> In t bs -> spare t -> s_arr t <> List.length m.
Proof. intros m bs rs t [W _] I SP. assert (s_arr t < List.length m) by (eapply spare_in; [apply W; auto|exact SP]). lia. Qed.
Lemma copied_inv : forall m bs rs s m' s', inv m bs rs -> In s rs -> copied m s = (m', s') -> inv m' (bs ++ [s']) rs /\ elements m' s' = elements m s /\
  (forall t, In t bs \/ In t rs -> elements m' t = elements m t).
Proof.
  intros m bs rs s m' s' I IS E. unfold copied in E. injection E as <- <-. assert (WS : wf m s) by (apply (proj1 I); auto).
  assert (LE : List.length (elements m s) = s_len s) by (unfold elements; rewrite firstn_length; destruct WS; lia). split; [|split].
  - apply new_inv; [apply more_inv, I| | |].
    + split; cbn; [left; rewrite app_length; cbn; lia|]. rewrite app_nth2, Nat.sub_diag by lia. cbn. lia.
    + unfold spare. cbn. lia.
    + intros t IT SP EQ. destruct (fresh_spare _ _ _ t I IT SP EQ).
  - unfold elements at 1. cbn. rewrite app_nth2, Nat.sub_diag by lia. cbn. apply firstn_all2. lia.
  - intros t IT. apply more_elements, (proj1 I), IT.
Qed.
Lemma given_inv : forall m bs rs l room m' s', inv m bs rs -> given m l room = (m', s') -> inv m' bs (rs ++ [s']) /\ elements m' s' = l /\
  (forall t, In t bs \/ In t rs -> elements m' t = elements m t).
Proof.
  intros m bs rs l room m' s' I E. unfold given in E. injection E as <- <-. split; [|split].
  - destruct (more_inv _ _ _ l I) as [W S]. split.
    + intros t [IT|IT]; [apply W; auto|]. apply in_app_or in IT. destruct IT as [IT|[<-|[]]]; [apply W; auto|]. split; cbn; [left; rewrite app_length; cbn; lia|]. rewrite app_nth2, Nat.sub_diag by lia. cbn. lia.
    + intros i u N SP. destruct (S i u N SP) as [SB SR]. split; [exact SB|]. intros t IT EQ. apply in_app_or in IT. destruct IT as [IT|[<-|[]]]; [auto|]. cbn in EQ.
      destruct (fresh_spare _ _ _ u I); [eapply nth_error_In; eauto|exact SP|congruence].
  - unfold elements. cbn. rewrite app_nth2, Nat.sub_diag by lia. cbn. apply firstn_all.
  - intros t IT. apply more_elements, (proj1 I), IT.
Qed.
End Slices.

Lemma append_all_inv : forall grow gs (m : memory gref) bs rs i s m' s', inv m bs rs -> nth_error bs i = Some s -> append_all grow m s gs = (m', s') ->
  inv m' (replace i s' bs) rs /\ elements m' s' = (elements m s ++ gs)%list /\
  (forall j t, j <> i -> nth_error bs j = Some t -> elements m' t = elements m t) /\ (forall t, In t rs -> elements m' t = elements m t).
Proof.
  intros grow. induction gs as [|g gs IH]; intros m bs rs i s m' s' I N A; cbn in A.
  - injection A as <- <-. rewrite (replace_same _ _ _ N), app_nil_r. auto.
  - destruct (append grow m s g) as [m1 s1] eqn:A1. destruct (append_inv _ _ _ _ _ _ _ _ _ I N A1) as (I1 & E1 & B1 & R1).
    assert (N1 : nth_error (replace i s1 bs) i = Some s1) by (rewrite replace_nth, Nat.eqb_refl, N; reflexivity).
    destruct (IH _ _ _ _ _ _ _ I1 N1 A) as (I2 & E2 & B2 & R2). split; [|split; [|split]].
    + assert (RR : forall n (x y : slice) l, replace n x (replace n y l) = replace n x l) by (induction n as [|n IHn]; intros x y [|z l]; cbn; try reflexivity; rewrite IHn; reflexivity).
      rewrite RR in I2. exact I2.
    + rewrite E2, E1, <- app_assoc. reflexivity.
    + intros j t NJ J. rewrite (B2 j t NJ); [apply (B1 j t NJ J)|]. rewrite replace_nth. destruct (Nat.eqb_spec i j); [congruence|exact J].
    + intros t IT. rewrite (R2 t IT). apply (R1 t IT).
Qed.

Section Aggregates.
Context {E : Type} (same : E -> E -> bool) (grow : nat -> nat).
Implicit Types (s : state E) (c : kcall E).
Notation step := (kstep same grow).
Notation run := (krun same grow).

Definition sinv s : Prop := inv (k_exprs s) (map fst (k_builders s)) (map fst (k_rels s)) /\ inv (k_groups s) (map snd (k_builders s)) (map snd (k_rels s)).

(** one step keeps the invariant and does to what is shown what it should *)
Definition builder_after s c (b : nat) : option (list E * list gref) :=
  match builder_shown s b with
  | Some v => Some (match changes c with Some b' => if Nat.eqb b' b then changed same (k_refs s) c v else v | None => v end)
  | None =>
      if Nat.eqb b (List.length (k_builders s))
      then match c with KNew => Some ([], []) | KToBuilder r => rel_shown s r | _ => None end
      else None
  end.
Definition rel_after s c (r : nat) : option (list E * list gref) :=
  match rel_shown s r with
  | Some v => Some v
  | None =>
      if Nat.eqb r (List.length (k_rels s))
      then match c with KBuild b => builder_shown s b | KCopy r' => rel_shown s r' | KRead es gs _ _ => Some (es, gs) | _ => None end
      else None
  end.
Lemma fst_in : forall l i (es gs : slice), nth_error l i = Some (es, gs) -> nth_error (map fst l) i = Some es /\ nth_error (map snd l) i = Some gs.
Proof. intros l i es gs N. rewrite !nth_error_map, N. auto. Qed.
Lemma pair_in : forall (l : list holder) h, In h l -> In (fst h) (map fst l) /\ In (snd h) (map snd l).
Proof. intros l h I. split; apply in_map, I. Qed.
Lemma none_len : forall {A} (l : list A) i, nth_error l i = None <-> List.length l <= i.
Proof. intros. apply nth_error_None. Qed.

Lemma same_builders : forall s s' c, k_builders s' = k_builders s -> (forall h, In h (k_builders s) -> shown s' h = shown s h) -> changes c = None ->
  (match c with KNew | KToBuilder _ => False | _ => True end) -> forall b, builder_shown s' b = builder_after s c b.
Proof.
  intros s s' c B SH CH K b. unfold builder_after, builder_shown. rewrite B, CH. destruct (nth_error (k_builders s) b) as [h|] eqn:N; cbn; [rewrite SH by (eapply nth_error_In; eauto); reflexivity|].
  destruct c; try contradiction; destruct (Nat.eqb _ _); reflexivity.
Qed.
Lemma same_rels : forall s s' c, k_rels s' = k_rels s -> (forall h, In h (k_rels s) -> shown s' h = shown s h) ->
  (match c with KBuild _ | KCopy _ | KRead _ _ _ _ => False | _ => True end) -> forall r, rel_shown s' r = rel_after s c r.
Proof.
  intros s s' c B SH K r. unfold rel_after, rel_shown. rewrite B. destruct (nth_error (k_rels s) r) as [h|] eqn:N; cbn; [rewrite SH by (eapply nth_error_In; eauto); reflexivity|].
  destruct c; try contradiction; destruct (Nat.eqb _ _); reflexivity.
Qed.
Lemma add_rel : forall s s' c h v, k_rels s' = (k_rels s ++ [h])%list -> (forall x, In x (k_rels s) -> shown s' x = shown s x) -> shown s' h = v ->
  match c with KBuild b => builder_shown s b = Some v | KCopy r => rel_shown s r = Some v | KRead es gs _ _ => v = (es, gs) | _ => False end ->
  forall r, rel_shown s' r = rel_after s c r.
Proof.
  intros s s' c h v B SH EV K r. unfold rel_after, rel_shown at 1. rewrite B. destruct (Nat.lt_ge_cases r (List.length (k_rels s))) as [L|L].
  - rewrite nth_error_app1 by exact L. unfold rel_shown. destruct (nth_error (k_rels s) r) as [x|] eqn:N; cbn; [rewrite SH by (eapply nth_error_In; eauto); reflexivity|]. apply none_len in N. lia.
  - assert (N : nth_error (k_rels s) r = None) by (apply none_len; exact L). unfold rel_shown at 1. rewrite N. cbn. rewrite nth_error_app2 by exact L. destruct (Nat.eqb_spec r (List.length (k_rels s))) as [->|NE].
    + rewrite Nat.sub_diag. cbn. rewrite EV. destruct c; try contradiction; congruence.
    + destruct (r - List.length (k_rels s)) as [|[|k]] eqn:D; [lia|reflexivity..].
Qed.
Lemma add_builder : forall s s' c h v, k_builders s' = (k_builders s ++ [h])%list -> (forall x, In x (k_builders s) -> shown s' x = shown s x) -> shown s' h = v ->
  match c with KNew => v = ([], []) | KToBuilder r => rel_shown s r = Some v | _ => False end -> forall b, builder_shown s' b = builder_after s c b.
Proof.
  intros s s' c h v B SH EV K b. unfold builder_after, builder_shown at 1. rewrite B. destruct (Nat.lt_ge_cases b (List.length (k_builders s))) as [L|L].
  - rewrite nth_error_app1 by exact L. unfold builder_shown. destruct (nth_error (k_builders s) b) as [x|] eqn:N; cbn; [rewrite SH by (eapply nth_error_In; eauto)|apply none_len in N; lia]. destruct c; try contradiction; reflexivity.
  - assert (N : nth_error (k_builders s) b = None) by (apply none_len; exact L). unfold builder_shown at 1. rewrite N. cbn. rewrite nth_error_app2 by exact L. destruct (Nat.eqb_spec b (List.length (k_builders s))) as [->|NE].
    + rewrite Nat.sub_diag. cbn. rewrite EV. destruct c; try contradiction; congruence.
    + destruct (b - List.length (k_builders s)) as [|[|k]] eqn:D; [lia|reflexivity..].
Qed.
Lemma set_builder : forall s s' c b0 h h', nth_error (k_builders s) b0 = Some h -> k_builders s' = replace b0 h' (k_builders s) -> changes c = Some b0 ->
  (forall j x, j <> b0 -> nth_error (k_builders s) j = Some x -> shown s' x = shown s x) -> shown s' h' = changed same (k_refs s) c (shown s h) ->
  forall b, builder_shown s' b = builder_after s c b.
Proof.
  intros s s' c b0 h h' N B CH SH EV b. unfold builder_after, builder_shown. rewrite B, CH, replace_nth. destruct (Nat.eqb_spec b0 b) as [->|NE].
  - rewrite N. cbn. rewrite EV. reflexivity.
  - destruct (nth_error (k_builders s) b) as [x|] eqn:NB; cbn; [rewrite (SH b x) by (congruence || exact NB); reflexivity|]. destruct c; try discriminate CH; destruct (Nat.eqb _ _); reflexivity.
Qed.
Lemma no_builder : forall s c b0, nth_error (k_builders s) b0 = None -> changes c = Some b0 -> forall b, builder_shown s b = builder_after s c b.
Proof.
  intros s c b0 N CH b. unfold builder_after, builder_shown. rewrite CH. destruct (nth_error (k_builders s) b) as [x|] eqn:NB; cbn.
  - destruct (Nat.eqb_spec b0 b); [congruence|reflexivity].
  - destruct c; try discriminate CH; destruct (Nat.eqb _ _); reflexivity.
Qed.

Lemma groups_step : forall s c b refs gs, sinv s -> changes c = Some b -> (forall v, changed same (k_refs s) c v = (fst v, (snd v ++ gs)%list)) ->
  let s' := add_groups grow s b refs gs in sinv s' /\ (forall k, builder_shown s' k = builder_after s c k) /\ (forall r, rel_shown s' r = rel_after s c r).
Proof.
  intros s c b refs gs [IE IG] CH EV. cbv zeta. unfold add_groups. destruct (nth_error (k_builders s) b) as [[es g]|] eqn:N.
  - destruct (fst_in _ _ _ _ N) as [NE NG]. destruct (append_all grow (k_groups s) g gs) as [m g'] eqn:A. destruct (append_all_inv _ _ _ _ _ _ _ _ _ IG NG A) as (I' & EL & OB & OR).
    split; [split; cbn; rewrite replace_map; cbn|split].
    + rewrite replace_same by exact NE. exact IE.
    + exact I'.
    + apply (set_builder s _ c b (es, g) (es, g')); [exact N|reflexivity|exact CH| |].
      * intros j [x y] NJ J. unfold shown. cbn. destruct (fst_in _ _ _ _ J) as [_ JG]. rewrite (OB j y NJ JG). reflexivity.
      * rewrite EV. unfold shown. cbn. rewrite EL. reflexivity.
    + apply same_rels; [reflexivity| |destruct c; try discriminate CH; exact I]. intros x IX. unfold shown. cbn. rewrite OR; [reflexivity|]. apply in_map, IX.
  - split; [split; assumption|]. split; [apply (no_builder s c b N CH)|]. apply same_rels; [reflexivity|reflexivity|destruct c; try discriminate CH; exact I].
Qed.

Lemma step_ok : forall s c, sinv s -> let s' := step s c in sinv s' /\ (forall b, builder_shown s' b = builder_after s c b) /\ (forall r, rel_shown s' r = rel_after s c r).
Proof.
  intros s c V. pose proof V as [IE IG]. cbv zeta. destruct c as [|l|a i v|b e|b g|b g|b g|b|b|r|r|es gs room room']; cbn [kstep].
  - split; [split; cbn; rewrite map_app; cbn; apply new_inv; try assumption; try apply nil_wf; try (unfold spare; cbn; lia); reflexivity|]. split.
    + apply (add_builder s _ KNew (nil_slice, nil_slice) ([], [])); reflexivity.
    + apply same_rels; [reflexivity|reflexivity|exact I].
  - split; [split; assumption|]. split; [apply same_builders; try reflexivity; exact I|apply same_rels; try reflexivity; exact I].
  - split; [split; assumption|]. split; [apply same_builders; try reflexivity; exact I|apply same_rels; try reflexivity; exact I].
  - destruct (nth_error (k_builders s) b) as [[es gs]|] eqn:N.
    + destruct (fst_in _ _ _ _ N) as [NE NG]. destruct (existsb (fun x => same x e) (elements (k_exprs s) es)) eqn:X.
      * split; [exact V|]. split; [|apply same_rels; try reflexivity; exact I].
        apply (set_builder s _ (KExpr b e) b (es, gs) (es, gs)); [exact N|rewrite replace_same; [reflexivity|exact N]|reflexivity|reflexivity|]. unfold shown. cbn. rewrite X. reflexivity.
      * destruct (append grow (k_exprs s) es e) as [m es'] eqn:A. destruct (append_inv _ _ _ _ _ _ _ _ _ IE NE A) as (I' & EL & OB & OR). split; [split; cbn; rewrite replace_map; cbn|split].
        -- exact I'.
        -- rewrite replace_same by exact NG. exact IG.
        -- apply (set_builder s _ (KExpr b e) b (es, gs) (es', gs)); [exact N|reflexivity|reflexivity| |].
           ++ intros j [x y] NJ J. unfold shown. cbn. destruct (fst_in _ _ _ _ J) as [JE _]. rewrite (OB j x NJ JE). reflexivity.
           ++ unfold shown. cbn. rewrite EL, X. reflexivity.
        -- apply same_rels; [reflexivity| |exact I]. intros x IX. unfold shown. cbn. rewrite OR; [reflexivity|]. apply in_map, IX.
    + split; [exact V|]. split; [apply (no_builder s (KExpr b e) b N eq_refl)|apply same_rels; try reflexivity; exact I].
  - apply groups_step; [exact V|reflexivity|]. intros [x y]. reflexivity.
  - apply groups_step; [exact V|reflexivity|]. intros [x y]. reflexivity.
  - destruct (20 <? List.length (references (k_refs s) g)) eqn:L.
    + split; [exact V|]. split; [|apply same_rels; try reflexivity; exact I]. intros k. unfold builder_after. destruct (builder_shown s k) as [[x y]|] eqn:Bk; cbn [changes].
      * destruct (Nat.eqb b k); [|reflexivity]. cbn [changed]. rewrite L. reflexivity.
      * destruct (Nat.eqb _ _); reflexivity.
    + apply groups_step; [exact V|reflexivity|]. intros [x y]. cbn [changed]. rewrite L. reflexivity.
  - destruct (nth_error (k_builders s) b) as [h|] eqn:N.
    + split; [split; cbn; rewrite replace_map; cbn; apply clear_inv; assumption|]. split; [|apply same_rels; try reflexivity; exact I].
      apply (set_builder s _ (KClear b) b h (nil_slice, nil_slice)); [exact N|reflexivity|reflexivity|reflexivity|]. unfold changed. destruct (shown s h). reflexivity.
    + split; [exact V|]. split; [apply (no_builder s (KClear b) b N eq_refl)|apply same_rels; try reflexivity; exact I].
  - destruct (nth_error (k_builders s) b) as [h|] eqn:N.
    + pose proof (pair_in _ _ (nth_error_In _ _ N)) as [P1 P2]. split; [split; cbn; rewrite map_app; cbn; apply keep_inv; auto|]. split; [apply same_builders; try reflexivity; exact I|].
      apply (add_rel s _ (KBuild b) h (shown s h)); try reflexivity. unfold builder_shown. rewrite N. reflexivity.
    + split; [exact V|]. split; [apply same_builders; try reflexivity; exact I|]. intros r. unfold rel_after. destruct (rel_shown s r); [reflexivity|]. destruct (Nat.eqb _ _); [|reflexivity]. unfold builder_shown. rewrite N. reflexivity.
  - destruct (nth_error (k_rels s) r) as [[es gs]|] eqn:N.
    + pose proof (pair_in _ _ (nth_error_In _ _ N)) as [P1 P2]. cbn in P1, P2. destruct (copied (k_exprs s) es) as [m es'] eqn:C1, (copied (k_groups s) gs) as [m' gs'] eqn:C2.
      destruct (copied_inv _ _ _ _ _ _ IE P1 C1) as (I1 & E1 & O1), (copied_inv _ _ _ _ _ _ IG P2 C2) as (I2 & E2 & O2).
      split; [split; cbn; rewrite map_app; cbn; assumption|]. split.
      * apply (add_builder s _ (KToBuilder r) (es', gs') (shown s (es, gs))); [reflexivity| |unfold shown; cbn; rewrite E1, E2; reflexivity|unfold rel_shown; rewrite N; reflexivity].
        intros x IX. apply pair_in in IX. destruct IX. unfold shown. cbn. rewrite O1, O2 by auto. reflexivity.
      * apply same_rels; [reflexivity| |exact I]. intros x IX. apply pair_in in IX. destruct IX. unfold shown. cbn. rewrite O1, O2 by auto. reflexivity.
    + split; [exact V|]. split; [|apply same_rels; try reflexivity; exact I]. intros b. unfold builder_after. cbn [changes]. destruct (builder_shown s b); [reflexivity|]. destruct (Nat.eqb _ _); [|reflexivity]. unfold rel_shown. rewrite N. reflexivity.
  - destruct (nth_error (k_rels s) r) as [h|] eqn:N.
    + pose proof (pair_in _ _ (nth_error_In _ _ N)) as [P1 P2]. split; [split; cbn; rewrite map_app; cbn; apply keep_inv; auto|]. split; [apply same_builders; try reflexivity; exact I|].
      apply (add_rel s _ (KCopy r) h (shown s h)); try reflexivity. unfold rel_shown. rewrite N. reflexivity.
    + split; [exact V|]. split; [apply same_builders; try reflexivity; exact I|]. intros k. unfold rel_after. destruct (rel_shown s k); [reflexivity|]. destruct (Nat.eqb _ _); [|reflexivity]. unfold rel_shown. rewrite N. reflexivity.
  - destruct (given (k_exprs s) es room) as [m es'] eqn:C1, (given (k_groups s) gs room') as [m' gs'] eqn:C2.
    destruct (given_inv _ _ _ _ _ _ _ IE C1) as (I1 & E1 & O1), (given_inv _ _ _ _ _ _ _ IG C2) as (I2 & E2 & O2).
    split; [split; cbn; rewrite map_app; cbn; assumption|]. split.
    + apply same_builders; [reflexivity| |reflexivity|exact I]. intros x IX. apply pair_in in IX. destruct IX. unfold shown. cbn. rewrite O1, O2 by auto. reflexivity.
    + apply (add_rel s _ (KRead es gs room room') (es', gs') (es, gs)); [reflexivity| |unfold shown; cbn; rewrite E1, E2; reflexivity|reflexivity].
      intros x IX. apply pair_in in IX. destruct IX. unfold shown. cbn. rewrite O1, O2 by auto. reflexivity.
Qed.
Lemma run_snoc : forall h c, run (h ++ [c]) = step (run h) c.
Proof. intros h c. unfold krun. rewrite fold_left_app. reflexivity. Qed.
Lemma run_inv : forall h, sinv (run h).
Proof.
  induction h as [|c h IH] using rev_ind; [|rewrite run_snoc; apply step_ok, IH].
  split; (split; [intros t [[]|[]]|intros i s N; destruct i; discriminate]).
Qed.

(** After any history, a call changes what a builder holds exactly if it is a call of that builder, and then as it would with lists of its own. *)
Theorem C82_builder : forall h c b v, builder_shown (run h) b = Some v ->
  builder_shown (run (h ++ [c])) b = Some (match changes c with Some b' => if Nat.eqb b' b then changed same (k_refs (run h)) c v else v | None => v end).
Proof.
  intros h c b v E0. rewrite run_snoc. destruct (step_ok (run h) c (run_inv h)) as (_ & B & _). rewrite B. unfold builder_after. rewrite E0. reflexivity.
Qed.
(** A relation shows for ever what it showed first. *)
Theorem C82_relation : forall h h' r v, rel_shown (run h) r = Some v -> rel_shown (run (h ++ h')) r = Some v.
Proof.
  intros h h' r v E0. induction h' as [|c h' IH] using rev_ind; [rewrite app_nil_r; exact E0|]. rewrite app_assoc, run_snoc.
  destruct (step_ok (run (h ++ h')) c (run_inv _)) as (_ & _ & R). rewrite R. unfold rel_after. rewrite IH. reflexivity.
Qed.
(** New builders are empty or have what the relation shows; new relations show what the builder has, what the copied relation shows or what was read. *)
Theorem C82_new : forall h c,
  let b := List.length (k_builders (run h)) in let r := List.length (k_rels (run h)) in
  builder_shown (run (h ++ [c])) b = match c with KNew => Some ([], []) | KToBuilder r' => rel_shown (run h) r' | _ => None end /\
  rel_shown (run (h ++ [c])) r = match c with KBuild b' => builder_shown (run h) b' | KCopy r' => rel_shown (run h) r' | KRead es gs _ _ => Some (es, gs) | _ => None end.
Proof.
  intros h c b r. subst b r. rewrite run_snoc. destruct (step_ok (run h) c (run_inv h)) as (_ & B & R). rewrite B, R. unfold builder_after, rel_after.
  assert (N1 : builder_shown (run h) (List.length (k_builders (run h))) = None) by (unfold builder_shown; rewrite (proj2 (none_len _ _)) by lia; reflexivity).
  assert (N2 : rel_shown (run h) (List.length (k_rels (run h))) = None) by (unfold rel_shown; rewrite (proj2 (none_len _ _)) by lia; reflexivity).
  rewrite N1, N2, !Nat.eqb_refl. auto.
Qed.
(** Nothing else is there. *)
Theorem C82_only : forall h c b r, builder_shown (run h) b = None -> b <> List.length (k_builders (run h)) -> rel_shown (run h) r = None -> r <> List.length (k_rels (run h)) ->
  builder_shown (run (h ++ [c])) b = None /\ rel_shown (run (h ++ [c])) r = None.
Proof.
  intros h c b r E1 NB E2 NR. rewrite run_snoc. destruct (step_ok (run h) c (run_inv h)) as (_ & B & R). rewrite B, R. unfold builder_after, rel_after. rewrite E1, E2.
  destruct (Nat.eqb_spec b (List.length (k_builders (run h)))); [contradiction|]. destruct (Nat.eqb_spec r (List.length (k_rels (run h)))); [contradiction|]. auto.
Qed.

(** What a builder holds stays first in what it holds later, in the same places, until the builder is cleared: references to expressions stay right. *)
Theorem C82_stays : forall h h' b es gs, builder_shown (run h) b = Some (es, gs) -> ~ In (KClear b) h' -> exists es' gs',
  builder_shown (run (h ++ h')) b = Some ((es ++ es')%list, (gs ++ gs')%list).
Proof.
  intros h h' b es gs B. induction h' as [|c h' IH] using rev_ind; intros NC; [exists [], []; rewrite !app_nil_r; exact B|].
  destruct IH as (es1 & gs1 & B1); [intros I; apply NC, in_or_app; auto|]. assert (NE : c <> KClear b) by (intros ->; apply NC, in_or_app; right; left; reflexivity).
  rewrite app_assoc, (C82_builder _ c b _ B1). assert (K : exists es2 gs2, changed same (k_refs (run (h ++ h'))) c ((es ++ es1)%list, (gs ++ gs1)%list) = (((es ++ es1) ++ es2)%list, ((gs ++ gs1) ++ gs2)%list) \/ changes c <> Some b).
  { assert (Z : forall v : list E * list gref, v = ((fst v ++ [])%list, (snd v ++ [])%list)) by (intros [x y]; cbn; rewrite !app_nil_r; reflexivity).
    destruct c as [|l|a i v|b0 e|b0 g|b0 g|b0 g|b0|b0|r|r|xs ys room room']; cbn [changed changes]; try (exists [], []; right; discriminate).
    - destruct (existsb _ _); [exists [], []; left; apply Z|exists [e], []; left; rewrite app_nil_r; reflexivity].
    - exists [], [g]. left. rewrite app_nil_r. reflexivity.
    - eexists [], _. left. rewrite app_nil_r. reflexivity.
    - destruct (20 <? _); [exists [], []; left; apply Z|]. eexists [], _. left. rewrite app_nil_r. reflexivity.
    - exists [], []. right. congruence. }
  destruct K as (es2 & gs2 & [K|K]).
  - destruct (changes c) as [b'|] eqn:CH; [destruct (Nat.eqb b' b)|].
    + rewrite K. exists (es1 ++ es2)%list, (gs1 ++ gs2)%list. rewrite !app_assoc. reflexivity.
    + exists es1, gs1. reflexivity.
    + exists es1, gs1. reflexivity.
  - exists es1, gs1. destruct (changes c) as [b'|]; [|reflexivity]. destruct (Nat.eqb_spec b' b); [congruence|reflexivity].
Qed.

(** The references of a grouping stay as long as the caller does not write to the slice. *)
Theorem C82_references : forall h c g, g_arr g < List.length (k_refs (run h)) -> (forall i v, c <> KWrite (g_arr g) i v) ->
  references (k_refs (run (h ++ [c]))) g = references (k_refs (run h)) g.
Proof.
  intros h c g L NW. rewrite run_snoc. generalize dependent (run h). intros s L. unfold references.
  assert (M : forall x, nth (g_arr g) (k_refs s ++ x) [] = nth (g_arr g) (k_refs s) []) by (intros x; apply app_nth1; exact L).
  assert (G : forall b refs gs, nth (g_arr g) refs [] = nth (g_arr g) (k_refs s) [] -> nth (g_arr g) (k_refs (add_groups grow s b refs gs)) [] = nth (g_arr g) (k_refs s) []).
  { intros b refs gs ER. unfold add_groups. destruct (nth_error (k_builders s) b) as [[x y]|]; [|reflexivity]. destruct (append_all grow (k_groups s) y gs). exact ER. }
  destruct c as [|l|a i v|b e|b g0|b g0|b g0|b|b|r|r|es gs room room']; cbn [kstep]; try reflexivity.
  - cbn. rewrite M. reflexivity.
  - cbn. destruct (Nat.eq_dec a (g_arr g)) as [->|NE]; [destruct (NW i v eq_refl)|].
    assert (CN : forall a (f : list Z -> list Z) m k, a <> k -> nth k (change a f m) [] = nth k m []) by (induction a0 as [|a0 IH]; intros f [|x m] [|k] NK; cbn; try reflexivity; [congruence|apply IH; congruence]).
    rewrite CN by exact NE. reflexivity.
  - destruct (nth_error (k_builders s) b) as [[x y]|]; [|reflexivity]. destruct (existsb _ _); [reflexivity|]. destruct (append _ _ _ _). reflexivity.
  - rewrite G by reflexivity. reflexivity.
  - rewrite G by reflexivity. reflexivity.
  - destruct (20 <? _); [reflexivity|]. rewrite G by apply M. reflexivity.
  - destruct (nth_error (k_builders s) b); reflexivity.
  - destruct (nth_error (k_builders s) b); reflexivity.
  - destruct (nth_error (k_rels s) r) as [[x y]|]; [|reflexivity]. reflexivity.
  - destruct (nth_error (k_rels s) r); reflexivity.
Qed.
(** A slice the caller makes has what it was made with, and a write changes the one place in every grouping that shows it. *)
Theorem C82_slice : forall h l, references (k_refs (run (h ++ [KSlice l]))) (GRef (List.length (k_refs (run h))) (List.length l)) = l.
Proof. intros h l. rewrite run_snoc. unfold references. cbn. rewrite app_nth2, Nat.sub_diag by lia. cbn. apply firstn_all. Qed.
Theorem C82_write : forall h g i v, g_arr g < List.length (k_refs (run h)) ->
  forall j, nth_error (references (k_refs (run (h ++ [KWrite (g_arr g) i v]))) g) j =
    match nth_error (references (k_refs (run h)) g) j with Some x => Some (if Nat.eqb j i then v else x) | None => None end.
Proof.
  intros h g i v L j. rewrite run_snoc. unfold references. cbn. rewrite change_nth, Nat.eqb_refl by exact L. generalize (nth (g_arr g) (k_refs (run h)) []). intros l.
  destruct (Nat.lt_ge_cases j (g_len g)) as [LJ|LJ].
  - assert (FN : forall (n : nat) (x : list Z) k, k < n -> nth_error (firstn n x) k = nth_error x k) by (induction n as [|n IH]; intros [|y x] [|k] LK; cbn; try lia; try reflexivity; apply IH; lia).
    rewrite !FN by exact LJ. rewrite replace_nth, Nat.eqb_sym. destruct (Nat.eqb j i); [reflexivity|]. destruct (nth_error l j); reflexivity.
  - assert (FN : forall x : list Z, nth_error (firstn (g_len g) x) j = None) by (intros x; apply nth_error_None; rewrite firstn_length; lia). rewrite !FN. reflexivity.
Qed.
(** [AddRollup] adds the references given, then all but the last, down to the first alone, of the same slice. *)
Theorem C82_rollup : forall h b g es gs, builder_shown (run h) b = Some (es, gs) -> exists new,
  builder_shown (run (h ++ [KRollup b g])) b = Some (es, (gs ++ new)%list) /\ List.length new = g_len g /\
  (forall i, i < g_len g -> nth_error new i = Some (GRef (g_arr g) (g_len g - i))).
Proof.
  intros h b g es gs B. eexists. split; [rewrite (C82_builder h _ b _ B); cbn; rewrite Nat.eqb_refl; reflexivity|]. split; [rewrite map_length, rev_length, seq_length; reflexivity|].
  intros i L. rewrite nth_error_map. assert (LI : i < List.length (rev (seq 1 (g_len g)))) by (rewrite rev_length, seq_length; exact L).
  rewrite (nth_error_nth' _ 0 LI). cbn. rewrite rev_nth, seq_length, seq_nth by (rewrite ?seq_length; lia). do 2 f_equal. lia.
Qed.
Lemma chosen_picked : forall refs bit k, chosen refs bit k = map snd (filter (fun p => Nat.testbit k (fst p)) (combine (seq bit (List.length refs)) refs)).
Proof. induction refs as [|x refs IH]; intros bit k; cbn [chosen List.length seq combine filter fst]; [reflexivity|]. destruct (Nat.testbit k bit); cbn [map snd]; rewrite IH; reflexivity. Qed.
Lemma place_shows : forall ls m rest, map (references (m ++ ls ++ rest)) (place_all (List.length m) ls) = ls.
Proof.
  induction ls as [|l ls IH]; intros m rest; cbn [place_all map]; [reflexivity|]. f_equal.
  - unfold references. cbn. rewrite app_nth2, Nat.sub_diag by lia. cbn. apply firstn_all.
  - specialize (IH (m ++ [l])%list rest). rewrite app_length, <- app_assoc in IH. cbn [List.length app] in IH. rewrite Nat.add_1_r in IH. exact IH.
Qed.
Lemma place_fresh : forall ls n g, In g (place_all n ls) -> n <= g_arr g.
Proof. induction ls as [|l ls IH]; intros n g; cbn; [tauto|]. intros [<-|I]; [cbn; lia|]. apply IH in I. lia. Qed.
(** [AddCube] adds every selection of the references given but the empty one, in the order of binary numbers, each in a slice of its own; with more than twenty references it adds nothing. *)
Theorem C82_cube : forall h b g es gs, builder_shown (run h) b = Some (es, gs) ->
  let refs := references (k_refs (run h)) g in let s' := run (h ++ [KCube b g]) in
  (List.length refs <= 20 -> exists new, builder_shown s' b = Some (es, (gs ++ new)%list) /\
     map (references (k_refs s')) new = map (picked refs) (seq 1 (2 ^ List.length refs - 1)) /\ (forall x, In x new -> List.length (k_refs (run h)) <= g_arr x)) /\
  (20 < List.length refs -> s' = run h).
Proof.
  intros h b g es gs B. cbv zeta. split; intros L.
  - exists (place_all (List.length (k_refs (run h))) (cube (references (k_refs (run h)) g))). split; [|split].
    + rewrite (C82_builder h _ b _ B). cbn [changes changed]. rewrite Nat.eqb_refl. destruct (Nat.ltb_spec 20 (List.length (references (k_refs (run h)) g))); [lia|reflexivity].
    + rewrite run_snoc. cbn [kstep]. destruct (Nat.ltb_spec 20 (List.length (references (k_refs (run h)) g))); [lia|]. unfold add_groups. unfold builder_shown in B. destruct (nth_error (k_builders (run h)) b) as [[x y]|]; [|discriminate].
      destruct (append_all grow (k_groups (run h)) y _) as [m g']. cbn [k_refs]. pose proof (place_shows (cube (references (k_refs (run h)) g)) (k_refs (run h)) []) as P. rewrite app_nil_r in P. rewrite P. unfold cube.
      apply map_ext. intros k. apply chosen_picked.
    + intros x. apply place_fresh.
  - rewrite run_snoc. cbn [kstep]. destruct (Nat.ltb_spec 20 (List.length (references (k_refs (run h)) g))); [reflexivity|lia].
Qed.
(** A caller's later write to a slice of references changes relations built with it, and builders made from those. *)
Theorem C82_caller_refuted : forall e : E, exists h g,
  h = [KSlice [0%Z]; KNew; KExpr 0 e; KSet 0 g; KBuild 0; KToBuilder 0] /\
  rel_shown (run h) 0 = Some ([e], [g]) /\ builder_shown (run h) 1 = Some ([e], [g]) /\
  references (k_refs (run h)) g = [0%Z] /\ references (k_refs (run (h ++ [KWrite 0 0 7%Z]))) g = [7%Z].
Proof. intros e. exists [KSlice [0%Z]; KNew; KExpr 0 e; KSet 0 (GRef 0 1); KBuild 0; KToBuilder 0], (GRef 0 1). split; [reflexivity|]. unfold krun. cbn. auto. Qed.
End Aggregates.

Example C82_nonvacuous :
  let h := [KSlice [0; 1]%Z; KNew; KExpr 0 5; KExpr 0 6; KExpr 0 5; KRollup 0 (GRef 0 2); KBuild 0; KToBuilder 0; KSet 0 (GRef 0 1); KSet 1 (GRef 0 2); KCube 1 (GRef 0 2); KBuild 1] in
  let s := krun Nat.eqb (fun n => 2 * n) h in
  rel_shown s 0 = Some ([5; 6], [GRef 0 2; GRef 0 1]) /\ builder_shown s 0 = Some ([5; 6], [GRef 0 2; GRef 0 1; GRef 0 1]) /\
  rel_shown s 1 = Some ([5; 6], [GRef 0 2; GRef 0 1; GRef 0 2; GRef 1 1; GRef 2 1; GRef 3 2]) /\
  map (references (k_refs s)) [GRef 1 1; GRef 2 1; GRef 3 2] = [[0]; [1]; [0; 1]]%Z.
Proof. repeat split. Qed.

Print Assumptions C82_builder.
Print Assumptions C82_relation.
Print Assumptions C82_new.
Print Assumptions C82_only.
Print Assumptions C82_stays.
Print Assumptions C82_references.
Print Assumptions C82_slice.
Print Assumptions C82_write.
Print Assumptions C82_rollup.
Print Assumptions C82_cube.
Print Assumptions C82_caller_refuted.
Print Assumptions C82_nonvacuous.
