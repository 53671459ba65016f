(** Proofs for C74. *)

From Coq Require Import List Bool Arith Lia String.
From Verif Require Import Base ExprModel PlanAliasModel PlanAliasSpec PlanAliasProofs CloneModel CloneSpec.
Import ListNotations.

Lemma sets_put : forall B (l : list B) j x l', sets l j x l' <-> j < List.length l /\ l' = put j x l.
Proof.
  intros B l j x l'. split.
  - intros (a & y & b & -> & <- & ->). split; [rewrite app_length; cbn; lia|]. induction a; cbn; congruence.
  - revert j l'. induction l as [|z l IH]; intros j l' [L ->]; [cbn in L; lia|]. destruct j as [|j].
    + exists [], z, l. auto.
    + destruct (IH j (put j x l)) as (a & y & b & E1 & E2 & E3); [split; [cbn in L; lia|auto]|].
      exists (z :: a), y, b. cbn. repeat split; congruence.
Qed.

Section Bank.
Context {B : Type}.
Variable pad : B.

Lemma bank_valid : forall (h : heap B) ss i s, bank h ss -> nth_error ss i = Some s -> valid h s.
Proof. intros h ss i s [V _] E. rewrite Forall_forall in V. apply V. eapply nth_error_In. eauto. Qed.

Lemma holds_read : forall (h : heap B) s v, valid h s -> (holds h s v <-> v = match s with None => None | Some _ => Some (read h s) end).
Proof.
  intros h s v V. destruct v as [l|]; cbn; destruct s as [x|].
  - split; [intros [_ H]; f_equal; apply shows_read; auto|]. intros H. injection H as ->. split; [discriminate|]. apply (read_shows h (Some x)). auto.
  - split; [intros [H _]; congruence|discriminate].
  - split; discriminate.
  - split; auto.
Qed.

Lemma read_len : forall (h : heap B) v, valid h (Some v) -> List.length (read h (Some v)) = sl_len v.
Proof. intros h v V. destruct (read_shows h (Some v) V). auto. Qed.

Lemma other_read : forall (h h' : heap B) s a, valid h s -> (forall v, s = Some v -> sl_arr v <> a) ->
  (forall b arr, b <> a -> nth_error h b = Some arr -> nth_error h' b = Some arr) -> valid h' s /\ read h' s = read h s.
Proof.
  intros h h' [v|] a V N U; cbn in *; auto. destruct V as (arr & E & L). assert (E' := U _ _ (N _ eq_refl) E).
  split; [eauto|]. rewrite (nth_arr _ _ _ E), (nth_arr _ _ _ E'). auto.
Qed.

(** a copy *)
Lemma bank_copy : forall (h : heap B) ss i s h' s', bank h ss -> nth_error ss i = Some s -> copy_slice pad h s = (h', s') ->
  bank h' (ss ++ [s']) /\ (forall t v, In t ss -> (holds h' t v <-> holds h t v)) /\ (forall v, holds h' s' v <-> holds h s v).
Proof.
  intros h ss i s h' s' K E H. assert (VS := bank_valid _ _ _ _ K E). destruct K as [V P]. destruct s as [v|]; cbn [copy_slice] in H.
  - apply alloc_spec in H. destruct H as (U & V' & R & (w & -> & W & _) & _).
    assert (VV : forall t, In t ss -> valid h' t) by (intros t T; rewrite Forall_forall in V; eapply untouched_valid; eauto).
    split; [split|split].
    + apply Forall_app. split; [apply Forall_forall; auto|auto].
    + intros x y a b N X Y. rewrite Forall_forall in V.
      assert (OLD : forall x a, x < List.length ss -> nth_error (ss ++ [Some w]) x = Some (Some a) -> sl_arr a < List.length h).
      { intros z c Z C. rewrite nth_error_app1 in C by auto. apply nth_error_In in C. apply V in C. destruct C as (arr & C & _).
        apply nth_error_Some. congruence. }
      assert (NEW : forall x a, nth_error (ss ++ [Some w]) x = Some (Some a) -> ~ x < List.length ss -> sl_arr a = List.length h /\ x = List.length ss).
      { intros z c C Z. rewrite nth_error_app2 in C by lia. destruct (z - List.length ss) as [|k] eqn:D; cbn in C; [|destruct k; discriminate].
        injection C as <-. split; auto. lia. }
      destruct (lt_dec x (List.length ss)) as [LX|LX], (lt_dec y (List.length ss)) as [LY|LY].
      * rewrite nth_error_app1 in X, Y by auto. eapply P; eauto.
      * apply OLD in X; auto. destruct (NEW _ _ Y LY). lia.
      * apply OLD in Y; auto. destruct (NEW _ _ X LX). lia.
      * destruct (NEW _ _ X LX), (NEW _ _ Y LY). lia.
    + intros t u T. rewrite Forall_forall in V. rewrite !holds_read by auto. rewrite (untouched_read h h' t U) by auto. reflexivity.
    + intros u. rewrite !holds_read by auto. rewrite R. reflexivity.
  - injection H as <- <-. split; [split|split].
    + apply Forall_app. split; auto.
    + intros x y a b N X Y.
      assert (NEW : forall x a, nth_error (ss ++ [None]) x = Some (Some a) -> x < List.length ss).
      { intros z c C. destruct (lt_dec z (List.length ss)); auto. rewrite nth_error_app2 in C by lia.
        destruct (z - List.length ss) as [|k]; cbn in C; [discriminate|destruct k; discriminate]. }
      assert (LX := NEW _ _ X). assert (LY := NEW _ _ Y). rewrite nth_error_app1 in X, Y by auto. eapply P; eauto.
    + intros t u T. reflexivity.
    + intros u. reflexivity.
Qed.

(** an assignment: it succeeds if the place exists, and changes that place *)
Lemma bank_write : forall (h : heap B) ss i v j y, bank h ss -> nth_error ss i = Some (Some v) -> j < sl_len v ->
  exists h', write h (Some v) j y = Ok h' /\ bank h' ss /\
    (forall k t u, k <> i -> nth_error ss k = Some t -> (holds h' t u <-> holds h t u)) /\
    holds h' (Some v) (Some (put j y (read h (Some v)))).
Proof.
  intros h ss i v j y K E L. assert (VS := bank_valid _ _ _ _ K E). destruct K as [V P].
  destruct (write_char B h v j y VS L) as (h' & W & _ & V' & O). exists h'. split; auto.
  assert (OTHER : forall k t, k <> i -> nth_error ss k = Some t -> valid h' t /\ read h' t = read h t).
  { intros k t N T. rewrite Forall_forall in V. apply (other_read h h' t (sl_arr v)); auto.
    - apply V. eapply nth_error_In. eauto.
    - intros u ->. intros X. apply (P k i u v); auto. }
  split; [split; auto|split].
  - apply Forall_forall. intros t T. apply In_nth_error in T. destruct T as [k T]. destruct (Nat.eq_dec k i) as [->|N].
    + rewrite E in T. injection T as <-. auto.
    + eapply OTHER; eauto.
  - intros k t u N T. destruct (OTHER k t N T) as [V1 R1]. rewrite !holds_read; auto. rewrite R1. reflexivity. rewrite Forall_forall in V. apply V.
    eapply nth_error_In. eauto.
  - split; [discriminate|]. unfold shows. assert (RL := read_len h v VS). destruct (read_shows h (Some v) VS) as [_ R].
    rewrite put_length. split; auto. intros k Lk. rewrite put_nth, RL.
    unfold write in W. apply Nat.ltb_lt in L as L'. rewrite L' in W. injection W as <-.
    destruct VS as (arr & EA & L1 & L2). unfold cell. rewrite (update_nth _ _ _ _ _ _ EA), Nat.eqb_refl. cbn [put_all]. rewrite put_nth.
    destruct (Nat.eqb_spec j k) as [->|N].
    + rewrite Nat.eqb_refl. apply Nat.ltb_lt in Lk as Lk'. rewrite Lk'. destruct (Nat.ltb_spec (sl_off v + k) (List.length arr)); auto. lia.
    + destruct (Nat.eqb_spec (sl_off v + j) (sl_off v + k)); [lia|]. rewrite R by auto. unfold cell. rewrite EA. reflexivity.
Qed.

(** an element added at the end *)
Variable spare : nat -> nat.
Lemma bank_append : forall (h : heap B) ss i s y h' s', bank h ss -> nth_error ss i = Some s -> append pad spare h s [y] = (h', s') ->
  bank h' (put i s' ss) /\ (forall k t u, k <> i -> nth_error ss k = Some t -> (holds h' t u <-> holds h t u)) /\
  holds h' s' (Some (read h s ++ [y])).
Proof.
  intros h ss i s y h' s' K E H. assert (VS := bank_valid _ _ _ _ K E). destruct K as [V P].
  assert (M : (exists v', s' = Some v' /\ valid h' s' /\ read h' s' = read h s ++ [y] /\
     ((exists v, s = Some v /\ sl_arr v' = sl_arr v /\ (forall b arr, b <> sl_arr v -> nth_error h b = Some arr -> nth_error h' b = Some arr))
      \/ (sl_arr v' = List.length h /\ untouched h h')))).
  { destruct s as [v|]; cbn [append] in H.
    - destruct (Nat.leb_spec (sl_len v + List.length [y]) (sl_cap v)) as [L|L].
      + injection H as <- <-. destruct (extend_read h v [y] VS L) as [V' R']. eexists. split; [reflexivity|]. split; [exact V'|]. split; [exact R'|].
        left. exists v. split; auto. split; auto. intros b arr N X. apply update_untouched; auto.
      + apply alloc_spec in H. destruct H as (U & V' & R & (w & -> & W & _) & _). exists w. repeat split; auto.
    - apply alloc_spec in H. destruct H as (U & V' & R & (w & -> & W & _) & _). exists w. repeat split; auto. }
  destruct M as (v' & -> & V' & R' & M).
  assert (OTHER : forall k t, k <> i -> nth_error ss k = Some t -> valid h' t /\ read h' t = read h t /\ forall u, t = Some u -> sl_arr u <> sl_arr v').
  { intros k t N T. rewrite Forall_forall in V. assert (VT : valid h t) by (apply V; eapply nth_error_In; eauto).
    destruct M as [(v & -> & A & O)|[A U]].
    - assert (D : forall u, t = Some u -> sl_arr u <> sl_arr v) by (intros u ->; apply (P k i u v); auto).
      destruct (other_read h h' t (sl_arr v) VT D O). repeat split; auto. intros u ->. rewrite A. auto.
    - split; [eapply untouched_valid; eauto|]. split; [apply untouched_read; auto|]. intros u ->. destruct VT as (arr & X & _).
      rewrite A. assert (Y : nth_error h (sl_arr u) <> None) by congruence. apply nth_error_Some in Y. lia. }
  assert (LI : i < List.length ss) by (apply nth_error_Some; congruence).
  split; [split|split].
  - apply Forall_forall. intros t T. apply In_nth_error in T. destruct T as [k T]. rewrite put_nth in T.
    destruct (Nat.eqb_spec i k) as [->|N].
    + apply Nat.ltb_lt in LI. rewrite LI in T. injection T as <-. auto.
    + eapply OTHER; eauto.
  - intros x z a b N X Z. rewrite put_nth in X, Z. apply Nat.ltb_lt in LI.
    destruct (Nat.eqb_spec i x) as [<-|NX], (Nat.eqb_spec i z) as [<-|NZ].
    + congruence.
    + rewrite LI in X. injection X as <-. destruct (OTHER z (Some b)) as (_ & _ & O); auto. apply not_eq_sym. auto.
    + rewrite LI in Z. injection Z as <-. destruct (OTHER x (Some a)) as (_ & _ & O); auto.
    + apply (P x z); auto.
  - intros k t u N T. destruct (OTHER k t N T) as (V1 & R1 & _). rewrite !holds_read; auto. rewrite R1. reflexivity.
    rewrite Forall_forall in V. apply V. eapply nth_error_In. eauto.
  - apply holds_read; auto. rewrite R'. reflexivity.
Qed.
End Bank.

Lemma F2_nth : forall X Y (R : X -> Y -> Prop) l m i x, Forall2 R l m -> nth_error l i = Some x -> exists y, nth_error m i = Some y /\ R x y.
Proof.
  intros X Y R l m i x H. revert i. induction H as [|a b l m HR HF IH]; intros [|i] E; try discriminate.
  - injection E as <-. exists b. auto.
  - apply IH. auto.
Qed.
Lemma F2_len : forall X Y (R : X -> Y -> Prop) l m, Forall2 R l m -> List.length l = List.length m.
Proof. intros X Y R l m H. induction H; cbn; auto. Qed.
Lemma F2_put : forall X Y (R R' : X -> Y -> Prop) l m i x y, Forall2 R l m ->
  (forall k a b, k <> i -> nth_error l k = Some a -> nth_error m k = Some b -> R a b -> R' a b) -> R' x y -> Forall2 R' (put i x l) (put i y m).
Proof.
  intros X Y R R' l m i x y H. revert i. induction H as [|a b l m HR HF IH]; intros i O N; [destruct i; constructor|]. destruct i as [|i]; cbn [put].
  - constructor; auto. clear IH. assert (O' : forall k a b, nth_error l k = Some a -> nth_error m k = Some b -> R a b -> R' a b)
      by (intros k c d; apply (O (S k)); auto). clear O. induction HF as [|c d l m HR' HF IH]; constructor.
    + apply (O' 0); auto.
    + apply IH. intros k e f. apply (O' (S k)).
  - constructor; [apply (O 0); auto|]. apply IH; auto. intros k c d Nk. apply (O (S k)). auto.
Qed.
Lemma put_same : forall X (l : list X) i x, nth_error l i = Some x -> put i x l = l.
Proof. intros X l. induction l as [|a l IH]; intros [|i] x E; cbn in *; try discriminate; [congruence|]. f_equal. auto. Qed.
Lemma map_put : forall X Y (f : X -> Y) l i x, map f (put i x l) = put i (f x) (map f l).
Proof. intros X Y f l. induction l as [|a l IH]; intros [|i] x; cbn; auto. f_equal. auto. Qed.

Section World.
Context {A S F : Type}.
Variable no_arg : A.
Variable no_sort : S.
Variable spare : nat -> nat.
Notation op := (op A S).
Notation world := (world A S F).
Notation value := (value A S F).

Lemma seen_fun : forall (w : world) f v, separate w -> In f (w_funcs w) -> seen w f v ->
  v = Value (match f_args f with None => None | _ => Some (read (w_args w) (f_args f)) end)
            (match f_opts f with None => None | _ => Some (read (w_opts w) (f_opts f)) end)
            (match f_sorts f with None => None | _ => Some (read (w_sorts w) (f_sorts f)) end) (f_rest f).
Proof.
  intros w f [va vo vs vr] (KA & KO & KS) I (H1 & H2 & H3 & H4). cbn in *.
  apply holds_read in H1; [|destruct KA as [V _]; rewrite Forall_forall in V; apply V, in_map; auto].
  apply holds_read in H2; [|destruct KO as [V _]; rewrite Forall_forall in V; apply V, in_map; auto].
  apply holds_read in H3; [|destruct KS as [V _]; rewrite Forall_forall in V; apply V, in_map; auto].
  subst. destruct f as [[fa|] [fo|] [fs|] fr]; reflexivity.
Qed.

(** one operation *)
Lemma step_right : forall (w : world) o ms vs, separate w -> views w (ms, vs) ->
  (exists w' y, do_op no_arg no_sort spare w o = Ok w' /\ step (ms, vs) o y /\ separate w' /\ views w' y) \/
  ((do_op no_arg no_sort spare w o = Panic \/ nth_error vs (target o) = None /\ do_op no_arg no_sort spare w o = Err) /\ forall y, ~ step (ms, vs) o y).
Proof.
  intros w o ms vs K (EM & FV). cbn in EM, FV. assert (LEN := F2_len _ _ _ _ _ FV). unfold do_op.
  destruct (nth_error (w_funcs w) (target o)) as [f|] eqn:EF.
  2:{ right. assert (EV : nth_error vs (target o) = None) by (apply nth_error_None; rewrite <- LEN; apply nth_error_None; auto).
      split; [auto|]. intros y Y. inversion Y; subst; cbn in EV; congruence. }
  destruct (F2_nth _ _ _ _ _ _ _ FV EF) as (v & EV & SV). assert (IF := nth_error_In _ _ EF).
  assert (VD := seen_fun w f v K IF SV). destruct K as (KA & KO & KS).
  assert (EA : nth_error (map f_args (w_funcs w)) (target o) = Some (f_args f)) by (apply map_nth_error; auto).
  assert (EO : nth_error (map f_opts (w_funcs w)) (target o) = Some (f_opts f)) by (apply map_nth_error; auto).
  assert (ES : nth_error (map f_sorts (w_funcs w)) (target o) = Some (f_sorts f)) by (apply map_nth_error; auto).
  assert (LT : target o < List.length vs) by (apply nth_error_Some; congruence).
  destruct f as [fa fo fs fr]. cbn [f_args f_opts f_sorts f_rest] in *.
  destruct o as [i|i j a|i j r|i j m|i j s|i s]; cbn [target] in *.
  - (* Clone *)
    left. unfold clone. cbn [f_args f_opts f_sorts f_rest].
    destruct (copy_slice no_arg (w_args w) fa) as [ha a'] eqn:CA. destruct (copy_slice 0 (w_opts w) fo) as [ho o'] eqn:CO.
    destruct (copy_slice no_sort (w_sorts w) fs) as [hs s'] eqn:CS.
    destruct (bank_copy _ _ _ _ _ _ _ KA EA CA) as (BA & OA & NA). destruct (bank_copy _ _ _ _ _ _ _ KO EO CO) as (BO & OO & NO).
    destruct (bank_copy _ _ _ _ _ _ _ KS ES CS) as (BS & OS & NS).
    eexists. exists (ms, vs ++ [v]). split; [reflexivity|]. split; [constructor; auto|]. split.
    + unfold separate. cbn. rewrite !map_app. auto.
    + split; auto. cbn. apply Forall2_app.
      *
        assert (G : forall fs0 vs0, Forall2 (seen w) fs0 vs0 -> (forall g, In g fs0 -> In g (w_funcs w)) ->
          Forall2 (seen {| w_args := ha; w_opts := ho; w_sorts := hs; w_msgs := w_msgs w; w_funcs := w_funcs w ++ [Func a' o' s' fr] |}) fs0 vs0).
        { intros fs0 vs0 H. induction H as [|g u fs0 vs0 H1 H2 IH]; intros I; constructor.
          - assert (G := I g (or_introl eq_refl)). destruct H1 as (H3 & H4 & H5 & H6).
            split; [apply OA; auto; apply in_map; auto|]. split; [apply OO; auto; apply in_map; auto|].
            split; [apply OS; auto; apply in_map; auto|]. auto.
          - apply IH. intros; apply I; right; auto. }
        apply G; auto.
      * constructor; [|constructor]. destruct SV as (H3 & H4 & H5 & H6). cbn in *. split; [apply NA; auto|]. split; [apply NO; auto|]. split; [apply NS; auto|]. auto.
  - (* SetArg *)
    unfold set_arg. cbn [f_args]. destruct fa as [x|].
    2:{ right. split; [left; reflexivity|]. intros y Y. inversion Y; subst. congruence. }
    assert (VX := bank_valid _ _ _ _ KA EA). assert (RL := read_len _ _ VX).
    destruct (lt_dec j (sl_len x)) as [L|L].
    + destruct (bank_write _ _ _ _ _ a KA EA L) as (h' & W & BW & OW & NW). rewrite W. cbn [bind]. left.
      eexists. eexists. split; [reflexivity|]. split.
      { eapply Step_arg; [rewrite EV; subst v; reflexivity| |apply sets_put; split; [auto|reflexivity]].
        apply sets_put. split; [rewrite RL; auto|reflexivity]. }
      split; [unfold separate; cbn; auto|]. split; [auto|]. cbn.
      rewrite <- (put_same _ (w_funcs w) i _ EF). eapply F2_put; [exact FV| |].
      * intros k g u N G U (H3 & H4 & H5 & H6). split; [|auto]. cbn. eapply OW; eauto. apply map_nth_error; auto.
      * destruct SV as (H3 & H4 & H5 & H6). subst v. cbn in *. split; auto.
    + right. unfold write. destruct (Nat.ltb_spec j (sl_len x)); [contradiction|]. split; [left; reflexivity|].
      intros y Y. inversion Y as [| ? ? ? ? ? l ? ? ? ? ? EV' ST| | | | |]; subst. rewrite EV in EV'. injection EV' as <- _ _ _.
      apply sets_put in ST. destruct ST as [ST _]. cbn [read] in *. lia.
  - (* SetOption *)
    unfold set_option. cbn [f_opts]. destruct fo as [x|].
    2:{ right. split; [left; reflexivity|]. intros y Y. inversion Y; subst. congruence. }
    assert (VX := bank_valid _ _ _ _ KO EO). assert (RL := read_len _ _ VX).
    destruct (lt_dec j (sl_len x)) as [L|L].
    + destruct (bank_write _ _ _ _ _ r KO EO L) as (h' & W & BW & OW & NW). rewrite W. cbn [bind]. left.
      eexists. eexists. split; [reflexivity|]. split.
      { eapply Step_option; [rewrite EV; subst v; reflexivity| |apply sets_put; split; [auto|reflexivity]].
        apply sets_put. split; [rewrite RL; auto|reflexivity]. }
      split; [unfold separate; cbn; auto|]. split; [auto|]. cbn.
      rewrite <- (put_same _ (w_funcs w) i _ EF). eapply F2_put; [exact FV| |].
      * intros k g u N G U (H3 & H4 & H5 & H6). split; [auto|]. split; [|auto]. cbn. eapply OW; eauto. apply map_nth_error; auto.
      * destruct SV as (H3 & H4 & H5 & H6). subst v. repeat split; first [exact H3|exact H4|exact H5|exact H6|exact NW|apply NW|apply H3|apply H4|apply H5].
    + right. unfold write. destruct (Nat.ltb_spec j (sl_len x)); [contradiction|]. split; [left; reflexivity|].
      intros y Y. inversion Y as [| | ? ? ? ? ? l o ? ? ? ? EV' ST| | | |]; subst. rewrite EV in EV'. injection EV' as _ <- _ _.
      apply sets_put in ST. destruct ST as [ST _]. cbn [read] in *. lia.
  - (* EditOption *)
    unfold edit_option. cbn [f_opts]. destruct (nth_error (read (w_opts w) fo) j) as [r|] eqn:ER.
    2:{ right. split; [left; reflexivity|]. intros y Y. inversion Y as [| | | ? ? ? ? ? l o ? ? n ? EV' EN ST| | |]; subst. rewrite EV in EV'.
        destruct fo as [x|]; [|discriminate]. injection EV' as _ <- _ _. cbn [read] in *. congruence. }
    assert (FO : exists x, fo = Some x) by (destruct fo as [x|]; [eauto|cbn in ER; destruct j; discriminate]). destruct FO as [x ->].
    destruct (Nat.ltb_spec r (List.length (w_msgs w))) as [L|L].
    + left. eexists. eexists. split; [reflexivity|]. split.
      { eapply Step_edit; [rewrite EV; subst v; reflexivity|exact ER|]. apply sets_put. split; [rewrite <- EM; auto|reflexivity]. }
      split; [unfold separate; cbn; auto|]. split; [cbn; congruence|]. cbn. exact FV.
    + right. split; [left; reflexivity|]. intros y Y. inversion Y as [| | | ? ? ? ? ? l o ? ? n ? EV' EN ST| | |]; subst. rewrite EV in EV'.
      injection EV' as _ <- _ _. apply sets_put in ST. cbn [read] in *. rewrite ER in EN. injection EN as <-. lia.
  - (* SetSort *)
    unfold set_sort. cbn [f_sorts]. destruct fs as [x|].
    2:{ right. split; [left; reflexivity|]. intros y Y. inversion Y; subst. congruence. }
    assert (VX := bank_valid _ _ _ _ KS ES). assert (RL := read_len _ _ VX).
    destruct (lt_dec j (sl_len x)) as [L|L].
    + destruct (bank_write _ _ _ _ _ s KS ES L) as (h' & W & BW & OW & NW). rewrite W. cbn [bind]. left.
      eexists. eexists. split; [reflexivity|]. split.
      { eapply Step_sort; [rewrite EV; subst v; reflexivity| |apply sets_put; split; [auto|reflexivity]].
        apply sets_put. split; [rewrite RL; auto|reflexivity]. }
      split; [unfold separate; cbn; auto|]. split; [auto|]. cbn.
      rewrite <- (put_same _ (w_funcs w) i _ EF). eapply F2_put; [exact FV| |].
      * intros k g u N G U (H3 & H4 & H5 & H6). split; [auto|]. split; [auto|]. split; [|auto]. cbn. eapply OW; eauto. apply map_nth_error; auto.
      * destruct SV as (H3 & H4 & H5 & H6). subst v. repeat split; first [exact H3|exact H4|exact H5|exact H6|exact NW|apply NW|apply H3|apply H4|apply H5].
    + right. unfold write. destruct (Nat.ltb_spec j (sl_len x)); [contradiction|]. split; [left; reflexivity|].
      intros y Y. inversion Y as [| | | | ? ? ? ? ? l o s0 ? ? ? EV' ST| |]; subst. rewrite EV in EV'. injection EV' as _ _ <- _.
      apply sets_put in ST. destruct ST as [ST _]. cbn [read] in *. lia.
  - (* AddSort *)
    left. unfold add_sort. cbn [f_args f_opts f_sorts f_rest]. destruct (append no_sort spare (w_sorts w) fs [s]) as [h' t] eqn:AP.
    destruct (bank_append _ _ _ _ _ _ _ _ _ KS ES AP) as (BW & OW & NW).
    eexists. exists (ms, put i (Value (v_args v) (v_opts v) (Some (read (w_sorts w) fs ++ [s])) (v_rest v)) vs).
    split; [reflexivity|]. split; [|split].
    + destruct fs as [x|].
      * eapply Step_add; [rewrite EV; subst v; reflexivity|]. apply sets_put. split; [auto|]. subst v. reflexivity.
      * eapply Step_add_nil; [rewrite EV; subst v; reflexivity|]. apply sets_put. split; [auto|]. subst v. reflexivity.
    + unfold separate. cbn. rewrite !map_put. cbn. rewrite (put_same _ _ _ _ EA), (put_same _ _ _ _ EO). auto.
    + split; [auto|]. cbn. eapply F2_put; [exact FV| |].
      * intros k g u N G U (H3 & H4 & H5 & H6). split; [auto|]. split; [auto|]. split; [|auto]. cbn. eapply OW; eauto. apply map_nth_error; auto.
      * destruct SV as (H3 & H4 & H5 & H6). split; [exact H3|]. split; [exact H4|]. split; [exact NW|exact H6].
Qed.

Lemma steps_right : forall os (w : world) ms vs, separate w -> views w (ms, vs) ->
  (exists w' y, run no_arg no_sort spare w os = Ok w' /\ steps (ms, vs) os y /\ separate w' /\ views w' y) \/
  ((run no_arg no_sort spare w os = Panic \/ run no_arg no_sort spare w os = Err) /\ forall y, ~ steps (ms, vs) os y).
Proof.
  induction os as [|o os IH]; intros w ms vs K V; cbn [run].
  - left. exists w, (ms, vs). split; auto. split; [constructor|auto].
  - destruct (step_right w o ms vs K V) as [(w1 & [ms1 vs1] & E1 & S1 & K1 & V1)|[E1 N1]].
    + rewrite E1. cbn [bind]. assert (U : forall z, step (ms, vs) o z -> z = (ms1, vs1)).
      { intros z Z. destruct S1; inversion Z; subst;
          repeat match goal with H : sets _ _ _ _ |- _ => apply sets_put in H; destruct H as [? ->] end; try reflexivity;
          repeat match goal with H1 : nth_error ?l ?i = Some _, H2 : nth_error ?l ?i = Some _ |- _ => rewrite H1 in H2; injection H2; clear H2; intros; subst end;
          try reflexivity; congruence. }
      destruct (IH w1 ms1 vs1 K1 V1) as [(w2 & y & E2 & S2 & K2 & V2)|[E2 N2]].
      * left. exists w2, y. split; auto. split; [econstructor; eauto|auto].
      * right. split; auto. intros y Y. inversion Y as [|x o' z os' y' ST STS]; subst. apply U in ST. subst. apply (N2 y). auto.
    + right. split; [destruct E1 as [-> | [_ ->]]; auto|]. intros y Y. inversion Y as [|x o' z os' y' ST STS]; subst. eapply N1; eauto.
Qed.

Lemma step_keeps : forall (x y : list fopt * list value) o k v, step x o y -> nth_error (snd x) k = Some v -> (target o <> k \/ o = Clone (target o)) ->
  nth_error (snd y) k = Some v.
Proof.
  intros x y o k v ST E N. destruct ST; cbn [snd target] in *;
    repeat match goal with H : sets _ _ _ _ |- _ => apply sets_put in H; destruct H as [? ->] end;
    try (rewrite put_nth; destruct (Nat.eqb_spec i k) as [->|]; [destruct N as [N|N]; [congruence|discriminate]|auto]); auto.
  rewrite nth_error_app1; auto. apply nth_error_Some. congruence.
Qed.
Lemma steps_keep : forall os (x y : list fopt * list value) k v, steps x os y -> nth_error (snd x) k = Some v ->
  (forall o, In o os -> target o <> k \/ o = Clone (target o)) -> nth_error (snd y) k = Some v.
Proof.
  intros os x y k v ST. induction ST as [x|x o y os z S1 S2 IH]; intros E N; auto. apply IH.
  - eapply step_keeps; eauto. apply N. left. auto.
  - intros p P. apply N. right. auto.
Qed.
End World.

Lemma find_option_ok : forall ms name rs p, find_option ms name rs = Ok p <-> option_of ms name rs p.
Proof.
  intros ms name rs. induction rs as [|r rs IH]; intros p; cbn [find_option].
  - split.
    + intros H. injection H as <-. constructor. intros r [].
    + intros H. inversion H as [rs' N|a r b p' N E X]; auto. destruct a; discriminate.
  - destruct (nth_error ms r) as [[n q]|] eqn:E.
    + destruct (String.eqb_spec name n) as [->|NE].
      * split.
        -- intros H. injection H as <-. apply (Option_first ms n [] r rs q); auto. intros x [].
        -- intros H. inversion H as [rs' N|a r' b p' N E' X]; subst.
           ++ destruct (N r (or_introl eq_refl)) as (m & t & E' & D). congruence.
           ++ destruct a as [|x a]; cbn in X; injection X as -> X; [congruence|]. destruct (N r (or_introl eq_refl)) as (m & t & E'' & D). congruence.
      * rewrite IH. split.
        -- intros H. inversion H as [rs' N|a r' b p' N E' X]; subst.
           ++ constructor. intros x [<-|I]; [exists n, q; auto|auto].
           ++ apply (Option_first ms name (r :: a) r' b p); auto. intros x [<-|I]; [exists n, q; auto|auto].
        -- intros H. inversion H as [rs' N|a r' b p' N E' X]; subst.
           ++ constructor. intros x I. apply N. right. auto.
           ++ destruct a as [|x a]; cbn in X; injection X as -> X; [congruence|]. subst rs. apply Option_first; auto. intros y I. apply N. right. auto.
    + split; [discriminate|]. intros H. inversion H as [rs' N|a r' b p' N E' X]; subst.
      * destruct (N r (or_introl eq_refl)) as (m & t & E' & D). congruence.
      * destruct a as [|x a]; cbn in X; injection X as -> X; [congruence|]. destruct (N r (or_introl eq_refl)) as (m & t & E'' & D). congruence.
Qed.
Lemma find_option_no_err : forall ms name rs, find_option ms name rs <> Err.
Proof. intros ms name rs. induction rs as [|r rs IH]; cbn; [discriminate|]. destruct (nth_error ms r) as [[n q]|]; [|discriminate]. destruct (String.eqb name n); [discriminate|auto]. Qed.
