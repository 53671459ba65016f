(** Proofs relating the names of TextSpec.v to the words of the lexer. *)

From Coq Require Import ZArith String Ascii Bool Lia List.
From Verif Require Import Base TypesModel TimeModel SigModel TextModel TextSpec TextLexProofs.
Import ListNotations.
Local Open Scope string_scope.

Lemma in_ascii : forall c l, In c l <-> existsb (Ascii.eqb c) l = true.
Proof.
  intros c l. rewrite existsb_exists. split.
  - intros H. exists c. split; [auto|apply Ascii.eqb_refl].
  - intros (x & Hx & E). apply Ascii.eqb_eq in E. subst. auto.
Qed.

Lemma letter_char_iff : forall c, letter_char c <-> is_letter c = true.
Proof.
  intros c. unfold letter_char. rewrite !in_ascii, <- !Ascii.eqb_eq.
  rewrite <- !orb_true_iff.
  assert (existsb (Ascii.eqb c) lower_letters || (existsb (Ascii.eqb c) upper_letters || (Ascii.eqb c "_" || Ascii.eqb c "$"))
          = is_letter c) as ->; [|tauto].
  destruct c as [[] [] [] [] [] [] [] []]; reflexivity.
Qed.
Lemma digit_char_iff : forall c, In c digit_chars <-> is_digit c = true.
Proof.
  intros c. rewrite in_ascii. assert (existsb (Ascii.eqb c) digit_chars = is_digit c) as ->; [|tauto].
  destruct c as [[] [] [] [] [] [] [] []]; reflexivity.
Qed.
Lemma upper_char_iff : forall c, In c upper_letters <-> in_range 65 90 c = true.
Proof.
  intros c. rewrite in_ascii. assert (existsb (Ascii.eqb c) upper_letters = in_range 65 90 c) as ->; [|tauto].
  destruct c as [[] [] [] [] [] [] [] []]; reflexivity.
Qed.

Lemma all_chars_iff : forall p s, all_chars p s = true <-> Forall (fun c => p c = true) (chars s).
Proof.
  intros p s. induction s as [|c s IH]; cbn.
  - split; auto.
  - rewrite andb_true_iff, IH. split; [intros [? ?]; constructor; auto|intros H; inversion H; auto].
Qed.

Lemma wordlike_iff : forall s, wordlike s <-> is_word s = true.
Proof.
  intros [|c s]; cbn [wordlike is_word]; [split; [tauto|discriminate]|].
  rewrite andb_true_iff, letter_char_iff, all_chars_iff. unfold is_word_char.
  split; intros [H1 H2]; (split; [auto|]); eapply Forall_impl; try eassumption; cbv beta; intros x Hx.
  - apply orb_true_iff. rewrite letter_char_iff, digit_char_iff in Hx. auto.
  - apply orb_true_iff in Hx. rewrite letter_char_iff, digit_char_iff. auto.
Qed.

(** ** letter case *)

Lemma lower_char_cases : forall c,
  (lower_char c = c /\ in_range 65 90 c = false) \/
  (exists i, nth_error upper_letters i = Some c /\ nth_error lower_letters i = Some (lower_char c)).
Proof.
  intros c. destruct (in_range 65 90 c) eqn:E.
  - right. exists (nat_of_ascii c - 65)%nat.
    revert E. destruct c as [[] [] [] [] [] [] [] []]; intros E; try discriminate E; split; reflexivity.
  - left. unfold lower_char. rewrite E. auto.
Qed.

Lemma letters_paired : forall i a b,
  nth_error lower_letters i = Some a -> nth_error upper_letters i = Some b ->
  lower_char a = a /\ lower_char b = a.
Proof.
  intros i a b Ha Hb.
  do 26 (destruct i as [|i]; [cbn in Ha, Hb; inversion Ha; inversion Hb; subst; split; reflexivity|]).
  cbn in Ha. destruct i; discriminate Ha.
Qed.
Lemma lower_nodup : NoDup lower_letters.
Proof.
  unfold lower_letters, chars. cbn.
  repeat (constructor; [cbn; intros H; repeat (destruct H as [H|H]; [discriminate H|]); exact H|]). constructor.
Qed.

Lemma same_letter_iff : forall a b, same_letter a b <-> lower_char a = lower_char b.
Proof.
  intros a b. unfold same_letter. split.
  - intros [<-|(i & [[Ha Hb]|[Ha Hb]])]; [reflexivity| |].
    + destruct (letters_paired _ _ _ Ha Hb). congruence.
    + destruct (letters_paired _ _ _ Hb Ha). congruence.
  - intros E. destruct (lower_char_cases a) as [[Ea _]|(i & Hu & Hl)], (lower_char_cases b) as [[Eb _]|(j & Hu' & Hl')].
    + left. congruence.
    + right. exists j. left. split; [congruence|auto].
    + right. exists i. right. split; [auto|congruence].
    + left. rewrite E in Hl. assert (i = j) as ->.
      { eapply NoDup_nth_error; [apply lower_nodup| |congruence]. apply nth_error_Some. congruence. }
      congruence.
Qed.

Lemma same_letters_iff : forall s t, same_letters s t <-> lower s = lower t.
Proof.
  unfold same_letters. induction s as [|c s IH]; intros [|d t]; cbn; split; intros H.
  - reflexivity.
  - constructor.
  - inversion H.
  - discriminate.
  - inversion H.
  - discriminate.
  - inversion H as [|? ? ? ? Hc Ht]; subst. apply same_letter_iff in Hc. apply IH in Ht. congruence.
  - inversion H as [[Hc Ht]]. constructor; [apply same_letter_iff; auto|apply IH; auto].
Qed.

Lemma lower_fixed : forall s, uncapitalised s -> lower s = s.
Proof.
  unfold uncapitalised. induction s as [|c s IH]; cbn; intros H; [reflexivity|].
  inversion H as [|? ? Hc Hs]; subst. rewrite IH by auto. f_equal.
  unfold lower_char. destruct (in_range 65 90 c) eqn:E; [|reflexivity]. exfalso. apply Hc, upper_char_iff. auto.
Qed.

Lemma reserved_iff : forall s, reserved s <-> In (lower s) keywords.
Proof.
  intros s. unfold reserved.
  assert (forall w, In w reserved_words -> lower w = w) as L.
  { intros w Hw. repeat (destruct Hw as [<-|Hw]; [reflexivity|]). destruct Hw. }
  split.
  - intros (w & Hw & E). apply same_letters_iff in E. rewrite E, (L w Hw). exact Hw.
  - intros H. exists (lower s). split; [exact H|]. apply same_letters_iff. symmetry. apply L. exact H.
Qed.

Lemma digit_lower : forall d, is_digit d = true -> lower_char d = d.
Proof. intros d. destruct d as [[] [] [] [] [] [] [] []]; intros H; try discriminate H; reflexivity. Qed.

Lemma any_variable_iff : forall s, any_variable s <-> is_any_var s = true.
Proof.
  intros s. unfold any_variable, is_any_var. split.
  - intros (d & Hd & E). apply digit_char_iff in Hd. apply same_letters_iff in E. rewrite E. cbn [lower].
    rewrite (digit_lower d Hd). exact Hd.
  - intros H. assert (exists d, is_digit d = true /\ lower s = String "a" (String "n" (String "y" (String d "")))) as (d & Hd & E).
    { destruct (lower s) as [|a [|b [|c [|d [|x l]]]]];
        try (exfalso; revert H; destruct a as [[] [] [] [] [] [] [] []]; discriminate).
      - exfalso. discriminate H.
      - exfalso. revert H. destruct a as [[] [] [] [] [] [] [] []]; try discriminate.
        destruct b as [[] [] [] [] [] [] [] []]; discriminate.
      - exfalso. revert H. destruct a as [[] [] [] [] [] [] [] []]; try discriminate.
        destruct b as [[] [] [] [] [] [] [] []]; try discriminate. destruct c as [[] [] [] [] [] [] [] []]; discriminate.
      - revert H. destruct a as [[] [] [] [] [] [] [] []]; try discriminate.
        destruct b as [[] [] [] [] [] [] [] []]; try discriminate. destruct c as [[] [] [] [] [] [] [] []]; try discriminate.
        intros H. exists d. split; [exact H|reflexivity].
      - exfalso. revert H. destruct a as [[] [] [] [] [] [] [] []]; try discriminate.
        destruct b as [[] [] [] [] [] [] [] []]; try discriminate. destruct c as [[] [] [] [] [] [] [] []]; try discriminate. }
    exists d. split; [apply digit_char_iff; auto|]. apply same_letters_iff. rewrite E. cbn [lower].
    rewrite (digit_lower d Hd). reflexivity.
Qed.

Lemma keyword_in : forall s, existsb (String.eqb (lower s)) keywords = true <-> In (lower s) keywords.
Proof.
  intros s. rewrite existsb_exists. split.
  - intros (x & Hx & E). apply String.eqb_eq in E. subst. auto.
  - intros H. exists (lower s). split; [auto|apply String.eqb_refl].
Qed.

Lemma identifier_iff : forall s, identifier s <-> is_word s = true /\ word s = TId s.
Proof.
  intros s. unfold identifier. rewrite wordlike_iff, reserved_iff, any_variable_iff. unfold word.
  rewrite <- keyword_in. destruct (existsb _ keywords), (is_any_var s);
    (split; [intros (? & ? & ?)|intros (? & ?)]); repeat split; auto; congruence.
Qed.
Lemma identifier_word : forall s, identifier s -> is_word s = true.
Proof. intros s H. apply identifier_iff in H. tauto. Qed.
Lemma identifier_tok : forall s, identifier s -> word s = TId s.
Proof. intros s H. apply identifier_iff in H. tauto. Qed.

Lemma any_variable_word : forall s, any_variable s -> is_word s = true /\ word s = TAnyVar s.
Proof.
  intros s (d & Hd & E). apply digit_char_iff in Hd.
  assert (is_any_var s = true) as Hv by (apply any_variable_iff; exists d; split; [apply digit_char_iff|]; auto).
  pose proof E as E'. apply same_letters_iff in E'. cbn [lower] in E'. rewrite (digit_lower d Hd) in E'. split.
  - unfold same_letters in E. destruct s as [|a [|b [|c [|x [|y s]]]]]; cbn in E; try discriminate E'.
    inversion E' as [[Ea Eb Ec Ex]].
    assert (forall u v, lower_char u = v -> is_letter v = true -> is_letter u = true) as Hl.
    { intros u v <-. destruct u as [[] [] [] [] [] [] [] []]; intros H; try discriminate H; reflexivity. }
    assert (lower_char x = x) as Hx.
    { destruct (lower_char_cases x) as [[Hx _]|(i & Hu & Hlo)]; [auto|exfalso].
      rewrite Ex in Hlo. apply nth_error_In in Hlo. apply in_ascii in Hlo. revert Hlo.
      destruct d as [[] [] [] [] [] [] [] []]; try discriminate Hd; discriminate. }
    cbn [is_word all_chars]. unfold is_word_char.
    rewrite (Hl a "a"%char), (Hl b "n"%char), (Hl c "y"%char) by auto. rewrite Hx in Ex. subst x. rewrite Hd, orb_true_r. reflexivity.
  - unfold word. rewrite Hv. destruct (existsb _ keywords) eqn:Ek; [exfalso|reflexivity].
    apply keyword_in in Ek. rewrite E' in Ek.
    destruct d as [[] [] [] [] [] [] [] []]; try discriminate Hd; cbn in Ek;
      repeat (destruct Ek as [Ek|Ek]; [discriminate Ek|]); exact Ek.
Qed.
