(** The lexer of the model takes the longest match of the lexical rules. *)

From Coq Require Import ZArith String Ascii Bool Lia List.
From Verif Require Import Base TypesModel TimeModel SigModel TextModel TextSpec TextGrammarSpec
  TextLexProofs TextNameProofs TextSaneProofs.
Import ListNotations.
Local Open Scope string_scope.

Definition is_blank (c : ascii) : bool := existsb (Ascii.eqb c) [" "; "009"; "013"]%char.
Definition in_line (c : ascii) : bool := negb (Ascii.eqb c "010" || Ascii.eqb c "013").

Lemma forall_chars : forall (P : ascii -> Prop) p, (forall c, P c <-> p c = true) -> forall s, Forall P (chars s) <-> all_chars p s = true.
Proof.
  intros P p H. induction s as [|c s IH]; cbn; [split; auto|]. rewrite andb_true_iff, <- IH, <- H.
  split; [intros K; inversion K; auto|intros [K1 K2]; constructor; auto].
Qed.
Lemma stars_iff : forall s, stars s <-> all_chars (Ascii.eqb "*") s = true.
Proof. apply forall_chars. intros c. rewrite Ascii.eqb_eq. split; congruence. Qed.
Lemma blanks_iff : forall s, Forall (fun c => In c [" "; "009"; "013"]%char) (chars s) <-> all_chars is_blank s = true.
Proof. apply forall_chars. intros c. apply in_ascii. Qed.
Lemma in_line_iff : forall s, Forall (fun c => c <> "010" /\ c <> "013")%char (chars s) <-> all_chars in_line s = true.
Proof.
  apply forall_chars. intros c. unfold in_line. rewrite negb_true_iff, orb_false_iff, !Ascii.eqb_neq. tauto.
Qed.
Lemma number_text_iff : forall s, number_text s <-> is_number s = true.
Proof.
  intros s. unfold number_text. split.
  - intros [-> | (c & r & -> & Hc & H0 & Hr)]; [reflexivity|]. cbn [is_number]. apply digit_char_iff in Hc.
    apply (forall_chars _ is_digit digit_char_iff) in Hr. rewrite Hc, Hr. apply Ascii.eqb_neq in H0. rewrite H0. reflexivity.
  - destruct s as [|c r]; [discriminate|]. cbn [is_number]. rewrite !andb_true_iff, orb_true_iff, negb_true_iff, String.eqb_eq.
    intros [[Hc Hr] H]. destruct (Ascii.eqb_spec c "0") as [->|H0].
    + destruct H as [H| ->]; [discriminate|]. auto.
    + right. exists c, r. split; [reflexivity|]. split; [apply digit_char_iff; auto|]. split; [auto|].
      apply (forall_chars _ is_digit digit_char_iff). auto.
Qed.

(** ** comments *)

Lemma drop_stars_app : forall w c r, stars w -> c <> "*"%char -> drop_stars (w ++ String c r) = String c r.
Proof.
  intros w c r H N. unfold drop_stars. rewrite span_app; [reflexivity|apply stars_iff; auto|].
  cbn [first_is]. apply Ascii.eqb_neq. auto.
Qed.
Lemma stars_star : forall w, stars w -> stars (String "*" w). Proof. intros w H. constructor; auto. Qed.
Lemma stars_swap : forall w r, stars w -> w ++ String "*" r = String "*" (w ++ r).
Proof. induction w as [|c w IH]; intros r H; [reflexivity|]. inversion H; subst. cbn. rewrite IH; auto. Qed.
Lemma closing_app : forall w r, stars w -> closing (w ++ "*/" ++ r) = Some r.
Proof.
  intros w r H. cbn [String.append]. rewrite stars_swap by auto. unfold closing. rewrite Ascii.eqb_refl.
  change (String "*" (w ++ String "/" r)) with (String "*" w ++ String "/" r).
  rewrite drop_stars_app; [reflexivity|apply stars_star; auto|discriminate].
Qed.
Lemma span_split : forall p s a b, span p s = (a, b) -> s = a ++ b /\ all_chars p a = true /\ first_is p b = false.
Proof.
  intros p. induction s as [|c s IH]; intros a b E; cbn in E; [inversion E; subst; auto|]. destruct (p c) eqn:P.
  - destruct (span p s) as [a' b']. inversion E; subst. destruct (IH _ _ eq_refl) as (-> & H & F). cbn. rewrite P, H. auto.
  - inversion E; subst. cbn. auto.
Qed.
Lemma drop_stars_split : forall s, exists w, stars w /\ s = w ++ drop_stars s /\ first_is (Ascii.eqb "*") (drop_stars s) = false.
Proof.
  intros s. unfold drop_stars. destruct (span (Ascii.eqb "*") s) as [a b] eqn:E. destruct (span_split _ _ _ _ E) as (H1 & H2 & H3).
  exists a. split; [apply stars_iff; auto|]. auto.
Qed.
Lemma closing_inv : forall s r, closing s = Some r -> exists w, stars w /\ s = w ++ "*/" ++ r.
Proof.
  intros s r E. unfold closing in E. destruct s as [|c s]; [discriminate|]. destruct (Ascii.eqb_spec c "*"); [subst c|discriminate].
  destruct (drop_stars_split (String "*" s)) as (w & Hw & H & F). destruct (drop_stars (String "*" s)) as [|d r'] eqn:D; [discriminate|].
  destruct (Ascii.eqb_spec d "/"); [subst d|discriminate]. inversion E; subst.
  destruct w as [|x w]; [cbn in H; inversion H|]. inversion Hw; subst. exists w. split; [auto|].
  rewrite H. cbn [String.append]. rewrite stars_swap by auto. reflexivity.
Qed.
Lemma comment_app : forall c w r, c <> "*"%char -> stars w -> block_comment (String c (w ++ "*/") ++ r) = Some r.
Proof.
  intros c w r N H. cbn [String.append block_comment]. apply Ascii.eqb_neq in N. rewrite N. rewrite app_assoc_s. apply closing_app. auto.
Qed.
Lemma star_comment_app : forall v c w r, v <> "" -> stars v -> c <> "*"%char -> c <> "/"%char -> stars w ->
  block_comment ((v ++ String c (w ++ "*/")) ++ r) = Some r.
Proof.
  intros v c w r N Hv N1 N2 Hw. destruct v as [|x v]; [congruence|]. inversion Hv; subst. rewrite app_assoc_s. cbn [String.append block_comment].
  rewrite Ascii.eqb_refl. change (String "*" (v ++ String c ((w ++ "*/") ++ r))) with (String "*" v ++ String c ((w ++ "*/") ++ r)).
  rewrite drop_stars_app by (auto using stars_star). apply Ascii.eqb_neq in N2. rewrite N2, app_assoc_s. apply closing_app. auto.
Qed.
Lemma block_comment_inv : forall s r, block_comment s = Some r -> exists v, s = v ++ r /\ lexeme ("/*" ++ v) None.
Proof.
  intros s r E. unfold block_comment in E. destruct s as [|c s]; [discriminate|]. destruct (Ascii.eqb_spec c "*"); [subst c|].
  - destruct (drop_stars_split (String "*" s)) as (v & Hv & H & F). destruct (drop_stars (String "*" s)) as [|d r'] eqn:D; [discriminate|].
    destruct (Ascii.eqb_spec d "/"); [discriminate|]. apply closing_inv in E as (w & Hw & ->).
    exists (v ++ String d (w ++ "*/")). split; [rewrite H, app_assoc_s; cbn; rewrite app_assoc_s; reflexivity|].
    apply L_star_comment; auto. { intros ->. cbn in H. inversion H; subst. discriminate F. }
    cbn [first_is] in F. apply Ascii.eqb_neq in F. auto.
  - apply closing_inv in E as (w & Hw & ->). exists (String c (w ++ "*/")). split; [cbn; rewrite app_assoc_s; reflexivity|].
    apply L_comment; auto.
Qed.

(** ** how a lexeme starts *)

Inductive shape (c : ascii) (q : string) : Prop :=
| S_word : is_letter c = true -> all_chars is_word_char q = true -> shape c q
| S_user : is_letter c = true -> lower_char c = "u"%char -> q = "!" -> shape c q
| S_number : is_digit c = true -> is_number (String c q) = true -> shape c q
| S_negative : c = "-"%char -> is_number q = true -> shape c q
| S_symbol : In (String c q) symbols -> shape c q
| S_newline : c = "010"%char -> q = "" -> shape c q
| S_return : c = "013"%char -> q = String "010" "" -> shape c q
| S_blank : is_blank c = true -> all_chars is_blank q = true -> shape c q
| S_line w : c = "/"%char -> q = String "/" w -> all_chars in_line w = true -> shape c q
| S_comment v : c = "/"%char -> q = String "*" v -> (forall r, block_comment (v ++ r) = Some r) -> shape c q.

Lemma word_shape : forall w, is_word w = true -> exists c q, w = String c q /\ shape c q.
Proof.
  intros [|c q] H; [discriminate|]. exists c, q. split; [reflexivity|]. cbn in H. apply andb_true_iff in H as [H1 H2]. apply S_word; auto.
Qed.
Lemma number_shape : forall w, is_number w = true -> exists c q, w = String c q /\ is_digit c = true.
Proof. intros [|c q] H; [discriminate|]. exists c, q. cbn in H. rewrite !andb_true_iff in H. tauto. Qed.
Lemma user_text : forall w, same_letters w "u!" -> exists c, w = String c "!" /\ is_letter c = true /\ lower_char c = "u"%char.
Proof.
  intros w H. apply same_letters_iff in H. destruct w as [|c [|d [|x w]]]; try discriminate H.
  inversion H as [[Hc Hd]]. exists c.
  assert (d = "!"%char) as ->. { clear -Hd. destruct d as [[] [] [] [] [] [] [] []]; try discriminate Hd; reflexivity. }
  split; [reflexivity|]. split; [|exact Hc]. clear -Hc. destruct c as [[] [] [] [] [] [] [] []]; try discriminate Hc; reflexivity.
Qed.
Lemma reserved_word : forall k w, In k reserved_words -> same_letters w k -> is_word w = true /\ word w = TKw k.
Proof.
  intros k w Hk S.
  assert (reserved w) as R by (exists k; auto). apply reserved_iff in R. apply same_letters_iff in S.
  assert (lower k = k) as L. { clear -Hk. repeat (destruct Hk as [<-|Hk]; [reflexivity|]). destruct Hk. }
  split.
  - apply wordlike_iff. assert (is_word k = true) as W. { clear -Hk. repeat (destruct Hk as [<-|Hk]; [reflexivity|]). destruct Hk. }
    apply wordlike_iff.
    clear -S W L. rewrite L in S. subst k. destruct w as [|c w]; [discriminate W|]. cbn in *. apply andb_true_iff in W as [W1 W2]. apply andb_true_iff.
    assert (forall c, is_letter (lower_char c) = is_letter c) as H1 by (intros x; destruct x as [[] [] [] [] [] [] [] []]; reflexivity).
    assert (forall c, is_word_char (lower_char c) = is_word_char c) as H2 by (intros x; destruct x as [[] [] [] [] [] [] [] []]; reflexivity).
    rewrite H1 in W1. split; [auto|]. clear -W2 H2. induction w as [|d w IH]; [reflexivity|]. cbn in *. rewrite H2 in W2.
    apply andb_true_iff in W2 as [-> W2]. cbn. auto.
  - unfold word. apply keyword_in in R. rewrite R. congruence.
Qed.

Lemma lexeme_shape : forall p t, lexeme p t -> exists c q, p = String c q /\ shape c q.
Proof.
  intros p t H. destruct H as [w k Hk S|w S|w A|w A|w N|w N|w Hw| | |w N B|w L|c w N W|v c w N V N1 N2 W].
  - apply word_shape. apply (reserved_word k w); auto.
  - apply user_text in S as (c & -> & Hl & Hu). exists c, "!". split; [reflexivity|]. apply S_user; auto.
  - apply word_shape, any_variable_word; auto.
  - apply word_shape, identifier_word; auto.
  - apply number_text_iff in N. destruct (number_shape _ N) as (c & q & -> & D). exists c, q. split; [reflexivity|]. apply S_number; auto.
  - apply number_text_iff in N. exists "-"%char, w. split; [reflexivity|]. apply S_negative; auto.
  - destruct w as [|c q]; [exfalso; cbn in Hw; repeat (destruct Hw as [Hw|Hw]; [discriminate Hw|]); destruct Hw|].
    exists c, q. split; [reflexivity|]. apply S_symbol; auto.
  - eexists _, _. split; [reflexivity|]. apply S_newline; auto.
  - eexists _, _. split; [reflexivity|]. apply S_return; auto.
  - destruct w as [|c q]; [congruence|]. exists c, q. split; [reflexivity|]. apply blanks_iff in B. cbn [all_chars] in B. apply andb_true_iff in B as [B1 B2].
    apply S_blank; auto.
  - eexists _, _. split; [reflexivity|]. apply (S_line _ _ w); auto. apply in_line_iff. auto.
  - eexists _, _. split; [reflexivity|]. apply (S_comment _ _ (String c (w ++ "*/"))); auto. intros r. apply comment_app; auto.
  - eexists _, _. split; [reflexivity|]. apply (S_comment _ _ (v ++ String c (w ++ "*/"))); auto. intros r. apply star_comment_app; auto.
Qed.

(** ** a lexeme on its own *)

Lemma lex_blanks : forall w r, all_chars is_blank w = true -> lex (w ++ r) = lex r.
Proof.
  induction w as [|c w IH]; intros r H; [reflexivity|]. cbn [all_chars] in H. apply andb_true_iff in H as [Hc H]. cbn [String.append].
  rewrite lex_cons. rewrite <- (IH r H). unfold is_blank in Hc. cbn [existsb] in Hc. rewrite !orb_true_iff, !Ascii.eqb_eq in Hc.
  destruct Hc as [-> |[-> |[-> |Hc]]]; [| | |discriminate]; (destruct (w ++ r); reflexivity).
Qed.
Definition given (t : option tok) (l : list tok) : list tok := match t with Some x => x :: l | None => l end.

Lemma lex_line : forall w, all_chars in_line w = true -> lex ("//" ++ w) = [].
Proof.
  intros w H. cbn [String.append]. rewrite lex_cons. unfold next. change (is_letter "/") with false. change (is_digit "/") with false.
  change (Ascii.eqb "/" "010") with false. change (Ascii.eqb "/" "-" && first_is is_digit (String "/" w)) with false.
  change (Ascii.eqb "/" "/" && first_is (Ascii.eqb "/") (String "/" w)) with true. cbv iota.
  pose proof (span_app in_line (String "/" w) "" H eq_refl) as E. rewrite app_empty_r in E.
  change (fun d => negb (Ascii.eqb d "010" || Ascii.eqb d "013")) with in_line. rewrite E. reflexivity.
Qed.
Lemma lex_comment : forall v r, block_comment v = Some r -> lex ("/*" ++ v) = lex r.
Proof.
  intros v r H. cbn [String.append]. rewrite lex_cons. unfold next. change (is_letter "/") with false. change (is_digit "/") with false.
  change (Ascii.eqb "/" "010") with false. change (Ascii.eqb "/" "-" && first_is is_digit (String "*" v)) with false.
  change (Ascii.eqb "/" "/" && first_is (Ascii.eqb "/") (String "*" v)) with false.
  change (Ascii.eqb "/" "/" && first_is (Ascii.eqb "*") (String "*" v)) with true. cbv iota. cbn [str_tail]. rewrite H. reflexivity.
Qed.

Lemma lex_user_any : forall c r, is_letter c = true -> lower_char c = "u"%char -> lex (String c (String "!" r)) = TKw "u!" :: lex r.
Proof.
  intros c r H U. rewrite lex_cons. unfold next. rewrite H. cbn [span]. change (is_word_char "!") with false. cbn [lower]. rewrite U. reflexivity.
Qed.

Lemma lexeme_alone : forall p t, lexeme p t -> lex p = given t [].
Proof.
  assert (forall w, is_word w = true -> lex w = [word w]) as HW.
  { intros w Hw. rewrite <- (app_empty_r w) at 1. rewrite lex_word; auto. exact I. }
  assert (forall v, (forall r, block_comment (v ++ r) = Some r) -> lex ("/*" ++ v) = []) as HC.
  { intros v Hv. specialize (Hv ""). rewrite app_empty_r in Hv. rewrite (lex_comment _ _ Hv). reflexivity. }
  intros p t H. destruct H as [w k Hk S|w S|w A|w A|w N|w N|w Hw| | |w N B|w L|c w N W|v c w N V N1 N2 W]; cbn [given].
  - destruct (reserved_word _ _ Hk S) as [W E]. rewrite HW, E; auto.
  - apply user_text in S as (c & -> & Hl & Hu). rewrite lex_user_any; auto.
  - destruct (any_variable_word _ A) as [W E]. rewrite HW, E; auto.
  - rewrite HW by (apply identifier_word; auto). rewrite identifier_tok by auto. reflexivity.
  - apply number_text_iff in N. destruct (lex_unsigned w "" N eq_refl) as [E _]. rewrite app_empty_r in E. exact E.
  - apply number_text_iff in N. destruct (lex_unsigned w "" N eq_refl) as [_ E]. rewrite app_empty_r in E. exact E.
  - cbn in Hw. repeat (destruct Hw as [<-|Hw]; [reflexivity|]). destruct Hw.
  - reflexivity.
  - reflexivity.
  - apply blanks_iff in B. rewrite <- (app_empty_r w). rewrite lex_blanks; auto.
  - apply lex_line, in_line_iff. auto.
  - apply HC. intros r. apply comment_app; auto.
  - apply HC. intros r. apply star_comment_app; auto.
Qed.

(** ** the longest match *)

Lemma app_length_s : forall a b : string, String.length (a ++ b) = (String.length a + String.length b)%nat.
Proof. induction a; intros; cbn; auto. Qed.
Lemma app_inj_len : forall a b c d : string, a ++ b = c ++ d -> String.length a = String.length c -> a = c /\ b = d.
Proof.
  induction a as [|x a IH]; intros b [|y c] d E L; try discriminate L; [auto|]. cbn in E. inversion E; subst.
  destruct (IH b c d) as [-> ->]; auto.
Qed.
(** A prefix made of characters of a class is no longer than the run of that class. *)
Lemma run_longest : forall p a b q s, a ++ b = q ++ s -> first_is p b = false -> all_chars p q = true -> (String.length q <= String.length a)%nat.
Proof.
  intros p. induction a as [|x a IH]; intros b q s E F A.
  - destruct q as [|y q]; [auto|]. cbn in E. subst b. cbn [first_is all_chars] in *. rewrite F in A. discriminate A.
  - destruct q as [|y q]; cbn; [lia|]. cbn in E. inversion E; subst. cbn [all_chars] in A. apply andb_true_iff in A as [_ A].
    apply le_n_S. eapply IH; eauto.
Qed.

Definition longest (p r : string) : Prop :=
  forall q s u, p ++ r = q ++ s -> lexeme q u -> (String.length q <= String.length p)%nat.

Lemma symbols_first : forall c q, In (String c q) symbols -> existsb (Ascii.eqb c) symbols1 = true.
Proof. intros c q H. cbn in H. repeat (destruct H as [H|H]; [inversion H; reflexivity|]). destruct H. Qed.
Lemma symbols_two : forall c q, In (String c q) symbols -> q = "" \/ exists d, q = String d "" /\ existsb (String.eqb (String c q)) symbols2 = true.
Proof. intros c q H. cbn in H. repeat (destruct H as [H|H]; [inversion H; subst; auto; right; eexists; split; reflexivity|]). destruct H. Qed.
Lemma symbols1_in : forall c, existsb (Ascii.eqb c) symbols1 = true -> In (String c "") symbols.
Proof. intros c H. apply in_ascii in H. cbn in H. repeat (destruct H as [<-|H]; [cbn; tauto|]). destruct H. Qed.
Lemma symbols2_in : forall c s, existsb (String.eqb (String c (first_char s))) symbols2 = true ->
  exists d r, s = String d r /\ In (String c (String d "")) symbols.
Proof.
  intros c s H. apply existsb_exists in H as (x & Hx & E). apply String.eqb_eq in E. subst x. destruct s as [|d r].
  - cbn in Hx. repeat (destruct Hx as [Hx|Hx]; [discriminate Hx|]). destruct Hx.
  - exists d, r. split; [reflexivity|]. cbn [first_char] in Hx. cbn in Hx. repeat (destruct Hx as [Hx|Hx]; [inversion Hx; cbn; tauto|]). destruct Hx.
Qed.
Lemma digit_not_letter : forall c, is_digit c = true -> is_letter c = false.
Proof. intros c. destruct c as [[] [] [] [] [] [] [] []]; intros H; try discriminate H; reflexivity. Qed.
Lemma symbol_class : forall c, existsb (Ascii.eqb c) symbols1 = true ->
  is_letter c = false /\ is_digit c = false /\ is_blank c = false /\ c <> "010"%char /\ c <> "013"%char.
Proof. intros c H. apply in_ascii in H. cbn in H. repeat (destruct H as [<-|H]; [repeat split; discriminate|]). destruct H. Qed.
Lemma blank_class : forall c, is_blank c = true -> is_letter c = false /\ is_digit c = false /\ existsb (Ascii.eqb c) symbols1 = false.
Proof. intros c H. unfold is_blank in H. apply in_ascii in H. cbn in H. repeat (destruct H as [<-|H]; [repeat split|]). destruct H. Qed.

Ltac classes c := (* contradictory classes of a first character *)
  try match goal with H : is_blank c = true |- _ => discriminate H end;
  repeat match goal with
  | H : In (String c _) symbols |- _ => apply symbols_first, symbol_class in H as (? & ? & ? & ? & ?)
  | H : is_blank c = true |- _ => apply blank_class in H as (? & ? & ?)
  | H : is_digit c = true |- _ => pose proof (digit_not_letter _ H); revert H
  end; intros; subst; try discriminate; try congruence.

Lemma tokens_lex : forall s, tokens s (lex s).
Proof.
  assert (forall n s, (String.length s <= n)%nat -> tokens s (lex s)) as H; [|intros s; apply (H _ s (le_n _))].
  induction n as [|n IH]; intros s L; [destruct s; [constructor|cbn in L; lia]|].
  assert (forall p r t, s = p ++ r -> lexeme p t -> longest p r -> lex s = given t (lex r) -> tokens s (lex s)) as M.
  { intros p r t -> Hp Hl ->. apply T_match; auto. apply IH.
    apply lexeme_shape in Hp as (c & q & -> & _). cbn [String.append String.length] in L. rewrite app_length_s in L. lia. }
  destruct s as [|c s]; [constructor|]. cbn in L.
  pose proof (lex_cons c s) as E. unfold next in E.
  destruct (is_letter c) eqn:El.
  { destruct (span is_word_char s) as [w r] eqn:Es. destruct (span_split _ _ _ _ Es) as (-> & Hw & Hr).
    destruct (String.eqb_spec (lower (String c w)) "u") as [U|U]; [destruct (first_is (Ascii.eqb "!") r) eqn:B|]; cbn [andb] in E.
    - destruct r as [|x r]; [discriminate B|]. cbn [first_is] in B. apply Ascii.eqb_eq in B. subst x. cbn [str_tail] in E.
      assert (w = "" /\ lower_char c = "u"%char) as [-> Uc] by (destruct w; inversion U; auto).
      apply (M (String c "!") r (Some (TKw "u!"))); auto.
      + apply L_user. apply same_letters_iff. cbn [lower]. rewrite Uc. reflexivity.
      + intros q s' u Eq Hq. apply lexeme_shape in Hq as (c' & q' & -> & Sh). cbn in Eq. inversion Eq as [[Ec Eq']]; subst c'.
        destruct Sh; classes c; cbn; try lia.
        destruct q' as [|x q']; cbn; [lia|]. cbn in Eq'. inversion Eq'; subst. discriminate.
    - apply (M (String c w) r (Some (word (String c w)))); auto.
      + assert (is_word (String c w) = true) as W by (cbn; rewrite El, Hw; reflexivity).
        unfold word. destruct (existsb (String.eqb (lower (String c w))) keywords) eqn:K.
        * apply keyword_in in K. apply L_keyword; [exact K|]. apply lower_same.
        * destruct (is_any_var (String c w)) eqn:A; [apply L_any, any_variable_iff; auto|].
          apply L_identifier, identifier_iff. split; [auto|]. unfold word. rewrite K, A. reflexivity.
      + intros q s' u Eq Hq. apply lexeme_shape in Hq as (c' & q' & -> & Sh). cbn in Eq. inversion Eq as [[Ec Eq']]; subst c'.
        cbn [String.length]. apply le_n_S. destruct Sh; classes c.
        * eapply run_longest; eauto.
        * destruct w as [|x w]; cbn; [|lia]. cbn in Eq'. subst r. discriminate B.
    - apply (M (String c w) r (Some (word (String c w)))); auto.
      + assert (is_word (String c w) = true) as W by (cbn; rewrite El, Hw; reflexivity).
        unfold word. destruct (existsb (String.eqb (lower (String c w))) keywords) eqn:K.
        * apply keyword_in in K. apply L_keyword; [exact K|]. apply lower_same.
        * destruct (is_any_var (String c w)) eqn:A; [apply L_any, any_variable_iff; auto|].
          apply L_identifier, identifier_iff. split; [auto|]. unfold word. rewrite K, A. reflexivity.
      + intros q s' u Eq Hq. apply lexeme_shape in Hq as (c' & q' & -> & Sh). cbn in Eq. inversion Eq as [[Ec Eq']]; subst c'.
        cbn [String.length]. apply le_n_S. destruct Sh; classes c.
        * eapply run_longest; eauto.
        * destruct w as [|x w]; cbn; [|lia]. exfalso. apply U. cbn [lower]. congruence. }
  assert (forall c s n r, is_digit c = true -> number c s = (n, r) -> exists n', n = String c n' /\ s = n' ++ r /\ is_number n = true /\
    forall q s', n' ++ r = q ++ s' -> is_number (String c q) = true -> (String.length q <= String.length n')%nat) as HN.
  { clear. intros c s n r D E. unfold number in E. destruct (Ascii.eqb_spec c "0") as [->|N].
    - inversion E; subst. exists "". repeat split. intros q s' _ Hq. cbn [is_number] in Hq. rewrite !andb_true_iff, orb_true_iff in Hq.
      destruct Hq as [_ [Hq|Hq]]; [discriminate Hq|]. apply String.eqb_eq in Hq. subst q. auto.
    - destruct (span is_digit s) as [a b] eqn:Es. destruct (span_split _ _ _ _ Es) as (-> & Ha & Hb). inversion E; subst.
      exists a. split; [reflexivity|]. split; [reflexivity|]. split.
      + cbn [is_number]. rewrite D, Ha. apply Ascii.eqb_neq in N. rewrite N. reflexivity.
      + intros q s' Eq Hq. cbn [is_number] in Hq. rewrite !andb_true_iff in Hq. eapply run_longest; [exact Eq|exact Hb|tauto]. }
  destruct (is_digit c) eqn:Ed.
  { destruct (number c s) as [nn r] eqn:En. destruct (HN _ _ _ _ Ed En) as (n' & -> & -> & Hn & Hl).
    apply (M (String c n') r (Some (TNum (String c n')))); auto.
    - apply L_number, number_text_iff. auto.
    - intros q s' u Eq Hq. apply lexeme_shape in Hq as (c' & q' & -> & Sh). cbn in Eq. inversion Eq as [[Ec Eq']]; subst c'.
      cbn [String.length]. apply le_n_S. destruct Sh; classes c. eapply Hl; eauto. }
  destruct (Ascii.eqb_spec c "010") as [->|Nn].
  { apply (M (String "010" "") s (Some TNl)); auto using L_newline.
    intros q s' u Eq Hq. apply lexeme_shape in Hq as (c' & q' & -> & Sh). cbn in Eq. inversion Eq as [[Ec Eq']]; subst c'.
    destruct Sh; classes "010"%char; cbn; auto. }
  destruct (Ascii.eqb c "-" && first_is is_digit s) eqn:Em.
  { apply andb_true_iff in Em as [Em D]. apply Ascii.eqb_eq in Em. subst c. destruct s as [|d s]; [discriminate D|]. cbn [first_is] in D.
    destruct (number d s) as [nn r] eqn:En. destruct (HN _ _ _ _ D En) as (n' & -> & -> & Hn & Hl).
    apply (M ("-" ++ String d n') r (Some (TNum ("-" ++ String d n')))); auto.
    - apply L_negative, number_text_iff. auto.
    - intros q s' u Eq Hq. apply lexeme_shape in Hq as (c' & q' & -> & Sh). cbn in Eq. inversion Eq as [[Ec Eq']]; subst c'.
      cbn [String.append String.length]. apply le_n_S. destruct Sh as [ | | |_ Hq|Hq| | | | |]; try discriminate; try congruence.
      + destruct q' as [|x q']; [cbn; lia|]. cbn in Eq'. inversion Eq'; subst. cbn [String.length]. apply le_n_S. eapply Hl; eauto.
      + apply symbols_two in Hq as [-> |(x & -> & _)]; cbn; lia. }
  destruct (Ascii.eqb c "/" && first_is (Ascii.eqb "/") s) eqn:El2.
  { apply andb_true_iff in El2 as [Ec D]. apply Ascii.eqb_eq in Ec. subst c. destruct s as [|d s]; [discriminate D|]. cbn [first_is] in D.
    apply Ascii.eqb_eq in D. subst d. change (fun d => negb (Ascii.eqb d "010" || Ascii.eqb d "013")) with in_line in E.
    cbn [span] in E. change (in_line "/") with true in E. cbv iota in E.
    destruct (span in_line s) as [w r] eqn:Es. destruct (span_split _ _ _ _ Es) as (-> & Hw & Hr). cbn [snd] in E.
    apply (M ("//" ++ w) r None); auto.
    - apply L_line_comment, in_line_iff. auto.
    - intros q s' u Eq Hq. apply lexeme_shape in Hq as (c' & q' & -> & Sh). cbn in Eq. inversion Eq as [[Ec Eq']]; subst c'.
      cbn [String.append String.length]. destruct Sh as [ | | | |Hq| | | |v _ -> Hv|v _ -> Hv]; try discriminate; try congruence.
      + apply symbols_two in Hq as [-> |(x & -> & _)]; cbn; lia.
      + cbn in Eq'. inversion Eq'. cbn [String.length]. do 2 apply le_n_S. eapply run_longest; eauto. }
  destruct (if Ascii.eqb c "/" && first_is (Ascii.eqb "*") s then block_comment (str_tail s) else None) as [r|] eqn:Eb.
  { destruct (Ascii.eqb c "/" && first_is (Ascii.eqb "*") s) eqn:Ec; [|discriminate Eb].
    apply andb_true_iff in Ec as [Ec D]. apply Ascii.eqb_eq in Ec. subst c. destruct s as [|d s]; [discriminate D|]. cbn [first_is] in D.
    apply Ascii.eqb_eq in D. subst d. cbn [str_tail] in Eb. pose proof Eb as Eb'. apply block_comment_inv in Eb as (v & -> & Hv).
    apply (M ("/*" ++ v) r None); auto.
    intros q s' u Eq Hq. apply lexeme_shape in Hq as (c' & q' & -> & Sh). cbn in Eq. inversion Eq as [[Ec Eq']]; subst c'.
    cbn [String.append String.length]. destruct Sh as [ | | | |Hq| | | |w _ -> Hw|w _ -> Hw]; try discriminate; try congruence.
    - apply symbols_two in Hq as [-> |(x & -> & _)]; cbn; lia.
    - cbn in Eq'. inversion Eq' as [Eq2]. rewrite Eq2, Hw in Eb'. inversion Eb'; subst.
      pose proof (f_equal String.length Eq2) as EL. rewrite !app_length_s in EL. cbn. lia. }
  assert (forall q s' u, String c s = q ++ s' -> lexeme q u -> is_blank c = true \/ In q symbols) as HS.
  { intros q s' u Eq Hq. apply lexeme_shape in Hq as (c' & q' & -> & Sh). cbn in Eq. inversion Eq as [[Ec Eq']]; subst c'.
    destruct Sh as [ | | |Hc Hq|Hq| |Hc Hq| |w Hc -> Hw|w Hc -> Hw]; try congruence; auto.
    - exfalso. subst c. destruct q' as [|x q']; [discriminate Hq|]. cbn [is_number] in Hq. rewrite !andb_true_iff in Hq. destruct Hq as [[Hx _] _].
      rewrite Eq' in Em. cbn [String.append first_is] in Em. rewrite Hx in Em. discriminate Em.
    - left. subst c. reflexivity.
    - exfalso. subst c s. discriminate El2.
    - exfalso. subst c s. cbn [String.append first_is str_tail] in Eb. change (Ascii.eqb "/" "/" && Ascii.eqb "*" "*") with true in Eb. rewrite Hw in Eb. discriminate Eb. }
  destruct (existsb (String.eqb (String c (first_char s))) symbols2) eqn:E2.
  { pose proof (symbols2_in _ _ E2) as (d & r & -> & Hs). cbn [first_char str_tail] in E.
    apply (M (String c (String d "")) r (Some (TSym (String c (String d ""))))); auto; [apply L_symbol; auto|].
    intros q s' u Eq Hq. destruct (HS q s' u Eq Hq) as [B|B].
    - apply symbols_first, symbol_class in Hs. destruct Hs as (_ & _ & Hs & _). congruence.
    - destruct q as [|x q]; cbn; [lia|]. apply symbols_two in B as [-> |(y & -> & _)]; cbn; lia. }
  destruct (existsb (Ascii.eqb c) symbols1) eqn:E1.
  { pose proof (symbols1_in _ E1) as Hs. apply (M (String c "") s (Some (TSym (String c "")))); auto; [apply L_symbol; auto|].
    intros q s' u Eq Hq. destruct (HS q s' u Eq Hq) as [B|B].
    - apply symbols_first, symbol_class in Hs. destruct Hs as (_ & _ & Hs & _). congruence.
    - destruct q as [|x q]; [cbn; lia|]. cbn in Eq. inversion Eq; subst x. destruct (symbols_two _ _ B) as [-> |(y & -> & K)]; [cbn; lia|].
      exfalso. subst s. cbn [String.append first_char] in E2. congruence. }
  destruct (is_blank c) eqn:B.
  { destruct (span is_blank s) as [w r] eqn:Es. destruct (span_split _ _ _ _ Es) as (-> & Hw & Hr).
    assert (longest (String c w) r \/ exists r', c = "013"%char /\ w = "" /\ r = String "010" r') as [HL|(r' & -> & -> & ->)].
    { destruct (Ascii.eqb_spec c "013") as [->|N13].
      - destruct w as [|x w]; [destruct r as [|x r]; [|destruct (Ascii.eqb_spec x "010"); [subst x; right; eauto|]]|].
        all: left; intros q s' u Eq Hq; destruct (lexeme_shape _ _ Hq) as (c' & q' & -> & Sh); cbn in Eq; inversion Eq as [[Ec Eq']]; subst c'.
        all: cbn [String.length]; apply le_n_S; destruct Sh as [ | | | |Hs| | | | |]; try discriminate; try congruence; subst; try discriminate; try congruence;
          try (apply symbols_first in Hs; discriminate Hs).
        + destruct q'; [auto|discriminate Eq'].
        + exfalso. cbn in Eq'. inversion Eq'; subst. congruence.
        + destruct q' as [|y q']; [auto|]. exfalso. cbn in Eq'. inversion Eq'; subst. cbn [all_chars first_is] in *. rewrite Hr in *. discriminate.
        + cbn. lia.
        + eapply (run_longest is_blank (String x w)); eauto.
      - left. intros q s' u Eq Hq. destruct (HS q s' u Eq Hq) as [_|K].
        + destruct (lexeme_shape _ _ Hq) as (c' & q' & -> & Sh). cbn in Eq. inversion Eq as [[Ec Eq']]; subst c'.
          cbn [String.length]. apply le_n_S. destruct Sh as [ | | | |Hs| | | | |]; subst; try discriminate; try congruence.
          * apply symbols_first in Hs. congruence.
          * eapply run_longest; eauto.
        + destruct q as [|x q]; [cbn; lia|]. cbn in Eq. inversion Eq; subst x. apply symbols_first in K. congruence. }
    - apply (M (String c w) r None); auto.
      + apply L_blanks; [discriminate|]. apply blanks_iff. cbn [all_chars]. rewrite B, Hw. reflexivity.
      + rewrite <- (lex_blanks (String c w) r); [reflexivity|]. cbn [all_chars]. rewrite B, Hw. reflexivity.
    - cbn [String.append] in *. apply (M (String "013" (String "010" "")) r' (Some TNl)); [reflexivity|apply L_return_newline| |].
      + intros q s' u Eq Hq. destruct (lexeme_shape _ _ Hq) as (c' & q' & -> & Sh). cbn in Eq. inversion Eq as [[Ec Eq']]; subst c'.
        cbn [String.length]. apply le_n_S. destruct Sh as [ | | | |Hs| |_ ->| | |]; try discriminate; try congruence; auto.
        * apply symbols_first in Hs. discriminate Hs.
        * destruct q' as [|y q']; [cbn; lia|]. cbn in Eq'. inversion Eq'; subst. cbn [all_chars] in *. discriminate.
      + rewrite E. rewrite lex_cons. reflexivity. }
  rewrite E. apply T_skip; [|apply IH; lia].
  intros q s' u Eq Hq. destruct (HS q s' u Eq Hq) as [K|K]; [congruence|].
  destruct q as [|x q]; [apply lexeme_shape in Hq as (? & ? & Hq & _); discriminate Hq|]. cbn in Eq. inversion Eq; subst x. apply symbols_first in K. congruence.
Qed.

Lemma tokens_once : forall s l, tokens s l -> forall l', tokens s l' -> l = l'.
Proof.
  intros s l H. induction H as [|p r t l Hp Hl H IH|c r l Hn H IH]; intros l' H'.
  - inversion H' as [|p r t l Hp Hl H2 E1 E2|]; subst; [reflexivity|]. exfalso.
    apply lexeme_shape in Hp as (c & q & -> & _). discriminate E1.
  - inversion H' as [E1 E2|p' r' t' l2 Hp' Hl' H2 E1 E2|c r' l2 Hn H2 E1 E2]; subst.
    + exfalso. apply lexeme_shape in Hp as (c & q & -> & _). discriminate E1.
    + pose proof (Hl p' r' t' (eq_sym E1) Hp') as L1. pose proof (Hl' p r t E1 Hp) as L2.
      destruct (app_inj_len p r p' r') as [-> ->]; [auto|lia|].
      rewrite (IH l2 H2). apply lexeme_alone in Hp, Hp'. rewrite Hp in Hp'. destruct t, t'; cbn in Hp'; inversion Hp'; subst; reflexivity.
    + exfalso. eapply Hn; eauto.
  - inversion H' as [|p' r' t' l2 Hp' Hl' H2 E1 E2|c' r' l2 Hn' H2 E1 E2]; subst.
    + exfalso. eapply Hn; eauto.
    + auto.
Qed.

Lemma tokens_iff : forall s l, tokens s l <-> lex s = l.
Proof. intros s l. split; [intros H; eapply tokens_once; eauto using tokens_lex|intros <-; apply tokens_lex]. Qed.
