(** Proofs about the lexer of TextModel.v. *)

From Coq Require Import ZArith String Ascii Bool Lia List.
From Coq Require Import DecimalString DecimalZ.
From Verif Require Import Base TypesModel TimeModel SigModel TextModel TextSpec.
From Verif Require TimeProps.
Import ListNotations.
Local Open Scope string_scope.

Lemma app_assoc_s : forall a b c : string, (a ++ b) ++ c = a ++ (b ++ c).
Proof. induction a as [|x a IH]; intros b c; cbn; [reflexivity|]. rewrite IH. reflexivity. Qed.
Lemma app_empty_r : forall a : string, a ++ "" = a.
Proof. induction a as [|x a IH]; cbn; [reflexivity|]. rewrite IH. reflexivity. Qed.

(** ** one step of the lexer *)

Lemma span_len : forall p s a b, span p s = (a, b) -> (String.length b <= String.length s)%nat.
Proof.
  intros p. induction s as [|c s IH]; intros a b H; cbn in H.
  - inversion H; subst; auto.
  - destruct (p c).
    + destruct (span p s) as [a' b'] eqn:E. inversion H; subst. specialize (IH _ _ eq_refl). cbn. lia.
    + inversion H; subst. cbn. lia.
Qed.
Lemma tail_len : forall s, (String.length (str_tail s) <= String.length s)%nat.
Proof. destruct s; cbn; lia. Qed.
Lemma drop_stars_len : forall s, (String.length (drop_stars s) <= String.length s)%nat.
Proof.
  intros s. unfold drop_stars. destruct (span (Ascii.eqb "*") s) as [a b] eqn:E. cbn [snd].
  apply span_len in E. auto.
Qed.
Lemma closing_len : forall s r, closing s = Some r -> (String.length r <= String.length s)%nat.
Proof.
  intros s r H. pose proof (drop_stars_len s) as L. unfold closing in H.
  destruct s as [|c s]; [discriminate|]. destruct (Ascii.eqb c "*"); [|discriminate].
  destruct (drop_stars (String c s)) as [|d r']; [discriminate|].
  destruct (Ascii.eqb d "/"); [|discriminate]. inversion H; subst. cbn in *. lia.
Qed.
Lemma block_comment_len : forall s r, block_comment s = Some r -> (String.length r <= String.length s)%nat.
Proof.
  intros s r H. pose proof (drop_stars_len s) as L. unfold block_comment in H.
  destruct s as [|c s]; [discriminate|]. destruct (Ascii.eqb c "*").
  - destruct (drop_stars (String c s)) as [|d r']; [discriminate|].
    destruct (Ascii.eqb d "/"); [discriminate|]. apply closing_len in H. cbn in *. lia.
  - apply closing_len in H. cbn. lia.
Qed.
Lemma number_len : forall c s a b, number c s = (a, b) -> (String.length b <= String.length s)%nat.
Proof.
  intros c s a b. unfold number. destruct (Ascii.eqb c "0"); [intros H; inversion H; subst; auto|].
  destruct (span is_digit s) as [x y] eqn:E. intros H; inversion H; subst. eapply span_len; eauto.
Qed.

Lemma next_len : forall c s t r, next c s = (t, r) -> (String.length r <= String.length s)%nat.
Proof.
  intros c s t r. unfold next. destruct (is_letter c).
  - destruct (span is_word_char s) as [w r'] eqn:E. apply span_len in E.
    destruct (_ && _); intros H; inversion H; subst; auto. pose proof (tail_len r'). lia.
  - destruct (is_digit c).
    + destruct (number c s) as [n r'] eqn:E. intros H; inversion H; subst. eapply number_len; eauto.
    + destruct (Ascii.eqb c "010"); [intros H; inversion H; subst; auto|].
      destruct (Ascii.eqb c "-" && _).
      * destruct s as [|d s]; [intros H; inversion H; subst; auto|].
        destruct (number d s) as [n r'] eqn:E. intros H; inversion H; subst. apply number_len in E. cbn. lia.
      * destruct (Ascii.eqb c "/" && first_is (Ascii.eqb "/") s).
        { destruct (span _ s) as [a b] eqn:E. intros H; inversion H; subst. eapply span_len; eauto. }
        destruct (if Ascii.eqb c "/" && first_is (Ascii.eqb "*") s then block_comment (str_tail s) else None) as [r'|] eqn:E.
        -- intros H; inversion H; subst. destruct (_ && _); [|discriminate]. apply block_comment_len in E.
           pose proof (tail_len s). lia.
        -- pose proof (tail_len s).
           destruct (existsb _ symbols2); [intros H'; inversion H'; subst; auto|].
           destruct (existsb _ symbols1); intros H'; inversion H'; subst; auto.
Qed.

Lemma lex_fuel_enough : forall n s, (String.length s <= n)%nat -> lex_fuel n s = lex s.
Proof.
  unfold lex. induction n as [n IH] using lt_wf_ind. intros s H. destruct s as [|c s]; [destruct n; reflexivity|].
  destruct n as [|n]; [cbn in H; lia|]. cbn [String.length lex_fuel]. destruct (next c s) as [t r] eqn:E.
  pose proof (next_len _ _ _ _ E) as L. cbn in H.
  rewrite (IH n); [|lia|lia]. rewrite (IH (String.length s)); [reflexivity|lia|auto].
Qed.

Lemma lex_cons : forall c s,
  lex (String c s) = let (t, r) := next c s in match t with Some t => t :: lex r | None => lex r end.
Proof.
  intros c s. unfold lex at 1. cbn [String.length lex_fuel]. destruct (next c s) as [t r] eqn:E.
  apply next_len in E. rewrite lex_fuel_enough; auto.
Qed.
Lemma lex_nil : lex "" = []. Proof. reflexivity. Qed.

(** ** words *)

Fixpoint all_chars (p : ascii -> bool) (s : string) : bool :=
  match s with EmptyString => true | String c s' => p c && all_chars p s' end.

(** What may follow a word, a number or an angle bracket. *)
Definition brk (r : string) : Prop :=
  match r with
  | EmptyString => True
  | String c _ => is_word_char c = false /\ c <> "!"%char /\ c <> "="%char
  end.

Lemma span_app : forall p w r, all_chars p w = true -> first_is p r = false -> span p (w ++ r) = (w, r).
Proof.
  intros p. induction w as [|c w IH]; intros r H Hr; cbn.
  - destruct r as [|c r]; [reflexivity|]. cbn in *. rewrite Hr. reflexivity.
  - cbn in H. apply andb_true_iff in H as [Hc H]. rewrite Hc, IH; auto.
Qed.
Lemma brk_word : forall r, brk r -> first_is is_word_char r = false.
Proof. destruct r; cbn; tauto. Qed.
Lemma brk_digit : forall r, brk r -> first_is is_digit r = false.
Proof. destruct r as [|c r]; cbn; [auto|]. intros [H _]. unfold is_word_char in H. apply orb_false_iff in H. tauto. Qed.
Lemma brk_bang : forall r, brk r -> first_is (Ascii.eqb "!") r = false.
Proof. destruct r as [|c r]; cbn [brk first_is]; [auto|]. intros (_ & H & _). apply Ascii.eqb_neq. auto. Qed.
Lemma brk_eq : forall r, brk r -> first_is (Ascii.eqb "=") r = false.
Proof. destruct r as [|c r]; cbn [brk first_is]; [auto|]. intros (_ & _ & H). apply Ascii.eqb_neq. auto. Qed.

Definition is_word (w : string) : bool :=
  match w with String c w' => is_letter c && all_chars is_word_char w' | EmptyString => false end.

Lemma lex_word : forall w r, is_word w = true -> brk r -> lex (w ++ r) = word w :: lex r.
Proof.
  intros w r Hw Hr. destruct w as [|c w]; [discriminate|]. cbn in Hw. apply andb_true_iff in Hw as [Hc Hw].
  cbn [String.append]. rewrite lex_cons. unfold next. rewrite Hc. rewrite span_app; auto using brk_word.
  rewrite brk_bang by auto. rewrite andb_false_r. reflexivity.
Qed.

Lemma lex_user : forall r, lex ("u!" ++ r) = TKw "u!" :: lex r.
Proof. intros r. cbn [String.append]. rewrite lex_cons. reflexivity. Qed.

(** ** symbols *)

Ltac one_sym := intros; cbn [String.append]; rewrite lex_cons; reflexivity.
Lemma lex_comma : forall r, lex ("," ++ r) = TSym "," :: lex r. Proof. one_sym. Qed.
Lemma lex_qmark : forall r, lex ("?" ++ r) = TSym "?" :: lex r. Proof. one_sym. Qed.
Lemma lex_open : forall r, lex ("(" ++ r) = TSym "(" :: lex r. Proof. one_sym. Qed.
Lemma lex_close : forall r, lex (")" ++ r) = TSym ")" :: lex r. Proof. one_sym. Qed.
Lemma lex_space : forall r, lex (" " ++ r) = lex r. Proof. one_sym. Qed.
Lemma lex_newline : forall r, lex (newline ++ r) = TNl :: lex r.
Proof. intros r. change (newline ++ r) with (String "010" r). rewrite lex_cons. reflexivity. Qed.
Lemma lex_arrow : forall r, lex ("->" ++ r) = TSym "->" :: lex r. Proof. one_sym. Qed.
Lemma lex_colon : forall r, lex (":" ++ " " ++ r) = TSym ":" :: lex r.
Proof. one_sym. Qed.

Lemma two_no : forall c s, first_is (Ascii.eqb "=") s = false ->
  (c = "<" \/ c = ">" \/ c = "!")%char ->
  existsb (String.eqb (String c (first_char s))) symbols2 = false.
Proof.
  intros c s Hs Hc. destruct (existsb _ symbols2) eqn:E; [exfalso|reflexivity].
  apply existsb_exists in E as (x & Hx & E). apply String.eqb_eq in E. subst x.
  destruct s as [|d s]; cbn [first_char] in Hx.
  - cbn in Hx. repeat (destruct Hx as [Hx|Hx]; [discriminate|]). auto.
  - cbn [first_is] in Hs. apply Ascii.eqb_neq in Hs. cbn [symbols2 In] in Hx.
    repeat (destruct Hx as [Hx|Hx]; [inversion Hx; subst; destruct Hc as [Hc|[Hc|Hc]]; try discriminate Hc; congruence|]). auto.
Qed.
Lemma lex_lt : forall r, first_is (Ascii.eqb "=") r = false -> lex ("<" ++ r) = TSym "<" :: lex r.
Proof.
  intros r H. cbn [String.append]. rewrite lex_cons. unfold next.
  change (is_letter "<") with false. change (is_digit "<") with false. change (Ascii.eqb "<" "010") with false.
  change (Ascii.eqb "<" "-") with false. change (Ascii.eqb "<" "/") with false. cbn [andb].
  rewrite two_no; auto.
Qed.
Lemma lex_gt : forall r, first_is (Ascii.eqb "=") r = false -> lex (">" ++ r) = TSym ">" :: lex r.
Proof.
  intros r H. cbn [String.append]. rewrite lex_cons. unfold next.
  change (is_letter ">") with false. change (is_digit ">") with false. change (Ascii.eqb ">" "010") with false.
  change (Ascii.eqb ">" "-") with false. change (Ascii.eqb ">" "/") with false. cbn [andb].
  rewrite two_no; auto.
Qed.
Lemma lex_bang : forall r, first_is (Ascii.eqb "=") r = false -> lex ("!" ++ r) = TSym "!" :: lex r.
Proof.
  intros r H. cbn [String.append]. rewrite lex_cons. unfold next.
  change (is_letter "!") with false. change (is_digit "!") with false. change (Ascii.eqb "!" "010") with false.
  change (Ascii.eqb "!" "-") with false. change (Ascii.eqb "!" "/") with false. cbn [andb].
  rewrite two_no; auto.
Qed.

(** ** numbers *)

Definition is_number (s : string) : bool :=
  match s with
  | EmptyString => false
  | String c r => is_digit c && all_chars is_digit r && (negb (Ascii.eqb c "0") || String.eqb r "")
  end.

Lemma lex_unsigned : forall n r, is_number n = true -> first_is is_digit r = false ->
  lex (n ++ r) = TNum n :: lex r /\ lex ("-" ++ n ++ r) = TNum ("-" ++ n) :: lex r.
Proof.
  intros n r Hn Hr. destruct n as [|c n]; [discriminate|]. cbn [is_number] in Hn.
  apply andb_true_iff in Hn as [Hn Hz]. apply andb_true_iff in Hn as [Hc Hn].
  assert (number c (n ++ r) = (String c n, r)) as E.
  { unfold number. destruct (Ascii.eqb c "0") eqn:E0.
    - cbn in Hz. apply String.eqb_eq in Hz. subst n. apply Ascii.eqb_eq in E0. subst c. reflexivity.
    - rewrite span_app; auto. }
  assert (is_letter c = false) as El.
  { unfold is_digit, in_range in Hc. apply andb_true_iff in Hc as [H1 H2]. apply Nat.leb_le in H1, H2.
    unfold is_letter, in_range.
    destruct (Nat.leb_spec 65 (nat_of_ascii c)); [lia|]. destruct (Nat.leb_spec 97 (nat_of_ascii c)); [lia|]. cbn [andb orb].
    destruct (Ascii.eqb_spec c "_"); [subst; cbn in *; lia|]. destruct (Ascii.eqb_spec c "$"); [subst; cbn in *; lia|]. reflexivity. }
  split.
  - cbn [String.append]. rewrite lex_cons. unfold next. rewrite El, Hc, E. reflexivity.
  - cbn [String.append]. rewrite lex_cons. unfold next.
    change (is_letter "-") with false. change (is_digit "-") with false. change (Ascii.eqb "-" "010") with false.
    change (Ascii.eqb "-" "-") with true. cbn [first_is andb]. rewrite Hc. rewrite E. reflexivity.
Qed.

Lemma uint_digits : forall d, all_chars is_digit (NilEmpty.string_of_uint d) = true.
Proof. induction d; cbn; auto. Qed.

Lemma nzhead_D0 : forall d e, Decimal.nzhead d <> Decimal.D0 e.
Proof. induction d; intros e; cbn; try discriminate. apply IHd. Qed.
Lemma string_of_Z_shape : forall z, exists n, is_number n = true /\ (string_of_Z z = n \/ string_of_Z z = "-" ++ n).
Proof.
  intros z. unfold string_of_Z.
  assert (Decimal.norm (Z.to_int z) = Z.to_int z) as E.
  { rewrite <- DecimalZ.to_of, DecimalZ.of_to. reflexivity. }
  assert (forall d, Decimal.unorm d = d -> is_number (NilZero.string_of_uint d) = true) as H.
  { intros d Hd. destruct d as [|d|d|d|d|d|d|d|d|d|d]; try (cbn; rewrite uint_digits; reflexivity); [reflexivity|].
    assert (d = Decimal.Nil) as ->; [|reflexivity].
    unfold Decimal.unorm in Hd. destruct (Decimal.nzhead (Decimal.D0 d)) eqn:En; inversion Hd; auto.
    subst. exfalso. exact (nzhead_D0 _ _ En). }
  destruct (Z.to_int z) as [d|d] eqn:Ez; cbn [Decimal.norm] in E.
  - exists (NilZero.string_of_uint d). split; [|left; reflexivity]. apply H. inversion E. congruence.
  - exists (NilZero.string_of_uint d). split; [|right; reflexivity]. apply H.
    destruct (Decimal.nzhead d) eqn:En; try discriminate; inversion E; subst; unfold Decimal.unorm; rewrite En; reflexivity.
Qed.

Lemma lex_number : forall z r, brk r -> lex (string_of_Z z ++ r) = TNum (string_of_Z z) :: lex r.
Proof.
  intros z r Hr. destruct (string_of_Z_shape z) as (n & Hn & [-> | ->]).
  - apply lex_unsigned; auto using brk_digit.
  - rewrite app_assoc_s. apply lex_unsigned; auto using brk_digit.
Qed.
Lemma number_not_eq : forall z r, first_is (Ascii.eqb "=") (string_of_Z z ++ r) = false.
Proof.
  intros z r. destruct (string_of_Z_shape z) as (n & Hn & [-> | ->]); [|reflexivity].
  destruct n as [|c n]; [discriminate|]. cbn [String.append first_is]. apply Ascii.eqb_neq. intros <-. discriminate Hn.
Qed.
Lemma parse_string_of_Z : forall z, in_int 64 z -> parse_number (string_of_Z z) = Ok z.
Proof. intros z H. unfold parse_number. rewrite TimeProps.atoi_string_of_Z; auto. Qed.
