(** Letter case and blanks in texts of types. *)

From Coq Require Import ZArith String Ascii Bool Lia List.
From Verif Require Import Base TypesModel TimeModel SigModel TextModel TextSpec FuncSpec TextGrammarSpec
  TextLexProofs TextNameProofs TextSaneProofs TextMeaningProofs TextMunchProofs.
Import ListNotations.
Local Open Scope string_scope.

(** ** the lexer on lower-case texts *)

Definition ltok (t : tok) : tok := match t with TId w => TId (lower w) | TAnyVar w => TAnyVar (lower w) | _ => t end.

Lemma char_class : forall c, is_letter (lower_char c) = is_letter c /\ is_digit (lower_char c) = is_digit c /\
  is_word_char (lower_char c) = is_word_char c /\ in_line (lower_char c) = in_line c /\ lower_char (lower_char c) = lower_char c.
Proof. intros c. destruct c as [[] [] [] [] [] [] [] []]; repeat split. Qed.
Definition plain (c : ascii) : Prop := forall d, lower_char d = c <-> d = c.
Lemma plain_eqb : forall c, plain c -> forall d, Ascii.eqb (lower_char d) c = Ascii.eqb d c.
Proof. intros c H d. destruct (Ascii.eqb_spec d c), (Ascii.eqb_spec (lower_char d) c); auto; exfalso; specialize (H d); tauto. Qed.
Lemma plain_eqb' : forall c, plain c -> forall d, Ascii.eqb c (lower_char d) = Ascii.eqb c d.
Proof. intros c H d. rewrite !(Ascii.eqb_sym c). apply plain_eqb. auto. Qed.
Lemma not_upper_plain : forall c, in_range 65 90 c = false -> in_range 97 122 c = false -> plain c.
Proof.
  intros c H1 H2 d. split.
  - intros E. unfold lower_char in E. destruct (in_range 65 90 d) eqn:U; [|auto]. exfalso. subst c.
    clear H1. destruct d as [[] [] [] [] [] [] [] []]; try discriminate U; discriminate H2.
  - intros ->. unfold lower_char. rewrite H1. reflexivity.
Qed.
Ltac pl := apply not_upper_plain; reflexivity.

Lemma span_lower : forall p, (forall c, p (lower_char c) = p c) -> forall s,
  span p (lower s) = (lower (fst (span p s)), lower (snd (span p s))).
Proof.
  intros p H. induction s as [|c s IH]; [reflexivity|]. cbn [lower span]. rewrite H. destruct (p c); [|reflexivity].
  rewrite IH. destruct (span p s). reflexivity.
Qed.
Lemma first_lower : forall p, (forall c, p (lower_char c) = p c) -> forall s, first_is p (lower s) = first_is p s.
Proof. intros p H [|c s]; cbn [lower first_is]; auto. Qed.
Lemma tail_lower : forall s, str_tail (lower s) = lower (str_tail s).
Proof. intros [|c s]; reflexivity. Qed.
Lemma number_lower : forall c s, is_digit c = true -> number c (lower s) = (fst (number c s), lower (snd (number c s))).
Proof.
  intros c s D. unfold number. destruct (Ascii.eqb c "0"); [reflexivity|]. rewrite span_lower by apply char_class.
  destruct (span is_digit s) as [a b] eqn:E. cbn [fst snd]. f_equal. f_equal. apply span_split in E as (_ & Ha & _).
  clear -Ha. induction a as [|x a IH]; [reflexivity|]. cbn [all_chars] in Ha. apply andb_true_iff in Ha as [Hx Ha]. cbn [lower]. rewrite IH, digit_lower; auto.
Qed.
Lemma drop_stars_lower : forall s, drop_stars (lower s) = lower (drop_stars s).
Proof. intros s. unfold drop_stars. rewrite span_lower; [reflexivity|]. intros c. apply plain_eqb'. pl. Qed.
Lemma closing_lower : forall s, closing (lower s) = option_map lower (closing s).
Proof.
  intros s. unfold closing. pose proof (drop_stars_lower s) as D. destruct s as [|c s]; [reflexivity|]. cbn [lower] in *. rewrite D, plain_eqb by pl.
  destruct (Ascii.eqb c "*"); [|reflexivity]. destruct (drop_stars (String c s)) as [|d r]; [reflexivity|]. cbn [lower]. rewrite plain_eqb by pl.
  destruct (Ascii.eqb d "/"); reflexivity.
Qed.
Lemma comment_lower : forall s, block_comment (lower s) = option_map lower (block_comment s).
Proof.
  intros s. unfold block_comment. pose proof (drop_stars_lower s) as D. destruct s as [|c s]; [reflexivity|]. cbn [lower] in *. rewrite D, plain_eqb by pl.
  destruct (Ascii.eqb c "*"); [|apply closing_lower]. destruct (drop_stars (String c s)) as [|d r]; [reflexivity|]. cbn [lower]. rewrite plain_eqb by pl.
  destruct (Ascii.eqb d "/"); [reflexivity|]. apply closing_lower.
Qed.
Lemma any_var_lower : forall w, is_any_var (lower w) = is_any_var w.
Proof. intros w. unfold is_any_var. rewrite lower_lower. reflexivity. Qed.
Lemma word_lower : forall w, word (lower w) = ltok (word w).
Proof.
  intros w. unfold word. rewrite lower_lower, any_var_lower. destruct (existsb _ keywords); [reflexivity|]. destruct (is_any_var w); reflexivity.
Qed.
Lemma symbols1_lower : forall c, existsb (Ascii.eqb (lower_char c)) symbols1 = existsb (Ascii.eqb c) symbols1.
Proof. intros c. cbn [existsb symbols1]. rewrite !plain_eqb by pl. reflexivity. Qed.
Lemma two_lower : forall c s, existsb (String.eqb (String (lower_char c) (first_char (lower s)))) symbols2 = existsb (String.eqb (String c (first_char s))) symbols2.
Proof.
  assert (forall c d x y, plain x -> plain y -> String.eqb (String (lower_char c) (String (lower_char d) "")) (String x (String y "")) = String.eqb (String c (String d "")) (String x (String y ""))) as H.
  { intros c d x y Hx Hy. cbn [String.eqb]. rewrite !plain_eqb by auto. reflexivity. }
  intros c [|d s]; cbn [lower first_char].
  - cbn [existsb symbols2 String.eqb]. rewrite !plain_eqb by pl. reflexivity.
  - cbn [existsb symbols2]. rewrite !H by pl. reflexivity.
Qed.
Lemma symbol_lower : forall c, existsb (Ascii.eqb c) symbols1 = true -> lower_char c = c.
Proof. intros c H. apply in_ascii in H. cbn in H. repeat (destruct H as [<-|H]; [reflexivity|]). destruct H. Qed.

Lemma next_lower : forall c s, next (lower_char c) (lower s) = (option_map ltok (fst (next c s)), lower (snd (next c s))).
Proof.
  intros c s. unfold next. destruct (char_class c) as (C1 & C2 & C3 & C4 & C5). rewrite C1, C2. destruct (is_letter c) eqn:El.
  { rewrite span_lower by apply char_class. destruct (span is_word_char s) as [w r]. cbn [fst snd].
    change (lower (String (lower_char c) (lower w))) with (lower (lower (String c w))). rewrite lower_lower.
    rewrite first_lower by (intros d; apply plain_eqb'; pl).
    destruct (String.eqb (lower (String c w)) "u" && first_is (Ascii.eqb "!") r); cbn [fst snd option_map].
    - rewrite tail_lower. reflexivity.
    - change (String (lower_char c) (lower w)) with (lower (String c w)). rewrite word_lower. reflexivity. }
  destruct (is_digit c) eqn:Ed.
  { rewrite digit_lower by auto. rewrite number_lower by auto. destruct (number c s). reflexivity. }
  rewrite !plain_eqb by pl. destruct (Ascii.eqb c "010"); [reflexivity|].
  rewrite first_lower by apply char_class. destruct (Ascii.eqb c "-" && first_is is_digit s) eqn:Em.
  { destruct s as [|d s]; [reflexivity|]. cbn [lower]. apply andb_true_iff in Em as [_ D]. cbn [first_is] in D. rewrite digit_lower by auto.
    rewrite number_lower by auto. destruct (number d s). reflexivity. }
  rewrite first_lower by (intros d; apply plain_eqb'; pl).
  destruct (Ascii.eqb c "/" && first_is (Ascii.eqb "/") s).
  { change (fun d => negb (Ascii.eqb d "010" || Ascii.eqb d "013")) with in_line. rewrite span_lower by apply char_class. reflexivity. }
  rewrite first_lower by (intros d; apply plain_eqb'; pl). rewrite tail_lower, comment_lower, two_lower, symbols1_lower.
  destruct (Ascii.eqb c "/" && first_is (Ascii.eqb "*") s); [destruct (block_comment (str_tail s)); [reflexivity|]|]; cbn [option_map];
    (destruct (existsb (String.eqb (String c (first_char s))) symbols2) eqn:E2;
     [apply symbols2_in in E2 as (d & r & -> & Hs); cbn [fst snd first_char lower str_tail option_map];
      cbn in Hs; repeat (destruct Hs as [Hs|Hs]; [inversion Hs; subst; reflexivity|]); destruct Hs
     |destruct (existsb (Ascii.eqb c) symbols1) eqn:E1; [rewrite symbol_lower by auto|]; reflexivity]).
Qed.

Lemma lex_lower : forall s, lex (lower s) = map ltok (lex s).
Proof.
  assert (forall n s, (String.length s <= n)%nat -> lex (lower s) = map ltok (lex s)) as H; [|intros s; apply (H _ s (le_n _))].
  induction n as [|n IH]; intros [|c s] L; try reflexivity; [cbn in L; lia|]. cbn [lower]. rewrite !lex_cons, next_lower.
  destruct (next c s) as [t r] eqn:E. apply next_len in E. cbn in L. cbn [fst snd]. rewrite IH by lia. destruct t; reflexivity.
Qed.

Inductive same_tok : tok -> tok -> Prop :=
| Q_kw k : same_tok (TKw k) (TKw k)
| Q_any w w' : same_letters w w' -> same_tok (TAnyVar w) (TAnyVar w')
| Q_num w : same_tok (TNum w) (TNum w)
| Q_id w w' : same_letters w w' -> same_tok (TId w) (TId w')
| Q_sym s : same_tok (TSym s) (TSym s)
| Q_nl : same_tok TNl TNl.

Lemma same_tokens : forall s s', same_letters s s' -> Forall2 same_tok (lex s) (lex s').
Proof.
  intros s s' H. apply same_letters_iff in H. pose proof (f_equal lex H) as E. rewrite !lex_lower in E. clear H.
  revert E. generalize (lex s) (lex s'). clear. induction l as [|x l IH]; intros [|y l'] E; try discriminate E; constructor.
  - cbn in E. inversion E as [[Ex El]]. destruct x, y; cbn in Ex; inversion Ex; constructor; apply same_letters_iff; auto.
  - cbn in E. inversion E. auto.
Qed.

(** ** the grammar *)

Local Open Scope list_scope.
Definition st := Forall2 same_tok.

Lemma st_app : forall a b w, st (a ++ b) w -> exists a' b', w = a' ++ b' /\ st a a' /\ st b b'.
Proof. intros a b w H. apply Forall2_app_inv_l in H as (a' & b' & H1 & H2 & ->). eauto. Qed.
Lemma st_sym : forall s w, st [TSym s] w -> w = [TSym s].
Proof. intros s w H. inversion H as [|? ? ? ? H1 H2]; subst. inversion H1; inversion H2; subst. reflexivity. Qed.
Lemma st_kw : forall s w, st [TKw s] w -> w = [TKw s].
Proof. intros s w H. inversion H as [|? ? ? ? H1 H2]; subst. inversion H1; inversion H2; subst. reflexivity. Qed.
Lemma st_id : forall s w, st [TId s] w -> exists s', same_letters s s' /\ w = [TId s'].
Proof. intros s w H. inversion H as [|? ? ? ? H1 H2]; subst. inversion H1; inversion H2; subst. eauto. Qed.
Lemma st_nl : forall m w, st (repeat TNl m) w -> w = repeat TNl m.
Proof. induction m as [|m IH]; intros w H; cbn in *; inversion H as [|? ? ? ? H1 H2]; subst; [reflexivity|]. inversion H1; subst. f_equal. auto. Qed.
Lemma st_mark : forall n q w, mark n q -> st q w -> w = q.
Proof. intros n q w [[_ ->]|[_ ->]] H; [apply st_sym; auto|inversion H; reflexivity]. Qed.
Lemma st_num : forall w i w', numeric w i -> st w w' -> exists i', numeric w' i' /\ same_param i i'.
Proof.
  intros w i w' [v z H1 H2|s] H.
  - inversion H as [|? ? ? ? K1 K2]; inversion K1; inversion K2; subst. eexists. split; [constructor; eauto|constructor].
  - apply st_id in H as (s' & Hs & ->). eexists. split; constructor. auto.
Qed.
Lemma same_letters_trans : forall a b c, same_letters a b -> same_letters a c -> same_letters c b.
Proof. intros a b c H1 H2. apply same_letters_iff in H1, H2. apply same_letters_iff. congruence. Qed.
Lemma same_letters_refl : forall a, same_letters a a.
Proof. intros a. apply same_letters_iff. reflexivity. Qed.

Definition same_item (x y : item) : Prop :=
  match x, y with AType f, AType g => same_def f g | AExpr d, AExpr e => same_expr d e | _, _ => False end.

Ltac cut_ H := (* take apart the tokens of a phrase *)
  repeat match type of H with
  | st (_ ++ _) _ => let a := fresh "a" in let b := fresh "b" in let Ha := fresh "Ha" in apply st_app in H as (a & b & -> & Ha & H)
  | st (?x :: ?y :: ?l) _ => change (x :: y :: l) with ([x] ++ (y :: l)) in H
  end.
Ltac toks := repeat match goal with
  | H : st [?x; ?y] _ |- _ =>
      let a := fresh "a" in let b := fresh "b" in let Ha := fresh "Ha" in
      change [x; y] with ([x] ++ [y]) in H; apply st_app in H as (a & b & -> & Ha & H)
  | H : st [TSym _] _ |- _ => apply st_sym in H; subst
  | H : st [TKw _] _ |- _ => apply st_kw in H; subst
  | H : st [TId _] _ |- _ => let s := fresh "s'" in let E := fresh "Es" in apply st_id in H as (s & E & ->)
  | M : mark ?n ?q, H : st ?q _ |- _ => apply (st_mark n q _ M) in H; subst
  | H : st (repeat TNl _) _ |- _ => apply st_nl in H; subst
  | N : numeric ?w ?i, H : st ?w _ |- _ => apply (st_num _ _ _ N) in H as (? & ? & ?)
  end.
Definition keeps_type w f := forall w', st w w' -> exists f', type_phrase w' f' /\ same_def f f'.
Definition keeps p w x := forall w', st w w' -> exists x', phrase p w' x' /\ same_item x x'.

Lemma keeps_t : forall p w f, keeps p w (AType f) -> forall w', st w w' -> exists f', phrase p w' (AType f') /\ same_def f f'.
Proof. intros p w f H w' S. destruct (H w' S) as ([f'|d'] & H1 & H2); [eauto|destruct H2]. Qed.
Lemma keeps_e : forall p w f, keeps p w (AExpr f) -> forall w', st w w' -> exists f', phrase p w' (AExpr f') /\ same_expr f f'.
Proof. intros p w f H w' S. destruct (H w' S) as ([f'|d'] & H1 & H2); [destruct H2|eauto]. Qed.

Lemma phrases_keep :
  (forall w f, type_phrase w f -> keeps_type w f) /\
  (forall p w x, phrase p w x -> keeps p w x) /\
  (forall w l, type_list w l -> forall w', st w w' -> exists l', type_list w' l' /\ Forall2 same_def l l') /\
  (forall w l, expr_list w l -> forall w', st w w' -> exists l', expr_list w' l' /\ Forall2 same_expr l l') /\
  (forall w l, user_list w l -> forall w', st w w' -> exists l', user_list w' l' /\ Forall2 same_user l l') /\
  (forall w y, user_phrase w y -> forall w', st w w' -> exists y', user_phrase w' y' /\ same_user y y') /\
  (forall w l, program w l -> forall w', st w w' -> exists l', program w' l' /\
     Forall2 (fun a b => same_letters (fst a) (fst b) /\ same_expr (snd a) (snd b)) l l').
Proof.
  apply phrases_m.
  - intros k p n q Hk M w' S. change (TKw k :: q) with ([TKw k] ++ q) in S. cut_ S. toks. eexists. split; [apply P_simple; eauto|constructor].
  - intros k s n q w i Hk M N w' S. cut_ S. toks. eexists. split; [eapply P_single; eauto|constructor; auto].
  - intros n q w1 i w2 j M N1 N2 w' S. cut_ S. toks. eexists. split; [eapply P_decimal; eauto|constructor; auto].
  - intros n q w fs M _ IH w' S. cut_ S. toks. match goal with H : st w _ |- _ => apply IH in H as (? & ? & ?) end. eexists. split; [eapply P_struct; eauto|constructor; auto].
  - intros n q w f M _ IH w' S. cut_ S. toks. match goal with H : st w _ |- _ => apply (keeps_t _ _ _ IH) in H as (? & ? & ?) end. eexists. split; [eapply P_list; eauto|constructor; auto].
  - intros n q w f w2 g M _ IH _ IH2 w' S. cut_ S. toks.
    repeat match goal with H : st w _ |- _ => apply (keeps_t _ _ _ IH) in H as (? & ? & ?) | H : st w2 _ |- _ => apply (keeps_t _ _ _ IH2) in H as (? & ? & ?) end.
    eexists. split; [eapply P_map; eauto|constructor; auto].
  - intros n q w x v g M _ IH _ IH2 w' S. cut_ S. toks.
    repeat match goal with H : st w _ |- _ => apply IH in H as (x' & ? & ?) | H : st v _ |- _ => apply (keeps_t _ _ _ IH2) in H as (? & ? & ?) end.
    eexists. split; [eapply P_func; eauto|]. constructor; auto. destruct x, x'; cbn [same_item] in *; try tauto; auto.
  - intros n q w fs v g M _ IH L _ IH2 w' S. cut_ S. toks.
    repeat match goal with H : st w _ |- _ => apply IH in H as (? & ? & F) | H : st v _ |- _ => apply (keeps_t _ _ _ IH2) in H as (? & ? & ?) end.
    eexists. split; [|constructor; eauto].
    pose proof P_funcs as PF. cbn [app] in PF |- *. eapply PF; eauto. clear -F L. assert (length fs = length x) as <-; [|auto].
    clear L. induction F; cbn; auto.
  - intros n q s M w' S. cut_ S. toks. eexists. split; [eapply P_user; eauto|constructor; auto].
  - intros n q s w ps M _ IH w' S. cut_ S. toks. match goal with H : st w _ |- _ => apply IH in H as (? & ? & ?) end. eexists. split; [eapply P_user_with; eauto|constructor; auto].
  - intros n q M w' S. change (TKw "any" :: q) with ([TKw "any"] ++ q) in S. cut_ S. toks. eexists. split; [apply P_any; eauto|constructor; apply same_letters_refl].
  - intros n q s M w' S. inversion S as [|? ? ? ? S1 S2]; inversion S1; subst. change (st q l') in S2. toks. eexists. split; [apply P_any_var; eauto|constructor; auto].
  - intros p w f _ IH w' S. destruct (IH _ S) as (f' & H1 & H2). exists (AType f'). split; [apply E_type; auto|auto].
  - intros p w x _ IH w' S. cut_ S. toks. match goal with H : st w _ |- _ => apply IH in H as (x' & ? & ?) end. exists x'. split; [apply E_paren; auto|auto].
  - intros p w z H1 H2 w' S. inversion S as [|? ? ? ? S1 S2]; inversion S1; inversion S2; subst. exists (AExpr (DNum z)). split; [apply E_literal; auto|constructor].
  - intros p s n q M w' S. change (TId s :: q) with ([TId s] ++ q) in S. cut_ S. toks. exists (AExpr (DName s')). split; [eapply E_name; eauto|constructor; auto].
  - intros p s v U V w' S. cut_ S. toks. exists (AExpr (DCall v [])). split; [|constructor; constructor].
    apply (E_call0 p s' v); auto. eapply same_letters_trans; eauto.
  - intros p s v w ds U V _ IH w' S. cut_ S. toks. match goal with H : st w _ |- _ => apply IH in H as (l' & ? & ?) end. exists (AExpr (DCall v l')). split; [|constructor; auto].
    eapply E_call; eauto. eapply same_letters_trans; eauto.
  - intros p w1 c w2 t w3 e _ I1 _ I2 _ I3 w' S. cut_ S. toks.
    repeat match goal with H : st w1 _ |- _ => apply (keeps_e _ _ _ I1) in H as (? & ? & ?)
      | H : st w2 _ |- _ => apply (keeps_e _ _ _ I2) in H as (? & ? & ?) | H : st w3 _ |- _ => apply (keeps_e _ _ _ I3) in H as (? & ? & ?) end.
    eexists. split; [eapply E_if; eauto|constructor; auto].
  - intros p w d _ IH w' S. change (TSym "!" :: w) with ([TSym "!"] ++ w) in S. cut_ S. toks. match goal with H : st w _ |- _ => apply (keeps_e _ _ _ IH) in H as (? & ? & ?) end.
    eexists. split; [eapply E_not; eauto|constructor; auto].
  - intros p op o w1 l w2 r Hp Ho _ I1 _ I2 w' S. cut_ S.
    assert (a0 = [op]) as -> by (clear -Ho Ha0; cbn in Ho; repeat (destruct Ho as [Ho|Ho]; [inversion Ho; subst; (apply st_sym in Ha0 || apply st_kw in Ha0); exact Ha0|]); destruct Ho).
    clear Ha0. repeat match goal with H : st w1 _ |- _ => apply (keeps_e _ _ _ I1) in H as (? & ? & ?) | H : st w2 _ |- _ => apply (keeps_e _ _ _ I2) in H as (? & ? & ?) end.
    eexists. split; [eapply E_binary; eauto|constructor; auto].
  - intros p w1 c w2 t w3 e Hp _ I1 _ I2 _ I3 w' S. cut_ S. toks.
    repeat match goal with H : st w1 _ |- _ => apply (keeps_e _ _ _ I1) in H as (? & ? & ?)
      | H : st w2 _ |- _ => apply (keeps_e _ _ _ I2) in H as (? & ? & ?) | H : st w3 _ |- _ => apply (keeps_e _ _ _ I3) in H as (? & ? & ?) end.
    eexists. split; [eapply E_ternary; eauto|constructor; auto].
  - intros p w ds v f m _ I1 _ I2 w' S. cut_ S. toks.
    repeat match goal with H : st w _ |- _ => apply I1 in H as (? & ? & ?) | H : st v _ |- _ => apply I2 in H as (? & ? & ?) end.
    eexists (AType _). split; [eapply E_program; eauto|constructor; auto].
  - intros w f _ IH w' S. destruct (keeps_t _ _ _ IH _ S) as (f' & H1 & H2). exists [f']. split; [constructor; auto|auto].
  - intros w f v fs _ IH _ IHs w' S. cut_ S. toks.
    repeat match goal with H : st w _ |- _ => apply (keeps_t _ _ _ IH) in H as (? & ? & ?) | H : st v _ |- _ => apply IHs in H as (? & ? & ?) end.
    eexists. split; [eapply TL_more; eauto|auto].
  - intros w f _ IH w' S. destruct (keeps_e _ _ _ IH _ S) as (f' & H1 & H2). exists [f']. split; [constructor; auto|auto].
  - intros w f v fs _ IH _ IHs w' S. cut_ S. toks.
    repeat match goal with H : st w _ |- _ => apply (keeps_e _ _ _ IH) in H as (? & ? & ?) | H : st v _ |- _ => apply IHs in H as (? & ? & ?) end.
    eexists. split; [eapply EL_more; eauto|auto].
  - intros w p _ IH w' S. destruct (IH _ S) as (f' & H1 & H2). exists [f']. split; [constructor; auto|auto].
  - intros w p v ps _ IH _ IHs w' S. cut_ S. toks.
    repeat match goal with H : st w _ |- _ => apply IH in H as (? & ? & ?) | H : st v _ |- _ => apply IHs in H as (? & ? & ?) end.
    eexists. split; [eapply UL_more; eauto|auto].
  - intros w f _ IH w' S. destruct (keeps_t _ _ _ IH _ S) as (f' & H1 & H2). eexists. split; [apply U_type; eauto|constructor; auto].
  - intros w z _ IH w' S. destruct (keeps_e _ _ _ IH _ S) as (f' & H1 & H2). inversion H2; subst. eexists. split; [apply U_int; eauto|constructor; auto].
  - intros w s _ IH w' S. destruct (keeps_e _ _ _ IH _ S) as (f' & H1 & H2). inversion H2; subst. eexists. split; [apply U_name; eauto|constructor; auto].
  - intros x w d m _ IH Hm w' S. cut_ S. toks. match goal with H : st w _ |- _ => apply (keeps_e _ _ _ IH) in H as (? & ? & ?) end.
    eexists. split; [eapply G_one; eauto|]. constructor; [|constructor]. auto.
  - intros x w d m v ds _ IH Hm _ IHs w' S. cut_ S. toks.
    repeat match goal with H : st w _ |- _ => apply (keeps_e _ _ _ IH) in H as (? & ? & ?) | H : st v _ |- _ => apply IHs in H as (? & ? & ?) end.
    eexists. split; [eapply G_more; eauto|]. constructor; auto.
Qed.

(** ** blanks *)

Local Open Scope string_scope.
Definition no_slash (s : string) : Prop := Forall (fun c => c <> "/"%char) (chars s).

Lemma span_app_l : forall p a r, first_is p r = false -> span p (a ++ r) = (fst (span p a), snd (span p a) ++ r).
Proof.
  intros p a r F. induction a as [|c a IH]; cbn.
  - destruct r as [|c r]; [reflexivity|]. cbn in F. cbn. rewrite F. reflexivity.
  - destruct (p c); [|reflexivity]. rewrite IH. destruct (span p a). reflexivity.
Qed.
Lemma blank_facts : forall c, is_blank c = true -> is_word_char c = false /\ is_digit c = false /\ Ascii.eqb "!" c = false /\
  forall x, existsb (String.eqb (String x (String c ""))) symbols2 = existsb (String.eqb (String x "")) symbols2.
Proof.
  intros c H. unfold is_blank in H. apply in_ascii in H. cbn in H.
  repeat (destruct H as [<-|H]; [repeat split; intros x; cbn [existsb symbols2 String.eqb];
    repeat match goal with |- context [Ascii.eqb x ?y] => destruct (Ascii.eqb x y) end; reflexivity|]). destruct H.
Qed.
Lemma next_blank : forall c a b r, is_blank b = true -> c <> "/"%char ->
  next c (a ++ String b r) = (fst (next c a), snd (next c a) ++ String b r).
Proof.
  intros c a b r B N. destruct (blank_facts b B) as (B1 & B2 & B3 & B4). unfold next. destruct (is_letter c).
  { rewrite span_app_l by exact B1. destruct (span is_word_char a) as [w r']. cbn [fst snd].
    assert (first_is (Ascii.eqb "!") (r' ++ String b r) = first_is (Ascii.eqb "!") r') as -> by (destruct r'; [exact B3|reflexivity]).
    destruct (String.eqb (lower (String c w)) "u" && first_is (Ascii.eqb "!") r') eqn:U; [|reflexivity].
    destruct r' as [|x r']; [rewrite andb_false_r in U; discriminate U|reflexivity]. }
  assert (forall d s, number d (s ++ String b r) = (fst (number d s), snd (number d s) ++ String b r)) as HN.
  { intros d s. unfold number. destruct (Ascii.eqb d "0"); [reflexivity|]. rewrite span_app_l by exact B2. destruct (span is_digit s). reflexivity. }
  destruct (is_digit c); [rewrite HN; destruct (number c a); reflexivity|].
  destruct (Ascii.eqb c "010"); [reflexivity|].
  assert (first_is is_digit (a ++ String b r) = first_is is_digit a) as -> by (destruct a; [exact B2|reflexivity]).
  destruct (Ascii.eqb c "-" && first_is is_digit a) eqn:D.
  { destruct a as [|d a]; [rewrite andb_false_r in D; discriminate D|]. cbn [String.append]. rewrite HN. destruct (number d a). reflexivity. }
  apply Ascii.eqb_neq in N. rewrite N. cbn [andb].
  assert (existsb (String.eqb (String c (first_char (a ++ String b r)))) symbols2 = existsb (String.eqb (String c (first_char a))) symbols2) as ->.
  { destruct a as [|x a]; [apply B4|reflexivity]. }
  destruct (existsb (String.eqb (String c (first_char a))) symbols2) eqn:E2.
  { apply symbols2_in in E2 as (d & a' & -> & _). reflexivity. }
  destruct (existsb (Ascii.eqb c) symbols1); reflexivity.
Qed.
Lemma next_suffix : forall c a, exists p, String c a = p ++ snd (next c a).
Proof.
  intros c a. destruct (next c a) as [t r] eqn:E. cbn [snd]. unfold next in E. destruct (is_letter c).
  { destruct (span is_word_char a) as [w r'] eqn:Es. apply span_split in Es as (-> & _). destruct (_ && _) eqn:U; inversion E; subst.
    - destruct r' as [|x r']; [rewrite andb_false_r in U; discriminate U|]. exists (String c (w ++ String x "")). cbn. rewrite app_assoc_s. reflexivity.
    - exists (String c w). reflexivity. }
  assert (forall d s n r, number d s = (n, r) -> exists p, s = p ++ r) as HN.
  { intros d s n0 r0 En. unfold number in En. destruct (Ascii.eqb d "0"); [inversion En; subst; exists ""; reflexivity|].
    destruct (span is_digit s) as [x y] eqn:Es. apply span_split in Es as (-> & _). inversion En; subst. eauto. }
  destruct (is_digit c).
  { destruct (number c a) as [n' r'] eqn:En. apply HN in En as (p & ->). inversion E; subst. exists (String c p). reflexivity. }
  destruct (Ascii.eqb c "010"); [inversion E; subst; exists (String c ""); reflexivity|].
  destruct (Ascii.eqb c "-" && first_is is_digit a).
  { destruct a as [|d a]; [inversion E; subst; exists (String c ""); reflexivity|]. destruct (number d a) as [n' r'] eqn:En. apply HN in En as (p & ->).
    inversion E; subst. exists (String c (String d p)). reflexivity. }
  destruct (Ascii.eqb c "/" && first_is (Ascii.eqb "/") a).
  { inversion E; subst. destruct (span _ a) as [x y] eqn:Es. apply span_split in Es as (-> & _). exists (String c x). reflexivity. }
  assert (exists p, a = p ++ str_tail a) as (pt & Et) by (destruct a as [|x a]; [exists ""|exists (String x "")]; reflexivity).
  destruct (if Ascii.eqb c "/" && first_is (Ascii.eqb "*") a then block_comment (str_tail a) else None) as [r'|] eqn:Eb.
  { inversion E; subst. destruct (_ && _); [|discriminate Eb]. apply block_comment_inv in Eb as (v & Ev & _). exists (String c (pt ++ v)).
    cbn. rewrite app_assoc_s, <- Ev, <- Et. reflexivity. }
  destruct (existsb (String.eqb (String c (first_char a))) symbols2).
  { inversion E; subst. exists (String c pt). cbn. rewrite <- Et. reflexivity. }
  destruct (existsb (Ascii.eqb c) symbols1); inversion E; subst; exists (String c ""); reflexivity.
Qed.
Lemma no_slash_app : forall a b, no_slash (a ++ b) -> no_slash b.
Proof. induction a as [|c a IH]; intros b H; [exact H|]. cbn in H. inversion H; subst. auto. Qed.

Lemma lex_blank_app : forall a b r, is_blank b = true -> no_slash a -> lex (a ++ String b r) = (lex a ++ lex r)%list.
Proof.
  assert (forall n a b r, (String.length a <= n)%nat -> is_blank b = true -> no_slash a -> lex (a ++ String b r) = (lex a ++ lex r)%list) as H;
    [|intros a b r; apply (H _ a b r (le_n _))].
  induction n as [|n IH]; intros [|c a] b r L B N; cbn [String.length] in L; try lia.
  - change ("" ++ String b r) with (String b "" ++ r). apply lex_blanks. cbn [all_chars]. rewrite B. reflexivity.
  - change ("" ++ String b r) with (String b "" ++ r). apply lex_blanks. cbn [all_chars]. rewrite B. reflexivity.
  - inversion N as [|? ? Nc Na]; subst. cbn [String.append]. rewrite !lex_cons, next_blank by auto.
    destruct (next_suffix c a) as (p & Ep). destruct (next c a) as [t r'] eqn:E. cbn [fst snd] in *. apply next_len in E.
    rewrite IH; [destruct t; reflexivity|lia|auto|]. apply (no_slash_app p). rewrite <- Ep. exact N.
Qed.
Lemma lex_blanks_app : forall a w r, all_chars is_blank w = true -> w <> "" -> no_slash a -> lex (a ++ w ++ r) = (lex a ++ lex r)%list.
Proof.
  intros a w r B N S. destruct w as [|b w]; [congruence|]. cbn [all_chars] in B. apply andb_true_iff in B as [Bb B]. cbn [String.append].
  rewrite lex_blank_app by auto. rewrite lex_blanks by auto. reflexivity.
Qed.
