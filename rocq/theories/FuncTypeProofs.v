(** Facts about type strings (C28). *)

From Coq Require Import ZArith String Ascii Bool Lia List.
From Coq Require Import DecimalString DecimalZ DecimalFacts Decimal.
From Verif Require Import Base FMap FMapFacts ExtSetModel LoadModel LoadSpec LoadProofs TypesModel TimeModel SigModel ExprModel ExprSpec ExprWireProofs FuncModel FuncSpec.
Import ListNotations.
Local Open Scope string_scope.

Lemma str_eqb_spec : forall a b, String.eqb a b = true <-> a = b.
Proof. intros; apply String.eqb_eq. Qed.

Lemma append_assoc' : forall a b c : string, (a ++ b) ++ c = a ++ (b ++ c).
Proof. induction a; intros; cbn; congruence. Qed.
Lemma append_nil_r : forall a : string, a ++ "" = a.
Proof. induction a; cbn; congruence. Qed.

(** ** small string functions *)

Lemma cut_at_some : forall c s a b, cut_at c s = Some (a, b) <-> s = a ++ String c b /\ no_char c a.
Proof.
  intros c. unfold no_char. induction s as [|x s IH]; intros a b; cbn [cut_at].
  - split; [discriminate|]. intros [H _]. destruct a; discriminate.
  - destruct (Ascii.eqb_spec x c).
    + subst x. split.
      * intros H; inversion H; subst. split; [reflexivity|]. intros [].
      * intros [H Hn]. destruct a as [|y a]; cbn in H; inversion H; subst; [reflexivity|].
        exfalso. apply Hn. left; reflexivity.
    + destruct (cut_at c s) as [[a' b']|] eqn:E.
      * specialize (proj1 (IH a' b') eq_refl) as [-> Hn]. split.
        -- intros H; inversion H; subst. split; [reflexivity|]. cbn. intros [|]; congruence.
        -- intros [H Hn']. destruct a as [|y a]; cbn in H; inversion H; subst; [congruence|].
           assert (Some (a', b') = Some (a, b)) as E2.
           { apply IH. split; [auto|]. intros Hi. apply Hn'. right; auto. }
           congruence.
      * split; [discriminate|]. intros [H Hn]. destruct a as [|y a]; cbn in H; inversion H; subst; [congruence|].
        assert (None = Some (a, b)) as IH2; [|discriminate].
        apply IH. split; auto. intros Hi; apply Hn; right; auto.
Qed.

Lemma cut_at_none : forall c s, cut_at c s = None <-> no_char c s.
Proof.
  intros c. unfold no_char. induction s as [|x s IH]; cbn [cut_at chars].
  - split; auto.
  - destruct (Ascii.eqb_spec x c).
    + split; [discriminate|]. intros H. exfalso. apply H. left; auto.
    + destruct (cut_at c s) as [[? ?]|].
      * split; [discriminate|]. intros H. exfalso. assert (Some (s0, s1) = None); [|discriminate].
        apply IH. intros Hi. apply H. right; auto.
      * split; auto. intros _ [|]; [auto|]. apply (proj1 IH); auto.
Qed.

Lemma drop_last_cons : forall c x s, s <> "" ->
  drop_last c (String x s) = match drop_last c s with Some r => Some (String x r) | None => None end.
Proof. intros c x [|y s] H; [contradiction|reflexivity]. Qed.

Lemma drop_last_some : forall c s r, drop_last c s = Some r <-> s = r ++ String c "".
Proof.
  intros c. induction s as [|x s IH]; intros r.
  - cbn. split; [discriminate|]. destruct r; discriminate.
  - destruct s as [|y s].
    + cbn. destruct (Ascii.eqb_spec x c).
      * subst. split; intros H; [inversion H; reflexivity|]. destruct r as [|z [|w r]]; cbn in H; try discriminate; auto.
      * split; [discriminate|]. destruct r as [|z [|w r]]; cbn; intros H; inversion H; congruence.
    + rewrite drop_last_cons by discriminate. destruct (drop_last c (String y s)) as [q|] eqn:E.
      * assert (Eq := proj1 (IH q) eq_refl). rewrite Eq. split.
        -- intros H; inversion H; reflexivity.
        -- intros H. destruct r as [|z r]; cbn in H; inversion H; subst; [destruct q; discriminate|].
           assert (Some q = Some r) by (apply IH; rewrite Eq; auto). congruence.
      * split; [discriminate|]. intros H. destruct r as [|z r]; cbn in H; inversion H; subst.
        assert (None = Some r) by (apply IH; auto). discriminate.
Qed.
Lemma drop_last_none : forall c s, drop_last c s = None <-> ~ ends_with c s.
Proof.
  intros c s. destruct (drop_last c s) as [r|] eqn:E.
  - split; [discriminate|]. intros H. exfalso. apply H. exists r. apply drop_last_some; auto.
  - split; auto. intros _ [r Hr]. apply drop_last_some in Hr. congruence.
Qed.

(** ** splitting *)

Definition spells_on (sep : ascii) (text : string) (words : list string) : Prop :=
  words <> [] /\ Forall (no_char sep) words /\ text = String.concat (String sep "") words.

Lemma concat_cons' : forall sep w ws, ws <> [] -> String.concat sep (w :: ws) = w ++ sep ++ String.concat sep ws.
Proof. intros sep w [|x ws] H; [contradiction|reflexivity]. Qed.

Lemma split_on_spells : forall sep s, spells_on sep s (split_on sep s).
Proof.
  intros sep. induction s as [|ch s IH].
  - split; [discriminate|]. split; [constructor; [intros []|constructor]|reflexivity].
  - destruct IH as (H1 & H2 & H3). cbn [split_on]. destruct (Ascii.eqb_spec ch sep).
    + subst ch. split; [discriminate|]. split; [constructor; [intros []|auto]|].
      rewrite concat_cons' by auto. cbn. congruence.
    + destruct (split_on sep s) as [|w ws]; [contradiction|]. split; [discriminate|]. split.
      * inversion H2; subst. constructor; auto. intros [E|E]; [congruence|contradiction].
      * destruct ws; cbn in *; congruence.
Qed.
Lemma split_on_word : forall sep w, no_char sep w -> split_on sep w = [w].
Proof.
  intros sep. induction w as [|ch w IH]; intros H; [reflexivity|]. cbn [split_on]. unfold no_char in *. cbn [chars] in H.
  destruct (Ascii.eqb_spec ch sep); [exfalso; apply H; left; auto|].
  rewrite IH; [reflexivity|]. intros Hi. apply H. right; auto.
Qed.
Lemma split_on_app : forall sep w s, no_char sep w -> split_on sep (w ++ String sep s) = w :: split_on sep s.
Proof.
  intros sep. induction w as [|ch w IH]; intros s H.
  - cbn. rewrite Ascii.eqb_refl. reflexivity.
  - cbn [append split_on]. unfold no_char in *. cbn [chars] in H.
    destruct (Ascii.eqb_spec ch sep); [exfalso; apply H; left; auto|].
    rewrite IH; [reflexivity|]. intros Hi. apply H. right; auto.
Qed.
Lemma spells_on_split : forall sep text words, spells_on sep text words <-> words = split_on sep text.
Proof.
  intros sep text words. split; [|intros ->; apply split_on_spells].
  intros (H1 & H2 & ->). induction H2 as [|w ws Hw Hl IH]; [contradiction|].
  destruct ws as [|w' ws].
  - cbn. rewrite split_on_word; auto.
  - rewrite concat_cons' by discriminate. cbn [append]. rewrite split_on_app by auto. f_equal. apply IH. discriminate.
Qed.

(** ** numerals *)

Lemma digit_of_spec : forall c d, digit_of c = Some d <-> digit c d.
Proof.
  intros c d. unfold digit_of, digit. cbn zeta.
  assert (Hb := nat_ascii_bounded c).
  destruct (Z.leb_spec 48 (Z.of_nat (nat_of_ascii c))); cbn [andb].
  2:{ split; [discriminate|]. intros [Hd ->]. rewrite nat_ascii_embedding in *; lia. }
  destruct (Z.leb_spec (Z.of_nat (nat_of_ascii c)) 57).
  2:{ split; [discriminate|]. intros [Hd ->]. rewrite nat_ascii_embedding in *; lia. }
  split.
  - intros E; inversion E; subst. split; [lia|].
    replace (48 + Z.to_nat (Z.of_nat (nat_of_ascii c) - 48))%nat with (nat_of_ascii c) by lia.
    symmetry. apply ascii_nat_embedding.
  - intros [Hd ->]. f_equal. rewrite nat_ascii_embedding; lia.
Qed.

Lemma digits_value_app : forall s acc c,
  digits_value acc (s ++ String c "") =
  match digits_value acc s with
  | Some z => match digit_of c with Some d => Some (z * 10 + d)%Z | None => None end
  | None => None
  end.
Proof.
  induction s as [|x s IH]; intros acc c; cbn [append digits_value].
  - destruct (digit_of c); reflexivity.
  - destruct (digit_of x); [apply IH|reflexivity].
Qed.

Lemma string_rev_cases : forall s, s = "" \/ exists r c, s = r ++ String c "".
Proof.
  induction s as [|x s IH]; [left; reflexivity|]. right. destruct IH as [->|(r & c & ->)].
  - exists "", x. reflexivity.
  - exists (String x r), c. reflexivity.
Qed.
Lemma append_length : forall a b : string, String.length (a ++ b) = (String.length a + String.length b)%nat.
Proof. induction a; intros; cbn; auto. Qed.

Lemma unsigned_numeral : forall s z, unsigned_atoi s = Some z <-> numeral s z.
Proof.
  enough (forall n s z, (String.length s <= n)%nat -> unsigned_atoi s = Some z <-> numeral s z) as H.
  { intros s z. apply (H (String.length s)); auto. }
  induction n as [|n IH]; intros s z Hl.
  - destruct s; [|cbn in Hl; lia]. cbn. split; [discriminate|]. intros H; inversion H.
    destruct s; discriminate.
  - destruct (string_rev_cases s) as [->|(r & c & ->)].
    + cbn. split; [discriminate|]. intros H; inversion H. destruct s; discriminate.
    + rewrite append_length in Hl. cbn in Hl.
      assert (unsigned_atoi (r ++ String c "") = digits_value 0 (r ++ String c "")) as ->.
      { destruct r; reflexivity. }
      rewrite digits_value_app. destruct r as [|x r].
      * cbn. split.
        -- destruct (digit_of c) as [d|] eqn:E; [|discriminate]. intros H; inversion H; subst.
           apply Num_one. apply digit_of_spec; auto.
        -- intros H. inversion H as [c' d' Hd E1 E2|s' z' c' d' Hn Hd E1 E2]; subst.
           ++ apply digit_of_spec in Hd. rewrite Hd. reflexivity.
           ++ destruct s' as [|? [|? ?]]; cbn in E1; try discriminate. inversion Hn. destruct s; discriminate.
      * change (digits_value 0 (String x r)) with (unsigned_atoi (String x r)).
        assert (forall w, unsigned_atoi (String x r) = Some w <-> numeral (String x r) w) as IH'.
        { intros w. apply IH. lia. }
        split.
        -- destruct (unsigned_atoi (String x r)) as [w|]; [|discriminate].
           destruct (digit_of c) as [d|] eqn:E; [|discriminate]. intros H; inversion H; subst.
           replace (w * 10 + d)%Z with (10 * w + d)%Z by lia. apply Num_more; [apply IH'; auto|apply digit_of_spec; auto].
        -- intros H. inversion H as [c' d' Hd E1 E2|s' z' c' d' Hn Hd E1 E2]; subst.
           ++ destruct r; discriminate.
           ++ assert (s' = String x r /\ c' = c) as [-> ->].
              { assert (drop_last c' (s' ++ String c' "") = Some s') as D1 by (apply drop_last_some; auto).
                rewrite E1 in D1. apply drop_last_some in D1.
                assert (chars (String x r ++ String c "") = chars (s' ++ String c' "")) as D2 by (f_equal; auto).
                rewrite !chars_app in D2. apply app_inj_tail in D2. destruct D2 as [D2 D3].
                split; auto. symmetry. apply chars_inj; auto. }
              apply IH' in Hn. rewrite Hn. apply digit_of_spec in Hd. rewrite Hd. f_equal; lia.
Qed.

Lemma numeral_first : forall s z, numeral s z -> exists c r d, s = String c r /\ digit c d.
Proof.
  induction 1 as [c d Hd|s z c d Hn IH Hd].
  - exists c, "", d. auto.
  - destruct IH as (c' & r & d' & -> & Hd'). exists c', (r ++ String c ""), d'. auto.
Qed.
Lemma digit_char : forall c d, digit c d -> c <> "+"%char /\ c <> "-"%char /\ c <> ","%char.
Proof.
  intros c d [Hd ->]. assert (Z.to_nat d < 10)%nat as H by lia. clear Hd.
  remember (Z.to_nat d) as n. clear Heqn. do 10 (destruct n as [|n]; [repeat split; discriminate|]). lia.
Qed.
Lemma numeral_nonneg : forall s z, numeral s z -> (0 <= z)%Z.
Proof. induction 1 as [c d [H _]|s z c d Hn IH [H _]]; lia. Qed.

Lemma parse_int32_spec : forall s z, parse_int32 s = Ok z <-> int32_text s z.
Proof.
  intros s z. unfold parse_int32, atoi, int32_text, in_int.
  set (v := match s with
            | EmptyString => None
            | String c s' => if Ascii.eqb c "-" then option_map Z.opp (unsigned_atoi s')
                             else if Ascii.eqb c "+" then unsigned_atoi s' else unsigned_atoi s
            end).
  assert (v = Some z <-> int_text s z) as Hv.
  { subst v. destruct s as [|c s].
    - split; [discriminate|]. intros H; inversion H as [s z' Hn|s z' Hn E|s z' Hn E]; subst.
      apply numeral_first in Hn as (c & r & d & E & _). discriminate.
    - destruct (Ascii.eqb_spec c "-"%char); [subst c|destruct (Ascii.eqb_spec c "+"%char); [subst c|]].
      + split.
        * destruct (unsigned_atoi s) as [w|] eqn:E; [|discriminate]. cbn. intros H; inversion H; subst.
          apply (IT_minus s). apply unsigned_numeral; auto.
        * intros H; inversion H as [s' z' Hn|s' z' Hn E|s' z' Hn E]; subst.
          -- apply numeral_first in Hn as (c & r & d & E & Hd). inversion E; subst.
             apply digit_char in Hd as (_ & Hd & _). congruence.
          -- apply unsigned_numeral in Hn. rewrite Hn. reflexivity.
      + split.
        * intros H. apply (IT_plus s). apply unsigned_numeral; auto.
        * intros H; inversion H as [s' z' Hn|s' z' Hn E|s' z' Hn E]; subst.
          -- apply numeral_first in Hn as (c & r & d & E & Hd). inversion E; subst.
             apply digit_char in Hd as (Hd & _). congruence.
          -- apply unsigned_numeral in Hn. auto.
      + split.
        * intros H. apply IT_none. apply unsigned_numeral; auto.
        * intros H; inversion H as [s' z' Hn|s' z' Hn E|s' z' Hn E]; subst; try congruence.
          apply unsigned_numeral in Hn. auto. }
  destruct v as [w|].
  - destruct (Z.leb_spec (- 2 ^ 63) w), (Z.ltb_spec w (2 ^ 63)); cbn [andb].
    + destruct (Z.leb_spec (- 2 ^ 31) w), (Z.ltb_spec w (2 ^ 31)); cbn [andb].
      * split; [intros E; inversion E; subst; split; [apply Hv; auto|cbn in *; lia]|].
        intros [Hi _]. apply Hv in Hi. congruence.
      * split; [discriminate|]. intros [Hi Hr]. apply Hv in Hi. inversion Hi; subst. cbn in *. lia.
      * split; [discriminate|]. intros [Hi Hr]. apply Hv in Hi. inversion Hi; subst. cbn in *. lia.
      * split; [discriminate|]. intros [Hi Hr]. apply Hv in Hi. inversion Hi; subst. cbn in *. lia.
    + split; [discriminate|]. intros [Hi Hr]. apply Hv in Hi. inversion Hi; subst. cbn in *. lia.
    + split; [discriminate|]. intros [Hi Hr]. apply Hv in Hi. inversion Hi; subst. cbn in *. lia.
    + split; [discriminate|]. intros [Hi Hr]. apply Hv in Hi. inversion Hi; subst. cbn in *. lia.
  - split; [discriminate|]. intros [Hi Hr]. apply Hv in Hi. discriminate.
Qed.
Lemma parse_int32_no_panic : forall s, parse_int32 s <> Panic.
Proof. intros s. unfold parse_int32. destruct (atoi s); try discriminate. destruct (_ && _); discriminate. Qed.

Lemma int_text_chars : forall s z, int_text s z -> no_char "," s.
Proof.
  assert (forall s z, numeral s z -> no_char "," s) as Hn.
  { unfold no_char. induction 1 as [c d Hd|s z c d Hn IH Hd].
    - cbn. intros [E|[]]. apply digit_char in Hd. tauto.
    - rewrite chars_app. intros Hi. apply in_app_or in Hi as [Hi|[E|[]]]; [auto|]. apply digit_char in Hd. tauto. }
  intros s z H. inversion H as [s' z' H'|s' z' H' E|s' z' H' E]; subst; unfold no_char; cbn.
  - eapply Hn; eauto.
  - intros [E|E]; [discriminate|]. eapply Hn; eauto.
  - intros [E|E]; [discriminate|]. eapply Hn; eauto.
Qed.

(** ** decimal rendering is a numeral *)

Fixpoint uval (acc : Z) (d : uint) : Z :=
  match d with
  | Nil => acc
  | D0 d => uval (10 * acc + 0) d | D1 d => uval (10 * acc + 1) d | D2 d => uval (10 * acc + 2) d
  | D3 d => uval (10 * acc + 3) d | D4 d => uval (10 * acc + 4) d | D5 d => uval (10 * acc + 5) d
  | D6 d => uval (10 * acc + 6) d | D7 d => uval (10 * acc + 7) d | D8 d => uval (10 * acc + 8) d
  | D9 d => uval (10 * acc + 9) d
  end.

Lemma digits_value_uint : forall d acc,
  digits_value acc (NilEmpty.string_of_uint d) = Some (uval acc d).
Proof.
  induction d as [|d IH|d IH|d IH|d IH|d IH|d IH|d IH|d IH|d IH|d IH]; intros acc; cbn [NilEmpty.string_of_uint digits_value uval];
    [reflexivity|..];
    match goal with |- context[digit_of ?c] => let v := eval vm_compute in (digit_of c) in change (digit_of c) with v end;
    cbn iota beta; rewrite IH; f_equal; f_equal; lia.
Qed.
Lemma uval_pos : forall d p, uval (Zpos p) d = Zpos (Pos.of_uint_acc d p).
Proof.
  induction d as [|d IH|d IH|d IH|d IH|d IH|d IH|d IH|d IH|d IH|d IH]; intros p; cbn [uval Pos.of_uint_acc];
    [reflexivity|..]; rewrite <- IH; f_equal; lia.
Qed.
Lemma uval_zero : forall d, uval 0 d = Z.of_uint d.
Proof.
  unfold Z.of_uint.
  induction d as [|d IH|d IH|d IH|d IH|d IH|d IH|d IH|d IH|d IH|d IH]; cbn [uval Pos.of_uint]; [reflexivity|exact IH|..];
    cbn [Z.mul Z.add]; rewrite uval_pos; reflexivity.
Qed.

Lemma string_of_uint_numeral : forall d, numeral (NilZero.string_of_uint d) (Z.of_uint d).
Proof.
  intros d. apply unsigned_numeral. destruct d; [reflexivity|..];
    cbn [NilZero.string_of_uint]; rewrite <- uval_zero, <- digits_value_uint; reflexivity.
Qed.

Lemma string_of_Z_text : forall z, int_text (string_of_Z z) z.
Proof.
  intros z. unfold string_of_Z. assert (Z.of_int (Z.to_int z) = z) as E by apply DecimalZ.of_to.
  remember (Z.to_int z) as i. clear Heqi. subst z. destruct i as [d|d]; cbn [NilZero.string_of_int Z.of_int].
  - apply IT_none. apply string_of_uint_numeral.
  - apply (IT_minus (NilZero.string_of_uint d)). apply string_of_uint_numeral.
Qed.

(** ** extraction *)

Lemma mapM_ok_forall2 : forall A B (f : A -> res B) (P : A -> B -> Prop),
  (forall a b, f a = Ok b <-> P a b) ->
  forall l m, mapM f l = Ok m <-> Forall2 P l m.
Proof.
  intros A B f P HP. induction l as [|a l IH]; intros m; cbn [mapM].
  - split; intros H; [inversion H; constructor|inversion H; reflexivity].
  - destruct (f a) as [b| |] eqn:E.
    + destruct (mapM f l) as [ys| |].
      * split; intros H.
        -- inversion H; subst. constructor; [apply HP; auto|]. apply IH; auto.
        -- inversion H as [|? b' ? l' Hb Hl E1 E2]; subst. apply HP in Hb. apply IH in Hl. congruence.
      * split; [discriminate|]. intros H. inversion H as [|? b' ? l' Hb Hl E1 E2]; subst. apply IH in Hl. discriminate.
      * split; [discriminate|]. intros H. inversion H as [|? b' ? l' Hb Hl E1 E2]; subst. apply IH in Hl. discriminate.
    + split; [discriminate|]. intros H. inversion H as [|? b' ? l' Hb Hl E1 E2]; subst. apply HP in Hb. congruence.
    + split; [discriminate|]. intros H. inversion H as [|? b' ? l' Hb Hl E1 E2]; subst. apply HP in Hb. congruence.
Qed.
Lemma mapM_no_panic : forall A B (f : A -> res B) l, (forall a, f a <> Panic) -> mapM f l <> Panic.
Proof.
  intros A B f l H. induction l as [|a l IH]; cbn [mapM]; [discriminate|].
  specialize (H a). destruct (f a); try congruence. destruct (mapM f l); congruence.
Qed.

Lemma ends_with_app : forall c a x s, ends_with c (a ++ String x s) -> s <> "" -> ends_with c s.
Proof.
  intros c a x s [r Hr] Hs. destruct (string_rev_cases s) as [->|(q & d & ->)]; [contradiction|].
  exists q. f_equal. f_equal.
  assert (chars (a ++ String x (q ++ String d "")) = chars (r ++ String c "")) as E by (f_equal; auto).
  rewrite !chars_app in E. cbn [chars] in E. rewrite chars_app in E.
  change (chars a ++ x :: chars q ++ chars (String d ""))%list with (chars a ++ (x :: chars q) ++ [d])%list in E.
  rewrite app_assoc in E. apply app_inj_tail in E. tauto.
Qed.

Lemma extract_spec : forall o c s, o <> c ->
  extract o c s <> Panic /\
  forall text zs, extract o c s = Ok (text, zs) <-> enclosed o c s text zs.
Proof.
  intros o c s Hoc. unfold extract.
  destruct (cut_at o s) as [[base rest]|] eqn:Ec.
  - apply cut_at_some in Ec as [-> Hn]. destruct (drop_last c (base ++ String o rest)) as [r|] eqn:Ed.
    + assert (ends_with c (base ++ String o rest)) as He by (exists r; apply drop_last_some; auto).
      assert (rest <> "") as Hr.
      { intros ->. apply drop_last_some in Ed.
        assert (chars (base ++ String o "") = chars (r ++ String c "")) as E by (f_equal; auto).
        rewrite !chars_app in E. apply app_inj_tail in E. destruct E; contradiction. }
      assert (ends_with c rest) as [t Ht] by (eapply ends_with_app; eauto).
      rewrite (proj2 (drop_last_some c rest t) Ht). split.
      * destruct (mapM _ _) eqn:E; cbn; try discriminate. exfalso. revert E. apply mapM_no_panic, parse_int32_no_panic.
      * intros text zs. split.
        -- destruct (mapM parse_int32 (split_on "," t)) as [ps| |] eqn:E; cbn; try discriminate.
           intros H; inversion H; subst.
           apply (mapM_ok_forall2 _ _ _ _ parse_int32_spec) in E.
           destruct (split_on_spells ","%char t) as (H1 & H2 & H3). rewrite H3 at 1.
           apply Enc_params; auto.
        -- intros H. inversion H as [s' Hs E1 E2 E3|base' words zs' Hb Hw Hf E1 E2 E3]; subst.
           ++ exfalso. destruct Hs as [Hs|Hs]; [|auto]. apply Hs. rewrite chars_app. apply in_or_app. right; left; auto.
           ++ assert (cut_at o (base ++ String o (t ++ String c "")) = Some (base, t ++ String c "")) as A by (apply cut_at_some; auto).
              rewrite <- E1 in A. apply cut_at_some in A as [A1 A2].
              assert (cut_at o (text ++ String o (String.concat "," words ++ String c "")) = Some (text, String.concat "," words ++ String c "")) as B by (apply cut_at_some; auto).
              assert (cut_at o (text ++ String o (String.concat "," words ++ String c "")) = Some (base, t ++ String c "")) as C by (apply cut_at_some; split; auto).
              rewrite B in C. inversion C as [[C1 C2]]. subst base.
              assert (t = String.concat "," words) as ->.
              { assert (drop_last c (String.concat "," words ++ String c "") = Some t) as D by (apply drop_last_some; auto).
                rewrite (proj2 (drop_last_some c (String.concat "," words ++ String c "") (String.concat "," words)) eq_refl) in D. congruence. }
              assert (words = split_on "," (String.concat "," words)) as Hs.
              { apply spells_on_split. split; [auto|]. split; [|reflexivity].
                clear - Hf. induction Hf as [|w z ws zs [Hw _] Hf IH]; constructor; auto. eapply int_text_chars; eauto. }
              rewrite <- Hs. rewrite (proj2 (mapM_ok_forall2 _ _ _ _ parse_int32_spec words zs)); auto.
    + split; [discriminate|]. apply drop_last_none in Ed. intros text zs. split.
      * intros H; inversion H; subst. apply Enc_plain. auto.
      * intros H. inversion H as [s' Hs E1 E2 E3|base' words zs' Hb Hw Hf E1 E2 E3]; subst; [reflexivity|].
        exfalso. apply Ed. rewrite <- E1. exists (text ++ String o (String.concat "," words)).
        rewrite append_assoc'. reflexivity.
  - apply cut_at_none in Ec. split; [destruct (drop_last c s); discriminate|]. intros text zs. split.
    + intros H. assert ((s, @nil Z) = (text, zs)) as E by (destruct (drop_last c s); congruence). inversion E; subst.
      apply Enc_plain; auto.
    + intros H. inversion H as [s' Hs E1 E2 E3|base' words zs' Hb Hw Hf E1 E2 E3]; subst; [destruct (drop_last c text); reflexivity|].
      exfalso. apply Ec. rewrite chars_app. apply in_or_app. right; left; auto.
Qed.

Lemma marked_spec : forall text name n, base_and_nullability text = (name, n) <-> marked text name n.
Proof.
  intros text name n. unfold base_and_nullability. destruct (drop_last "?" text) as [r|] eqn:E.
  - apply drop_last_some in E. subst text. split; intros H.
    + inversion H; subst. apply Mk_null.
    + inversion H as [nm E1 E2 E3|nm Hq E1 E2 E3]; subst.
      * f_equal. assert (drop_last "?" (r ++ "?") = Some name) as D by (apply drop_last_some; auto).
        rewrite (proj2 (drop_last_some "?" (r ++ "?") r) eq_refl) in D. congruence.
      * exfalso. apply Hq. exists r. auto.
  - apply drop_last_none in E. split; intros H.
    + inversion H; subst. apply Mk_req; auto.
    + inversion H as [nm E1 E2 E3|nm Hq E1 E2 E3]; subst; [|reflexivity]. exfalso. apply E. exists name; auto.
Qed.

(** ** types *)

Definition kind_zero (k : kind) : ty :=
  match k with
  | KPrim p => TPrim p 0 0
  | KFixed f => TFixed f 0 0 0
  | KDecimal => TDecimal 0 0 0 0
  | KPrecTime => TPrecTime 0 0 0
  | KPrecTs => TPrecTs 0 0 0
  | KPrecTsTz => TPrecTsTz 0 0 0
  | KDay => TIntervalDay 0 0 0
  | KUser => TUser 0 0 0 []
  end.

Lemma kind_zero_inj : forall k k', kind_zero k = kind_zero k' -> k = k'.
Proof. intros [] []; cbn; intros H; inversion H; reflexivity. Qed.

Lemma typed_spec : forall k n zs t,
  (exists t', type_with_parameters (kind_zero k) zs = Ok t' /\ t = with_nullability n t') <-> typed n k zs t.
Proof.
  intros k n zs t. split.
  - intros (t' & H & ->).
    destruct k; cbn in H; destruct zs as [|z1 [|z2 [|z3 zs]]]; inversion H; subst; cbn; constructor.
  - intros H. inversion H; subst; cbn; eexists; split; reflexivity.
Qed.
Lemma type_with_parameters_no_panic : forall t zs, type_with_parameters t zs <> Panic.
Proof. intros t zs. destruct t; cbn; destruct zs as [|z1 [|z2 [|z3 zs]]]; discriminate. Qed.

(** a table of kinds *)
Definition table_of (table : fmap string ty) (entry : string -> kind -> Prop) : Prop :=
  forall name t, fm_get String.eqb name table = Some t <-> exists k, entry name k /\ t = kind_zero k.

Lemma get_type_spec : forall table entry o c s, o <> c -> table_of table entry ->
  get_type table o c s <> Panic /\
  forall t, get_type table o c s = Ok t <-> reads entry o c s t.
Proof.
  intros table entry o c s Hoc Ht. unfold get_type.
  destruct (extract_spec o c s Hoc) as [Hp He].
  destruct (extract o c s) as [[text zs]| |] eqn:E; cbn [bind].
  - destruct (base_and_nullability text) as [name n] eqn:Em.
    specialize (proj1 (He text zs) eq_refl) as Henc. apply marked_spec in Em as Hm.
    assert (forall text' zs', enclosed o c s text' zs' -> text' = text /\ zs' = zs) as Hu.
    { intros text' zs' H. apply He in H. inversion H; auto. }
    assert (forall name' n', marked text name' n' -> name' = name /\ n' = n) as Hu2.
    { intros name' n' H. apply marked_spec in H. rewrite H in Em. inversion Em; auto. }
    destruct (fm_get String.eqb name table) as [t0|] eqn:Eg.
    + destruct (proj1 (Ht name t0) Eg) as (k & Hk & ->). split.
      * destruct (type_with_parameters (kind_zero k) zs) eqn:Et; cbn; try discriminate.
        exfalso. revert Et. apply type_with_parameters_no_panic.
      * intros t. split.
        -- intros H. unb H. inversion H; subst.
           exists text, zs, name, n, k. repeat split; auto. apply typed_spec. eexists; split; eauto.
        -- intros (text' & zs' & name' & n' & k' & H1 & H2 & H3 & H4).
           apply Hu in H1 as [-> ->]. apply Hu2 in H2 as [-> ->].
           assert (kind_zero k' = kind_zero k) as Ek.
           { assert (fm_get String.eqb name table = Some (kind_zero k')) as G by (apply Ht; eauto). congruence. }
           apply kind_zero_inj in Ek. subst k'. apply typed_spec in H4 as (t' & H4 & ->).
           rewrite H4. reflexivity.
    + split; [discriminate|]. intros t. split; [discriminate|].
      intros (text' & zs' & name' & n' & k' & H1 & H2 & H3 & H4).
      apply Hu in H1 as [-> ->]. apply Hu2 in H2 as [-> ->].
      assert (fm_get String.eqb name table = Some (kind_zero k')) as G by (apply Ht; eauto). congruence.
  - split; [discriminate|]. intros t. split; [discriminate|].
    intros (text' & zs' & name' & n' & k' & H1 & _). apply He in H1. discriminate.
  - contradiction.
Qed.

(** ** the tables *)

Lemma prim_cases : forall P : prim -> Prop,
  P PrimBool -> P PrimI8 -> P PrimI16 -> P PrimI32 -> P PrimI64 -> P PrimFp32 -> P PrimFp64 ->
  P PrimString -> P PrimBinary -> P PrimTimestamp -> P PrimDate -> P PrimTime ->
  P PrimTimestampTz -> P PrimIntervalYear -> P PrimUUID -> forall p, P p.
Proof. intros; destruct p; auto. Qed.

Lemma base_type_complete : forall k name, In name (kind_names k) -> base_type name = Some (kind_zero k).
Proof.
  intros k name H. destruct k as [p|f| | | | | |]; [destruct p|destruct f|..]; cbn in H;
    repeat (destruct H as [H|H]; [subst name; vm_compute; reflexivity|]); destruct H.
Qed.

Lemma fm_get_in : forall V k v (m : fmap string V), fm_get String.eqb k m = Some v -> In (k, v) m.
Proof. intros. eapply get_some_in; eauto. intros; apply String.eqb_eq. Qed.

Lemma base_type_sound : forall name t, base_type name = Some t -> exists k, In name (kind_names k) /\ t = kind_zero k.
Proof.
  intros name t H. unfold base_type in H. apply fm_get_in in H.
  assert (forallb (fun kv : string * ty => match kind_of (snd kv) with
                                            | Some k => existsb (String.eqb (fst kv)) (kind_names k)
                                            | None => false
                                            end) type_table = true) as H1 by (vm_compute; reflexivity).
  assert (Forall (fun kv : string * ty => match kind_of (snd kv) with Some k => snd kv = kind_zero k | None => True end)
            type_table) as H2.
  { let v := eval vm_compute in type_table in change type_table with v. repeat (apply Forall_cons; [reflexivity|]). apply Forall_nil. }
  rewrite forallb_forall in H1. rewrite Forall_forall in H2. specialize (H1 _ H). specialize (H2 _ H).
  cbn [fst snd] in *. destruct (kind_of t) as [k|]; [|discriminate]. exists k. split; [|auto].
  apply existsb_exists in H1 as (x & Hx & E). apply String.eqb_eq in E. subst; auto.
Qed.

Lemma base_type_iff : forall name t, base_type name = Some t <-> exists k, In name (kind_names k) /\ t = kind_zero k.
Proof.
  intros. split; [apply base_type_sound|]. intros (k & H & ->). apply base_type_complete; auto.
Qed.

Lemma names_kind_unique : forall k k' name, In name (kind_names k) -> In name (kind_names k') -> k = k'.
Proof.
  intros k k' name H H'. apply base_type_complete in H, H'. apply kind_zero_inj. congruence.
Qed.

Lemma standard_table : table_of type_table (fun name k => In name (kind_names k)).
Proof. intros name t. apply base_type_iff. Qed.

(** ** the local registry *)

Definition entry := (string * (string * bool))%type.

Definition tinfo_of (kv : entry) (ti : tinfo) : Prop :=
  exists k, In (fst kv) (kind_names k) /\
    ti = TInfo (kind_zero k) (short_string (kind_zero k)) (fst (snd kv)) (snd (snd kv)).

Lemma localize_types_spec : forall table,
  (exists r, localize_types table = Ok r) /\ known_table table \/
  localize_types table = Err /\ ~ known_table table.
Proof.
  intros table. unfold localize_types. induction table as [|[name [l b]] table IH].
  - left. split; [eexists; reflexivity|]. intros ? ? [].
  - cbn [mapM fst snd]. destruct (base_type name) as [t|] eqn:E.
    + destruct IH as [[[r Hr] Hk]|[He Hk]].
      * left. destruct (mapM _ table) as [tis| |]; cbn in *; try discriminate. split; [eexists; reflexivity|].
        intros n v [Hi|Hi]; [inversion Hi; subst|eapply Hk; eauto]. apply base_type_sound in E as (k & Hn & _). eauto.
      * right. destruct (mapM _ table) as [tis| |]; cbn in *; try discriminate. split; auto.
        intros H. apply Hk. intros n v Hi. eapply H. right; eauto.
    + right. split; [reflexivity|]. intros H. destruct (H name (l, b)) as [k Hk]; [left; auto|].
      apply base_type_complete in Hk. congruence.
Qed.

Lemma localize_types_infos : forall table r, localize_types table = Ok r ->
  exists tis, Forall2 tinfo_of table tis /\ r = new_type_registry tis.
Proof.
  intros table r H. unfold localize_types in H. unb H. inversion H; subst. exists a. split; [|reflexivity].
  refine (proj1 (mapM_ok_forall2 _ _ _ _ _ table a) _); [|eassumption].
  intros [name [l b]] ti. cbn [fst snd]. unfold tinfo_of. cbn [fst snd]. split.
  - destruct (base_type name) as [t|] eqn:Eb; [|discriminate]. intros Hx; inversion Hx; subst.
    apply base_type_sound in Eb as (k & Hk & ->). exists k. auto.
  - intros (k & Hk & ->). rewrite (base_type_complete k) by auto. reflexivity.
Qed.

Definition tkind (ti : tinfo) (k : kind) : Prop :=
  ti_type ti = kind_zero k /\ ti_short ti = short_string (kind_zero k).

Definition short_name (k : kind) : string := short_string (kind_zero k).
Definition long_name_of (k : kind) : string :=
  match composite (kind_zero k) with Some (b, _) => b | None => type_string (kind_zero k) end.

Lemma registered_names_iff : forall k name,
  In name (registered_names k) <-> name = short_name k \/ name = long_name_of k.
Proof.
  intros k name. destruct k as [p|f| | | | | |]; [destruct p|destruct f|..]; cbn;
    split; intros H; repeat (destruct H as [H|H]); subst; auto; try tauto.
Qed.
Lemma registered_unique : forall k k' name, In name (registered_names k) -> In name (registered_names k') -> k = k'.
Proof.
  assert (forall k name, In name (registered_names k) -> k = KUser /\ (name = "" \/ name = "user_defined_type") \/ In name (kind_names k)) as H0.
  { intros k name H. destruct k; auto. left. cbn in H. intuition. }
  assert (forall k, ~ In "" (kind_names k) /\ ~ In "user_defined_type" (kind_names k)) as H1.
  { intros k. split; intros H; apply base_type_complete in H; vm_compute in H; discriminate. }
  intros k k' name H H'. apply H0 in H, H'.
  destruct H as [[-> E]|H], H' as [[-> E']|H']; auto.
  - exfalso. destruct (H1 k'). intuition (subst; auto).
  - exfalso. destruct (H1 k). intuition (subst; auto).
  - eapply names_kind_unique; eauto.
Qed.
Lemma short_name_inj : forall k k', short_name k = short_name k' -> k = k'.
Proof.
  intros k k' H. apply (registered_unique k k' (short_name k)); apply registered_names_iff; auto.
Qed.

(** what the fold leaves in the three maps: the last one wins *)
Lemma new_registry_gets : forall tis r0,
  (forall ti, In ti tis -> exists k, tkind ti k) ->
  let r := fold_left add_tinfo tis r0 in
  (forall name, (exists ti k, In ti tis /\ tkind ti k /\ In name (registered_names k) /\
                   fm_get String.eqb name (tr_names r) = Some (ti_type ti) /\ fm_get String.eqb name (tr_infos r) = Some ti) \/
                (forall ti k, In ti tis -> tkind ti k -> ~ In name (registered_names k)) /\
                fm_get String.eqb name (tr_names r) = fm_get String.eqb name (tr_names r0) /\
                fm_get String.eqb name (tr_infos r) = fm_get String.eqb name (tr_infos r0)) /\
  (forall l, (exists ti, In ti tis /\ ti_local ti = l /\ fm_get String.eqb l (tr_locals r) = Some (ti_type ti)) \/
             (forall ti, In ti tis -> ti_local ti <> l) /\
             fm_get String.eqb l (tr_locals r) = fm_get String.eqb l (tr_locals r0)).
Proof.
  induction tis as [|ti tis IH]; intros r0 Hk; cbn [fold_left]; cbn zeta.
  - split; intros; right; split; auto; intros ? ? [].
  - destruct (IH (add_tinfo r0 ti)) as [IH1 IH2]; [intros; apply Hk; right; auto|].
    destruct (Hk ti) as [k [Hty Hsh]]; [left; auto|].
    assert (long_name ti = long_name_of k) as Hlong by (unfold long_name, long_name_of; rewrite Hty; reflexivity).
    split.
    + intros name. destruct (IH1 name) as [(ti' & k' & H1 & H2 & H3 & H4)|(H1 & H2 & H3)].
      * left. exists ti', k'. split; [right; auto|auto].
      * destruct (in_dec string_dec name (registered_names k)) as [Hi|Hi].
        -- left. exists ti, k. split; [left; auto|]. split; [split; auto|]. split; [auto|].
           rewrite H2, H3. unfold add_tinfo. rewrite Hlong. fold (short_name k) in Hsh. rewrite Hsh.
           apply registered_names_iff in Hi.
           destruct (String.eqb_spec (long_name_of k) (short_name k)); cbn [tr_names tr_infos].
           ++ assert (name = short_name k) as -> by (destruct Hi; congruence).
              repeat rewrite (get_set_same _ str_eqb_spec). auto.
           ++ destruct (string_dec name (long_name_of k)) as [->|Hne].
              ** repeat rewrite (get_set_same _ str_eqb_spec). auto.
              ** assert (name = short_name k) as -> by (destruct Hi; congruence).
                 split; rewrite (get_set_other _ str_eqb_spec) by auto; rewrite (get_set_same _ str_eqb_spec); reflexivity.
        -- right. split.
           ++ intros ti' k' [<-|Hin] [Ht' Hs'].
              ** rewrite Hty in Ht'. apply kind_zero_inj in Ht'. subst k'. auto.
              ** apply (H1 ti'); auto. split; auto.
           ++ rewrite H2, H3. unfold add_tinfo. rewrite Hlong. fold (short_name k) in Hsh. rewrite Hsh.
              assert (name <> short_name k /\ name <> long_name_of k) as [N1 N2].
              { split; intros ->; apply Hi; apply registered_names_iff; auto. }
              destruct (String.eqb_spec (long_name_of k) (short_name k)); cbn [tr_names tr_infos];
                repeat rewrite (get_set_other _ str_eqb_spec) by auto; auto.
    + intros l. destruct (IH2 l) as [(ti' & H1 & H2 & H3)|(H1 & H2)].
      * left. exists ti'. split; [right; auto|auto].
      * assert (tr_locals (add_tinfo r0 ti) = fm_set String.eqb (ti_local ti) (ti_type ti) (tr_locals r0)) as El.
        { unfold add_tinfo. destruct (String.eqb _ _); reflexivity. }
        destruct (string_dec (ti_local ti) l) as [<-|Hne].
        -- left. exists ti. split; [left; auto|]. split; [auto|]. rewrite H2, El. apply (get_set_same _ str_eqb_spec).
        -- right. split.
           ++ intros ti' [<-|Hin]; auto.
           ++ rewrite H2, El. apply (get_set_other _ str_eqb_spec); auto.
Qed.

Lemma tinfos_kinds : forall table tis, Forall2 tinfo_of table tis -> forall ti, In ti tis -> exists k, tkind ti k.
Proof.
  intros table tis H. induction H as [|kv ti table tis Hx H IH]; [intros ? []|].
  intros ti' [<-|Hi]; auto. destruct Hx as (k & _ & ->). exists k. split; reflexivity.
Qed.
Lemma tinfos_declares : forall table tis, Forall2 tinfo_of table tis ->
  forall k l b, declares table k l b <-> In (TInfo (kind_zero k) (short_name k) l b) tis.
Proof.
  intros table tis H k l b. unfold declares. split.
  - intros (name & Hi & Hn). induction H as [|kv ti table tis Hx H IH]; [destruct Hi|].
    destruct Hi as [->|Hi]; [|right; auto]. left. destruct Hx as (k' & Hk' & ->). cbn in *.
    assert (k' = k) as -> by (eapply names_kind_unique; eauto). reflexivity.
  - induction H as [|kv ti table tis Hx H IH]; [intros []|]. intros [->|Hi].
    + destruct Hx as (k' & Hk' & E). inversion E as [[E1 E2 E3 E4]]. apply kind_zero_inj in E1. subst k'.
      destruct kv as [name [l' b']]. cbn in *. subst. exists name. split; [left; auto|auto].
    + destruct (IH Hi) as (name & H1 & H2). exists name. split; [right; auto|auto].
Qed.
Lemma tinfo_eta : forall ti k, tkind ti k -> ti = TInfo (kind_zero k) (short_name k) (ti_local ti) (ti_column ti).
Proof. intros [t s l b] k [H1 H2]. cbn in *. subst. reflexivity. Qed.

Lemma local_names_table : forall table r, localize_types table = Ok r ->
  table_of (tr_names r) (fun name k => In name (registered_names k) /\ exists l b, declares table k l b).
Proof.
  intros table r H. apply localize_types_infos in H as (tis & HF & ->).
  assert (Hk := tinfos_kinds _ _ HF). assert (Hd := tinfos_declares _ _ HF).
  destruct (new_registry_gets tis (TReg [] [] []) Hk) as [HN _].
  intros name t. unfold new_type_registry. destruct (HN name) as [(ti & k & H1 & H2 & H3 & H4 & _)|(H1 & H2 & _)].
  - rewrite H4. destruct H2 as [H2 H2']. rewrite H2. split.
    + intros E; inversion E; subst. exists k. split; [|auto]. split; [auto|].
      exists (ti_local ti), (ti_column ti). apply Hd. rewrite <- (tinfo_eta ti k); [auto|split; auto].
    + intros (k' & (Hn & _) & ->). f_equal. f_equal. eapply registered_unique; eauto.
  - rewrite H2. cbn. split; [discriminate|]. intros (k & (Hn & l & b & Hx) & _). exfalso.
    apply Hd in Hx. eapply (H1 _ k); [eauto|split; reflexivity|auto].
Qed.

Lemma local_locals_table : forall table r, localize_types table = Ok r -> distinct_locals table ->
  table_of (tr_locals r) (fun l k => exists b, declares table k l b).
Proof.
  intros table r H Hu. apply localize_types_infos in H as (tis & HF & ->).
  assert (Hk := tinfos_kinds _ _ HF). assert (Hd := tinfos_declares _ _ HF).
  destruct (new_registry_gets tis (TReg [] [] []) Hk) as [_ HL].
  intros l t. unfold new_type_registry. destruct (HL l) as [(ti & H1 & H2 & H3)|(H1 & H2)].
  - rewrite H3. destruct (Hk ti H1) as [k Hki]. assert (Hx := tinfo_eta ti k Hki). destruct Hki as [Hki1 Hki2].
    assert (declares table k l (ti_column ti)) as Hdk by (apply Hd; rewrite <- H2, <- Hx; auto).
    rewrite Hki1. split.
    + intros E; inversion E; subst t. exists k. eauto.
    + intros (k' & (b & Hb) & ->). f_equal. f_equal. eapply Hu; eauto.
  - rewrite H2. cbn. split; [discriminate|]. intros (k & (b & Hx) & _). exfalso.
    apply Hd in Hx. apply (H1 _ Hx). reflexivity.
Qed.

Lemma local_infos_get : forall table r, localize_types table = Ok r -> distinct_kinds table ->
  forall k, (exists l b, declares table k l b /\
               fm_get String.eqb (short_name k) (tr_infos r) = Some (TInfo (kind_zero k) (short_name k) l b)) \/
            (forall l b, ~ declares table k l b) /\ fm_get String.eqb (short_name k) (tr_infos r) = None.
Proof.
  intros table r H Hu k. apply localize_types_infos in H as (tis & HF & ->).
  assert (Hk := tinfos_kinds _ _ HF). assert (Hd := tinfos_declares _ _ HF).
  destruct (new_registry_gets tis (TReg [] [] []) Hk) as [HN _].
  unfold new_type_registry. destruct (HN (short_name k)) as [(ti & k' & H1 & H2 & H3 & _ & H4)|(H1 & _ & H2)].
  - left. assert (k' = k) as ->.
    { eapply registered_unique; eauto. apply registered_names_iff; auto. }
    assert (Hx := tinfo_eta ti k H2). exists (ti_local ti), (ti_column ti). split.
    + apply Hd. rewrite <- Hx; auto.
    + rewrite H4. congruence.
  - right. split; [|exact H2]. intros l b Hx. apply Hd in Hx.
    eapply (H1 _ k); [eauto|split; reflexivity|apply registered_names_iff; auto].
Qed.

Lemma short_string_kind : forall t k, kind_of t = Some k -> short_string t = short_name k.
Proof. intros t k H. destruct t; cbn in H; inversion H; subst; reflexivity. Qed.
Lemma kind_short_string : forall t, kind_of t = None -> forall k, ~ In (short_string t) (registered_names k).
Proof.
  intros t H k. destruct t; cbn in H; inversion H; cbn;
    (destruct k as [p|f| | | | | |]; [destruct p|destruct f|..]; cbn; intuition discriminate).
Qed.
Lemma local_type_string_spec : forall t k l b, kind_of t = Some k ->
  local_type_string (TInfo (kind_zero k) (short_name k) l b) t = local_text l t.
Proof.
  intros t k l b H. destruct t; cbn in H; inversion H; try reflexivity.
  unfold local_type_string. cbn [composite local_text ti_local]. rewrite !append_assoc'. reflexivity.
Qed.

Lemma local_type_spec : forall table r t, localize_types table = Ok r -> distinct_kinds table ->
  local_type r t <> Panic /\
  forall s, local_type r t = Ok s <->
    exists k l b, kind_of t = Some k /\ declares table k l b /\ s = local_text l t.
Proof.
  intros table r t H Hu. unfold local_type. destruct (kind_of t) as [k|] eqn:Ek.
  - rewrite (short_string_kind t k Ek).
    destruct (local_infos_get table r H Hu k) as [(l & b & Hd & ->)|[Hd ->]].
    + split; [discriminate|]. intros s. rewrite (local_type_string_spec t k l b Ek). split.
      * intros E; inversion E; subst. exists k, l, b. auto.
      * intros (k' & l' & b' & E & Hd' & ->). inversion E; subst k'. destruct (Hu _ _ _ _ _ Hd Hd') as [-> _]. auto.
    + split; [discriminate|]. intros s. split; [discriminate|].
      intros (k' & l' & b' & E & Hd' & ->). inversion E; subst k'. exfalso. eapply Hd; eauto.
  - assert (fm_get String.eqb (short_string t) (tr_infos r) = None) as ->.
    { apply localize_types_infos in H as (tis & HF & ->).
      destruct (new_registry_gets tis (TReg [] [] []) (tinfos_kinds _ _ HF)) as [HN _].
      destruct (HN (short_string t)) as [(ti & k' & H1 & H2 & H3 & _)|(_ & _ & H2)]; [|exact H2].
      exfalso. revert H3. apply kind_short_string; auto. }
    split; [discriminate|]. intros s. split; [discriminate|]. intros (k & l & b & E & _). discriminate.
Qed.

Lemma supported_in_tables_spec : forall table r t, localize_types table = Ok r -> distinct_kinds table ->
  supported_in_tables r t = true <-> exists k l, kind_of t = Some k /\ declares table k l true.
Proof.
  intros table r t H Hu. unfold supported_in_tables. destruct (kind_of t) as [k|] eqn:Ek.
  - rewrite (short_string_kind t k Ek).
    destruct (local_infos_get table r H Hu k) as [(l & b & Hd & ->)|[Hd ->]]; cbn [ti_column].
    + split.
      * intros ->. eauto.
      * intros (k' & l' & E & Hd'). inversion E; subst k'. destruct (Hu _ _ _ _ _ Hd Hd') as [_ ->]. auto.
    + split; [discriminate|]. intros (k' & l' & E & Hd'). inversion E; subst k'. exfalso. eapply Hd; eauto.
  - assert (fm_get String.eqb (short_string t) (tr_infos r) = None) as ->.
    { apply localize_types_infos in H as (tis & HF & ->).
      destruct (new_registry_gets tis (TReg [] [] []) (tinfos_kinds _ _ HF)) as [HN _].
      destruct (HN (short_string t)) as [(ti & k' & H1 & H2 & H3 & _)|(_ & _ & H2)]; [|exact H2].
      exfalso. revert H3. apply kind_short_string; auto. }
    split; [discriminate|]. intros (k & l & E & _). discriminate.
Qed.

(** ** reading the dialect's own text back *)

Lemma in_app_l : forall c a b, no_char c (a ++ b) -> no_char c a.
Proof. unfold no_char. intros c a b H Hi. apply H. rewrite chars_app. apply in_or_app; auto. Qed.

Lemma enclosed_params : forall base o c zs, no_char o base -> zs <> [] -> Forall (in_int 32) zs ->
  enclosed o c (base ++ String o (String.concat "," (map string_of_Z zs) ++ String c "")) base zs.
Proof.
  intros base o c zs Hn Hz Hr. apply Enc_params; auto.
  - intros E. apply Hz. destruct zs; [reflexivity|discriminate].
  - clear Hz. induction Hr as [|z zs Hz Hr IH]; cbn; constructor; auto. split; [apply string_of_Z_text|auto].
Qed.

Lemma reads_local : forall (en : string -> kind -> Prop) l t k, plain_name l -> en l k -> kind_of t = Some k -> readable t ->
  reads en "(" ")" (local_text l t) (plain_type NullRequired t).
Proof.
  intros en l t k [Hp Hq] He Hk Hr. destruct t; cbn in Hk, Hr; try contradiction; inversion Hk; subst; cbn [local_text plain_type].
  - exists l, [], l, NullRequired, (KPrim p). repeat split; auto; [apply Enc_plain; auto|apply Mk_req; auto|constructor].
  - exists l, [len], l, NullRequired, (KFixed k0). repeat split; auto; [|apply Mk_req; auto|constructor].
    apply (enclosed_params l "(" ")" [len]); [auto|discriminate|repeat constructor; apply Hr].
  - exists l, [precision; scale], l, NullRequired, KDecimal. repeat split; auto; [|apply Mk_req; auto|constructor].
    assert (Hx := enclosed_params l "(" ")" [precision; scale] Hp). cbn [map String.concat] in Hx.
    change (String ")" "") with ")" in Hx. rewrite !append_assoc' in Hx. cbn [append] in *.
    apply Hx; [discriminate|repeat constructor; apply Hr].
Qed.
