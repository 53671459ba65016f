(** Proofs about the texts of decimals. *)

From Coq Require Import ZArith String Ascii Bool Lia List.
From Verif Require Import Base DecimalModel DecimalSpec DecimalProofs DecimalProps CalModel CalSpec CalTextProofs CalPrintProofs
  DecTextModel DecTextSpec DecTextProps DecPrintModel DecPrintSpec.
Import ListNotations.
Local Open Scope Z_scope.

(** ** digits *)
Lemma digits_of : forall c, 0 <= c -> exists ds, string_of_Z c = str ds /\ Forall dig ds /\ val ds = c /\ has_digits c (Z.of_nat (List.length ds)).
Proof.
  intros c H. destruct (Z.eq_dec c 0) as [->|NZ].
  { exists [0]. split; [reflexivity|]. split; [repeat constructor; unfold dig; lia|]. split; [reflexivity|]. unfold has_digits. cbn. lia. }
  destruct (no_leading_zero c ltac:(lia)) as (a & r & E & A). destruct (string_of_Z_digits c H) as (ds & E' & F & V).
  exists ds. split; [exact E'|]. split; [exact F|]. split; [exact V|].
  destruct ds as [|d ds]; [cbn in V; lia|]. rewrite E' in E. cbn [str] in E. injection E as E _.
  pose proof (val_bound (d :: ds) F) as B. inversion F as [|? ? D F']; subst.
  assert (1 <= d). { destruct (Z.eq_dec d 0) as [->|]; [exfalso; apply A; reflexivity|unfold dig in D; lia]. }
  unfold has_digits. split; [cbn [List.length]; lia|]. split; [lia|]. right.
  change (d :: ds) with ([d] ++ ds). rewrite val_app. change (val [d]) with (10 * 0 + d).
  replace (Z.of_nat (List.length ([d] ++ ds)) - 1) with (Z.of_nat (List.length ds)) by (rewrite app_length; cbn [List.length]; lia).
  pose proof (val_bound ds F'). nia.
Qed.
Lemma str_length : forall ds, String.length (str ds) = List.length ds.
Proof. induction ds; cbn; auto. Qed.
Lemma substring_nil : forall m n, substring m n "" = ""%string.
Proof. intros [|m] [|n]; reflexivity. Qed.
Lemma substring_str : forall ds m n, substring m n (str ds) = str (firstn n (skipn m ds)).
Proof.
  induction ds as [|d ds IH]; intros m n; cbn [str].
  - rewrite substring_nil, skipn_nil, firstn_nil. reflexivity.
  - destruct m as [|m]; cbn [substring skipn].
    + destruct n as [|n]; [reflexivity|]. cbn [firstn str]. f_equal. rewrite IH. reflexivity.
    + apply IH.
Qed.
Lemma zeros_str : forall n, zeros n = str (repeat 0 n).
Proof. induction n; cbn [zeros repeat str]; auto. rewrite IHn. reflexivity. Qed.
Lemma zeros_val : forall n, val (repeat 0 n) = 0.
Proof. induction n; auto. Qed.
Lemma zeros_dig : forall n, Forall dig (repeat 0 n).
Proof. induction n; cbn; constructor; auto. unfold dig. lia. Qed.
Lemma str_number : forall ds, Forall dig ds -> number (List.length ds) (val ds) (str ds).
Proof. intros ds F. apply number_iff. exists ds. auto. Qed.
Lemma split_val : forall ds k, Forall dig ds -> (k <= List.length ds)%nat ->
  val (firstn (List.length ds - k) ds) = val ds / 10 ^ Z.of_nat k /\ val (skipn (List.length ds - k) ds) = val ds mod 10 ^ Z.of_nat k /\
  Forall dig (firstn (List.length ds - k) ds) /\ Forall dig (skipn (List.length ds - k) ds) /\
  List.length (firstn (List.length ds - k) ds) = (List.length ds - k)%nat /\ List.length (skipn (List.length ds - k) ds) = k.
Proof.
  intros ds k F L. set (a := firstn (List.length ds - k) ds). set (b := skipn (List.length ds - k) ds).
  assert (E : ds = a ++ b) by (symmetry; apply firstn_skipn).
  assert (LB : List.length b = k) by (unfold b; rewrite skipn_length; lia).
  assert (LA : List.length a = (List.length ds - k)%nat) by (unfold a; rewrite firstn_length; lia).
  assert (FF : Forall dig a /\ Forall dig b) by (rewrite E in F; apply Forall_app in F; exact F). destruct FF as [FA FB].
  pose proof (val_bound b FB) as B. rewrite LB in B.
  assert (V : val ds = val a * 10 ^ Z.of_nat k + val b) by (rewrite E, val_app, LB; reflexivity).
  rewrite V. pose proof (Z.pow_pos_nonneg 10 (Z.of_nat k)).
  split; [rewrite Z.div_add_l, Z.div_small; lia|]. split; [rewrite Z.add_comm, Z.mod_add, Z.mod_small; lia|]. auto.
Qed.
Lemma has_digits_quotient : forall v n k, 0 <= v -> has_digits v n -> 0 <= k < n -> has_digits (v / 10 ^ k) (n - k).
Proof.
  intros v n k V (H1 & H2 & H3) K. pose proof (Z.pow_pos_nonneg 10 k ltac:(lia) ltac:(lia)) as P.
  unfold has_digits. split; [lia|]. split.
  - apply Z.div_lt_upper_bound; [lia|]. rewrite <- Z.pow_add_r by lia. replace (k + (n - k)) with n by lia. exact H2.
  - destruct H3 as [[-> ->]|H3].
    + assert (k = 0) by lia. subst k. left. split; [reflexivity|lia].
    + right. apply Z.div_le_lower_bound; [lia|]. rewrite <- Z.pow_add_r by lia. replace (k + (n - k - 1)) with (n - 1) by lia. exact H3.
Qed.
Lemma number_inv : forall k z s, number (S k) z s -> exists w d t, number k w t /\ 0 <= d <= 9 /\ z = 10 * w + d /\ s = (t ++ String (digit d) "")%string.
Proof.
  intros k z s H. remember (S k) as n eqn:E. destruct H as [|k' w t d H D]; [discriminate|]. injection E as ->. exists w, d, t. auto.
Qed.
Lemma number_fun : forall k z s s', number k z s -> number k z s' -> s = s'.
Proof.
  intros k. induction k as [|k IH]; intros z s s' H H'.
  - inversion H; inversion H'; subst; auto.
  - apply number_inv in H. destruct H as (w & d & t & N & D & E & ->). apply number_inv in H'. destruct H' as (w' & d' & t' & N' & D' & E' & ->).
    assert (w = w' /\ d = d') as [-> ->] by lia. f_equal. eapply IH; eauto.
Qed.
Lemma unpadded_fun : forall v s s', 0 <= v -> unpadded v s -> unpadded v s' -> s = s'.
Proof.
  intros v s s' V (k & N & D) (k' & N' & D'). assert (E : Z.of_nat k = Z.of_nat k') by (eapply has_digits_unique; eauto).
  apply Nat2Z.inj in E. subst. eapply number_fun; eauto.
Qed.
Lemma unpadded_text : forall v, 0 <= v -> unpadded v (string_of_Z v).
Proof.
  intros v V. destruct (digits_of v V) as (ds & E & F & X & D). exists (List.length ds). split; [|exact D].
  rewrite E, <- X. apply str_number; auto.
Qed.

(** ** the two forms *)
Section Zeros.
Variable zif : bool.

Lemma in_full_dec : forall c e neg, 0 <= c -> (c = 0 -> neg = false) ->
  forall v, v = (if neg : bool then - c else c) ->
  let len := Z.of_nat (String.length (string_of_Z c)) in
  let len' := if (c =? 0) && zif && (-2000 <=? e) && (e <? 0) then len - e else len in
  ((e <=? 0) && (-6 <=? e + (len' - 1)) = true <-> in_full zif v (- e)).
Proof.
  intros c e neg C N v -> len len'. destruct (digits_of c C) as (ds & E & F & V & D).
  assert (A : Z.abs (if neg then - c else c) = c) by (destruct neg; lia).
  assert (L : len = Z.of_nat (List.length ds)) by (unfold len; rewrite E, str_length; reflexivity).
  unfold in_full. rewrite A, andb_true_iff, Z.leb_le, Z.leb_le. unfold len'. clear len'. split.
  - intros [H1 H2]. split; [lia|].
    destruct ((c =? 0) && zif && (-2000 <=? e) && (e <? 0)) eqn:B.
    + repeat rewrite andb_true_iff in B. destruct B as (((B1 & B2) & B3) & B4). apply Z.eqb_eq in B1. apply Z.leb_le in B3.
      right. split; [destruct neg; lia|]. split; [exact B2|lia].
    + left. exists len. split; [rewrite L; exact D|lia].
  - intros (H1 & H2). split; [lia|].
    destruct ((c =? 0) && zif && (-2000 <=? e) && (e <? 0)) eqn:B.
    + assert (0 < len) by (rewrite L; destruct D; lia). lia.
    + destruct H2 as [(k & K & H2)|(H2 & H3 & H4)].
      * assert (k = len) by (rewrite L; exact (has_digits_unique c _ _ C K D)). lia.
      * assert (c = 0) by (destruct neg; lia). assert (0 < len) by (rewrite L; destruct D; lia).
        destruct (Z.ltb_spec e 0); [|lia]. exfalso.
        assert (B' : (c =? 0) && zif && (-2000 <=? e) && true = true); [|congruence].
        rewrite H3. repeat rewrite andb_true_iff. rewrite Z.eqb_eq, Z.leb_le. repeat split; auto. lia.
Qed.

Lemma sign_text : forall c neg, 0 <= c -> (c = 0 -> neg = false) ->
  minus_if_negative (if neg : bool then - c else c) (if neg then "-" else ""%string).
Proof. intros c [|] C N; constructor; auto. assert (c <> 0) by (intros Z; apply N in Z; discriminate). lia. Qed.

Lemma plain_shows : forall c e neg v, 0 <= c -> (c = 0 -> neg = false) -> v = (if neg : bool then - c else c) -> in_full zif v (- e) ->
  shows_decimal zif v (- e) ((if neg then "-" else "") ++ plain_form (string_of_Z c) e).
Proof.
  intros c e neg v C N -> I. pose proof (sign_text c neg C N) as SG. set (v := if neg then - c else c) in *.
  assert (A : Z.abs v = c) by (unfold v; destruct neg; lia). pose proof I as (I1 & _).
  destruct (digits_of c C) as (ds & E & F & V & D). unfold plain_form. destruct (Z.ltb_spec e 0) as [L|L].
  - set (s := Z.to_nat (- e)). assert (ES : - e = Z.of_nat s) by (unfold s; lia). rewrite ES in *.
    rewrite E, str_length. destruct (Z.leb_spec 0 (Z.of_nat s - Z.of_nat (List.length ds))) as [G|G].
    + assert (B : 0 <= c < 10 ^ Z.of_nat s).
      { split; [exact C|]. destruct D as (_ & D & _). eapply Z.lt_le_trans; [exact D|]. apply Z.pow_le_mono_r; lia. }
      change ("0." ++ zeros (Z.to_nat (Z.of_nat s - Z.of_nat (List.length ds))) ++ str ds)%string
        with ("0" ++ "." ++ (zeros (Z.to_nat (Z.of_nat s - Z.of_nat (List.length ds))) ++ str ds))%string.
      apply Shows_places; auto; [lia| |].
      * rewrite A, Z.div_small by lia. exists 1%nat. split; [apply number_iff; exists [0]; repeat (split; auto); repeat constructor; unfold dig; lia|].
        unfold has_digits. cbn. lia.
      * rewrite A, Z.mod_small by lia. rewrite zeros_str, <- str_app. apply number_iff. eexists. split; [|split; [|split; [reflexivity|]]].
        -- rewrite app_length, repeat_length. lia.
        -- apply Forall_app. split; [apply zeros_dig|exact F].
        -- rewrite val_app, zeros_val, V. lia.
    + assert (K : (s <= List.length ds)%nat) by lia. destruct (split_val ds s F K) as (V1 & V2 & F1 & F2 & L1 & L2). rewrite V in V1, V2.
      replace (Z.to_nat (- (Z.of_nat s - Z.of_nat (List.length ds)))) with (List.length ds - s)%nat by lia.
      rewrite substring_str, substring_str. cbn [skipn].
      replace (List.length ds - (List.length ds - s))%nat with s by lia.
      rewrite (firstn_all2 (n := s) (skipn (List.length ds - s) ds)) by lia.
      apply Shows_places; auto; [lia| |].
      * rewrite A, <- V1. exists (List.length ds - s)%nat. split; [rewrite <- L1 at 1; apply str_number; exact F1|].
        rewrite V1. replace (Z.of_nat (List.length ds - s)) with (Z.of_nat (List.length ds) - Z.of_nat s) by lia.
        apply has_digits_quotient; auto. lia.
      * rewrite A, <- V2. rewrite <- L2 at 1. apply str_number. exact F2.
  - assert (e = 0) by lia. subst e. change (- 0) with 0. cbn [Z.to_nat zeros]. rewrite app_nil_s. apply Shows_whole; [exact SG|].
    rewrite A. apply unpadded_text. exact C.
Qed.

Lemma power_shows : forall x, shows_power x ("E" ++ (if x <? 0 then "-" ++ string_of_Z (- x) else "+" ++ string_of_Z x)).
Proof.
  intros x. destruct (Z.ltb_spec x 0).
  - change (shows_power x ("E-" ++ string_of_Z (- x))). apply Power_down; [lia|]. apply unpadded_text. lia.
  - change (shows_power x ("E+" ++ string_of_Z x)). apply Power_up; [lia|]. apply unpadded_text. lia.
Qed.

Lemma power_form_shows : forall c e neg v, 0 <= c -> (c = 0 -> neg = false) -> v = (if neg : bool then - c else c) -> ~ in_full zif v (- e) ->
  shows_decimal zif v (- e) ((if neg then "-" else "") ++ power_form (string_of_Z c) e).
Proof.
  intros c e neg v C N -> I. pose proof (sign_text c neg C N) as SG. set (v := if neg then - c else c) in *.
  assert (A : Z.abs v = c) by (unfold v; destruct neg; lia).
  destruct (digits_of c C) as (ds & E & F & V & D). unfold power_form. rewrite E, str_length.
  pose proof D as (D1 & D2 & D3). set (k := (List.length ds - 1)%nat). assert (EL : List.length ds = S k) by lia.
  rewrite !substring_str. change (skipn 0 ds) with ds. destruct (Nat.ltb_spec 1 (List.length ds)) as [L|L].
  - destruct (split_val ds k F ltac:(lia)) as (V1 & V2 & F1 & F2 & L1 & L2). rewrite V in V1, V2.
    replace (List.length ds - k)%nat with 1%nat in * by lia. fold k. rewrite (firstn_all2 (n := k)) by lia.
    rewrite app_assoc_s.
    assert (Q : 0 < Z.abs v / 10 ^ Z.of_nat k <= 9).
    { rewrite A, <- V1. pose proof (val_bound _ F1) as B. rewrite L1 in B. change (10 ^ Z.of_nat 1) with 10 in B. split; [|lia].
      rewrite V1. destruct D3 as [[_ D3]|D3]; [lia|]. apply Z.div_str_pos. split; [apply Z.pow_pos_nonneg; lia|].
      replace (Z.of_nat k) with (Z.of_nat (List.length ds) - 1) by lia. exact D3. }
    apply (Shows_digits_power zif v (- e) _ k); auto; [lia|rewrite A, <- V1|rewrite A, <- V2|].
    + pose proof (str_number _ F1) as SN. rewrite L1 in SN. exact SN.
    + pose proof (str_number _ F2) as SN. rewrite L2 in SN. exact SN.
    + replace (e + Z.of_nat (List.length ds) - 1) with (Z.of_nat k - - e) by lia. apply power_shows.
  - assert (K : List.length ds = 1%nat) by lia. cbn [append]. apply Shows_digit_power; auto.
    + rewrite A. rewrite K in D2. change (10 ^ Z.of_nat 1) with 10 in D2. lia.
    + rewrite A, firstn_all2 by lia. pose proof (str_number _ F) as SN. rewrite K, V in SN. exact SN.
    + replace (e + Z.of_nat (List.length ds) - 1) with (- - e) by lia. apply power_shows.
Qed.

Lemma apd_shows : forall d, 0 <= a_coeff d -> (a_coeff d = 0 -> a_neg d = false) -> shows_decimal zif (apd_int d) (- a_exp d) (apd_string zif d).
Proof.
  intros [neg c e] C N. cbn [a_coeff a_neg] in *. unfold apd_string, apd_int. cbn [a_coeff a_neg a_exp]. cbv zeta.
  pose proof (in_full_dec c e neg C N _ eq_refl) as ID. cbv zeta in ID. destruct (_ && (-6 <=? _)) eqn:B.
  - apply plain_shows; auto. apply ID. reflexivity.
  - apply power_form_shows; auto. intros I. apply ID in I. discriminate.
Qed.

(** ** one text, one number *)
Lemma sign_fun : forall v s s', minus_if_negative v s -> minus_if_negative v s' -> s = s'.
Proof. intros v s s' H H'. destruct H; destruct H'; auto; lia. Qed.
Lemma power_fun : forall x s s', shows_power x s -> shows_power x s' -> s = s'.
Proof. intros x s s' H H'. destruct H as [d H U|d H U]; destruct H' as [d' H' U'|d' H' U']; try lia; f_equal; (eapply unpadded_fun; [|exact U|exact U']); lia. Qed.

Lemma whole_in_full : forall v, in_full zif v 0.
Proof.
  intros v. split; [lia|]. left. exists (num_digits (Z.abs v)). pose proof (num_digits_spec (Z.abs v) (Z.abs_nonneg v)) as D. split; [exact D|].
  destruct D. lia.
Qed.
Lemma leading : forall v k, 0 < Z.abs v / 10 ^ Z.of_nat k <= 9 -> has_digits (Z.abs v) (Z.of_nat k + 1).
Proof.
  intros v k H. pose proof (Z.pow_pos_nonneg 10 (Z.of_nat k) ltac:(lia) ltac:(lia)) as P.
  pose proof (Z.div_mod (Z.abs v) (10 ^ Z.of_nat k) ltac:(lia)) as DM. pose proof (Z.mod_pos_bound (Z.abs v) (10 ^ Z.of_nat k) P) as M.
  unfold has_digits. split; [lia|]. split.
  - rewrite Z.pow_add_r by lia. change (10 ^ 1) with 10. nia.
  - right. replace (Z.of_nat k + 1 - 1) with (Z.of_nat k) by lia. nia.
Qed.
Lemma shows_fun : forall v s t t', shows_decimal zif v s t -> shows_decimal zif v s t' -> t = t'.
Proof.
  intros v s t t' H H'.
  destruct H as [sg ds S1 U|s sg ds fs I P S1 U N|s sg d p I S1 B N P|s sg k d fs p I S1 K Q N N2 P];
    inversion H' as [sg' ds' S1' U'|s' sg' ds' fs' I' P' S1' U' N'|s' sg' d' p' I' S1' B' N' P'|s' sg' k' d' fs' p' I' S1' K' Q' N' N2' P']; subst;
    try (exfalso; match goal with H : ~ in_full _ _ _ |- _ => apply H end; first [assumption|apply whole_in_full]); try lia;
    rewrite (sign_fun _ _ _ S1 S1').
  - rewrite (unpadded_fun _ _ _ (Z.abs_nonneg v) U U'). reflexivity.
  - assert (s' = s) by lia. subst s'. rewrite (number_fun _ _ _ _ N N').
    rewrite (unpadded_fun (Z.abs v / 10 ^ Z.of_nat s) ds ds'); auto. apply Z.div_pos; [apply Z.abs_nonneg|apply Z.pow_pos_nonneg; lia].
  - rewrite (number_fun _ _ _ _ N N'), (power_fun _ _ _ P P'). reflexivity.
  - apply leading in Q'. assert (X : has_digits (Z.abs v) 1).
    { unfold has_digits. split; [lia|]. change (10 ^ 1) with 10. split; [lia|]. change (10 ^ (1 - 1)) with 1. lia. }
    pose proof (has_digits_unique _ _ _ (Z.abs_nonneg v) Q' X). lia.
  - apply leading in Q. assert (X : has_digits (Z.abs v) 1).
    { unfold has_digits. split; [lia|]. change (10 ^ 1) with 10. split; [lia|]. change (10 ^ (1 - 1)) with 1. lia. }
    pose proof (has_digits_unique _ _ _ (Z.abs_nonneg v) Q X). lia.
  - apply leading in Q as X. apply leading in Q' as X'. pose proof (has_digits_unique _ _ _ (Z.abs_nonneg v) X X').
    assert (k' = k) by lia. subst k'. rewrite (number_fun _ _ _ _ N N'), (number_fun _ _ _ _ N2 N2'), (power_fun _ _ _ P P'). reflexivity.
Qed.

(** ** what a text says *)
Lemma minus_sign : forall v sg, minus_if_negative v sg -> exists k, sign sg k /\ v = k * Z.abs v.
Proof. intros v sg [H|H]; [exists (-1)|exists 1]; (split; [constructor|lia]). Qed.
Lemma unpadded_number : forall v t, unpadded v t -> exists k, number (S k) v t.
Proof. intros v t (k & N & D & _). destruct k as [|k]; [cbn in D; lia|eauto]. Qed.
Lemma shows_power_says : forall x t, shows_power x t -> power t x.
Proof.
  intros x t [ds H U|ds H U]; apply unpadded_number in U; destruct U as (k & N).
  - replace x with (-1 * - x) by lia. change ("E-" ++ ds)%string with ("E" ++ "-" ++ ds)%string. eapply Power; eauto. constructor.
  - replace x with (1 * x) at 1 by lia. change ("E+" ++ ds)%string with ("E" ++ "+" ++ ds)%string. eapply Power; eauto. constructor.
Qed.
Lemma shows_says : forall v s t, shows_decimal zif v s t -> exists j x, says_decimal t v j x /\ x - Z.of_nat j = - s /\
  (x = 0 \/ ~ in_full zif v s) /\ (Z.of_nat j = s \/ exists n, has_digits (Z.abs v) n /\ Z.of_nat j < n).
Proof.
  intros v s t H.
  destruct H as [sg ds S1 U|s sg ds fs I P S1 U N|s sg d p I S1 B N P|s sg k d fs p I S1 K Q N N2 P];
    apply minus_sign in S1; destruct S1 as (n & SG & EV).
  - apply unpadded_number in U. destruct U as (k & U). exists 0%nat, 0. split; [|split; [lia|split; auto]].
    rewrite <- (app_nil_s ds), EV. apply Says_decimal; [exact SG| |constructor]. eapply Without_point; eauto.
  - apply unpadded_number in U. destruct U as (k & U). exists s, 0. split; [|split; [lia|split; auto]].
    rewrite <- (app_nil_s (ds ++ "." ++ fs)), EV. apply Says_decimal; [exact SG| |constructor].
    rewrite (Z.div_mod (Z.abs v) (10 ^ Z.of_nat s)) by (pose proof (Z.pow_pos_nonneg 10 (Z.of_nat s)); lia).
    rewrite (Z.mul_comm (10 ^ _)). eapply With_point; eauto. lia.
  - exists 0%nat, (- s). split; [|split; [lia|split; [auto|right; exists (num_digits (Z.abs v)); pose proof (num_digits_spec (Z.abs v) (Z.abs_nonneg v)) as D; split; [exact D|destruct D; lia]]]]. rewrite EV. apply Says_decimal; [exact SG| |apply shows_power_says; exact P].
    eapply Without_point; eauto.
  - exists k, (Z.of_nat k - s). split; [|split; [lia|split; [auto|right; eexists; split; [exact (leading v k Q)|lia]]]]. rewrite EV. replace (sg ++ d ++ "." ++ fs ++ p)%string with (sg ++ (d ++ "." ++ fs) ++ p)%string by (rewrite !app_assoc_s; reflexivity).
    apply Says_decimal; [exact SG| |apply shows_power_says; exact P].
    rewrite (Z.div_mod (Z.abs v) (10 ^ Z.of_nat k)) by (pose proof (Z.pow_pos_nonneg 10 (Z.of_nat k)); lia).
    rewrite (Z.mul_comm (10 ^ _)). eapply With_point; eauto; lia.
Qed.
End Zeros.
