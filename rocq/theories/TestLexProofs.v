(** Proofs about the lexer of function test files. *)

From Coq Require Import String Ascii Bool List Arith Lia.
From Verif Require Import TypesModel TextModel TextSpec TextNameProofs TestLexModel TestLexSpec.
Import ListNotations.
Local Open Scope string_scope.

(** * what rules match *)

Inductive matches : re -> string -> Prop :=
| MEps : matches REps ""
| MSet p c : p c = true -> matches (RSet p) (String c "")
| MSeq a b s t : matches a s -> matches b t -> matches (RSeq a b) (s ++ t)
| MAltL a b s : matches a s -> matches (RAlt a b) s
| MAltR a b s : matches b s -> matches (RAlt a b) s
| MStar0 a : matches (RStar a) ""
| MStarS a s t : matches a s -> matches (RStar a) t -> matches (RStar a) (s ++ t).

Lemma app_nil_r_str : forall s, s ++ "" = s.
Proof. induction s as [|c s IH]; [reflexivity|]. cbn [append]. now rewrite IH. Qed.
Lemma app_assoc_str : forall a b c : string, (a ++ b) ++ c = a ++ b ++ c.
Proof. induction a as [|x a IH]; intros; [reflexivity|]. cbn [append]. now rewrite IH. Qed.
Lemma app_empty : forall a b : string, a ++ b = "" -> a = "" /\ b = "".
Proof. intros [|x a] b H; [auto|discriminate H]. Qed.
Lemma length_app : forall a b : string, String.length (a ++ b) = (String.length a + String.length b)%nat.
Proof. induction a as [|x a IH]; intros; [reflexivity|]. cbn. now rewrite IH. Qed.

Lemma m_none : forall t, matches RNone t <-> False.
Proof. intros t. split; [intros H; inversion H|intros []]. Qed.
Lemma m_eps : forall t, matches REps t <-> t = "".
Proof. intros t. split; [intros H; inversion H; reflexivity|intros ->; constructor]. Qed.
Lemma m_set : forall p t, matches (RSet p) t <-> exists c, t = String c "" /\ p c = true.
Proof. intros p t. split; [intros H; inversion H; subst; eauto|intros (c & -> & H); constructor; auto]. Qed.
Lemma m_seq : forall a b t, matches (RSeq a b) t <-> exists u v, t = u ++ v /\ matches a u /\ matches b v.
Proof. intros a b t. split; [intros H; inversion H; subst; eauto|intros (u & v & -> & H1 & H2); constructor; auto]. Qed.
Lemma m_alt : forall a b t, matches (RAlt a b) t <-> matches a t \/ matches b t.
Proof. intros a b t. split; [intros H; inversion H; subst; eauto|intros [H|H]; [apply MAltL|apply MAltR]; auto]. Qed.
Lemma m_star : forall a t, matches (RStar a) t <-> t = "" \/ exists c u v, t = String c (u ++ v) /\ matches a (String c u) /\ matches (RStar a) v.
Proof.
  intros a t. split.
  - intros H. remember (RStar a) as r eqn:E. induction H as [| | | | |a'|a' s t H1 _ H2 IH]; inversion E; subst; [left; reflexivity|].
    destruct s as [|c s]; [apply IH; reflexivity|]. right. exists c, s, t. repeat split; auto.
  - intros [->|(c & u & v & -> & H1 & H2)]; [constructor|]. change (String c (u ++ v)) with (String c u ++ v). constructor; auto.
Qed.

Lemma nullable_ok : forall r, nullable r = true <-> matches r "".
Proof.
  induction r as [| |p|a IHa b IHb|a IHa b IHb|a IHa]; cbn [nullable].
  - rewrite m_none. split; [discriminate|tauto].
  - rewrite m_eps. tauto.
  - rewrite m_set. split; [discriminate|intros (c & H & _); discriminate H].
  - rewrite andb_true_iff, IHa, IHb, m_seq. split.
    + intros (H1 & H2). exists "", "". auto.
    + intros (u & v & E & H1 & H2). symmetry in E. apply app_empty in E. destruct E as (-> & ->). auto.
  - rewrite orb_true_iff, IHa, IHb, m_alt. tauto.
  - split; [intros _; constructor|reflexivity].
Qed.

Lemma seq_ok : forall a b t, matches (seq a b) t <-> matches (RSeq a b) t.
Proof.
  assert (N : forall b t, matches (RSeq RNone b) t <-> False) by (intros; rewrite m_seq; split; [intros (u & v & _ & H & _); now apply m_none in H|tauto]).
  assert (N' : forall a t, matches (RSeq a RNone) t <-> False) by (intros; rewrite m_seq; split; [intros (u & v & _ & _ & H); now apply m_none in H|tauto]).
  assert (E : forall b t, matches (RSeq REps b) t <-> matches b t).
  { intros. rewrite m_seq. split; [intros (u & v & -> & H & H2); apply m_eps in H; subst; exact H2|intros H; exists "", t; repeat split; auto; constructor]. }
  intros a b t. destruct a, b; cbn [seq]; rewrite ?N, ?N', ?E, ?m_none; tauto.
Qed.
Lemma alt_ok : forall a b t, matches (alt a b) t <-> matches (RAlt a b) t.
Proof. intros a b t. destruct a, b; cbn [alt]; rewrite ?m_alt, ?m_none; tauto. Qed.

Lemma after_ok : forall c r s, matches (after c r) s <-> matches r (String c s).
Proof.
  intros c. induction r as [| |p|a IHa b IHb|a IHa b IHb|a IHa]; intros s; cbn [after].
  - rewrite !m_none. tauto.
  - rewrite m_none, m_eps. split; [tauto|discriminate].
  - rewrite m_set. destruct (p c) eqn:E.
    + rewrite m_eps. split; [intros ->; eauto|intros (d & H & _); inversion H; reflexivity].
    + rewrite m_none. split; [tauto|intros (d & H & G); inversion H; subst; congruence].
  - assert (G : matches (seq (after c a) b) s <-> exists u v, s = u ++ v /\ matches a (String c u) /\ matches b v).
    { rewrite seq_ok, m_seq. split; intros (u & v & H1 & H2 & H3); exists u, v; rewrite ?IHa in *; auto. }
    assert (B : matches (RSeq a b) (String c s) <-> (matches a "" /\ matches b (String c s)) \/ (exists u v, s = u ++ v /\ matches a (String c u) /\ matches b v)).
    { rewrite m_seq. split.
      - intros ([|d u] & v & E & H1 & H2); [left; cbn [append] in E; subst; auto|right].
        cbn [append] in E. inversion E; subst. eauto.
      - intros [(H1 & H2)|(u & v & -> & H1 & H2)]; [exists "", (String c s); auto|exists (String c u), v; auto]. }
    rewrite B. destruct (nullable a) eqn:N.
    + rewrite alt_ok, m_alt, G, IHb. apply nullable_ok in N. tauto.
    + rewrite G. assert (~ matches a "") by (rewrite <- nullable_ok; congruence). tauto.
  - rewrite alt_ok, !m_alt, IHa, IHb. tauto.
  - rewrite seq_ok, m_seq, (m_star a (String c s)). split.
    + intros (u & v & -> & H1 & H2). right. exists c, u, v. rewrite IHa in H1. auto.
    + intros [H|(d & u & v & E & H1 & H2)]; [discriminate H|]. inversion E; subst. exists u, v. rewrite IHa. auto.
Qed.

(** * the longest token *)

Lemma alive_ok : forall kr, alive kr = false -> forall t, ~ matches (snd kr) t.
Proof. intros (k & r) H t M. unfold alive in H. cbn [snd] in *. destruct r; try discriminate H. now apply m_none in M. Qed.

(** the kind of the first rule that matches a text *)
Definition kind_of (rs : list (tk * re)) (k : tk) (t : string) : Prop :=
  exists a r b, rs = (a ++ (k, r) :: b)%list /\ matches r t /\ forall k' r', In (k', r') a -> ~ matches r' t.
Definition some_kind (rs : list (tk * re)) (t : string) : Prop := exists k r, In (k, r) rs /\ matches r t.

Lemma kind_cons : forall k r rs k' t, kind_of ((k, r) :: rs) k' t <-> (matches r t /\ k' = k) \/ (~ matches r t /\ kind_of rs k' t).
Proof.
  intros k r rs k' t. split.
  - intros (a & r' & b & E & M & N). destruct a as [|(k0 & r0) a]; cbn [List.app] in E; inversion E; subst; [auto|].
    right. split; [apply (N k0); left; reflexivity|]. exists a, r', b. repeat split; auto. intros. eapply N. right. eassumption.
  - intros [(M & ->)|(N & a & r' & b & -> & M & F)].
    + exists [], r, rs. repeat split; auto.
    + exists ((k, r) :: a), r', b. repeat split; auto. intros k1 r1 [E|I]; [inversion E; subst; auto|eapply F; eauto].
Qed.
Lemma kind_nil : forall k t, kind_of [] k t <-> False.
Proof. intros k t. split; [intros ([|] & r & b & E & _); discriminate E|tauto]. Qed.

Lemma step_kind : forall c rs k t, kind_of (step c rs) k t <-> kind_of rs k (String c t).
Proof.
  intros c rs k t. induction rs as [|(k0 & r0) rs IH]; [rewrite !kind_nil; tauto|].
  unfold step in *. cbn [map filter fst snd]. rewrite kind_cons, <- IH.
  destruct (alive (k0, after c r0)) eqn:A.
  - rewrite kind_cons, after_ok. tauto.
  - pose proof (alive_ok _ A t) as N. cbn [snd] in N. rewrite after_ok in N. tauto.
Qed.
Lemma some_kind_ex : forall rs t, some_kind rs t -> exists k, kind_of rs k t.
Proof.
  induction rs as [|(k & r) rs IH]; intros t (k' & r' & [] & M).
  - inversion H; subst. exists k'. apply kind_cons. auto.
  - destruct (IH t) as (k2 & K); [exists k', r'; auto|].
    assert (D : matches r t \/ ~ matches r t).
    { clear. revert r. induction t as [|c t IH]; intros r.
      - rewrite <- nullable_ok. destruct (nullable r); [left; reflexivity|right; discriminate].
      - rewrite <- after_ok. apply IH. }
    destruct D; [exists k|exists k2]; apply kind_cons; auto.
Qed.
Lemma kind_some : forall rs k t, kind_of rs k t -> some_kind rs t.
Proof. intros rs k t (a & r & b & -> & M & _). exists k, r. split; [apply in_or_app; right; left; reflexivity|exact M]. Qed.
Lemma kind_fun : forall rs k k' t, kind_of rs k t -> kind_of rs k' t -> k = k'.
Proof.
  induction rs as [|(k0 & r) rs IH]; intros k k' t H H'; [now apply kind_nil in H|].
  apply kind_cons in H, H'. destruct H as [(M & ->)|(N & H)], H' as [(M' & ->)|(N' & H')]; try tauto. eapply IH; eauto.
Qed.

Lemma find_kind : forall rs, match find (fun kr => nullable (snd kr)) rs with
  | Some kr => kind_of rs (fst kr) "" | None => forall k, ~ kind_of rs k "" end.
Proof.
  induction rs as [|(k & r) rs IH]; cbn [find snd]; [intros k H; now apply kind_nil in H|].
  destruct (nullable r) eqn:N; [apply kind_cons; left; split; [now apply nullable_ok|reflexivity]|].
  assert (~ matches r "") by (rewrite <- nullable_ok; congruence).
  destruct (find _ rs); [apply kind_cons; auto|]. intros k' K. apply kind_cons in K. destruct K as [(M & _)|(_ & K)]; [tauto|exact (IH _ K)].
Qed.

(** the longest text at the start of [s]; [t] is it, [r] the rest *)
Definition longest (rs : list (tk * re)) (k : tk) (t r : string) : Prop :=
  t <> "" /\ kind_of rs k t /\
  forall k' t' r', t' ++ r' = t ++ r -> kind_of rs k' t' -> (String.length t' <= String.length t)%nat.

Lemma cut_length : forall n s, fst (cut n s) ++ snd (cut n s) = s.
Proof. induction n as [|n IH]; intros [|c s]; cbn [cut]; try reflexivity. specialize (IH s). destruct (cut n s). cbn [fst snd append] in *. now rewrite IH. Qed.
Lemma cut_app : forall t r, cut (String.length t) (t ++ r) = (t, r).
Proof. induction t as [|c t IH]; intros r; [reflexivity|]. cbn [String.length append cut]. now rewrite IH. Qed.

Lemma scan_ok : forall s rs, match scan rs s with
  | Some (k, n) => exists t r, s = t ++ r /\ String.length t = n /\ longest rs k t r
  | None => forall k t r, s = t ++ r -> t <> "" -> ~ kind_of rs k t
  end.
Proof.
  induction s as [|c s IH]; intros rs.
  - cbn [scan]. intros k t r E N. symmetry in E. apply app_empty in E. tauto.
  - cbn [scan]. destruct (step c rs) as [|x l] eqn:S.
    + intros k t r E N. destruct t as [|d t]; [tauto|]. inversion E; subst. intros K. apply step_kind in K. rewrite S in K. now apply kind_nil in K.
    + rewrite <- S. clear S. specialize (IH (step c rs)). destruct (scan (step c rs) s) as [(k & n)|].
      * destruct IH as (t & r & -> & L & N & K & M). exists (String c t), r. cbn [append String.length]. split; [reflexivity|split; [now rewrite L|]].
        split; [discriminate|split; [now apply step_kind|]]. intros k' [|d t'] r' E K'; [cbn; lia|]. inversion E; subst.
        cbn [String.length]. apply le_n_S. eapply M; [eassumption|]. apply step_kind. eassumption.
      * pose proof (find_kind (step c rs)) as F. destruct (find _ (step c rs)) as [kr|].
        -- exists (String c ""), s. split; [reflexivity|split; [reflexivity|]]. split; [discriminate|split; [now apply step_kind|]].
           intros k' [|d t'] r' E K'; [cbn; lia|]. inversion E; subst. destruct t' as [|e t']; [cbn; lia|].
           exfalso. eapply (IH k' (String e t') r'); [reflexivity|discriminate|]. now apply step_kind.
        -- intros k t r E N. destruct t as [|d t]; [tauto|]. inversion E; subst. intros K. apply step_kind in K.
           destruct t as [|e t]; [exact (F _ K)|]. eapply IH; [reflexivity|discriminate|exact K].
Qed.
Lemma same_cut : forall a b c d : string, a ++ b = c ++ d -> String.length a = String.length c -> a = c /\ b = d.
Proof.
  induction a as [|x a IH]; intros b [|y c] d E L; cbn in E, L; try discriminate L; [auto|].
  inversion E; subst. destruct (IH b c d) as (-> & ->); auto.
Qed.
Lemma longest_fun : forall rs k t r k' t' r', t ++ r = t' ++ r' -> longest rs k t r -> longest rs k' t' r' -> k = k' /\ t = t' /\ r = r'.
Proof.
  intros rs k t r k' t' r' E (N & K & M) (N' & K' & M').
  assert (L : String.length t = String.length t').
  { apply Nat.le_antisymm; [eapply M'; [exact E|exact K]|eapply M; [symmetry; exact E|exact K']]. }
  destruct (same_cut _ _ _ _ E L) as (-> & ->). split; [eapply kind_fun; eauto|auto].
Qed.
Lemma scan_longest : forall rs k t r, longest rs k t r -> scan rs (t ++ r) = Some (k, String.length t).
Proof.
  intros rs k t r H. pose proof (scan_ok (t ++ r) rs) as S. destruct (scan rs (t ++ r)) as [(k' & n)|].
  - destruct S as (t' & r' & E & <- & L). destruct (longest_fun _ _ _ _ _ _ _ E H L) as (-> & -> & _). reflexivity.
  - destruct H as (N & K & _). exfalso. eapply S; eauto.
Qed.

(** * the rules say what tokens look like *)

Definition means (r : re) (L : looks) : Prop := forall t, matches r t <-> L t.

Lemma mean_seq : forall a b A B, means a A -> means b B -> means (RSeq a b) (A ^^ B).
Proof. intros a b A B HA HB t. rewrite m_seq. unfold followed. split; intros (u & v & E & H1 & H2); exists u, v; repeat split; auto; (apply HA || apply HB); auto. Qed.
Lemma mean_alt : forall a b A B, means a A -> means b B -> means (RAlt a b) (fun t => A t \/ B t).
Proof. intros a b A B HA HB t. rewrite m_alt, (HA t), (HB t). tauto. Qed.
Lemma mean_either : forall a b A B, means a A -> means b B -> means (RAlt a b) (either A B).
Proof. exact mean_alt. Qed.
Lemma mean_opt : forall a A, means a A -> means (opt a) (maybe A).
Proof. intros a A HA t. unfold opt, maybe. rewrite m_alt, m_eps, (HA t). tauto. Qed.
Lemma mean_ext : forall a A B, means a A -> (forall t, A t <-> B t) -> means a B.
Proof. intros a A B H E t. rewrite (H t). apply E. Qed.
Lemma mean_set : forall p P, (forall c, p c = true <-> P c) -> means (RSet p) (single P).
Proof. intros p P H t. rewrite m_set. unfold single. split; intros (c & E & G); exists c; split; auto; now apply H. Qed.
Lemma mean_chr : forall x, means (chr x) (exactly (String x "")).
Proof. intros x t. unfold chr, exactly. rewrite m_set. split; [intros (c & -> & H); apply Ascii.eqb_eq in H; now subst|intros ->; exists x; split; [reflexivity|apply Ascii.eqb_refl]]. Qed.

Lemma chars_app : forall a b, chars (a ++ b) = (chars a ++ chars b)%list.
Proof. induction a as [|c a IH]; intros b; [reflexivity|]. unfold chars in *. cbn. now rewrite IH. Qed.
Lemma mean_star : forall p P, (forall c, p c = true <-> P c) -> means (RStar (RSet p)) (only P).
Proof.
  intros p P H t. unfold only. induction t as [|c t IH]; [split; [constructor|constructor]|].
  rewrite m_star. split.
  - intros [E|(d & u & v & E & H1 & H2)]; [discriminate E|]. apply m_set in H1. destruct H1 as (e & E1 & H1). inversion E1; subst e u. cbn [append] in E. inversion E; subst.
    unfold chars; cbn. constructor; [now apply H|now apply IH].
  - intros F. unfold chars in F; cbn in F. inversion F as [|? ? F1 F2]; subst. right. exists c, "", t. repeat split; [constructor; now apply H|now apply IH].
Qed.
Lemma mean_plus : forall p P, (forall c, p c = true <-> P c) -> means (plus (RSet p)) (some P).
Proof.
  intros p P H t. unfold plus. rewrite m_seq. unfold some. split.
  - intros (u & v & -> & H1 & H2). apply m_set in H1. destruct H1 as (c & -> & H1). apply (mean_star p P H) in H2. split; [discriminate|]. cbn. constructor; [now apply H|exact H2].
  - intros (N & F). destruct t as [|c t]; [tauto|]. unfold chars in F; cbn in F. inversion F as [|? ? F1 F2]; subst.
    exists (String c ""), t. repeat split; [constructor; now apply H|now apply (mean_star p P H)].
Qed.

Lemma exactly_app : forall a b t, (exactly a ^^ exactly b) t <-> exactly (a ++ b) t.
Proof. intros a b t. unfold exactly, followed. split; [intros (u & v & -> & -> & ->); reflexivity|intros ->; eauto]. Qed.
Lemma followed_assoc : forall A B C t, ((A ^^ B) ^^ C) t <-> (A ^^ B ^^ C) t.
Proof.
  intros A B C t. unfold followed. split.
  - intros (u & v & -> & (u1 & u2 & -> & HA & HB) & HC). exists u1, (u2 ++ v). split; [apply app_assoc_str|split; [exact HA|exists u2, v; auto]].
  - intros (u & v & -> & HA & (v1 & v2 & -> & HB & HC)). exists (u ++ v1), v2. split; [symmetry; apply app_assoc_str|split; [exists u, v1; auto|exact HC]].
Qed.

Lemma mean_word : forall w, lower w = w -> means (word w) (keyword w).
Proof.
  intros w HW t. unfold keyword. rewrite same_letters_iff, HW. clear HW. revert t.
  induction w as [|x w IH]; intros t.
  - cbn [word]. rewrite m_eps. destruct t; cbn; split; congruence.
  - assert (G : matches (RSeq (RSet (fun c => Ascii.eqb x (lower_char c))) (word w)) t <-> lower t = String x w).
    { rewrite m_seq. split.
      - intros (u & v & -> & H1 & H2). apply m_set in H1. destruct H1 as (c & -> & H1). apply Ascii.eqb_eq in H1. apply IH in H2. cbn [append lower]. congruence.
      - intros E. destruct t as [|c t]; [discriminate E|]. cbn [lower] in E. inversion E; subst. exists (String c ""), t. repeat split; [|now apply IH].
        constructor. apply Ascii.eqb_refl. }
    rewrite <- G. destruct w as [|y w]; [|reflexivity]. cbn [word]. rewrite m_seq. split.
    + intros H. exists t, "". repeat split; [symmetry; apply app_nil_r_str|exact H|constructor].
    + intros (u & v & -> & H1 & H2). apply m_eps in H2. subst. now rewrite app_nil_r_str.
Qed.
Lemma mean_lower : forall w, (forall t, lower t = w <-> t = w) -> means (word w) (exactly w).
Proof.
  intros w H. eapply mean_ext; [apply mean_word; apply H; reflexivity|]. intros t. unfold keyword, exactly. rewrite same_letters_iff.
  assert (lower w = w) as -> by (apply H; reflexivity). apply H.
Qed.
(** symbols have no case *)
Fixpoint caseless (w : string) : bool :=
  match w with EmptyString => true | String c w' => negb (in_range 65 90 c) && negb (in_range 97 122 c) && caseless w' end.
Lemma lower_caseless : forall x c, in_range 65 90 x = false -> in_range 97 122 x = false -> (lower_char c = x <-> c = x).
Proof.
  intros x c H1 H2. unfold lower_char. destruct (in_range 65 90 c) eqn:E.
  - split; [|intros ->; congruence]. intros <-. exfalso. revert H2.
    unfold in_range in *. apply andb_true_iff in E. rewrite !Nat.leb_le in E. rewrite nat_ascii_embedding by lia.
    intros H. apply andb_false_iff in H. rewrite !Nat.leb_gt in H. lia.
  - tauto.
Qed.
Lemma caseless_ok : forall w, caseless w = true -> forall t, lower t = w <-> t = w.
Proof.
  induction w as [|x w IH]; intros H [|c t]; cbn [lower]; try (split; congruence).
  cbn [caseless] in H. rewrite !andb_true_iff, !negb_true_iff in H. destruct H as ((H1 & H2) & H3). specialize (IH H3 t).
  pose proof (lower_caseless x c H1 H2). split; intros E; injection E as E1 E2.
  - f_equal; [apply H; exact E1|apply IH; exact E2].
  - f_equal; [apply H; exact E1|apply IH; exact E2].
Qed.
Lemma mean_symbol : forall w, caseless w = true -> means (word w) (exactly w).
Proof. intros w H. apply mean_lower, caseless_ok, H. Qed.

Lemma digit_ok : forall c, is_digit c = true <-> a_digit c.
Proof.
  intros c. unfold a_digit. split.
  - unfold is_digit, in_range. intros H. apply andb_true_iff in H. rewrite !Nat.leb_le in H. rewrite <- (ascii_nat_embedding c).
    assert (N : exists i, (i < 10)%nat /\ nat_of_ascii c = (48 + i)%nat) by (exists (nat_of_ascii c - 48)%nat; lia).
    destruct N as (i & L & ->). do 10 (destruct i as [|i]; [cbn; tauto|]). lia.
  - cbn. intros H. repeat (destruct H as [<-|H]; [reflexivity|]). tauto.
Qed.
Lemma mean_digits : means digits number.
Proof. apply mean_plus, digit_ok. Qed.
Lemma mean_sign : means sign (maybe plus_or_minus).
Proof.
  apply mean_opt. intros t. unfold one_of, plus_or_minus. rewrite m_set. split.
  - intros (c & -> & H). cbn [existsb] in H. rewrite !orb_true_iff, !Ascii.eqb_eq in H. destruct H as [->|[->|H]]; [auto|auto|discriminate H].
  - intros [->| ->]; eexists; (split; [reflexivity|reflexivity]).
Qed.
Lemma mean_pm : means (one_of ["+"; "-"]%char) plus_or_minus.
Proof.
  intros t. unfold one_of, plus_or_minus. rewrite m_set. split.
  - intros (c & -> & H). cbn [existsb] in H. rewrite !orb_true_iff, !Ascii.eqb_eq in H. destruct H as [->|[->|H]]; [auto|auto|discriminate H].
  - intros [->| ->]; eexists; (split; [reflexivity|reflexivity]).
Qed.
Lemma mean_natural : means int_re natural.
Proof.
  intros t. unfold int_re, natural. rewrite m_alt, m_seq, (mean_chr "0" t). unfold exactly. split.
  - intros [(u & v & -> & H1 & H2)| ->]; [right|auto]. apply m_set in H1. destruct H1 as (c & -> & H1). apply (mean_star _ _ digit_ok) in H2. split.
    + split; [discriminate|]. cbn. constructor; [apply digit_ok|exact H2]. unfold is_digit, in_range in *. apply andb_true_iff in H1. rewrite !Nat.leb_le in H1. apply andb_true_iff. rewrite !Nat.leb_le. lia.
    + intros r E. cbn [append] in E. inversion E; subst. discriminate H1.
  - intros [->|((N & F) & Z)]; [auto|]. left. destruct t as [|c t]; [tauto|]. unfold chars in F; cbn in F. inversion F as [|? ? F1 F2]; subst.
    exists (String c ""), t. repeat split; [|now apply (mean_star _ _ digit_ok)]. constructor. apply digit_ok in F1. unfold is_digit, in_range in *.
    assert (nat_of_ascii c <> 48%nat). { intros E. apply (Z t). cbn [append]. f_equal. rewrite <- (ascii_nat_embedding c), E. reflexivity. }
    apply andb_true_iff in F1. rewrite !Nat.leb_le in F1. apply andb_true_iff. rewrite !Nat.leb_le. lia.
Qed.
Lemma mean_n_digits : forall n, means (rseq (repeat digit_re n)) (n_digits n).
Proof.
  assert (A : forall n t, n_digits (S n) t <-> exists c u, t = String c u /\ a_digit c /\ n_digits n u).
  { intros n t. unfold n_digits. split.
    - intros (L & F). destruct t as [|c u]; [discriminate L|]. unfold chars in F; cbn in F. inversion F; subst. cbn in L. exists c, u. repeat split; auto.
    - intros (c & u & -> & H & L & F). split; [cbn; congruence|]. cbn. constructor; auto. }
  induction n as [|n IH]; intros t.
  - cbn [repeat rseq]. rewrite m_eps. unfold n_digits. split; [intros ->; split; [reflexivity|constructor]|intros (L & _); destruct t; [reflexivity|discriminate L]].
  - rewrite A. assert (G : matches (RSeq digit_re (rseq (repeat digit_re n))) t <-> exists c u, t = String c u /\ a_digit c /\ n_digits n u).
    { rewrite m_seq. split.
      - intros (u & v & -> & H1 & H2). apply m_set in H1. destruct H1 as (c & -> & H1). exists c, v. split; [reflexivity|split; [now apply digit_ok|now apply IH]].
      - intros (c & u & -> & H & N). exists (String c ""), u. repeat split; [constructor; now apply digit_ok|now apply IH]. }
    rewrite <- G. destruct n as [|n]; [|reflexivity]. cbn [repeat rseq]. rewrite m_seq. split.
    + intros H. exists t, "". repeat split; [symmetry; apply app_nil_r_str|exact H|constructor].
    + intros (u & v & -> & H1 & H2). apply m_eps in H2. subst. now rewrite app_nil_r_str.
Qed.
Lemma mean_two : means two (n_digits 2).
Proof. exact (mean_n_digits 2). Qed.
Lemma mean_four : means four (n_digits 4).
Proof. exact (mean_n_digits 4). Qed.
Lemma mean_one : means digit_re (n_digits 1).
Proof. exact (mean_n_digits 1). Qed.

Lemma none_ok : forall l c, negb (existsb (Ascii.eqb c) l) = true <-> ~ In c l.
Proof.
  intros l c. rewrite negb_true_iff. split.
  - intros H I. assert (existsb (Ascii.eqb c) l = true) by (apply existsb_exists; exists c; split; [exact I|apply Ascii.eqb_refl]). congruence.
  - intros N. destruct (existsb (Ascii.eqb c) l) eqn:E; [|reflexivity]. exfalso. apply N. apply existsb_exists in E. destruct E as (x & I & E). apply Ascii.eqb_eq in E. now subst.
Qed.
Lemma one_ok : forall l c, existsb (Ascii.eqb c) l = true <-> In c l.
Proof. intros l c. rewrite existsb_exists. split; [intros (x & I & E); apply Ascii.eqb_eq in E; now subst|intros I; exists c; split; [exact I|apply Ascii.eqb_refl]]. Qed.

Lemma mean_quoted : forall r A, means r A -> means (quoted r) (in_quotes A).
Proof. intros r A H. unfold quoted, in_quotes, quote. cbn [rseq]. repeat apply mean_seq; auto using mean_chr. Qed.

Lemma mean_body : means (RStar (ralt [RSeq (chr "\") (RSet (fun _ => true)); RSeq quote quote; none_of ["'"; "\"]%char])) string_body.
Proof.
  intros t. split.
  - intros H. remember (RStar _) as r eqn:E. induction H as [| | | | |a|a s t H1 _ H2 IH]; inversion E; subst; [constructor|]. specialize (IH eq_refl).
    clear H2 E. cbn [ralt] in H1. rewrite !m_alt, !m_seq in H1. destruct H1 as [(u & v & -> & U & V)|[(u & v & -> & U & V)|N]].
    + apply mean_chr in U. apply m_set in V. destruct V as (c & -> & _). rewrite U. cbn [append]. exact (SBEscape c t IH).
    + apply mean_chr in U, V. rewrite U, V. exact (SBQuote t IH).
    + apply m_set in N. destruct N as (c & -> & N). apply none_ok in N. cbn in N. cbn [append]. apply SBChar; [intros ->|intros ->|exact IH]; tauto.
  - intros H. induction H as [|c s H IH|s H IH|c s N1 N2 H IH].
    + constructor.
    + change ("\" ++ String c s) with (("\" ++ String c "") ++ s). apply MStarS; [|exact IH]. cbn [ralt]. apply MAltL, MSeq; [now apply mean_chr|now constructor].
    + change ("''" ++ s) with (("'" ++ "'") ++ s). apply MStarS; [|exact IH]. cbn [ralt]. apply MAltR, MAltL, MSeq; now apply mean_chr.
    + change (String c s) with (String c "" ++ s). apply MStarS; [|exact IH]. cbn [ralt]. apply MAltR, MAltR. constructor. apply none_ok. cbn. intuition congruence.
Qed.
Lemma line_ok : forall c, negb (existsb (Ascii.eqb c) [newline; return_]) = true <-> in_line c.
Proof. intros c. rewrite none_ok. unfold in_line, newline, return_. cbn. intuition congruence. Qed.
Lemma mean_ident : means identifier_re an_identifier.
Proof.
  intros t. unfold identifier_re, an_identifier, wordlike. rewrite m_seq.
  assert (W : forall c, is_word_char c = true <-> letter_char c \/ In c digit_chars).
  { intros c. unfold is_word_char. rewrite orb_true_iff, letter_char_iff, digit_ok. reflexivity. }
  split.
  - intros (u & v & -> & H1 & H2). apply m_set in H1. destruct H1 as (c & -> & H1). cbn [append]. split; [now apply letter_char_iff|]. now apply (mean_star _ _ W).
  - destruct t as [|c t]; [intros []|]. intros (H1 & H2). exists (String c ""), t. repeat split; [constructor; now apply letter_char_iff|now apply (mean_star _ _ W)].
Qed.

Lemma mean_seq_exact : forall a b x y, means a (exactly x) -> means b (exactly y) -> means (RSeq a b) (exactly (x ++ y)).
Proof. intros. eapply mean_ext; [apply mean_seq; eassumption|apply exactly_app]. Qed.
Lemma mean_seq_pre : forall a b A x y c, means a (exactly x) -> means b (exactly y) -> means c A -> means (RSeq a (RSeq b c)) (exactly (x ++ y) ^^ A).
Proof.
  intros a b A x y c Ha Hb Hc. eapply mean_ext; [apply mean_seq; [exact Ha|apply mean_seq; [exact Hb|exact Hc]]|].
  intros t. rewrite <- followed_assoc. unfold followed at 1 3. split; intros (u & v & E & U & V); exists u, v; (split; [exact E|split; [|exact V]]); now apply exactly_app.
Qed.
Lemma mean_stars : means (RSeq (RStar (chr "*")) (RSeq (chr "*") (chr "/"))) (some star ^^ exactly "/").
Proof.
  assert (ST : forall c, Ascii.eqb "*" c = true <-> star c) by (intros c; rewrite Ascii.eqb_eq; unfold star; split; congruence).
  eapply mean_ext; [apply mean_seq; [apply mean_star, ST|apply mean_seq; apply mean_chr]|].
  intros t. rewrite <- followed_assoc. unfold followed at 1 3. split; intros (u & v & E & U & V); exists u, v; (split; [exact E|split; [|exact V]]).
  - destruct U as (u1 & u2 & -> & F & ->). split; [destruct u1; discriminate|]. rewrite chars_app. apply Forall_app. split; [exact F|repeat constructor].
  - destruct U as (N & F). clear E. exists (substring 0 (String.length u - 1) u), "*". unfold exactly, only. clear V v.
    induction u as [|c u IH]; [tauto|]. unfold chars in F; cbn in F. inversion F as [|? ? F1 F2]; subst. unfold star in F1; subst c.
    destruct u as [|d u]; [repeat split; constructor|]. destruct IH as (E1 & E2 & E3); [discriminate|exact F2|].
    cbn [String.length] in *. rewrite !Nat.sub_succ, !Nat.sub_0_r in *. change (substring 0 (S (String.length u)) (String "*" (String d u))) with (String "*" (substring 0 (String.length u) (String d u))).
    split; [cbn [append]; f_equal; exact E1|split; [|reflexivity]].
    unfold chars; cbn. constructor; [reflexivity|exact E2].
Qed.

Lemma mean_fraction : means fraction (maybe after_point).
Proof. apply mean_opt, mean_seq; [apply mean_chr|apply mean_digits]. Qed.
Lemma mean_integer : means integer_re integer.
Proof. apply mean_seq; [apply mean_sign|apply mean_natural]. Qed.
Lemma mean_decimal : means decimal_re decimal.
Proof. repeat apply mean_seq; [apply mean_sign|apply mean_digits|apply mean_fraction]. Qed.
Lemma mean_float : means float_re float.
Proof.
  unfold float_re. cbn [ralt rseq]. apply mean_alt; [|apply mean_alt].
  - repeat apply mean_seq; [apply mean_sign|apply mean_digits|apply mean_opt, mean_seq; [apply mean_chr|apply mean_star, digit_ok]|].
    apply mean_opt. apply mean_seq; [apply mean_word; reflexivity|apply mean_seq; [apply mean_sign|apply mean_digits]].
  - apply mean_seq; [apply mean_sign|apply mean_word; reflexivity].
  - apply mean_word; reflexivity.
Qed.
Lemma mean_date : means date_re a_date.
Proof. unfold date_re. cbn [rseq]. repeat apply mean_seq; first [apply mean_chr|apply mean_two|apply mean_four]. Qed.
Lemma mean_time : means time_re a_time.
Proof. unfold time_re. cbn [rseq]. repeat (apply mean_seq; [first [apply mean_chr|apply mean_two]|]). apply mean_fraction. Qed.
Lemma mean_zone : means zone_re a_zone.
Proof. unfold zone_re. cbn [rseq]. repeat apply mean_seq; first [apply mean_pm|apply mean_chr|apply mean_two]. Qed.
Lemma mean_count : forall u, lower u = u -> means (count u) (a_count u).
Proof. intros u H. apply mean_seq; [apply mean_integer|apply mean_word, H]. Qed.
Lemma mean_seconds : means seconds some_seconds.
Proof. apply mean_seq; [apply mean_decimal|apply mean_word; reflexivity]. Qed.
Lemma mean_day_time : means time_interval day_time.
Proof.
  unfold time_interval. cbn [ralt rseq]. apply mean_alt; [|apply mean_alt].
  - apply mean_seq; [now apply mean_count|apply mean_seq; apply mean_opt; [now apply mean_count|apply mean_seconds]].
  - apply mean_seq; [now apply mean_count|apply mean_opt, mean_seconds].
  - apply mean_seconds.
Qed.

Ltac row := split; [reflexivity|cbn [rseq]; first
  [ apply mean_word; reflexivity | apply mean_symbol; reflexivity | apply mean_chr | idtac ]].
Lemma rules_mean : Forall2 (fun kr kl => fst kr = fst kl /\ means (snd kr) (snd kl)) rules token_kinds.
Proof.
  unfold rules, token_kinds, words_of. cbn [map List.app].
  repeat (apply Forall2_cons; [cbn [fst snd]; row|]); [..|apply Forall2_nil].
  - apply mean_plus. intros c. apply one_ok.
  - exact (mean_seq_exact _ _ "#" "##" (mean_chr _) (mean_seq_exact _ _ "#" "#" (mean_chr _) (mean_chr _))).
  - apply mean_seq; [now apply mean_word|apply mean_seq; [apply mean_digits|apply mean_fraction]].
  - refine (mean_seq_pre _ _ _ "#" " " _ (mean_chr _) (mean_chr _) _).
    apply mean_seq; [apply mean_star, line_ok|apply mean_seq; [apply mean_opt, mean_chr|apply mean_chr]].
  - apply mean_integer.
  - apply mean_decimal.
  - apply mean_float.
  - apply mean_either; now apply mean_word.
  - apply mean_quoted. apply mean_seq; [apply mean_date|apply mean_seq; [now apply mean_word|apply mean_seq; [apply mean_time|apply mean_zone]]].
  - apply mean_quoted. apply mean_seq; [apply mean_date|apply mean_seq; [now apply mean_word|apply mean_time]].
  - apply mean_quoted, mean_time.
  - apply mean_quoted, mean_date.
  - apply mean_alt; apply mean_quoted; cbn [rseq].
    + apply mean_seq; [now apply mean_word|apply mean_seq; [now apply mean_count|now apply mean_opt, mean_count]].
    + apply mean_seq; [now apply mean_word|now apply mean_count].
  - apply mean_alt; apply mean_quoted; cbn [rseq].
    + apply mean_seq; [now apply mean_word|apply mean_seq; [now apply mean_count|apply mean_opt, mean_seq; [now apply mean_word|apply mean_day_time]]].
    + apply mean_seq; [now apply mean_word|apply mean_seq; [now apply mean_word|apply mean_day_time]].
  - apply mean_quoted. cbn [rseq]. apply mean_seq; [now apply mean_word|]. repeat (apply mean_seq; [now apply mean_opt, mean_count|]).
    apply mean_opt, mean_seq; [now apply mean_word|apply mean_day_time].
  - apply mean_quoted, mean_body.
  - apply mean_seq; [now apply mean_word|apply mean_natural].
  - refine (mean_seq_pre _ _ _ "/" "/" _ (mean_chr _) (mean_chr _) _). apply mean_star, line_ok.
  - refine (mean_seq_pre _ _ _ "/" "*" _ (mean_chr _) (mean_chr _) _). apply mean_seq; [|apply mean_stars].
    apply mean_either.
    + apply mean_set. intros c. rewrite none_ok. cbn. intuition congruence.
    + apply mean_seq; [apply mean_plus; intros c; rewrite Ascii.eqb_eq; unfold star; split; congruence|].
      apply mean_set. intros c. rewrite none_ok. cbn. intuition congruence.
  - apply mean_seq; [now apply mean_word|apply mean_one].
  - apply mean_seq; [apply mean_opt, mean_chr|apply mean_natural].
  - apply mean_ident.
  - intros t. rewrite m_alt, m_seq, (mean_chr newline t). unfold opt, exactly. split.
    + intros [(u & v & -> & U & V)| ->]; [|auto]. apply mean_chr in U. apply m_alt in V. rewrite m_eps in V. destruct V as [V| ->]; [apply mean_chr in V|]; rewrite ?U, ?V; cbn; auto.
    + intros [->|[->| ->]]; [left|left|right; reflexivity].
      * exists (String "013" ""), (String "010" ""). repeat split; [now apply mean_chr|apply MAltL; now apply mean_chr].
      * exists (String "013" ""), "". repeat split; [now apply mean_chr|apply MAltR; constructor].
Qed.

(** * the lexer *)

Lemma kind_at : forall rs ks, Forall2 (fun kr kl => fst kr = fst kl /\ means (snd kr) (snd kl)) rs ks ->
  forall k t, kind_of rs k t <-> exists i L, nth_error ks i = Some (k, L) /\ L t /\ forall j k' L', nth_error ks j = Some (k', L') -> L' t -> (i <= j)%nat.
Proof.
  intros rs ks F. induction F as [|(k0 & r0) (k1 & L0) rs ks (E & M) F IH]; intros k t; cbn [fst snd] in *; subst.
  - rewrite kind_nil. split; [tauto|]. intros ([|] & L & H & _); discriminate H.
  - rewrite kind_cons, IH, (M t). split.
    + intros [(H & ->)|(N & i & L & H & HL & B)].
      * exists 0, L0. repeat split; auto. intros. lia.
      * exists (S i), L. repeat split; auto. intros [|j] k' L' Hj HL'; [inversion Hj; subst; tauto|]. apply le_n_S. eapply B; eauto.
    + intros ([|i] & L & H & HL & B); cbn [nth_error] in H.
      * inversion H; subst. left. auto.
      * right. split; [intros HL0; specialize (B 0 k1 L0 eq_refl HL0); lia|]. exists i, L. repeat split; auto.
        intros j k' L' Hj HL'. specialize (B (S j) k' L' Hj HL'). lia.
Qed.
Lemma token_kind : forall k t, t <> "" -> (kind_of rules k t <-> exists i, token_at i k t /\ forall j k', token_at j k' t -> (i <= j)%nat).
Proof.
  intros k t N. rewrite (kind_at _ _ rules_mean). unfold token_at. split.
  - intros (i & L & H & HL & B). exists i. split; [split; [exact N|exists L; auto]|]. intros j k' (_ & L' & Hj & HL'). eapply B; eauto.
  - intros (i & (_ & L & H & HL) & B). exists i, L. repeat split; auto. intros j k' L' Hj HL'. apply (B j k'). split; [exact N|]. exists L'. auto.
Qed.
Lemma token_at_kind : forall j k' t, token_at j k' t -> exists k, kind_of rules k t.
Proof.
  intros j k' t (N & L & H & HL). apply some_kind_ex.
  pose proof rules_mean as F. revert F H. generalize token_kinds rules. intros ks rs F. revert j.
  induction F as [|(k0 & r0) (k1 & L0) rs ks (E & M) F IH]; intros [|j] H; cbn [nth_error fst snd] in *; try discriminate H.
  - inversion H; subst. exists k', r0. split; [left; reflexivity|now apply M].
  - destruct (IH j H) as (k2 & r2 & I & M2). exists k2, r2. split; [right; exact I|exact M2].
Qed.
Lemma next_longest : forall k t r, next_token k t r <-> longest rules k t r.
Proof.
  intros k t r. unfold next_token, longest. split.
  - intros (i & T & B). pose proof T as (N & _). split; [exact N|split].
    + apply token_kind; [exact N|]. exists i. split; [exact T|]. intros j k' Tj. destruct (B j k' t r eq_refl Tj) as [L|(_ & L)]; [lia|exact L].
    + intros k' t' r' E K. destruct t' as [|c t']; [cbn; lia|]. apply token_kind in K; [|discriminate]. destruct K as (j & Tj & _).
      destruct (B j k' _ r' E Tj) as [L|(-> & _)]; lia.
  - intros (N & K & M). apply token_kind in K; [|exact N]. destruct K as (i & T & B). exists i. split; [exact T|].
    intros j k' t' r' E Tj. destruct (token_at_kind _ _ _ Tj) as (k2 & K2). specialize (M k2 t' r' E K2).
    destruct (Nat.eq_dec (String.length t') (String.length t)) as [L|L]; [right|left; lia].
    destruct (same_cut _ _ _ _ E L) as (-> & _). split; [reflexivity|]. eapply B; eauto.
Qed.
Lemma no_token_none : forall s, no_token s <-> scan rules s = None.
Proof.
  intros s. unfold no_token. pose proof (scan_ok s rules) as S. split.
  - intros H. destruct (scan rules s) as [(k & n)|]; [|reflexivity]. destruct S as (t & r & E & _ & L). apply next_longest in L. destruct L as (i & T & _). exfalso. eapply H; eauto.
  - intros H. rewrite H in S. intros j k t r E T. pose proof T as (N & _). destruct (token_at_kind _ _ _ T) as (k2 & K2). eapply S; eauto.
Qed.

(** * what could become a token *)

Fixpoint good (r : re) : Prop :=
  match r with
  | RNone => False
  | REps => True
  | RSet p => exists c, p c = true
  | RSeq a b | RAlt a b => good a /\ good b
  | RStar a => good a
  end.
Lemma good_seq : forall a b, good a -> good b -> good (seq a b).
Proof. intros a b H H'. destruct a, b; cbn in *; tauto. Qed.
Lemma good_alt : forall a b, a = RNone \/ good a -> b = RNone \/ good b -> alt a b = RNone \/ good (alt a b).
Proof. intros a b [Ha|H] [Hb|H']; subst; [left; reflexivity|right; exact H'|right; destruct a; exact H|right; destruct a, b; cbn in *; tauto]. Qed.
Lemma seq_none : forall a, seq a RNone = RNone.
Proof. intros []; reflexivity. Qed.
Lemma good_after : forall c r, good r -> after c r = RNone \/ good (after c r).
Proof.
  assert (S : forall a b, a = RNone \/ good a -> good b -> seq a b = RNone \/ good (seq a b)).
  { intros a b [->|H] H'; [left; reflexivity|right; now apply good_seq]. }
  intros c r. induction r as [| |p|a IHa b IHb|a IHa b IHb|a IHa]; intros G; cbn [after good] in *; auto.
  - destruct (p c); [right; exact I|left; reflexivity].
  - destruct G as (Ga & Gb). destruct (nullable a); [apply good_alt|]; auto.
  - destruct G as (Ga & Gb). apply good_alt; auto.
Qed.
Lemma good_matches : forall r, good r -> exists t, matches r t.
Proof.
  induction r as [| |p|a IHa b IHb|a IHa b IHb|a IHa]; intros G; cbn [good] in G.
  - tauto.
  - eexists; constructor.
  - destruct G as (c & H). eexists; constructor; exact H.
  - destruct (IHa (proj1 G)) as (u & U), (IHb (proj2 G)) as (v & V). eexists; constructor; eauto.
  - destruct (IHa (proj1 G)) as (u & U). eexists; apply MAltL; eauto.
  - eexists; constructor.
Qed.
Fixpoint goodb (r : re) : bool :=
  match r with
  | RNone => false
  | REps => true
  | RSet p => existsb p (map ascii_of_nat (List.seq 0 128))
  | RSeq a b | RAlt a b => goodb a && goodb b
  | RStar a => goodb a
  end.
Lemma goodb_ok : forall r, goodb r = true -> good r.
Proof.
  induction r as [| |p|a IHa b IHb|a IHa b IHb|a IHa]; cbn [goodb good]; intros H; auto; try discriminate H;
    try (apply andb_true_iff in H; tauto).
  apply existsb_exists in H. destruct H as (c & _ & H). eauto.
Qed.
Lemma rules_good : Forall (fun kr => good (snd kr)) rules.
Proof.
  assert (H : forallb (fun kr => goodb (snd kr)) rules = true) by (vm_compute; reflexivity).
  apply Forall_forall. intros kr I. apply goodb_ok. revert kr I. now apply forallb_forall.
Qed.

Definition could (rs : list (tk * re)) (p : string) : Prop := exists t, some_kind rs (p ++ t).
Lemma could_step : forall c rs p, could (step c rs) p <-> could rs (String c p).
Proof.
  intros c rs p. unfold could. split; intros (t & H); exists t.
  - apply some_kind_ex in H. destruct H as (k & H). apply step_kind in H. eapply kind_some; exact H.
  - apply some_kind_ex in H. destruct H as (k & H). cbn [append] in H. apply step_kind in H. eapply kind_some; exact H.
Qed.
Lemma step_good : forall c rs, Forall (fun kr => good (snd kr)) rs -> Forall (fun kr => good (snd kr)) (step c rs).
Proof.
  intros c rs F. apply Forall_forall. intros (k & r) I. apply filter_In in I. destruct I as (I & A). apply in_map_iff in I. destruct I as ((k' & r') & E & I). inversion E; subst.
  pose proof (proj1 (Forall_forall _ _) F _ I) as G. cbn [snd] in *. destruct (good_after c _ G) as [X|X]; [|exact X]. rewrite X in A. discriminate A.
Qed.
Lemma viable_ok : forall s rs, Forall (fun kr => good (snd kr)) rs -> rs <> [] ->
  (viable rs s = String.length s /\ could rs s) \/
  (exists p c r, s = p ++ String c r /\ viable rs s = String.length p /\ could rs p /\ ~ could rs (p ++ String c "")).
Proof.
  assert (C0 : forall rs, Forall (fun kr => good (snd kr)) rs -> rs <> [] -> could rs "").
  { intros [|(k & r) rs] F N; [congruence|]. inversion F; subst. destruct (good_matches r) as (t & M); [assumption|]. exists t, k, r. split; [left; reflexivity|exact M]. }
  induction s as [|c s IH]; intros rs F N.
  - left. split; [reflexivity|]. now apply C0.
  - cbn [viable]. pose proof (step_good c rs F) as F'. destruct (step c rs) as [|kr rs'] eqn:E.
    + right. exists "", c, s. repeat split; auto. cbn [append]. rewrite <- could_step, E. intros (t & k & r & [] & _).
    + rewrite <- E in *. destruct (IH (step c rs) F') as [(V & C)|(p & d & r & -> & V & C & X)]; [rewrite E; discriminate| |].
      * left. rewrite V. split; [reflexivity|now apply could_step].
      * right. exists (String c p), d, r. rewrite V. repeat split; [now apply could_step|]. cbn [append]. rewrite <- could_step. exact X.
Qed.
Lemma some_at : forall t, t <> "" -> (some_kind rules t <-> exists j k, token_at j k t).
Proof.
  intros t N. split.
  - intros H. apply some_kind_ex in H. destruct H as (k & H). apply token_kind in H; [|exact N]. destruct H as (i & T & _). eauto.
  - intros (j & k & T). destruct (token_at_kind _ _ _ T) as (k' & K). eapply kind_some; exact K.
Qed.
Lemma could_begins : forall p, could rules p <-> begins p.
Proof.
  intros [|c p]; unfold could, begins.
  - split; intros _.
    + exists 1%nat, KTriple, "###". split; [discriminate|]. exists (exactly "###"). split; reflexivity.
    + exists "###". apply some_at; [discriminate|]. exists 1%nat, KTriple. split; [discriminate|]. exists (exactly "###"). split; reflexivity.
  - split.
    + intros (t & H). apply some_at in H; [|discriminate]. destruct H as (j & k & T). eauto.
    + intros (j & k & t & T). exists t. apply some_at; [discriminate|eauto].
Qed.
Lemma rules_some : rules <> [].
Proof. discriminate. Qed.
Lemma viable_rules : forall s,
  (viable rules s = String.length s /\ begins s) \/
  (exists p c r, s = p ++ String c r /\ viable rules s = String.length p /\ begins p /\ ~ begins (p ++ String c "")).
Proof.
  intros s. destruct (viable_ok s rules rules_good rules_some) as [(V & C)|(p & c & r & E & V & C & X)].
  - left. split; [exact V|now apply could_begins].
  - right. exists p, c, r. rewrite <- !could_begins. auto.
Qed.
Lemma cut_tail : forall n c s, snd (cut n s) = snd (cut (S n) (String c s)).
Proof. intros n c s. cbn [cut]. destruct (cut n s). reflexivity. Qed.
Lemma cut_all : forall s n, (String.length s <= n)%nat -> snd (cut n s) = "".
Proof. induction s as [|c s IH]; intros [|n] L; cbn in L; try lia; try reflexivity. rewrite <- cut_tail. apply IH. lia. Qed.

Lemma fuel_ok : forall n s, (String.length s <= n)%nat -> consists s (lex_fuel n s).
Proof.
  induction n as [|n IH]; intros s L; [destruct s; [constructor|cbn in L; lia]|].
  destruct s as [|c s]; [constructor|]. cbn [lex_fuel]. pose proof (scan_ok (String c s) rules) as S.
  destruct (scan rules (String c s)) as [(k & m)|] eqn:E.
  - destruct S as (t & r & Es & <- & Lg). rewrite Es, cut_app. pose proof Lg as (N & _).
    assert (String.length r <= n)%nat. { pose proof (f_equal String.length Es) as EL. rewrite length_app in EL. cbn in EL, L. destruct t; [tauto|]. cbn in EL. lia. }
    apply next_longest in Lg. destruct (skipped k) eqn:SK.
    + destruct k; try discriminate SK. apply ConsistsSkip; auto.
    + apply ConsistsToken; auto. intros ->. discriminate SK.
  - rewrite (cut_tail _ c s). apply no_token_none in E. destruct (viable_rules (String c s)) as [(V & B)|(p & d & r & Es & V & B & X)]; rewrite V.
    + rewrite cut_all by lia. replace (lex_fuel n "") with (@nil token) by now destruct n. apply ConsistsHope; auto. discriminate.
    + rewrite Es. replace (p ++ String d r) with ((p ++ String d "") ++ r) by now rewrite app_assoc_str.
      replace (Datatypes.S (String.length p)) with (String.length (p ++ String d "")) by (rewrite length_app; cbn; lia). rewrite cut_app. cbn [snd].
      rewrite app_assoc_str. cbn [append]. apply ConsistsStray; auto; [now rewrite <- Es|]. apply IH.
      pose proof (f_equal String.length Es) as EL. rewrite length_app in EL. cbn in EL, L. lia.
Qed.
Lemma begins_prefix : forall p q, begins (p ++ q) -> begins p.
Proof. intros p q (j & k & r & T). exists j, k, (q ++ r). now rewrite <- app_assoc_str. Qed.
Lemma hope_fun : forall p c r p' c' r', p ++ String c r = p' ++ String c' r' -> begins p -> ~ begins (p ++ String c "") -> begins p' -> ~ begins (p' ++ String c' "") -> p = p' /\ c = c' /\ r = r'.
Proof.
  assert (A : forall p c r q c' r', p ++ String c r = q ++ String c' r' -> (String.length p < String.length q)%nat -> exists u, q = p ++ String c u).
  { induction p as [|x p IH]; intros c r [|y q] c' r' E L; cbn in E, L; try lia.
    - inversion E; subst. exists q. reflexivity.
    - inversion E; subst. destruct (IH c r q c' r') as (u & ->); [assumption|lia|]. exists u. reflexivity. }
  intros p c r p' c' r' E B N B' N'. destruct (Nat.lt_trichotomy (String.length p) (String.length p')) as [L|[L|L]].
  - destruct (A _ _ _ _ _ _ E L) as (u & ->). exfalso. apply N. apply (begins_prefix _ u). rewrite app_assoc_str. exact B'.
  - destruct (same_cut _ _ _ _ E L) as (-> & X). inversion X. auto.
  - destruct (A _ _ _ _ _ _ (eq_sym E) L) as (u & ->). exfalso. apply N'. apply (begins_prefix _ u). rewrite app_assoc_str. exact B.
Qed.
Lemma hope_whole : forall p c r, ~ begins (p ++ String c "") -> begins (p ++ String c r) -> False.
Proof. intros p c r N B. apply N, (begins_prefix _ r). now rewrite app_assoc_str. Qed.
Lemma next_fun : forall k t r k' t' r', t ++ r = t' ++ r' -> next_token k t r -> next_token k' t' r' -> k = k' /\ t = t' /\ r = r'.
Proof. intros k t r k' t' r' E H H'. apply next_longest in H, H'. eapply longest_fun; eauto. Qed.
Lemma next_some : forall k t r s, s = t ++ r -> next_token k t r -> no_token s -> False.
Proof. intros k t r s -> H N. apply no_token_none in N. apply next_longest in H. rewrite (scan_longest _ _ _ _ H) in N. discriminate N. Qed.
Lemma token_some : forall k t r, next_token k t r -> t ++ r <> "".
Proof. intros k t r (i & (N & _) & _) E. apply app_empty in E. tauto. Qed.
Lemma stray_some : forall p c r, p ++ String c r <> "".
Proof. intros [|x p] c r; discriminate. Qed.
Lemma consists_fun : forall s l, consists s l -> forall l', consists s l' -> l = l'.
Proof.
  intros s l H. induction H as [|k t r l T K H IH|t r l T H IH|p c r l N B X H IH|s NE N B]; intros l' H'.
  - remember "" as s eqn:E. destruct H' as [|k' t' r' l' T' K' H'|t' r' l' T' H'|p' c' r' l' N' B' X' H'|s' NE' N' B']; [reflexivity| | | |tauto].
    + now apply token_some in T'.
    + now apply token_some in T'.
    + now apply stray_some in E.
  - remember (t ++ r) as s eqn:E. destruct H' as [|k' t' r' l' T' K' H'|t' r' l' T' H'|p' c' r' l' N' B' X' H'|s' NE' N' B'].
    + symmetry in E. now apply token_some in T.
    + destruct (next_fun _ _ _ _ _ _ E T' T) as (-> & -> & ->). f_equal. auto.
    + destruct (next_fun _ _ _ _ _ _ E T' T) as (<- & _). tauto.
    + exfalso. eapply next_some; eauto.
    + exfalso. eapply next_some; eauto.
  - remember (t ++ r) as s eqn:E. destruct H' as [|k' t' r' l' T' K' H'|t' r' l' T' H'|p' c' r' l' N' B' X' H'|s' NE' N' B'].
    + symmetry in E. now apply token_some in T.
    + destruct (next_fun _ _ _ _ _ _ E T' T) as (-> & _). tauto.
    + destruct (next_fun _ _ _ _ _ _ E T' T) as (_ & -> & ->). auto.
    + exfalso. eapply next_some; eauto.
    + exfalso. eapply next_some; eauto.
  - remember (p ++ String c r) as s eqn:E. destruct H' as [|k' t' r' l' T' K' H'|t' r' l' T' H'|p' c' r' l' N' B' X' H'|s' NE' N' B'].
    + symmetry in E. now apply stray_some in E.
    + exfalso. eapply next_some; [reflexivity|exact T'|exact N].
    + exfalso. eapply next_some; [reflexivity|exact T'|exact N].
    + destruct (hope_fun _ _ _ _ _ _ E B' X' B X) as (-> & -> & ->). auto.
    + exfalso. subst. eapply hope_whole; eauto.
  - destruct H' as [|k' t' r' l' T' K' H'|t' r' l' T' H'|p' c' r' l' N' B' X' H'|s' NE' N' B']; [tauto| | | |reflexivity].
    + exfalso. eapply next_some; [reflexivity|exact T'|exact N].
    + exfalso. eapply next_some; [reflexivity|exact T'|exact N].
    + exfalso. eapply hope_whole; eauto.
Qed.
Lemma tokens_consists : forall s l, tokens s = l <-> consists s l.
Proof.
  intros s l. split.
  - intros <-. apply fuel_ok. constructor.
  - intros H. eapply consists_fun; [apply fuel_ok; constructor|exact H].
Qed.
Lemma tokens_cons : forall k t r, next_token k t r -> k <> KSkip -> tokens (t ++ r) = (k, t) :: tokens r.
Proof. intros. apply tokens_consists, ConsistsToken; auto. now apply tokens_consists. Qed.
Lemma tokens_skip : forall t r, next_token KSkip t r -> tokens (t ++ r) = tokens r.
Proof. intros. apply tokens_consists, ConsistsSkip; auto. now apply tokens_consists. Qed.
Lemma tokens_stray : forall p c r, no_token (p ++ String c r) -> begins p -> ~ begins (p ++ String c "") -> tokens (p ++ String c r) = tokens r.
Proof. intros. apply tokens_consists, ConsistsStray; auto. now apply tokens_consists. Qed.
