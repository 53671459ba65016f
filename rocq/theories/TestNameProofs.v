(** Proofs about names, quotes and white space in function test files. *)

From Coq Require Import String Ascii Bool List Arith Lia.
From Verif Require Import TypesModel TextModel TextSpec TextNameProofs TestLexModel TestLexSpec TestLexProofs.
Import ListNotations.
Local Open Scope string_scope.

Definition all_chars : list ascii := map ascii_of_nat (List.seq 0 256).
Lemma all_chars_ok : forall c, In c all_chars.
Proof. intros c. rewrite <- (ascii_nat_embedding c). apply in_map, in_seq. pose proof (nat_ascii_bounded c). lia. Qed.

(** no text the rule matches contains the character *)
Fixpoint avoids (x : ascii) (r : re) : bool :=
  match r with
  | RNone | REps => true
  | RSet p => negb (p x)
  | RSeq a b | RAlt a b => avoids x a && avoids x b
  | RStar a => avoids x a
  end.
Lemma avoids_ok : forall x r t, matches r t -> avoids x r = true -> ~ In x (chars t).
Proof.
  intros x r t M. induction M as [|p c H|a b s t M1 IH1 M2 IH2|a b s M IH|a b s M IH|a|a s t M1 IH1 M2 IH2]; cbn [avoids]; intros A I.
  - exact I.
  - cbn in I. destruct I as [->|[]]. rewrite H in A. discriminate A.
  - apply andb_true_iff in A. rewrite chars_app in I. apply in_app_or in I. tauto.
  - apply andb_true_iff in A. tauto.
  - apply andb_true_iff in A. tauto.
  - exact I.
  - rewrite chars_app in I. apply in_app_or in I. tauto.
Qed.
(** every text the rule matches contains the character *)
Fixpoint must (x : ascii) (r : re) : bool :=
  match r with
  | RNone => true
  | REps | RStar _ => false
  | RSet p => forallb (fun c => implb (p c) (Ascii.eqb c x)) all_chars
  | RSeq a b => must x a || must x b
  | RAlt a b => must x a && must x b
  end.
Lemma must_ok : forall x r t, matches r t -> must x r = true -> In x (chars t).
Proof.
  intros x r t M. induction M as [|p c H|a b s t M1 IH1 M2 IH2|a b s M IH|a b s M IH|a|a s t M1 IH1 M2 IH2]; cbn [must]; intros A; try discriminate A.
  - pose proof (proj1 (forallb_forall _ _) A c (all_chars_ok c)) as X. cbv beta in X. rewrite H in X. cbn in X. apply Ascii.eqb_eq in X. subst. left. reflexivity.
  - rewrite chars_app. apply in_or_app. apply orb_true_iff in A. tauto.
  - apply andb_true_iff in A. tauto.
  - apply andb_true_iff in A. tauto.
Qed.

(** * words *)

Lemma letter_ok : forall c, is_letter c = true <-> letter_char c.
Proof.
  intros c. pose proof (all_chars_ok c) as I.
  assert (H : forallb (fun c => Bool.eqb (is_letter c) (existsb (Ascii.eqb c) (lower_letters ++ upper_letters ++ ["_"; "$"]%char)%list)) all_chars = true) by (vm_compute; reflexivity).
  pose proof (proj1 (forallb_forall _ _) H c I) as E. cbv beta in E. apply eqb_prop in E. rewrite E. rewrite one_ok. unfold letter_char. rewrite !in_app_iff. cbn [In]. intuition congruence.
Qed.
Lemma word_char_ok : forall c, is_word_char c = true <-> letter_char c \/ In c digit_chars.
Proof.
  intros c. pose proof (all_chars_ok c) as I.
  assert (H : forallb (fun c => Bool.eqb (is_word_char c) (is_letter c || is_digit c)) all_chars = true) by (vm_compute; reflexivity).
  pose proof (proj1 (forallb_forall _ _) H c I) as E. cbv beta in E. apply eqb_prop in E. rewrite E, orb_true_iff, letter_ok, digit_ok. reflexivity.
Qed.
Lemma wordlike_head : forall w, wordlike w -> exists c u, w = String c u /\ is_letter c = true /\ Forall (fun x => is_word_char x = true) (chars u).
Proof.
  intros [|c u] H; [destruct H|]. destruct H as (H & F). exists c, u. split; [reflexivity|]. split; [now apply letter_ok|].
  eapply Forall_impl; [|exact F]. intros x X. now apply word_char_ok.
Qed.
Lemma wordlike_all : forall w, wordlike w -> Forall (fun x => is_word_char x = true) (chars w).
Proof. intros w H. destruct (wordlike_head _ H) as (c & u & -> & L & F). constructor; [|exact F]. apply word_char_ok. left. now apply letter_ok. Qed.
Lemma wordlike_not : forall w x, wordlike w -> is_word_char x = false -> ~ In x (chars w).
Proof. intros w x H N I. apply wordlike_all in H. pose proof (proj1 (Forall_forall _ _) H x I) as E. cbv beta in E. congruence. Qed.

Definition deadb (r : re) : bool := forallb (fun c => implb (is_letter c) match after c r with RNone => true | _ => false end) all_chars.
Lemma dead_ok : forall r w, deadb r = true -> wordlike w -> ~ matches r w.
Proof.
  intros r w D W M. destruct (wordlike_head _ W) as (c & u & -> & L & _). pose proof (proj1 (forallb_forall _ _) D c (all_chars_ok c)) as X. cbv beta in X. rewrite L in X. cbn [implb] in X.
  apply after_ok in M. destruct (after c r); try discriminate X. now apply m_none in M.
Qed.
Lemma must_not : forall r x w, must x r = true -> is_word_char x = false -> wordlike w -> ~ matches r w.
Proof. intros r x w H N W M. eapply wordlike_not; [exact W|exact N|]. eapply must_ok; eauto. Qed.
Lemma word_taken : forall x w, lower x = x -> existsb (String.eqb x) taken_words = true -> matches (word x) w -> taken w.
Proof.
  intros x w L E M. apply (mean_word x L) in M. left. exists x. split; [|exact M]. apply existsb_exists in E. destruct E as (y & I & E). apply String.eqb_eq in E. now subst.
Qed.

Lemma rule_taken : forall k r w, In (k, r) rules -> wordlike w -> matches r w -> ~ names_function k -> taken w.
Proof.
  intros k r w I W M NN. unfold rules in I. cbn [In] in I.
  repeat (destruct I as [I|I]; [apply pair_equal_spec in I; destruct I as (<- & <-);
    first [ exfalso; apply NN; unfold names_function; tauto
          | eapply word_taken; [| |exact M]; reflexivity
          | exfalso; eapply dead_ok; [|exact W|exact M]; vm_compute; reflexivity
          | exfalso; eapply (must_not _ "!"%char); [| |exact W|exact M]; vm_compute; reflexivity
          | idtac ] |]); [| | | | |destruct I].
  - right; left. cbn [rseq] in M. apply m_seq in M. destruct M as (a & b & -> & Ma & Mb). apply m_seq in Mb. destruct Mb as (b1 & f & -> & Mb & Mf).
    assert (f = ""). { apply mean_fraction in Mf. destruct Mf as [->|(p & q & -> & -> & _)]; [reflexivity|]. exfalso. eapply (wordlike_not _ "."%char W); [reflexivity|].
      rewrite !chars_app. apply in_or_app; right. apply in_or_app; right. left. reflexivity. }
    subst f. rewrite app_nil_r_str. exists a, b1. split; [reflexivity|]. split; [now apply mean_word in Ma|now apply mean_digits in Mb].
  - unfold float_re in M. cbn [ralt] in M. apply m_alt in M. destruct M as [M|M]; [exfalso; eapply dead_ok; [|exact W|exact M]; vm_compute; reflexivity|].
    apply m_alt in M. destruct M as [M|M]; [|eapply word_taken; [| |exact M]; reflexivity]. apply m_seq in M. destruct M as (a & b & -> & Ma & Mb).
    apply mean_sign in Ma. destruct Ma as [->|[->| ->]]; [eapply word_taken; [| |exact Mb]; reflexivity|exfalso..]; destruct W as (W & _); apply letter_ok in W; discriminate W.
  - apply m_alt in M. destruct M as [M|M]; (eapply word_taken; [| |exact M]; reflexivity).
  - right; right; left. apply m_seq in M. destruct M as (a & b & -> & Ma & Mb). exists a, b. split; [reflexivity|]. split; [now apply mean_word in Ma|now apply mean_natural in Mb].
  - right; right; right. apply m_seq in M. destruct M as (a & b & -> & Ma & Mb). exists a, b. split; [reflexivity|]. split; [now apply mean_word in Ma|now apply mean_one in Mb].
Qed.

(** words with a meaning come before names *)
Definition ident_at : nat := 127.
Definition named (i : nat) (k : tk) : bool :=
  match k with KIdent => Nat.eqb i ident_at | KTruncate => Nat.eqb i 22 | KNonReserved => Nat.eqb i 122 || Nat.eqb i 123 | _ => true end.
Lemma named_ok : forall i k L, nth_error token_kinds i = Some (k, L) -> named i k = true.
Proof.
  assert (G : forall (ks : list tk) n, forallb (fun ik => named (fst ik) (snd ik)) (combine (List.seq n (length ks)) ks) = true ->
    forall i k, nth_error ks i = Some k -> named (n + i) k = true).
  { induction ks as [|k0 ks IH]; intros n H [|i] k E; try discriminate E; cbn [length List.seq combine forallb fst snd] in H; apply andb_true_iff in H; destruct H as (H1 & H2).
    - inversion E; subst. now rewrite Nat.add_0_r.
    - rewrite <- Nat.add_succ_comm. apply IH; assumption. }
  intros i k L E. apply (G (map fst token_kinds) 0); [vm_compute; reflexivity|]. rewrite nth_error_map, E. reflexivity.
Qed.
Lemma ident_index : forall i L, nth_error token_kinds i = Some (KIdent, L) -> i = ident_at.
Proof. intros i L H. apply named_ok in H. now apply Nat.eqb_eq in H. Qed.
Definition keyword_at (x : string) (j : nat) : Prop := exists k, nth_error token_kinds j = Some (k, keyword x).
Definition places : list nat :=
  [2; 3; 4; 5; 8; 11; 12; 13; 14; 15; 16; 17; 18; 19; 20; 21; 200; 200; 200; 200; 31; 32; 33; 34; 35; 36; 37; 38; 44; 46; 50; 51; 52; 53; 54; 55; 56; 57; 58; 59; 60; 61; 62;
   63; 64; 65; 66; 67; 68; 69; 70; 71; 72; 73; 74; 75; 76; 77; 78; 79; 80; 81; 83; 84; 85; 86; 87; 88; 89; 90; 91; 92; 93; 94; 95; 96; 97; 98].
Lemma taken_in : Forall2 (fun x j => (j = 200 /\ In x ["true"; "false"; "inf"; "snan"]) \/ ((j < ident_at)%nat /\ keyword_at x j)) taken_words places.
Proof.
  unfold taken_words, places.
  repeat first [ apply Forall2_nil | apply Forall2_cons; [first [left; split; [reflexivity|cbn [In]; tauto]|right; split; [unfold ident_at; lia|eexists; reflexivity]]|] ].
Qed.
Lemma taken_kind : forall w, taken w -> exists j k L, (j < ident_at)%nat /\ nth_error token_kinds j = Some (k, L) /\ L w.
Proof.
  intros w [(x & I & K)|[V|[C|A]]].
  - assert (P : In x ["true"; "false"; "inf"; "snan"] \/ exists j, (j < ident_at)%nat /\ keyword_at x j).
    { pose proof taken_in as F. revert I F. generalize taken_words places. intros ws js I F. induction F as [|y j ws js H F IH]; [destruct I|]. destruct I as [->|I]; [|auto]. destruct H as [(_ & H)|H]; eauto. }
    destruct P as [J|(j & Lj & k & J)]; [|eauto 7]. cbn [In] in J. destruct J as [<-|[<-|[<-|[<-|[]]]]].
    + exists 26. eexists _, _. split; [unfold ident_at; lia|]. split; [reflexivity|]. left. exact K.
    + exists 26. eexists _, _. split; [unfold ident_at; lia|]. split; [reflexivity|]. right. exact K.
    + exists 25. eexists _, _. split; [unfold ident_at; lia|]. split; [reflexivity|]. right; left. exists "", w. split; [reflexivity|]. split; [left; reflexivity|exact K].
    + exists 25. eexists _, _. split; [unfold ident_at; lia|]. split; [reflexivity|]. right; right. exact K.
  - destruct V as (a & b & -> & Ha & Hb). exists 6. eexists _, _. split; [unfold ident_at; lia|]. split; [reflexivity|]. exists a, b. split; [reflexivity|]. split; [exact Ha|].
    exists b, "". split; [now rewrite app_nil_r_str|]. split; [exact Hb|left; reflexivity].
  - exists 47. eexists _, _. split; [unfold ident_at; lia|]. split; [reflexivity|exact C].
  - exists 99. eexists _, _. split; [unfold ident_at; lia|]. split; [reflexivity|exact A].
Qed.
Lemma lower_app : forall a b, lower (a ++ b) = lower a ++ lower b.
Proof. induction a as [|c a IH]; intros b; [reflexivity|]. cbn [append lower]. now rewrite IH. Qed.
Lemma free_words : forall x w, In x ["truncate"; "and"; "or"] -> keyword x w -> ~ taken w.
Proof.
  intros x w I K T. unfold keyword in *. rewrite same_letters_iff in K.
  assert (LX : lower x = x) by (cbn in I; destruct I as [<-|[<-|[<-|[]]]]; reflexivity). rewrite LX in K.
  assert (P : forall y, (keyword y ^^ number) w \/ (keyword y ^^ natural) w \/ (keyword y ^^ n_digits 1) w -> exists v, x = lower y ++ v).
  { intros y [H|[H|H]]; destruct H as (a & b & -> & Ha & _); unfold keyword in Ha; rewrite same_letters_iff in Ha; rewrite lower_app, Ha in K; eauto. }
  destruct T as [(y & J & H)|T].
  - unfold keyword in H. rewrite same_letters_iff, K in H.
    assert (X : forallb (fun y => negb (existsb (String.eqb (lower y)) ["truncate"; "and"; "or"])) taken_words = true) by (vm_compute; reflexivity).
    pose proof (proj1 (forallb_forall _ _) X y J) as E. cbv beta in E. rewrite <- H in E. apply negb_true_iff in E.
    assert (existsb (String.eqb x) ["truncate"; "and"; "or"] = true); [|congruence]. apply existsb_exists. exists x. split; [exact I|apply String.eqb_refl].
  - assert (Q : exists y v, In y ["v"; "col"; "any"] /\ x = y ++ v).
    { destruct T as [T|[T|T]]; [destruct (P "v" (or_introl T)) as (v & E)|destruct (P "col" (or_intror (or_introl T))) as (v & E)|destruct (P "any" (or_intror (or_intror T))) as (v & E)];
        cbn [lower] in E; eexists _, v; (split; [|exact E]); cbn; auto. }
    destruct Q as (y & v & J & E). cbn in I, J. destruct I as [<-|[<-|[<-|[]]]], J as [<-|[<-|[<-|[]]]]; discriminate E.
Qed.
Lemma name_rule : forall k L i w, nth_error token_kinds i = Some (k, L) -> names_function k -> L w -> k <> KIdent -> exists x, In x ["truncate"; "and"; "or"] /\ keyword x w.
Proof.
  intros k L i w H N HL NK. pose proof (named_ok _ _ _ H) as P. destruct N as [->|[->| ->]]; [congruence| |]; cbn [named] in P.
  - apply Nat.eqb_eq in P. subst i. cbn in H. inversion H; subst. exists "truncate". split; [cbn; tauto|exact HL].
  - apply orb_true_iff in P. destruct P as [P|P]; apply Nat.eqb_eq in P; subst i; cbn in H; inversion H; subst; [exists "and"|exists "or"]; (split; [cbn; tauto|exact HL]).
Qed.
Lemma word_kind : forall w k, wordlike w -> kind_of rules k w -> (names_function k <-> ~ taken w).
Proof.
  intros w k W K. split.
  - intros N T. apply (kind_at _ _ rules_mean) in K. destruct K as (i & L & Hi & HL & B). assert (D : k = KIdent \/ k <> KIdent) by (destruct k; (left; reflexivity) || (right; discriminate)). destruct D as [->|D].
    + apply ident_index in Hi. destruct (taken_kind _ T) as (j & k' & L' & LT & Hj & H'). specialize (B j k' L' Hj H'). lia.
    + destruct (name_rule _ _ _ _ Hi N HL D) as (x & I & Kx). eapply free_words; eauto.
  - intros N. destruct K as (a & r & b & E & M & _). assert (I : In (k, r) rules) by (rewrite E; apply in_or_app; right; left; reflexivity).
    assert (D : names_function k \/ ~ names_function k) by (unfold names_function; destruct k; first [left; tauto|right; intros [X|[X|X]]; discriminate X]).
    destruct D as [D|D]; [exact D|]. exfalso. apply N. eapply rule_taken; eauto.
Qed.

(** * what follows a word *)

(** no token that starts with a letter has the character *)
Definition outside_words (x : ascii) : Prop := forallb (fun c => implb (is_letter c) (forallb (fun kr => avoids x (after c (snd kr))) rules)) all_chars = true.
Lemma word_longest : forall w x r k, wordlike w -> outside_words x -> kind_of rules k w -> longest rules k w (String x r).
Proof.
  intros w x r k W O K. destruct (wordlike_head _ W) as (c & u & Ew & Lc & _). split; [rewrite Ew; discriminate|]. split; [exact K|].
  intros k' t' r' E K'. destruct (Nat.le_gt_cases (String.length t') (String.length w)) as [L|L]; [exact L|exfalso].
  assert (X : exists v, t' = w ++ String x v).
  { clear K K' W Ew. revert t' E L. induction w as [|y w IH]; intros [|z t'] E L; cbn in E, L; try lia; inversion E; subst; [eexists; reflexivity|]. destruct (IH t') as (v & ->); [assumption|lia|]. eexists; reflexivity. }
  destruct X as (v & ->). destruct K' as (a & r0 & b & Er & M & _). assert (I : In (k', r0) rules) by (rewrite Er; apply in_or_app; right; left; reflexivity).
  pose proof (proj1 (forallb_forall _ _) O c (all_chars_ok c)) as O1. cbv beta in O1. rewrite Lc in O1. cbn [implb] in O1. pose proof (proj1 (forallb_forall _ _) O1 _ I) as A. cbn [snd] in A.
  rewrite Ew in M. cbn [append] in M. apply after_ok in M. eapply avoids_ok; [exact M|exact A|]. rewrite chars_app. apply in_or_app. right. left. reflexivity.
Qed.
Lemma paren_outside : outside_words "("%char.
Proof. vm_compute. reflexivity. Qed.
Lemma word_some : forall w, wordlike w -> exists k, kind_of rules k w /\ k <> KSkip.
Proof.
  intros w W. assert (X : exists k, kind_of rules k w).
  { apply some_kind_ex. exists KIdent, identifier_re. split; [unfold rules; cbn [In]; repeat (first [left; reflexivity|right])|]. apply mean_ident. exact W. }
  destruct X as (k & K). exists k. split; [exact K|]. intros ->. destruct K as (a & r & b & E & M & _). assert (I : In (KSkip, r) rules) by (rewrite E; apply in_or_app; right; left; reflexivity).
  unfold rules in I. cbn [In] in I. repeat (destruct I as [I|I]; [first [discriminate I|inversion I; subst; eapply dead_ok; [|exact W|exact M]; vm_compute; reflexivity]|]). exact I.
Qed.
Lemma paren_token : forall r, next_token KOParen "(" r.
Proof.
  intros r. apply next_longest. assert (E : step "(" rules = [(KOParen, REps)]) by (vm_compute; reflexivity).
  pose proof (scan_ok (String "(" r) rules) as S. cbn [scan] in S. rewrite E in S.
  assert (N : scan [(KOParen, REps)] r = None) by (destruct r; reflexivity). rewrite N in S. cbn [find nullable snd fst] in S.
  destruct S as (t & r' & Es & L & Lg). destruct t as [|x [|y t]]; cbn in L; try discriminate L. inversion Es; subst. exact Lg.
Qed.
Lemma word_token : forall w x r, wordlike w -> outside_words x -> exists k, next_token k w (String x r) /\ k <> KSkip /\ (names_function k <-> ~ taken w).
Proof.
  intros w x r W O. destruct (word_some _ W) as (k & K & NS). exists k. split; [apply next_longest; now apply word_longest|]. split; [exact NS|now apply word_kind].
Qed.
Lemma called : forall w r, wordlike w -> exists k, tokens (w ++ "(" ++ r) = (k, w) :: (KOParen, "(") :: tokens r /\ (names_function k <-> ~ taken w).
Proof.
  intros w r W. destruct (word_token w "("%char r W paren_outside) as (k & T & NS & N). exists k. split; [|exact N].
  cbn [append]. rewrite (tokens_cons _ _ _ T NS). f_equal. apply (tokens_cons KOParen "(" r); [apply paren_token|discriminate].
Qed.

(** * quotes *)

Lemma body_extends : forall n s, (String.length s <= n)%nat -> ~ In "'"%char (chars s) -> exists r, string_body (s ++ r).
Proof.
  induction n as [|n IH]; intros [|c s] L N; cbn in L; try lia; [exists ""; constructor..|].
  destruct (Ascii.eqb_spec c "\"%char) as [->|NB].
  - destruct s as [|d s]; [exists "a"; apply (SBEscape "a" ""); constructor|]. destruct (IH s) as (r & B); [cbn in L; lia|intros I; apply N; right; right; exact I|].
    exists r. apply (SBEscape d (s ++ r)). exact B.
  - destruct (IH s) as (r & B); [lia|intros I; apply N; right; exact I|]. exists r. cbn [append]. apply SBChar; auto. intros ->. apply N. left. reflexivity.
Qed.
Lemma string_at : exists j, nth_error token_kinds j = Some (KStrLit, in_quotes string_body).
Proof. exists 45. reflexivity. Qed.
Lemma unclosed : forall s, ~ In "'"%char (chars s) -> tokens ("'" ++ s) = [].
Proof.
  intros s N. apply tokens_consists. apply ConsistsHope; [discriminate| |].
  - intros j k t r E T. destruct (token_at_kind _ _ _ T) as (k' & a & r0 & b & Er & M & _). assert (I : In (k', r0) rules) by (rewrite Er; apply in_or_app; right; left; reflexivity).
    destruct T as (NE & _). destruct t as [|c t]; [congruence|]. cbn [append] in E. inversion E; subst.
    assert (H : forallb (fun kr => must "'" (after "'" (snd kr))) rules = true) by (vm_compute; reflexivity).
    pose proof (proj1 (forallb_forall _ _) H _ I) as A. cbv beta in A. cbn [snd] in A. apply after_ok in M. apply N. rewrite chars_app. apply in_or_app. left. eapply must_ok; eauto.
  - destruct (body_extends _ s (le_n _) N) as (r & B). destruct string_at as (j & Hj). exists j, KStrLit, (r ++ "'"). split; [discriminate|]. exists (in_quotes string_body). split; [exact Hj|].
    exists "'", ((s ++ r) ++ "'"). split; [cbn [append]; now rewrite app_assoc_str|]. split; [reflexivity|]. exists (s ++ r), "'". repeat split. exact B.
Qed.

(** * numbers *)

Lemma token_rule : forall s k t, In (k, t) (tokens s) -> exists r, In (k, r) rules /\ matches r t.
Proof.
  intros s k t I. remember (tokens s) as l eqn:E. symmetry in E. apply tokens_consists in E.
  induction E as [|k' t' r l T NS H IH|t' r l T H IH|p c r l N B X H IH|s N1 N2 B]; auto; try (now destruct I).
  destruct I as [I|I]; [|auto]. inversion I; subst. apply next_longest in T. destruct T as (_ & (a & r0 & b & E & M & _) & _). exists r0. split; [|exact M]. rewrite E. apply in_or_app. right. left. reflexivity.
Qed.
Definition numeric_kind (k : tk) : bool := match k with KIntLit | KDecLit | KFloatLit | KNaN => true | _ => false end.
Lemma numeric_no_x : forall s k t, In (k, t) (tokens s) -> numeric_kind k = true -> ~ In "x"%char (chars t) /\ ~ In "X"%char (chars t).
Proof.
  intros s k t I N. destruct (token_rule _ _ _ I) as (r & J & M).
  assert (H : forallb (fun kr => implb (numeric_kind (fst kr)) (avoids "x" (snd kr) && avoids "X" (snd kr))) rules = true) by (vm_compute; reflexivity).
  pose proof (proj1 (forallb_forall _ _) H _ J) as A. cbv beta in A. cbn [fst snd] in A. rewrite N in A. cbn [implb] in A. apply andb_true_iff in A.
  split; (eapply avoids_ok; [exact M|tauto]).
Qed.
