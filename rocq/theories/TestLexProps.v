(** C77: the tokens of a function test file. *)

From Coq Require Import String Ascii Bool List Arith.
From Verif Require Import TypesModel TextSpec TestLexModel TestLexSpec TestLexProofs TestNameProofs.
Import ListNotations.
Local Open Scope string_scope.

(** The lexer finds exactly the tokens the text consists of. *)
Theorem C77_tokens : forall s l, tokens s = l <-> consists s l.
Proof. exact tokens_consists. Qed.

(** Every text has one reading, and only one. *)
Theorem C77_one_reading : forall s, exists l, consists s l /\ forall l', consists s l' -> l' = l.
Proof. intros s. exists (tokens s). split; [now apply tokens_consists|]. intros l' H. symmetry. now apply tokens_consists. Qed.

(** White space and comments are never handed on. *)
Theorem C77_no_space : forall s k t, In (k, t) (tokens s) -> k <> KSkip /\ t <> "".
Proof.
  intros s k t I. remember (tokens s) as l eqn:E. symmetry in E. apply tokens_consists in E.
  induction E as [|k' t' r l T NS H IH|t' r l T H IH|p c r l N B X H IH|s N1 N2 B]; auto; try destruct I.
  - inversion H0; subst. split; [exact NS|]. destruct T as (i & (N & _) & _). exact N.
  - auto.
Qed.

(** Tokens are pieces of the text, in order: text with the tokens' own texts marked in it. *)
Inductive pieces : string -> list string -> Prop :=
| PNone : forall s, pieces s []
| PPiece : forall a t r l, pieces r l -> pieces (a ++ t ++ r) (t :: l).
Theorem C77_pieces : forall s, pieces s (map snd (tokens s)).
Proof.
  intros s. remember (tokens s) as l eqn:E. symmetry in E. apply tokens_consists in E.
  induction E as [|k' t' r l T NS H IH|t' r l T H IH|p c r l N B X H IH|s N1 N2 B]; cbn [map snd]; try constructor.
  - exact (PPiece "" t' r _ IH).
  - inversion IH as [|a t r' l' H']; subst; [constructor|]. rewrite <- app_assoc_str. now constructor.
  - inversion IH as [|a t r' l' H']; subst; [constructor|]. change (String c (a ++ t ++ r')) with (String c a ++ t ++ r'). rewrite <- app_assoc_str. now constructor.
Qed.

(** A word before an opening parenthesis is a token of its own, and can be the name of a function exactly if
    it has no other meaning. *)
Theorem C77_names : forall w r, wordlike w ->
  exists k, tokens (w ++ "(" ++ r) = (k, w) :: (KOParen, "(") :: tokens r /\ (names_function k <-> ~ taken w).
Proof. exact called. Qed.
Example C77_names_nonvacuous : wordlike "add" /\ tokens "add(x)" = [(KIdent, "add"); (KOParen, "("); (KIdent, "x"); (KCParen, ")")].
Proof. split; [cbn; split; [left; cbn; tauto|repeat constructor; left; left; cbn; tauto]|vm_compute; reflexivity]. Qed.

(** Not every word can name a function: a function called "s", "error", "v1" or "col2", say, cannot be tested. *)
Theorem C77_names_refuted : exists w r, wordlike w /\ forall k, In k (tokens (w ++ "(" ++ r)) -> ~ names_function (fst k).
Proof.
  exists "S", ")". split; [cbn; split; [right; left; cbn; tauto|constructor]|]. intros (k & t) I. vm_compute in I.
  repeat (destruct I as [I|I]; [inversion I; subst; unfold names_function; cbn [fst]; intuition discriminate|]). destruct I.
Qed.
Example C77_taken : taken "Error" /\ taken "v1" /\ taken "col20" /\ taken "any9".
Proof.
  repeat split.
  - left. exists "error". split; [cbn; tauto|]. unfold keyword. apply TextNameProofs.same_letters_iff. reflexivity.
  - right; left. exists "v", "1". repeat split; [apply TextNameProofs.same_letters_iff; reflexivity|discriminate|repeat constructor; cbn; tauto].
  - right; right; left. exists "col", "20". repeat split; [apply TextNameProofs.same_letters_iff; reflexivity|]. right. split; [split; [discriminate|repeat constructor; cbn; tauto]|]. intros r H. discriminate H.
  - right; right; right. exists "any", "9". repeat split; [apply TextNameProofs.same_letters_iff; reflexivity|repeat constructor; cbn; tauto].
Qed.

(** A quote that is never closed takes the rest of the file with it, silently. *)
Theorem C77_unclosed : forall s, ~ In "'"%char (chars s) -> tokens ("'" ++ s) = [].
Proof. exact unclosed. Qed.
Example C77_unclosed_nonvacuous : tokens "f('abc) = 1::i32" = [(KUnused, "f"); (KOParen, "(")].
Proof. vm_compute. reflexivity. Qed.

(** Characters no token starts with are dropped without a word. *)
Theorem C77_stray_refuted : exists s s', s <> s' /\ tokens s = tokens s' /\ tokens s = [(KIdent, "add"); (KOParen, "(")] /\ s = "add@~(".
Proof. exists "add@~(", "add(". repeat split; try (vm_compute; reflexivity). discriminate. Qed.

(** A comment between the markers is one only if it is one character long (stars aside). *)
Theorem C77_comment_refuted : exists s, tokens ("/*" ++ s ++ "*/") <> [] /\ ~ In "*"%char (chars s).
Proof. exists "two". split; [vm_compute; discriminate|]. cbn. intuition discriminate. Qed.

(** A string with the look of a date is a date. *)
Theorem C77_date_string_refuted : exists t, in_quotes string_body t /\ tokens t = [(KDateLit, t)].
Proof.
  exists "'2020-01-01'". split; [|vm_compute; reflexivity].
  exists "'", "2020-01-01'". repeat split. exists "2020-01-01", "'". repeat split. repeat (apply SBChar; [discriminate|discriminate|]). constructor.
Qed.

(** What a token is does not depend on what comes before it. *)
Theorem C77_after_token : forall k t r, next_token k t r -> k <> KSkip -> tokens (t ++ r) = (k, t) :: tokens r.
Proof. exact tokens_cons. Qed.
Theorem C77_after_space : forall t r, next_token KSkip t r -> tokens (t ++ r) = tokens r.
Proof. exact tokens_skip. Qed.
Example C77_after_nonvacuous : next_token KOParen "(" "x" /\ tokens ("(" ++ "x") = [(KOParen, "("); (KIdent, "x")].
Proof. split; [apply paren_token|vm_compute; reflexivity]. Qed.

Print Assumptions C77_tokens.
Print Assumptions C77_one_reading.
Print Assumptions C77_no_space.
Print Assumptions C77_pieces.
Print Assumptions C77_names.
Print Assumptions C77_names_refuted.
Print Assumptions C77_unclosed.
Print Assumptions C77_stray_refuted.
Print Assumptions C77_comment_refuted.
Print Assumptions C77_date_string_refuted.
Print Assumptions C77_after_token.
Print Assumptions C77_after_space.
