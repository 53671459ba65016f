(** Proofs about the parser of function test files: arguments, test cases, files. *)

From Coq Require Import ZArith String Ascii Bool List Arith Lia.
From Verif Require Import Base TypesModel SigModel TestCaseModel TestLexModel TestParseModel TestParseSpec TestParseProofs.
Import ListNotations.
Local Open Scope list_scope.

Ltac llia := lia.

Lemma colon_cases : forall r : list token, (exists x r', r = (KDoubleColon, x) :: r') \/
  (head_not [KDoubleColon] r /\ forall A (f : list token -> A) d, match r with (KDoubleColon, _) :: r' => f r' | _ => d end = d).
Proof. intros [|([] & y) r']; try (right; split; [noh|reflexivity]). left. eauto. Qed.

Lemma p_head_sound : forall n ts r, p_lambda_head n ts = Some r ->
  (exists p a, ts = (KIdent, p) :: (KArrow, a) :: r) \/
  (exists y z a p p' ps pw, ts = (KOParen, y) :: pw ++ (KCParen, z) :: (KArrow, a) :: r /\ commas ident_written (p :: p' :: ps) pw).
Proof.
  intros n ts r H. destruct ts as [|(k & t) ts]; [discriminate H|]. destruct k; try discriminate H; cbn [p_lambda_head] in H.
  - right. destruct (list1 p_ident n ts) as [([|p [|p' ps]] & r1)|] eqn:P; try discriminate H.
    destruct r1 as [|([] & z) r1]; try discriminate H. destruct r1 as [|([] & a) r1]; try discriminate H. inversion H; subst.
    destruct (list1_sound _ _ _ n p_ident_sound _ _ _ P) as (pw & -> & W). exists t, z, a, p, p', ps, pw. auto.
  - left. destruct ts as [|([] & a) r1]; try discriminate H. inversion H; subst. eauto.
Qed.
Lemma p_arg_sound : forall n, sound argument_written (p_arg n).
Proof.
  induction n as [|n IH]; intros ts a r H; [discriminate H|]. destruct ts as [|(k & t) ts]; [discriminate H|].
  assert (D : k = KIdent \/ k = KOBracket \/ k = KOParen \/
    exists x r', ts = (KDoubleColon, x) :: r' /\ match p_type n r' with Some (d, r) => match typed k t d with Some a => Some (a, r) | None => None end | None => None end = Some (a, r)).
  { destruct (colon_cases ts) as [(x & r' & ->)|(_ & B)].
    - destruct k; try (left; reflexivity); try (right; left; reflexivity); try (right; right; left; reflexivity); right; right; right; exists x, r'; (split; [reflexivity|exact H]).
    - destruct k; try (left; reflexivity); try (right; left; reflexivity); try (right; right; left; reflexivity); cbn [p_arg] in H; rewrite B in H; discriminate H. }
  destruct D as [->|[->|[->|(x & r' & -> & D)]]].
  - cbn [p_arg] in H. destruct (colon_cases ts) as [(x & r' & ->)|(_ & B)].
    + destruct r' as [|([] & y) r']; try discriminate H. inversion H; subst. eexists [_; _; _]. split; [reflexivity|constructor].
    + rewrite B in H. inversion H; subst. eexists [_]. split; [reflexivity|constructor].
  - cbn [p_arg] in H. match type of H with context[p_elem ?a ?b] => destruct (p_elem a b) as [(e & r1)|] eqn:P; [|discriminate H] end. destruct e as [|es]; [discriminate H|].
    destruct r1 as [|([] & x) r1]; try discriminate H. destruct (p_type n r1) as [(d & r2)|] eqn:P2; [|discriminate H]. destruct d; try discriminate H. inversion H; subst.
    destruct (p_elem_sound _ _ _ _ P) as (w & -> & W). destruct (p_type_sound _ _ _ _ P2) as (v & -> & V). eexists. split; [|eapply AWList; [exact W|exact V]]. fin.
  - cbn [p_arg] in H. destruct (p_lambda_head n ts) as [r1|] eqn:L; [|discriminate H]. destruct (p_name r1) as [(nm & r2)|] eqn:N; [|discriminate H].
    destruct r2 as [|([] & o) r2]; try discriminate H. destruct (list1 (p_arg n) n r2) as [(args & r3)|] eqn:P; [|discriminate H].
    destruct r3 as [|([] & c) r3]; try discriminate H. destruct r3 as [|([] & c') r3]; try discriminate H. destruct r3 as [|([] & dc) r3]; try discriminate H.
    destruct (p_type n r3) as [(d & r4)|] eqn:T; [|discriminate H]. destruct d; try discriminate H. inversion H; subst.
    destruct (p_name_sound _ _ _ N) as (w & -> & W). destruct (list1_sound _ _ _ n IH _ _ _ P) as (v & -> & V). destruct (p_type_sound _ _ _ _ T) as (u & -> & U).
    destruct (p_head_sound _ _ _ L) as [(p & ar & ->)|(y & z & ar & p & p' & ps & pw & -> & PW)].
    + eexists. split; [|eapply AWLambda1; [exact W|exact V|exact U]]. fin.
    + eexists. split; [|eapply AWLambda; [exact PW|exact W|exact V|exact U]]. fin.
  - destruct (p_type n r') as [(d & r1)|] eqn:T; [|discriminate D]. destruct (typed k t d) as [a'|] eqn:E; [|discriminate D]. inversion D; subst.
    destruct (p_type_sound _ _ _ _ T) as (u & -> & U). apply typed_iff in E. eexists. split; [|eapply AWTyped; [exact E|exact U]]. fin.
Qed.

Lemma list_head : forall es w, element_written (EList es) w -> exists x v, w = (KOBracket, x) :: v.
Proof. intros es w H. inversion H; subst; eauto. Qed.
Lemma commas_two : forall p p' ps pw, commas ident_written (p :: p' :: ps) pw -> 3 <= length pw.
Proof.
  intros p p' ps pw H. inversion H as [|a w l v c Ha Hl]; subst. destruct Ha. cbn. inversion Hl as [b w' Hb|b w' l' v' c' Hb Hl']; subst; destruct Hb; cbn; lia.
Qed.
Lemma arg_head : forall a w, argument_written a w -> exists k x v, w = (k, x) :: v /\ (kind_of_literal k <> None \/ k = KIdent \/ k = KOBracket \/ k = KOParen).
Proof.
  intros a w H. destruct H as [k t d a x w LO _| | |es e q x w v E _| | ]; try (do 3 eexists; split; [reflexivity|tauto]).
  - do 3 eexists; split; [reflexivity|]. left. destruct LO as [| | k t p q I J|k t ps q I| | | | | | | | | | | | | ]; try discriminate;
      cbn in I; repeat (destruct I as [<-|I]; [discriminate|]); tauto.
  - destruct (list_head _ _ E) as (y & v' & ->). do 3 eexists; split; [reflexivity|tauto].
Qed.
Lemma p_arg_eq : forall n k t x r, kind_of_literal k <> None -> p_arg (S n) ((k, t) :: (KDoubleColon, x) :: r) =
  match p_type n r with Some (d, r) => match typed k t d with Some a => Some (a, r) | None => None end | None => None end.
Proof. intros n k t x r H. destruct k; try reflexivity; exfalso; apply H; reflexivity. Qed.
Lemma p_arg_complete : forall n, complete n argument_written stop (p_arg n).
Proof.
  induction n as [|n IH]; intros a w r H L O.
  { destruct (arg_head _ _ H) as (k & x & v & -> & _). cbn in L. lia. }
  pose proof (arg_head _ _ H) as (k0 & x0 & v0 & Ew & HK).
  destruct H as [k t d a x w LO T|t x y|t|es e q x w v E T|p name args x a o c c' d w v u N V U|p p' ps name args x y z a o c c' d pw w v u PW N V U].
  - inversion Ew; subst. cbn [List.app]. cbn [length] in L. destruct HK as [HK|[->|[->| ->]]]; [|inversion LO; subst; cbn in *; intuition discriminate..].
    rewrite p_arg_eq by exact HK. rewrite (p_type_complete n _ _ _ T); [|lia|exact O]. apply typed_iff in LO. now rewrite LO.
  - reflexivity.
  - cbn [List.app]. cbn [p_arg]. destruct (colon_cases r) as [(x & r' & ->)|(_ & B)]; [exfalso; apply O; cbn; tauto|]. now rewrite B.
  - destruct (list_head _ _ E) as (y & v' & Ev). asc. rewrite app_length in L. cbn [length] in L.
    assert (P : p_arg (S n) (w ++ (KDoubleColon, x) :: v ++ r) = match p_elem (S n) (w ++ (KDoubleColon, x) :: v ++ r) with
          | Some (EList es, (KDoubleColon, _) :: r) => match p_type n r with Some (DList e q, r) => Some (GList es e q, r) | _ => None end | _ => None end).
    { rewrite Ev. reflexivity. }
    etransitivity; [exact P|]. rewrite (p_elem_complete (S n) _ _ _ E); [|lia|exact I]. destruct w as [|]; [discriminate Ev|]. cbn [length] in L. rewrite (p_type_complete n _ _ _ T); [reflexivity|lia|exact O].
  - asc. cbn [length] in L. rewrite app_length in L. cbn [length] in L. rewrite app_length in L. cbn [length] in L.
    cbn [p_arg p_lambda_head]. rewrite (p_name_complete _ _ _ N). rewrite (list1_use _ _ n n stop _ _ _ _ IH ltac:(intros; noh) V) by (lia || noh).
    rewrite (p_type_complete n _ _ _ U); [reflexivity|lia|exact O].
  - asc. cbn [length] in L. rewrite app_length in L. cbn [length] in L. rewrite app_length in L. cbn [length] in L. rewrite app_length in L. cbn [length] in L.
    cbn [p_arg p_lambda_head]. rewrite (list1_use _ _ n n any_rest _ _ _ _ (p_ident_complete n any_rest) ltac:(intros; exact I) PW) by (lia || exact I || noh).
    rewrite (p_name_complete _ _ _ N). rewrite (list1_use _ _ n n stop _ _ _ _ IH ltac:(intros; noh) V) by (lia || noh).
    rewrite (p_type_complete n _ _ _ U); [reflexivity|lia|exact O].
Qed.

(** * test cases *)

Lemma result_cases : forall n ts, (exists x r, ts = (KErrorResult, x) :: r) \/ (exists x r, ts = (KUndefinedResult, x) :: r) \/
  p_result n ts = match p_arg n ts with Some (a, r) => Some (RArg a, r) | None => None end.
Proof. intros n [|([] & x) r]; try (right; right; reflexivity); [left|right; left]; eauto. Qed.
Lemma p_result_sound : forall n, sound result_written (p_result n).
Proof.
  intros n ts a r H. destruct (result_cases n ts) as [(x & r' & ->)|[(x & r' & ->)|E]].
  - inversion H; subst. eexists [_]. split; [reflexivity|constructor].
  - inversion H; subst. eexists [_]. split; [reflexivity|constructor].
  - rewrite E in H. destruct (p_arg n ts) as [(b & r')|] eqn:P; [|discriminate H]. inversion H; subst. destruct (p_arg_sound _ _ _ _ P) as (w & -> & W). exists w. split; [reflexivity|now constructor].
Qed.
Lemma p_result_complete : forall n, complete n result_written stop (p_result n).
Proof.
  intros n a w r H L O. destruct H as [a w H|x|x]; [|reflexivity|reflexivity].
  destruct (result_cases n (w ++ r)) as [(x & r' & E)|[(x & r' & E)|E]].
  - destruct (arg_head _ _ H) as (k & y & v & -> & D). inversion E; subst. exfalso. destruct D as [D|[D|[D|D]]]; [apply D; reflexivity|discriminate D..].
  - destruct (arg_head _ _ H) as (k & y & v & -> & D). inversion E; subst. exfalso. destruct D as [D|[D|[D|D]]]; [apply D; reflexivity|discriminate D..].
  - rewrite E, (p_arg_complete n _ _ _ H L O). reflexivity.
Qed.

Lemma opt_name_iff : forall k, option_name k = true <-> In k [KOptName; KIdent].
Proof. intros k. split; [destruct k; try discriminate; cbn; tauto|]. cbn. intros H. repeat (destruct H as [<-|H]; [reflexivity|]). tauto. Qed.
Lemma opt_value_iff : forall k, option_value k = true <-> In k [KOptValue; KNaN; KTruncate; KBoolLit; KNullLit; KIdent].
Proof. intros k. split; [destruct k; try discriminate; cbn; tauto|]. cbn. intros H. repeat (destruct H as [<-|H]; [reflexivity|]). tauto. Qed.
Lemma p_option_sound : sound option_written p_option.
Proof.
  intros ts a r H. destruct ts as [|(k & x) [|(k1 & y) ts]]; [discriminate H|discriminate H|]. destruct k1; try discriminate H.
  destruct ts as [|(k2 & z) ts]; [discriminate H|]. cbn [p_option] in H. destruct (option_name k && option_value k2)%bool eqn:E; [|discriminate H]. inversion H; subst.
  apply andb_true_iff in E. destruct E as (E1 & E2). eexists [_; _; _]. split; [reflexivity|]. constructor; [now apply opt_name_iff|now apply opt_value_iff].
Qed.
Lemma p_option_complete : forall m ok, complete m option_written ok p_option.
Proof.
  intros m ok a w r H _ _. destruct H as [k k' a b x I J]. apply opt_name_iff in I. apply opt_value_iff in J. cbn [List.app p_option]. now rewrite I, J.
Qed.

Definition tail_written (os : toptions) (res : tresult) (w : list token) : Prop :=
  exists u z t, w = u ++ (KEq, z) :: t /\ options_written os u /\ result_written res t.
Definition p_options (n : nat) (ts : list token) : option (toptions * list token) :=
  match ts with
  | (KOBracket, _) :: r =>
      match list1 p_option n r with Some (os, (KCBracket, _) :: r) => Some (Some os, r) | _ => None end
  | _ => Some (None, ts)
  end.
Lemma p_options_sound : forall n, sound options_written (p_options n).
Proof.
  intros n ts os r H. assert (D : (exists x r', ts = (KOBracket, x) :: r') \/ p_options n ts = Some (None, ts)).
  { destruct ts as [|([] & x) r']; try (right; reflexivity). left. eauto. }
  destruct D as [(x & r' & ->)|D].
  - cbn [p_options] in H. destruct (list1 p_option n r') as [(l & [|([] & y) r2])|] eqn:P; try discriminate H. inversion H; subst.
    destruct (list1_sound _ _ _ n p_option_sound _ _ _ P) as (w & -> & W). eexists. split; [|eapply OWSome; exact W]. fin.
  - rewrite D in H. inversion H; subst. exists []. split; [reflexivity|constructor].
Qed.
Lemma p_options_complete : forall n os w r, options_written os w -> length w <= n -> head_not [KOBracket] r -> p_options n (w ++ r) = Some (os, r).
Proof.
  intros n os w r H L O. destruct H as [|l w x y H].
  - cbn [List.app]. destruct r as [|([] & x) r]; try reflexivity. exfalso. apply O. left. reflexivity.
  - asc. cbn [length] in L. rewrite app_length in L. cbn [length] in L. cbn [p_options].
    rewrite (list1_use _ _ n n any_rest _ _ _ _ (p_option_complete n any_rest) ltac:(intros; exact I) H) by (llia || exact I || noh). reflexivity.
Qed.
Lemma p_tail_eq : forall n ts, p_tail n ts = match p_options n ts with
  | Some (os, (KEq, _) :: r) => match p_result n r with Some (res, r) => Some (os, res, r) | None => None end
  | _ => None end.
Proof. reflexivity. Qed.
Lemma p_tail_sound : forall n ts os res r, p_tail n ts = Some (os, res, r) -> exists w, ts = w ++ r /\ tail_written os res w.
Proof.
  intros n ts os res r H. rewrite p_tail_eq in H. destruct (p_options n ts) as [(os' & [|([] & z) r1])|] eqn:P; try discriminate H.
  destruct (p_result n r1) as [(res' & r2)|] eqn:R; [|discriminate H]. inversion H; subst.
  destruct (p_options_sound _ _ _ _ P) as (u & -> & U). destruct (p_result_sound _ _ _ _ R) as (t & -> & T).
  exists (u ++ (KEq, z) :: t). split; [fin|]. exists u, z, t. auto.
Qed.
Lemma p_tail_complete : forall n os res w r, tail_written os res w -> length w <= n -> stop r -> p_tail n (w ++ r) = Some (os, res, r).
Proof.
  intros n os res w r (u & z & t & -> & U & T) L O. rewrite app_length in L. cbn [length] in L. rewrite p_tail_eq. asc.
  rewrite (p_options_complete n _ _ _ U) by (llia || noh). rewrite (p_result_complete n _ _ _ T); [reflexivity|llia|exact O].
Qed.

Lemma p_scalar_sound : forall n, sound scalar_written (p_scalar n).
Proof.
  intros n ts c r H. unfold p_scalar in H. destruct (p_name ts) as [(name & [|([] & x) r1])|] eqn:N; try discriminate H.
  destruct (list1 (p_arg n) n r1) as [(args & [|([] & y) r2])|] eqn:P; try discriminate H.
  destruct (p_tail n r2) as [((os & res) & r3)|] eqn:T; [|discriminate H]. inversion H; subst.
  destruct (p_name_sound _ _ _ N) as (w & -> & W). destruct (list1_sound _ _ _ n (p_arg_sound n) _ _ _ P) as (v & -> & V).
  destruct (p_tail_sound _ _ _ _ _ T) as (tw & -> & (u & z & t & -> & U & R)). eexists. split; [|eapply ScalarWritten; [exact W|exact V|exact U|exact R]]. fin.
Qed.
Lemma p_scalar_complete : forall n, complete n scalar_written stop (p_scalar n).
Proof.
  intros n c w r H L O. destruct H as [name args os res x y z w v u t N V U R]. asc.
  assert (T : tail_written os res (u ++ (KEq, z) :: t)) by (exists u, z, t; auto).
  rewrite app_length in L. cbn [length] in L. rewrite app_length in L. cbn [length] in L.
  unfold p_scalar. rewrite (p_name_complete _ _ _ N).
  rewrite (list1_use _ _ n n stop _ _ _ _ (p_arg_complete n) ltac:(intros; noh) V) by (llia || noh).
  pose proof (p_tail_complete n os res _ r T ltac:(llia) O) as E. rewrite <- app_assoc in E. cbn [List.app] in E.
  match goal with |- match ?a with _ => _ end = _ => replace a with (Some (os, res, r)) by (symmetry; exact E) end. reflexivity.
Qed.

(** lists in parentheses *)
Definition starts {A} (G : written A) : Prop := forall a w, G a w -> exists k x v, w = (k, x) :: v /\ k <> KCParen.
Lemma paren_cases : forall r : list token, (exists y r', r = (KCParen, y) :: r') \/
  (forall A (f : list token -> A) d, match r with (KCParen, _) :: r' => f r' | _ => d end = d).
Proof. intros [|([] & y) r']; try (right; reflexivity). left. eauto. Qed.
Lemma commas_starts : forall A (G : written A), starts G -> starts (commas G).
Proof. intros A G S l w H. destruct H as [a w H|a w l v c H _]; destruct (S _ _ H) as (k & x & v' & -> & D); do 3 eexists; (split; [reflexivity|exact D]). Qed.
Lemma parens_sound : forall A (G : written A) p n, sound G p -> sound (parens_written G) (in_parens p n).
Proof.
  intros A G p n S ts l r H. destruct ts as [|(k & x) ts]; [discriminate H|]. destruct k; try discriminate H.
  unfold in_parens in H. destruct (paren_cases ts) as [(y & r' & ->)|B].
  - inversion H; subst. eexists [_; _]. split; [reflexivity|constructor].
  - rewrite B in H. destruct (list1 p n ts) as [(l' & [|([] & y) r2])|] eqn:P; try discriminate H. inversion H; subst.
    destruct (list1_sound _ _ _ n S _ _ _ P) as (w & -> & W). eexists. split; [|eapply ParensSome; exact W]. fin.
Qed.
Lemma parens_complete : forall A (G : written A) ok p n, complete n G ok p -> starts G -> (forall c r, ok ((KComma, c) :: r)) -> (forall c r, ok ((KCParen, c) :: r)) ->
  forall ok', complete n (parens_written G) ok' (in_parens p n).
Proof.
  intros A G ok p n C S OC OP ok' l w r H L _. destruct H as [x y|l w x y H]; [reflexivity|]. asc. cbn [length] in L. rewrite app_length in L. cbn [length] in L.
  unfold in_parens. destruct (commas_starts _ _ S _ _ H) as (k & t & v & E & D).
  assert (B : forall A (f : list token -> A) d, match w ++ (KCParen, y) :: r with (KCParen, _) :: r' => f r' | _ => d end = d).
  { intros B f d. rewrite E. cbn [List.app]. destruct k; try reflexivity. congruence. }
  rewrite B. rewrite (list1_use _ _ n n ok _ _ _ _ C OC H) by (llia || apply OP || noh). reflexivity.
Qed.
Lemma literal_starts : starts literal_written.
Proof. intros a w H. destruct H as [k kd t I]. do 3 eexists; split; [reflexivity|]. intros ->. cbn in I. intuition discriminate. Qed.
Lemma parens_starts : forall A (G : written A), starts (parens_written G).
Proof. intros A G l w H. destruct H; do 3 eexists; (split; [reflexivity|discriminate]). Qed.
Lemma p_row_sound : forall n, sound row_written (p_row n).
Proof. intros n. apply parens_sound, p_literal_sound. Qed.
Lemma p_row_complete : forall n ok, complete n row_written ok (p_row n).
Proof. intros n ok. apply (parens_complete _ _ any_rest); [apply p_literal_complete|apply literal_starts|intros; exact I|intros; exact I]. Qed.
Lemma p_rows_sound : forall n, sound rows_written (p_rows n).
Proof. intros n. apply parens_sound, p_row_sound. Qed.
Lemma p_rows_complete : forall n ok, complete n rows_written ok (p_rows n).
Proof. intros n ok. apply (parens_complete _ _ any_rest); [apply p_row_complete|apply parens_starts|intros; exact I|intros; exact I]. Qed.

(** arguments of aggregate functions *)
Lemma p_aarg_sound : forall n, sound aarg_written (p_aarg n).
Proof.
  intros n ts a r H. assert (D : (exists c x r', ts = (KColumn, c) :: (KDoubleColon, x) :: r') \/ match p_arg n ts with Some (a, r) => Some (AAScalar a, r) | None => None end = Some (a, r)).
  { destruct ts as [|([] & c) ts]; try (right; exact H). destruct ts as [|([] & x) ts]; try (right; exact H). left. eauto. }
  destruct D as [(c & x & r' & ->)|D].
  - cbn [p_aarg] in H. destruct (p_type n r') as [(d & r2)|] eqn:P; [|discriminate H]. inversion H; subst. destruct (p_type_sound _ _ _ _ P) as (w & -> & W).
    eexists. split; [|eapply AAWColumn; exact W]. fin.
  - destruct (p_arg n ts) as [(b & r2)|] eqn:P; [|discriminate D]. inversion D; subst. destruct (p_arg_sound _ _ _ _ P) as (w & -> & W). exists w. split; [reflexivity|now constructor].
Qed.
Lemma p_aarg_complete : forall n, complete n aarg_written stop (p_aarg n).
Proof.
  intros n a w r H L O. destruct H as [a w H|c d x w H].
  - destruct (arg_head _ _ H) as (k & x & v & E & D).
    assert (P : p_aarg n (w ++ r) = match p_arg n (w ++ r) with Some (a, r) => Some (AAScalar a, r) | None => None end).
    { rewrite E. cbn [List.app]. destruct D as [D|[->|[->| ->]]]; try reflexivity. destruct k; try reflexivity. exfalso. apply D. reflexivity. }
    rewrite P, (p_arg_complete n _ _ _ H L O). reflexivity.
  - cbn [List.app p_aarg]. cbn [length] in L. rewrite (p_type_complete n _ _ _ H); [reflexivity|llia|exact O].
Qed.
Lemma p_qarg_sound : forall n, sound qarg_written (p_qarg n).
Proof.
  intros n ts a r H. assert (D : (exists t x r', ts = (KIdent, t) :: (KDot, x) :: r') \/ match p_arg n ts with Some (a, r) => Some (QScalar a, r) | None => None end = Some (a, r)).
  { destruct ts as [|([] & c) ts]; try (right; exact H). destruct ts as [|([] & x) ts]; try (right; exact H). left. eauto. }
  destruct D as [(c & x & r' & ->)|D].
  - cbn [p_qarg] in H. destruct r' as [|([] & y) r']; try discriminate H. inversion H; subst. eexists [_; _; _]. split; [reflexivity|constructor].
  - destruct (p_arg n ts) as [(b & r2)|] eqn:P; [|discriminate D]. inversion D; subst. destruct (p_arg_sound _ _ _ _ P) as (w & -> & W). exists w. split; [reflexivity|now constructor].
Qed.
Definition qstop (r : list token) : Prop := stop r /\ head_not [KDot] r.
Lemma p_qarg_complete : forall n, complete n qarg_written qstop (p_qarg n).
Proof.
  intros n a w r H L (O & O'). destruct H as [a w H|t c x].
  - assert (P : p_qarg n (w ++ r) = match p_arg n (w ++ r) with Some (a, r) => Some (QScalar a, r) | None => None end).
    { destruct (arg_head _ _ H) as (k & x & v & E & D). destruct H as [k' t d a y w LO T|t y z|t|es e q y w v' El T| | ]; try reflexivity.
      - inversion E; subst. cbn [List.app]. destruct k; reflexivity.
      - cbn [List.app]. destruct r as [|([] & z) r]; try reflexivity. exfalso. apply O'. left. reflexivity.
      - destruct (list_head _ _ El) as (z & v2 & ->). reflexivity. }
    rewrite P, (p_arg_complete n _ _ _ H L O). reflexivity.
  - reflexivity.
Qed.
Lemma aarg_starts : starts aarg_written.
Proof.
  intros a w H. destruct H as [a w H|c d x w H]; [|do 3 eexists; split; [reflexivity|discriminate]].
  destruct (arg_head _ _ H) as (k & x & v & -> & D). do 3 eexists; split; [reflexivity|]. intros ->. destruct D as [D|[D|[D|D]]]; [apply D; reflexivity|discriminate D..].
Qed.
Lemma qarg_starts : starts qarg_written.
Proof.
  intros a w H. destruct H as [a w H|c d x]; [|do 3 eexists; split; [reflexivity|discriminate]].
  destruct (arg_head _ _ H) as (k & x & v & -> & D). do 3 eexists; split; [reflexivity|]. intros ->. destruct D as [D|[D|[D|D]]]; [apply D; reflexivity|discriminate D..].
Qed.
Lemma p_call_sound : forall A (G : written A) p n ts name args r, sound G p -> p_call p n ts = Some (name, args, r) -> exists w, ts = w ++ r /\ call_written G (name, args) w.
Proof.
  intros A G p n ts name args r S H. unfold p_call in H. destruct (p_name ts) as [(nm & [|([] & x) r1])|] eqn:N; try discriminate H.
  destruct (p_name_sound _ _ _ N) as (w & -> & W). destruct (paren_cases r1) as [(y & r' & ->)|B].
  - inversion H; subst. eexists. split; [|eapply CallNone; exact W]. fin.
  - rewrite B in H. destruct (list1 p n r1) as [(l' & [|([] & y) r2])|] eqn:P; try discriminate H. inversion H; subst.
    destruct (list1_sound _ _ _ n S _ _ _ P) as (v & -> & V). eexists. split; [|eapply CallSome; [exact W|exact V]]. fin.
Qed.
Lemma p_call_complete : forall A (G : written A) ok p n, complete n G ok p -> starts G -> (forall c r, ok ((KComma, c) :: r)) -> (forall c r, ok ((KCParen, c) :: r)) ->
  forall name args w r, call_written G (name, args) w -> length w <= n -> p_call p n (w ++ r) = Some (name, args, r).
Proof.
  intros A G ok p n C S OC OP name args w r H L. inversion H as [nm w' x y N|nm l w' v x y N V]; subst; asc; unfold p_call; rewrite (p_name_complete _ _ _ N); [reflexivity|].
  rewrite app_length in L. cbn [length] in L. rewrite app_length in L. cbn [length] in L.
  destruct (commas_starts _ _ S _ _ V) as (k & t & v' & E & D).
  assert (B : forall A (f : list token -> A) d, match v ++ (KCParen, y) :: r with (KCParen, _) :: r' => f r' | _ => d end = d).
  { intros B f d. rewrite E. cbn [List.app]. destruct k; try reflexivity. congruence. }
  rewrite B. rewrite (list1_use _ _ n n ok _ _ _ _ C OC V) by (llia || apply OP || noh). reflexivity.
Qed.

Definition p_single (n : nat) (ts : list token) : option (aggcall * list token) :=
  match p_name ts with
  | Some (name, (KOParen, _) :: r) =>
      match p_row n r with
      | Some (vs, (KDoubleColon, _) :: r) =>
          match p_type n r with Some (d, (KCParen, _) :: r) => Some (CSingle name vs d, r) | _ => None end
      | _ => None
      end
  | _ => None
  end.
Lemma p_aggcall_sound : forall n, sound aggcall_written (p_aggcall n).
Proof.
  intros n ts a r H. destruct ts as [|(k & x) ts]; [discriminate H|].
  assert (D : k = KDefine \/ k = KOParen \/ p_single n ((k, x) :: ts) = Some (a, r)).
  { destruct k; try (right; right; exact H); auto. }
  destruct D as [->|[->|D]].
  - destruct ts as [|([] & table) ts]; try discriminate H. destruct ts as [|([] & y) ts]; try discriminate H. cbn [p_aggcall] in H.
    destruct (list1 (p_type n) n ts) as [(types & [|([] & z) r1])|] eqn:P; try discriminate H. destruct r1 as [|([] & e) r1]; try discriminate H.
    destruct (p_rows n r1) as [(rows & r2)|] eqn:R; [|discriminate H]. destruct (p_call (p_qarg n) n r2) as [((name & args) & r3)|] eqn:C; [|discriminate H]. inversion H; subst.
    destruct (list1_sound _ _ _ n (p_type_sound n) _ _ _ P) as (w & -> & W). destruct (p_rows_sound _ _ _ _ R) as (v & -> & V).
    destruct (p_call_sound _ _ _ _ _ _ _ _ (p_qarg_sound n) C) as (u & -> & U). eexists. split; [|eapply CWMulti; [exact W|exact V|exact U]]. fin.
  - cbn [p_aggcall] in H. match type of H with context[p_rows ?a ?b] => destruct (p_rows a b) as [(rows & r2)|] eqn:R; [|discriminate H] end.
    destruct (p_call (p_aarg n) n r2) as [((name & args) & r3)|] eqn:C; [|discriminate H]. inversion H; subst.
    destruct (p_rows_sound _ _ _ _ R) as (v & -> & V). destruct (p_call_sound _ _ _ _ _ _ _ _ (p_aarg_sound n) C) as (u & -> & U).
    exists (v ++ u). split; [now rewrite app_assoc|now constructor].
  - clear H. unfold p_single in D. destruct (p_name ((k, x) :: ts)) as [(name & [|([] & o) r1])|] eqn:N; try discriminate D.
    destruct (p_row n r1) as [(vs & [|([] & c) r2])|] eqn:R; try discriminate D. destruct (p_type n r2) as [(d & [|([] & y) r3])|] eqn:T; try discriminate D. inversion D; subst.
    destruct (p_name_sound _ _ _ N) as (w & -> & W). destruct (p_row_sound _ _ _ _ R) as (v & -> & V). destruct (p_type_sound _ _ _ _ T) as (u & -> & U).
    eexists. split; [|eapply CWSingle; [exact W|exact V|exact U]]. fin.
Qed.
Lemma rows_head : forall A (G : written A) l w, parens_written G l w -> exists x v, w = (KOParen, x) :: v.
Proof. intros A G l w H. destruct H; eauto. Qed.
Lemma p_aggcall_complete : forall n, complete n aggcall_written any_rest (p_aggcall n).
Proof.
  intros n a w r H L _. destruct H as [table types rows name args x y z e w v u T R C|rows name args v u R C|name vs d x y c w v u N R T].
  - asc. cbn [length] in L. rewrite app_length in L. cbn [length] in L. rewrite app_length in L. cbn [p_aggcall].
    rewrite (list1_use _ _ n n stop _ _ _ _ (p_type_complete n) ltac:(intros; noh) T) by (llia || noh).
    rewrite (p_rows_complete n any_rest _ _ _ R) by (llia || exact I).
    rewrite (p_call_complete _ _ qstop _ n (p_qarg_complete n) qarg_starts ltac:(split; noh) ltac:(split; noh) _ _ _ _ C) by llia. reflexivity.
  - rewrite <- app_assoc. rewrite app_length in L. destruct (rows_head _ _ _ _ R) as (x & v' & E).
    assert (P : p_aggcall n (v ++ u ++ r) = match p_rows n (v ++ u ++ r) with
        | Some (rows, r) => match p_call (p_aarg n) n r with Some (name, args, r) => Some (CCompact rows name args, r) | None => None end | None => None end).
    { rewrite E. reflexivity. }
    rewrite P. rewrite (p_rows_complete n any_rest _ _ _ R) by (llia || exact I).
    rewrite (p_call_complete _ _ stop _ n (p_aarg_complete n) aarg_starts ltac:(noh) ltac:(noh) _ _ _ _ C) by llia. reflexivity.
  - asc. rewrite app_length in L. cbn [length] in L. rewrite app_length in L. cbn [length] in L. rewrite app_length in L. cbn [length] in L.
    assert (P : p_aggcall n (w ++ (KOParen, x) :: v ++ (KDoubleColon, c) :: u ++ (KCParen, y) :: r) = p_single n (w ++ (KOParen, x) :: v ++ (KDoubleColon, c) :: u ++ (KCParen, y) :: r)).
    { destruct N as [k t J]. cbn [List.app]. cbn in J. repeat (destruct J as [<-|J]; [reflexivity|]). tauto. }
    etransitivity; [exact P|]. unfold p_single. rewrite (p_name_complete _ _ _ N). rewrite (p_row_complete n any_rest _ _ _ R) by (llia || exact I).
    rewrite (p_type_complete n _ _ _ T); [reflexivity|llia|noh].
Qed.
Lemma p_agg_sound : forall n, sound agg_written (p_agg n).
Proof.
  intros n ts c r H. unfold p_agg in H. destruct (p_aggcall n ts) as [(cl & r1)|] eqn:C; [|discriminate H].
  destruct (p_tail n r1) as [((os & res) & r3)|] eqn:T; [|discriminate H]. inversion H; subst.
  destruct (p_aggcall_sound _ _ _ _ C) as (v & -> & V). destruct (p_tail_sound _ _ _ _ _ T) as (tw & -> & (u & z & t & -> & U & R)).
  eexists. split; [|eapply AggWritten; [exact V|exact U|exact R]]. fin.
Qed.
Lemma p_agg_complete : forall n, complete n agg_written stop (p_agg n).
Proof.
  intros n c w r H L O. destruct H as [cl os res z v u t V U R].
  assert (T : tail_written os res (u ++ (KEq, z) :: t)) by (exists u, z, t; auto).
  rewrite app_length in L. unfold p_agg. rewrite <- app_assoc. rewrite (p_aggcall_complete n _ _ _ V) by (llia || exact I).
  rewrite (p_tail_complete n os res _ r T) by (llia || exact O). reflexivity.
Qed.
