(** Proofs about the parser of function test files: groups and whole files. *)

From Coq Require Import ZArith String Ascii Bool List Arith Lia.
From Verif Require Import Base TypesModel SigModel TestCaseModel TestLexModel TestParseModel TestParseSpec TestParseProofs TestFileProofs.
Import ListNotations.
Local Open Scope list_scope.

Definition consumes {A} (p : parser A) : Prop := forall ts a r, p ts = Some (a, r) -> length r < length ts.
Definition nonempty {A} (G : written A) : Prop := forall a w, G a w -> w <> [].
Lemma sound_consumes : forall A (G : written A) p, sound G p -> nonempty G -> consumes p.
Proof.
  intros A G p S N ts a r H. destruct (S _ _ _ H) as (w & -> & W). rewrite app_length. pose proof (N _ _ W). destruct w; [congruence|]. cbn. lia.
Qed.

Lemma many_sound : forall A (G : written A) p, sound G p -> forall n ts l r, many p n ts = (l, r) -> exists w, ts = w ++ r /\ sequence G l w.
Proof.
  intros A G p S n. induction n as [|n IH]; intros ts l r H; cbn [many] in H.
  - inversion H; subst. exists []. split; [reflexivity|constructor].
  - destruct (p ts) as [(a & r1)|] eqn:P.
    + destruct (many p n r1) as (l' & r2) eqn:M. inversion H; subst. destruct (S _ _ _ P) as (w & -> & W). destruct (IH _ _ _ M) as (v & -> & V).
      exists (w ++ v). split; [now rewrite app_assoc|now constructor].
    + inversion H; subst. exists []. split; [reflexivity|constructor].
Qed.
Lemma many_done : forall A (p : parser A), consumes p -> forall n ts l r, length ts < n -> many p n ts = (l, r) -> p r = None.
Proof.
  intros A p C n. induction n as [|n IH]; intros ts l r L H; [lia|]. cbn [many] in H. destruct (p ts) as [(a & r1)|] eqn:P.
  - destruct (many p n r1) as (l' & r2) eqn:M. inversion H; subst. pose proof (C _ _ _ P). eapply IH; [|exact M]. lia.
  - inversion H; subst. exact P.
Qed.
Lemma many_complete : forall A (G : written A) m ok p, complete m G ok p -> nonempty G -> (forall a w r, G a w -> ok (w ++ r)) ->
  forall l w, sequence G l w -> forall n r, length w <= m -> length w < n -> ok r -> p r = None -> many p n (w ++ r) = (l, r).
Proof.
  intros A G m ok p C N OK l w S. induction S as [|a w l v Ga S IH]; intros n r L Ln O P.
  - cbn [List.app]. destruct n; [reflexivity|]. cbn [many]. now rewrite P.
  - rewrite app_length in L, Ln. pose proof (N _ _ Ga) as NE. destruct n as [|n]; [lia|]. cbn [many]. rewrite <- app_assoc.
    rewrite (C a w); [|exact Ga|lia|].
    + rewrite (IH n r); [reflexivity|lia| |exact O|exact P]. destruct w; [congruence|]. cbn [length] in Ln. lia.
    + destruct S as [|b w' l' v' Gb S]; [exact O|]. rewrite <- app_assoc. eapply OK; exact Gb.
Qed.
Lemma sequence_length : forall A (G : written A), nonempty G -> forall l w, sequence G l w -> length l <= length w.
Proof. intros A G N l w S. induction S as [|a w l v Ga S IH]; [cbn; lia|]. rewrite app_length. pose proof (N _ _ Ga). destruct w; [congruence|]. cbn. lia. Qed.

(** * cases of one sort are not cases of the other *)

Lemma scalar_head : forall c w, scalar_written c w -> exists k x y v, w = (k, x) :: (KOParen, y) :: v /\ is_name k = true.
Proof. intros c w H. destruct H as [name args os res x y z w v u t N V U R]. destruct N as [k t' I]. apply name_iff in I. cbn [List.app]. eauto 6. Qed.
Definition agg_kind (k : tk) : bool := match k with KDefine | KOParen => true | _ => is_name k end.
Lemma agg_head : forall c w, agg_written c w -> exists k x v, w = (k, x) :: v /\ agg_kind k = true.
Proof.
  intros c w H. destruct H as [cl os res z v u t V U R]. destruct V as [table types rows name args x y z' e w v' u' T Rw C|rows name args v' u' Rw C|name vs d x y c w v' u' N Rw T].
  - do 3 eexists; split; reflexivity.
  - destruct (rows_head _ _ _ _ Rw) as (x & v2 & ->). do 3 eexists; split; reflexivity.
  - destruct N as [k t' I]. apply name_iff in I. do 3 eexists; split; [reflexivity|]. unfold agg_kind. destruct k; auto.
Qed.
Lemma scalar_nonempty : nonempty scalar_written.
Proof. intros c w H. destruct (scalar_head _ _ H) as (k & x & y & v & -> & _). discriminate. Qed.
Lemma agg_nonempty : nonempty agg_written.
Proof. intros c w H. destruct (agg_head _ _ H) as (k & x & v & -> & _). discriminate. Qed.
Lemma agg_stop : forall k x r, agg_kind k = true -> stop ((k, x) :: r).
Proof. intros k x r H. destruct k; try discriminate H; cbn; intuition discriminate. Qed.
Lemma name_agg : forall k, is_name k = true -> agg_kind k = true.
Proof. intros k H. destruct k; try discriminate H; reflexivity. Qed.
Lemma scalar_stop : forall c w r, scalar_written c w -> stop (w ++ r).
Proof. intros c w r H. destruct (scalar_head _ _ H) as (k & x & y & v & -> & K). cbn [List.app]. apply agg_stop, name_agg, K. Qed.
Lemma agg_stop' : forall c w r, agg_written c w -> stop (w ++ r).
Proof. intros c w r H. destruct (agg_head _ _ H) as (k & x & v & -> & K). cbn [List.app]. apply agg_stop, K. Qed.

Lemma list1_none : forall A (p : parser A) n ts, p ts = None -> list1 p n ts = None.
Proof. intros A p n ts H. unfold list1. now rewrite H. Qed.
Definition row_kind (k : tk) : bool := match k with KCParen => true | _ => match kind_of_literal k with Some _ => true | None => false end end.
Lemma row_head : forall l w, row_written l w -> exists x k y v, w = (KOParen, x) :: (k, y) :: v /\ row_kind k = true.
Proof.
  intros l w H. destruct H as [x y|l w x y H]; [eauto 6|]. destruct H as [a w H|a w l v c H _]; destruct H as [k kd t I]; cbn [List.app]; do 4 eexists; (split; [reflexivity|]);
    apply literal_kind_iff in I; unfold row_kind; rewrite I; destruct k; reflexivity.
Qed.
Lemma arg_not_row : forall n x k y r, row_kind k = true -> p_arg n ((KOParen, x) :: (k, y) :: r) = None.
Proof. intros [|n] x k y r H; [reflexivity|]. cbn [p_arg]. assert (E : p_lambda_head n ((k, y) :: r) = None) by (destruct k; try discriminate H; reflexivity). now rewrite E. Qed.
Lemma agg_not_scalar : forall n c w r, agg_written c w -> p_scalar n (w ++ r) = None.
Proof.
  intros n c w r H. destruct H as [cl os res z v u t V U R]. rewrite <- app_assoc. destruct V as [table types rows name args x y z' e w v' u' T Rw C|rows name args v' u' Rw C|name vs d x y c w v' u' N Rw T].
  - reflexivity.
  - destruct (rows_head _ _ _ _ Rw) as (x & v2 & ->). reflexivity.
  - asc. unfold p_scalar. rewrite (p_name_complete _ _ _ N). destruct (row_head _ _ Rw) as (x' & k & y' & v2 & -> & K). cbn [List.app].
    rewrite list1_none; [reflexivity|]. now apply arg_not_row.
Qed.
Lemma row_not_arg : forall n a w r, argument_written a w -> p_row n (w ++ r) = None.
Proof.
  intros n a w r H. unfold p_row. destruct H as [k t d a x w LO _| | |es e q x w v E _| | ]; try reflexivity.
  - cbn [List.app]. unfold in_parens. destruct k; try reflexivity.
  - destruct (list_head _ _ E) as (y & v' & ->). reflexivity.
Qed.
Lemma scalar_not_agg : forall n c w r, scalar_written c w -> p_agg n (w ++ r) = None.
Proof.
  intros n c w r H. destruct H as [name args os res x y z w v u t N V U R]. asc. unfold p_agg.
  assert (E : forall r', p_aggcall n (w ++ r') = p_single n (w ++ r')).
  { intros r'. destruct N as [k t' J]. cbn [List.app]. cbn in J. repeat (destruct J as [<-|J]; [reflexivity|]). tauto. }
  rewrite E. unfold p_single. rewrite (p_name_complete _ _ _ N). destruct (commas_head _ _ _ _ V) as (a & w1 & l' & v' & -> & -> & Ga & _).
  rewrite <- app_assoc, (row_not_arg _ _ _ _ Ga). reflexivity.
Qed.

(** * groups *)

Lemma description_cases : forall ts : list token, (exists d r, ts = (KDescription, d) :: r) \/
  (head_not [KDescription] ts /\ match ts with (KDescription, d) :: r => (Some d, r) | _ => (None, ts) end = (None, ts)).
Proof. intros [|([] & d) r]; try (right; split; [noh|reflexivity]). left. eauto. Qed.
Definition split_description (ts : list token) : option string * list token :=
  match ts with (KDescription, d) :: r => (Some d, r) | _ => (None, ts) end.
Lemma p_group_eq : forall n ts, p_group n ts =
  let (desc, r) := split_description ts in
  match many (p_scalar n) n r with
  | (c :: cs, r) => Some (GroupScalar desc (c :: cs), r)
  | ([], _) => match many (p_agg n) n r with (c :: cs, r) => Some (GroupAgg desc (c :: cs), r) | ([], _) => None end
  end.
Proof. reflexivity. Qed.
Lemma split_sound : forall ts desc r, split_description ts = (desc, r) -> exists w, ts = w ++ r /\ description_written desc w.
Proof.
  intros ts desc r H. destruct (description_cases ts) as [(d & r' & ->)|(_ & E)].
  - inversion H; subst. eexists [_]. split; [reflexivity|constructor].
  - unfold split_description in H. rewrite E in H. inversion H; subst. exists []. split; [reflexivity|constructor].
Qed.
Lemma split_complete : forall desc w r, description_written desc w -> head_not [KDescription] r -> split_description (w ++ r) = (desc, r).
Proof.
  intros desc w r H O. destruct H; [|reflexivity]. cbn [List.app]. destruct (description_cases r) as [(d & r' & ->)|(_ & E)]; [exfalso; apply O; left; reflexivity|exact E].
Qed.
Lemma p_group_sound : forall n, sound group_written (p_group n).
Proof.
  intros n ts g r H. rewrite p_group_eq in H. destruct (split_description ts) as (desc & r1) eqn:D. destruct (split_sound _ _ _ D) as (w & -> & W).
  destruct (many (p_scalar n) n r1) as ([|c cs] & r2) eqn:M.
  - destruct (many (p_agg n) n r1) as ([|c cs] & r3) eqn:M'; [discriminate H|]. inversion H; subst.
    destruct (many_sound _ _ _ (p_agg_sound n) _ _ _ _ M') as (v & -> & V). exists (w ++ v). split; [now rewrite app_assoc|]. constructor; [exact W|discriminate|exact V].
  - inversion H; subst. destruct (many_sound _ _ _ (p_scalar_sound n) _ _ _ _ M) as (v & -> & V). exists (w ++ v). split; [now rewrite app_assoc|]. constructor; [exact W|discriminate|exact V].
Qed.
(** the tokens after a group do not continue it *)
Definition over (n : nat) (g : tgroup) (r : list token) : Prop :=
  stop r /\ match g with GroupScalar _ _ => p_scalar n r = None | GroupAgg _ _ => p_agg n r = None end.
Lemma sequence_head : forall A (G : written A) l w, sequence G l w -> l <> [] -> exists a w1 l' v, l = a :: l' /\ w = w1 ++ v /\ G a w1 /\ sequence G l' v.
Proof. intros A G l w S N. destruct S as [|a w l v Ga S]; [congruence|]. exists a, w, l, v. auto. Qed.
Lemma name_not_desc : forall k x r, agg_kind k = true -> head_not [KDescription] ((k, x) :: r).
Proof. intros k x r H. destruct k; try discriminate H; cbn; intuition discriminate. Qed.
Lemma p_group_complete : forall n g w r, group_written g w -> length w < n -> over n g r -> p_group n (w ++ r) = Some (g, r).
Proof.
  intros n g w r H L (O & P). rewrite p_group_eq. destruct H as [desc cs w v D NE S|desc cs w v D NE S]; rewrite app_length in L; rewrite <- app_assoc.
  - destruct (sequence_head _ _ _ _ S NE) as (c & w1 & cs' & v1 & -> & Ev & Gc & _).
    rewrite (split_complete _ _ _ D); [|rewrite Ev, <- app_assoc; destruct (scalar_head _ _ Gc) as (k & x & y & v2 & -> & K); cbn [List.app]; apply name_not_desc, name_agg, K].
    rewrite (many_complete _ _ n stop _ (p_scalar_complete n) scalar_nonempty scalar_stop _ _ S) by (lia || exact O || exact P). reflexivity.
  - destruct (sequence_head _ _ _ _ S NE) as (c & w1 & cs' & v1 & -> & Ev & Gc & _).
    rewrite (split_complete _ _ _ D); [|rewrite Ev, <- app_assoc; destruct (agg_head _ _ Gc) as (k & x & v2 & -> & K); cbn [List.app]; apply name_not_desc, K].
    assert (N : many (p_scalar n) n (v ++ r) = ([], v ++ r)).
    { destruct n as [|n]; [lia|]. cbn [many]. rewrite Ev, <- app_assoc, (agg_not_scalar _ _ _ _ Gc). reflexivity. }
    rewrite N. rewrite (many_complete _ _ n stop _ (p_agg_complete n) agg_nonempty agg_stop' _ _ S) by (lia || exact O || exact P). reflexivity.
Qed.
Lemma group_nonempty : nonempty group_written.
Proof.
  intros g w H. destruct H as [desc cs w v D NE S|desc cs w v D NE S]; destruct (sequence_head _ _ _ _ S NE) as (c & w1 & cs' & v1 & -> & -> & Gc & _).
  - pose proof (scalar_nonempty _ _ Gc). destruct w; [|discriminate]. destruct w1; [congruence|discriminate].
  - pose proof (agg_nonempty _ _ Gc). destruct w; [|discriminate]. destruct w1; [congruence|discriminate].
Qed.

Lemma no_case_nil : forall n, p_scalar n [] = None /\ p_agg n [] = None.
Proof. intros n. split; reflexivity. Qed.
Lemma no_case_desc : forall n d r, p_scalar n ((KDescription, d) :: r) = None /\ p_agg n ((KDescription, d) :: r) = None.
Proof. intros n d r. split; reflexivity. Qed.
Lemma over_next : forall n g h w r, ~ absorbed g h -> group_written h w -> over n g (w ++ r).
Proof.
  intros n g h w r NA H. destruct H as [desc cs w v D NE S|desc cs w v D NE S]; destruct (sequence_head _ _ _ _ S NE) as (c & w1 & cs' & v1 & -> & -> & Gc & _); destruct D as [|d].
  - asc. split; [eapply scalar_stop; exact Gc|]. destruct g; [cbn in NA; tauto|]. eapply scalar_not_agg; exact Gc.
  - asc. split; [noh|]. destruct g; apply no_case_desc.
  - asc. split; [eapply agg_stop'; exact Gc|]. destruct g; [|cbn in NA; tauto]. eapply agg_not_scalar; exact Gc.
  - asc. split; [noh|]. destruct g; apply no_case_desc.
Qed.
Lemma p_group_nil : forall n, p_group n [] = None.
Proof. intros [|n]; reflexivity. Qed.
Lemma groups_complete : forall n gs w, sequence group_written gs w -> apart gs -> length w < n -> forall m, length w < m -> many (p_group n) m w = (gs, []).
Proof.
  intros n gs w S. induction S as [|g w gs v Gg S IH]; intros AP L m Lm.
  - destruct m; [lia|]. cbn [many]. now rewrite p_group_nil.
  - rewrite app_length in L, Lm. pose proof (group_nonempty _ _ Gg) as NE. destruct m as [|m]; [lia|]. cbn [many].
    rewrite (p_group_complete n g w v Gg); [|lia|].
    + rewrite IH; [reflexivity| |lia|destruct w; [congruence|]; cbn [length] in Lm; lia].
      inversion AP; subst; [constructor|assumption].
    + destruct S as [|h w' gs' v' Gh S].
      * split; [exact I|]. destruct g; apply no_case_nil.
      * eapply over_next; [|exact Gh]. inversion AP; subst. assumption.
Qed.
Lemma groups_sound : forall n m ts gs, length ts < n -> many (p_group n) m ts = (gs, []) -> sequence group_written gs ts /\ apart gs.
Proof.
  intros n m. induction m as [|m IH]; intros ts gs L H; cbn [many] in H.
  - inversion H; subst. repeat split; constructor.
  - destruct (p_group n ts) as [(g & r1)|] eqn:P; [|inversion H; subst; repeat split; constructor].
    destruct (many (p_group n) m r1) as (gs' & r2) eqn:M. inversion H; subst.
    destruct (p_group_sound _ _ _ _ P) as (w & -> & W). rewrite app_length in L. assert (L1 : length r1 < n) by lia; destruct (IH _ _ L1 M) as (S & AP).
    split; [now constructor|].
    destruct S as [|h w' gs2 v' Gh S]; [constructor|]. constructor; [|exact AP]. intros AB. revert P. rewrite p_group_eq. intros P.
    destruct (split_description (w ++ w' ++ v')) as (desc & r3) eqn:D. pose proof (split_sound _ _ _ D) as (dw & Ed & _).
    assert (L3 : length r3 < n). { pose proof (f_equal (@length token) Ed) as E. rewrite !app_length in E. rewrite !app_length in L. lia. }
    destruct (many (p_scalar n) n r3) as ([|c cs] & r4) eqn:MS.
    + destruct (many (p_agg n) n r3) as ([|c cs] & r5) eqn:MA; [discriminate P|]. inversion P; subst.
      pose proof (many_done _ _ (sound_consumes _ _ _ (p_agg_sound n) agg_nonempty) _ _ _ _ L3 MA) as X.
      destruct Gh as [desc' cs' w2 v2 D' NE S'|desc' cs' w2 v2 D' NE S']; [destruct desc'; exact AB|]. destruct D'; [|exact AB]. cbn [List.app] in X.
      destruct (sequence_head _ _ _ _ S' NE) as (c' & w1 & cs2 & v1 & -> & -> & Gc & S2).
      revert X. asc. rewrite (p_agg_complete n _ _ _ Gc); [discriminate| |].
      * pose proof (f_equal (@length token) Ed) as E. rewrite !app_length in E. rewrite !app_length in L. lia.
      * clear - S2 S AP. destruct S2 as [|c2 w2 l2 v2 Gc2 _]; [|asc; eapply agg_stop'; exact Gc2]. cbn [List.app].
        destruct S as [|h2 w3 gs3 v3 Gh2 S3].
        -- cbn [List.app]. exact I.
        -- exact (proj1 (over_next 0 (GroupAgg None [c']) h2 w3 v3 ltac:(inversion AP; subst; destruct h2 as [[]|[]]; cbn in *; tauto) Gh2)).
    + inversion P; subst.
      pose proof (many_done _ _ (sound_consumes _ _ _ (p_scalar_sound n) scalar_nonempty) _ _ _ _ L3 MS) as X.
      destruct Gh as [desc' cs' w2 v2 D' NE S'|desc' cs' w2 v2 D' NE S']; [|destruct desc'; exact AB]. destruct D'; [|exact AB]. cbn [List.app] in X.
      destruct (sequence_head _ _ _ _ S' NE) as (c' & w1 & cs2 & v1 & -> & -> & Gc & S2).
      revert X. asc. rewrite (p_scalar_complete n _ _ _ Gc); [discriminate| |].
      * pose proof (f_equal (@length token) Ed) as E. rewrite !app_length in E. rewrite !app_length in L. lia.
      * clear - S2 S AP. destruct S2 as [|c2 w2 l2 v2 Gc2 _]; [|asc; eapply scalar_stop; exact Gc2]. cbn [List.app].
        destruct S as [|h2 w3 gs3 v3 Gh2 S3].
        -- cbn [List.app]. exact I.
        -- exact (proj1 (over_next 0 (GroupScalar None [c']) h2 w3 v3 ltac:(inversion AP; subst; destruct h2 as [[]|[]]; cbn in *; tauto) Gh2)).
Qed.

(** * the file *)

Lemma p_string_sound : sound string_written p_string.
Proof. intros ts a r H. destruct ts as [|([] & x) ts]; try discriminate H. inversion H; subst. eexists [_]. split; [reflexivity|constructor]. Qed.
Lemma p_string_complete : forall m, complete m string_written any_rest p_string.
Proof. intros m a w r H _ _. destruct H. reflexivity. Qed.
Lemma p_dependency_sound : sound dependency_written p_dependency.
Proof.
  intros ts a r H. destruct ts as [|([] & x) ts]; try discriminate H. destruct ts as [|([] & y) ts]; try discriminate H. destruct ts as [|([] & z) ts]; try discriminate H.
  destruct ts as [|([] & t) ts]; try discriminate H. inversion H; subst. eexists [_; _; _; _]. split; [reflexivity|constructor].
Qed.
Lemma p_dependency_complete : forall m, complete m dependency_written any_rest p_dependency.
Proof. intros m a w r H _ _. destruct H. reflexivity. Qed.
Lemma dependency_nonempty : nonempty dependency_written.
Proof. intros a w H. destruct H. discriminate. Qed.

Definition group_kind (k : tk) : bool := match k with KDescription => true | _ => agg_kind k end.
Lemma group_head : forall g w, group_written g w -> exists k x v, w = (k, x) :: v /\ group_kind k = true.
Proof.
  intros g w H. destruct H as [desc cs w v D NE S|desc cs w v D NE S]; destruct (sequence_head _ _ _ _ S NE) as (c & w1 & cs' & v1 & -> & -> & Gc & _); destruct D as [|d]; asc;
    try (do 3 eexists; split; reflexivity).
  - destruct (scalar_head _ _ Gc) as (k & x & y & v & -> & K). asc. do 3 eexists; split; [reflexivity|]. unfold group_kind. rewrite (name_agg _ K). now destruct k.
  - destruct (agg_head _ _ Gc) as (k & x & v & -> & K). asc. do 3 eexists; split; [reflexivity|]. unfold group_kind. rewrite K. now destruct k.
Qed.
Lemma groups_head : forall gs t, sequence group_written gs t -> gs <> [] -> p_dependency t = None /\ head_not [KComma] t.
Proof.
  intros gs t S NE. destruct (sequence_head _ _ _ _ S NE) as (g & w1 & gs' & v1 & -> & -> & Gg & _). destruct (group_head _ _ Gg) as (k & x & v & -> & K). cbn [List.app].
  split; [destruct k; try discriminate K; reflexivity|]. cbn. destruct k; try discriminate K; intuition discriminate.
Qed.

Lemma p_header_sound : forall n ts a v l r, p_header n ts = Some ((a, v, l), r) -> exists x1 x2 x3 x4 x5 x6 w u deps,
  ts = (KTriple, x1) :: (test_word a, x2) :: (KColon, x3) :: (KVersion, v) :: (KTriple, x4) :: (KInclude, x5) :: (KColon, x6) :: w ++ u ++ r /\
  commas string_written l w /\ sequence dependency_written deps u.
Proof.
  intros n ts a v l r H. unfold p_header in H.
  assert (X : exists x1 x2 x3 ts', ts = (KTriple, x1) :: (test_word a, x2) :: (KColon, x3) :: (KVersion, v) :: ts' /\
    match ts' with (KTriple, _) :: (KInclude, _) :: (KColon, _) :: r => match list1 p_string n r with Some (l, r) => Some ((a, v, l), snd (many p_dependency n r)) | None => None end | _ => None end
      = Some ((a, v, l), r)).
  { destruct ts as [|([] & x1) ts]; try discriminate H. destruct ts as [|([] & x2) ts]; try discriminate H;
      (destruct ts as [|([] & x3) ts]; try discriminate H; destruct ts as [|([] & x4) ts]; try discriminate H);
      (destruct ts as [|([] & x5) ts]; try discriminate H; destruct ts as [|([] & x6) ts]; try discriminate H; destruct ts as [|([] & x7) ts]; try discriminate H);
      (destruct (list1 p_string n ts) as [(l' & r')|] eqn:LL; [|discriminate H]); inversion H; subst; do 4 eexists; (split; [reflexivity|]); cbn beta iota; rewrite LL; reflexivity. }
  destruct X as (x1 & x2 & x3 & ts' & -> & X). clear H.
  destruct ts' as [|([] & x4) ts]; try discriminate X. destruct ts as [|([] & x5) ts]; try discriminate X. destruct ts as [|([] & x6) ts]; try discriminate X.
  destruct (list1 p_string n ts) as [(l' & r')|] eqn:LL; [|discriminate X]. destruct (many p_dependency n r') as (deps & r'') eqn:M. cbn [snd] in X. inversion X; subst.
  destruct (list1_sound _ _ _ n p_string_sound _ _ _ LL) as (w & -> & W). destruct (many_sound _ _ _ p_dependency_sound _ _ _ _ M) as (u & -> & U).
  exists x1, x2, x3, x4, x5, x6, w, u, deps. auto.
Qed.

Theorem p_doc_iff : forall ts d, p_doc ts = Some d <-> file_written d ts.
Proof.
  intros ts d. split.
  - intros H. unfold p_doc in H. destruct (p_header (S (length ts)) ts) as [(((a & v) & l) & r)|] eqn:P; [|discriminate H].
    destruct (many (p_group (S (length ts))) (S (length ts)) r) as (gs & r') eqn:M. destruct gs as [|g gs]; [discriminate H|]. destruct r'; [|discriminate H]. inversion H; subst.
    destruct (p_header_sound _ _ _ _ _ _ P) as (x1 & x2 & x3 & x4 & x5 & x6 & w & u & deps & E & W & U).
    assert (L : length r < S (length ts)) by (rewrite E; cbn [length]; rewrite !app_length; lia).
    destruct (groups_sound _ _ _ _ L M) as (S & AP). rewrite E. econstructor; [exact W|exact U|discriminate|exact AP|exact S].
  - intros H. destruct H as [a v l deps gs x1 x2 x3 x4 x5 x6 w u t W U NE AP S]. unfold p_doc.
    match goal with |- context[Datatypes.S ?e] => set (n := Datatypes.S e) end. destruct (groups_head _ _ S NE) as (D & NC).
    assert (L : length w + length u + length t < n) by (unfold n; cbn [length]; rewrite !app_length; lia).
    assert (LS : list1 p_string n (w ++ u ++ t) = Some (l, u ++ t)).
    { apply (list1_use _ string_written (length w) n any_rest p_string l w (u ++ t)); [apply p_string_complete|intros; exact I|exact W|lia|lia|exact I|].
      destruct U as [|d0 w0 ds v0 Gd _]; [exact NC|]. destruct Gd. noh. }
    assert (MD : many p_dependency n (u ++ t) = (deps, t)).
    { apply (many_complete _ dependency_written (length u) any_rest p_dependency); [apply p_dependency_complete|exact dependency_nonempty|intros; exact I|exact U|lia|lia|exact I|exact D]. }
    assert (H : p_header n ((KTriple, x1) :: (test_word a, x2) :: (KColon, x3) :: (KVersion, v) :: (KTriple, x4) :: (KInclude, x5) :: (KColon, x6) :: w ++ u ++ t) = Some ((a, v, l), t)).
    { unfold p_header. destruct a; cbn [test_word]; rewrite LS, MD; reflexivity. }
    rewrite H. rewrite (groups_complete n gs t S AP) by lia. destruct gs; [congruence|reflexivity].
Qed.
