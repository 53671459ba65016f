(** Proofs about the parser of function test files. *)

From Coq Require Import ZArith String Ascii Bool List Arith Lia.
From Verif Require Import Base TypesModel SigModel TestCaseModel TestLexModel TestParseModel TestParseSpec.
Import ListNotations.
Local Open Scope list_scope.

Definition sound {A} (G : written A) (p : parser A) : Prop :=
  forall ts a r, p ts = Some (a, r) -> exists w, ts = w ++ r /\ G a w.
Definition complete {A} (m : nat) (G : written A) (ok : list token -> Prop) (p : parser A) : Prop :=
  forall a w r, G a w -> length w <= m -> ok r -> p (w ++ r) = Some (a, r).
Definition head_not (ks : list tk) (r : list token) : Prop :=
  match r with [] => True | (k, _) :: _ => ~ In k ks end.

Ltac asc := repeat (progress (cbn [List.app]; rewrite <- ?app_assoc)); cbn [List.app].
Ltac fin := asc; reflexivity.
(** open the matches of a hypothesis *)
Ltac inv1 H := match type of H with
  | context[match ?x with _ => _ end] => destruct x eqn:?; try discriminate H
  end.

(** * lists *)

Definition tail_commas {A} (G : written A) (l : list A) (w : list token) : Prop :=
  (l = [] /\ w = []) \/ exists c v, w = (KComma, c) :: v /\ commas G l v.
Lemma more_eq : forall A (p : parser A) n ts, more p (S n) ts =
  match ts with
  | (KComma, _) :: r => match p r with
      | Some (a, r') => match more p n r' with Some (l, r'') => Some (a :: l, r'') | None => None end
      | None => None end
  | _ => Some ([], ts)
  end.
Proof. reflexivity. Qed.
Lemma comma_cases : forall A (r : list token) (f : list token -> A) (d : A),
  (exists c r', r = (KComma, c) :: r' /\ match r with (KComma, _) :: r' => f r' | _ => d end = f r') \/
  (head_not [KComma] r /\ match r with (KComma, _) :: r' => f r' | _ => d end = d).
Proof.
  intros A [|(k & c) r'] f d; [right; split; [exact I|reflexivity]|].
  destruct k; try (right; split; [cbn; intuition discriminate|reflexivity]). left. eauto.
Qed.
Lemma more_sound : forall A (G : written A) p, sound G p -> forall n ts l r, more p n ts = Some (l, r) ->
  exists w, ts = w ++ r /\ tail_commas G l w.
Proof.
  intros A G p S n. induction n as [|n IH]; intros ts l r H; [discriminate H|]. rewrite more_eq in H.
  destruct (comma_cases _ ts (fun r => match p r with
      | Some (a, r') => match more p n r' with Some (l, r'') => Some (a :: l, r'') | None => None end
      | None => None end) (Some ([], ts))) as [(c & r' & -> & E)|(_ & E)].
  - cbv iota in H. clear E. destruct (p r') as [(a & r1)|] eqn:P; [|discriminate H]. destruct (more p n r1) as [(l' & r2)|] eqn:M; [|discriminate H].
    inversion H; subst. destruct (S _ _ _ P) as (w & -> & Gw). destruct (IH _ _ _ M) as (v & -> & T). destruct T as [(-> & ->)|(c' & v' & -> & T)].
    + exists ((KComma, c) :: w). split; [reflexivity|]. right. exists c, w. split; [reflexivity|now constructor].
    + exists ((KComma, c) :: w ++ (KComma, c') :: v'). split; [cbn [List.app]; now rewrite <- app_assoc|]. right. exists c, (w ++ (KComma, c') :: v'). split; [reflexivity|now constructor].
  - rewrite E in H. inversion H; subst. exists []. split; [reflexivity|left; auto].
Qed.
Lemma list1_sound : forall A (G : written A) p n, sound G p -> sound (commas G) (list1 p n).
Proof.
  intros A G p n S ts l r H. unfold list1 in H. destruct (p ts) as [(a & r1)|] eqn:P; [|discriminate H].
  destruct (more p n r1) as [(l' & r2)|] eqn:M; [|discriminate H]. inversion H; subst.
  destruct (S _ _ _ P) as (w & -> & Gw). destruct (more_sound _ _ _ S _ _ _ _ M) as (v & -> & [(-> & ->)|(c & v' & -> & T)]).
  - exists w. split; [reflexivity|now constructor].
  - exists (w ++ (KComma, c) :: v'). split; [now rewrite <- app_assoc|now constructor].
Qed.
Lemma commas_head : forall A (G : written A) l w, commas G l w -> exists a w1 l' v, l = a :: l' /\ w = w1 ++ v /\ G a w1 /\ tail_commas G l' v.
Proof.
  intros A G l w H. destruct H as [a w H|a w l v c H H'].
  - exists a, w, [], []. repeat split; auto; [now rewrite app_nil_r|]. left; auto.
  - exists a, w, l, ((KComma, c) :: v). repeat split; auto. right; eauto.
Qed.
Lemma more_complete : forall A (G : written A) m ok p, complete m G ok p -> (forall c r, ok ((KComma, c) :: r)) ->
  forall n l w r, tail_commas G l w -> length w <= m -> length w < n -> ok r -> head_not [KComma] r -> more p n (w ++ r) = Some (l, r).
Proof.
  intros A G m ok p C OC n. induction n as [|n IH]; intros l w r T L N O NC; [lia|]. rewrite more_eq.
  destruct T as [(-> & ->)|(c & v & -> & T)].
  - cbn [List.app]. destruct r as [|(k & x) r]; [reflexivity|]. destruct k; try reflexivity. exfalso. apply NC. left. reflexivity.
  - cbn [List.app]. destruct (commas_head _ _ _ _ T) as (a & w1 & l' & v' & -> & -> & Ga & T'). cbn [length] in L, N. rewrite app_length in L, N.
    rewrite <- app_assoc. rewrite (C a w1); [|exact Ga|lia|].
    + rewrite (IH l' v' r); auto; lia.
    + destruct T' as [(_ & ->)|(c' & v2 & -> & _)]; [exact O|apply OC].
Qed.
Lemma list1_complete : forall A (G : written A) m ok p n, complete m G ok p -> (forall c r, ok ((KComma, c) :: r)) -> m < n ->
  complete m (commas G) (fun r => ok r /\ head_not [KComma] r) (list1 p n).
Proof.
  intros A G m ok p n C OC N l w r T L (O & NC). destruct (commas_head _ _ _ _ T) as (a & w1 & l' & v & -> & -> & Ga & T').
  unfold list1. rewrite app_length in L. rewrite <- app_assoc. rewrite (C a w1); [|exact Ga|lia|].
  - rewrite (more_complete _ _ _ _ _ C OC n l' v r); auto; lia.
  - destruct T' as [(_ & ->)|(c' & v2 & -> & _)]; [exact O|apply OC].
Qed.
Lemma complete_le : forall A (G : written A) m m' ok p, complete m G ok p -> m' <= m -> complete m' G ok p.
Proof. intros A G m m' ok p C L a w r H Lw O. apply C; auto. lia. Qed.

Lemma list1_use : forall A (G : written A) m n ok p l w r, complete m G ok p -> (forall c r, ok ((KComma, c) :: r)) ->
  commas G l w -> length w <= m -> length w < n -> ok r -> head_not [KComma] r -> list1 p n (w ++ r) = Some (l, r).
Proof.
  intros A G m n ok p l w r C OC H L N O NC. apply (list1_complete A G (length w) ok p n); auto. eapply complete_le; eauto.
Qed.

(** * types *)

Lemma quest_sound : forall ts q r, quest ts = (q, r) -> exists w, ts = w ++ r /\ question q w.
Proof.
  intros ts q r H. assert (D : quest ts = (false, ts) \/ exists x r', ts = (KQMark, x) :: r').
  { destruct ts as [|([] & x) r']; try (left; reflexivity). right. eauto. }
  destruct D as [D|(x & r' & ->)].
  - rewrite D in H. inversion H; subst. exists []. split; [reflexivity|constructor].
  - cbn [quest] in H. inversion H; subst. exists [(KQMark, x)]. split; [reflexivity|constructor].
Qed.
Lemma quest_complete : forall q w r, question q w -> head_not [KQMark] r -> quest (w ++ r) = (q, r).
Proof.
  intros q w r H O. destruct H; [|reflexivity]. cbn [List.app]. destruct r as [|([] & x) r']; try reflexivity. exfalso. apply O. left. reflexivity.
Qed.
Lemma one_param_sound : sound parameter one_param.
Proof.
  intros ts n r H. unfold one_param in H. repeat (inv1 H). subst. inversion H; subst. eexists [_; _; _]. split; [reflexivity|constructor].
Qed.
Lemma one_param_complete : forall n w r, parameter n w -> one_param (w ++ r) = Some (n, r).
Proof. intros n w r H. destruct H. reflexivity. Qed.
Lemma opt_param_sound : sound maybe_parameter opt_param.
Proof.
  intros ts p r H. assert (D : opt_param ts = Some (None, ts) \/ opt_param ts = match one_param ts with Some (n, r) => Some (Some n, r) | None => None end).
  { destruct ts as [|([] & x) r']; try (left; reflexivity). right. reflexivity. }
  destruct D as [D|D]; rewrite D in H; clear D.
  - inversion H; subst. exists []. split; [reflexivity|constructor].
  - destruct (one_param ts) as [(n & r')|] eqn:E; [|discriminate H]. inversion H; subst. destruct (one_param_sound _ _ _ E) as (w & -> & P). exists w. split; [reflexivity|now constructor].
Qed.
Lemma opt_param_complete : forall p w r, maybe_parameter p w -> head_not [KOAngle] r -> opt_param (w ++ r) = Some (p, r).
Proof.
  intros p w r H O. destruct H as [|n w P]; [|destruct P; reflexivity]. cbn [List.app]. destruct r as [|([] & x) r']; try reflexivity. exfalso. apply O. left. reflexivity.
Qed.
Lemma opt_params_sound : sound maybe_two opt_params.
Proof.
  intros ts p r H. destruct ts as [|(k1 & x1) ts]; [inversion H; subst; exists []; split; [reflexivity|constructor]|].
  destruct k1; try (cbn in H; inversion H; subst; exists []; split; [reflexivity|constructor]; fail).
  cbn [opt_params] in H. repeat (inv1 H). subst. inversion H; subst. eexists [_; _; _; _; _]. split; [reflexivity|constructor].
Qed.
Lemma opt_params_complete : forall p w r, maybe_two p w -> head_not [KOAngle] r -> opt_params (w ++ r) = Some (p, r).
Proof.
  intros p w r H O. destruct H as [|n w]; [|reflexivity]. cbn [List.app]. destruct r as [|([] & x) r']; try reflexivity. exfalso. apply O. left. reflexivity.
Qed.

(** what does not continue a type or an argument *)
Definition stop (r : list token) : Prop := head_not [KQMark; KOAngle; KDoubleColon] r.
Lemma stop_q : forall r, stop r -> head_not [KQMark] r.
Proof. intros [|(k & x) r] H; cbn in *; intuition. Qed.
Lemma stop_o : forall r, stop r -> head_not [KOAngle] r.
Proof. intros [|(k & x) r] H; cbn in *; intuition. Qed.

Lemma p_type_sound : forall n, sound type_written (p_type n).
Proof.
  induction n as [|n IH]; intros ts d r H; [discriminate H|]. destruct ts as [|(k & x) ts]; [discriminate H|].
  destruct k; try discriminate H; cbn [p_type] in H.
  - destruct (quest ts) as (q & r1) eqn:Q. inversion H; subst. destruct (quest_sound _ _ _ Q) as (w & -> & W). eexists. split; [|eapply TWPrim; eassumption]. fin.
  - destruct (quest ts) as (q & r1) eqn:Q. destruct (quest_sound _ _ _ Q) as (w & -> & W). destruct (one_param r1) as [(a & r2)|] eqn:P; [|discriminate H]. inversion H; subst.
    destruct (one_param_sound _ _ _ P) as (v & -> & V). eexists. split; [|eapply TWFixed; eassumption]. fin.
  - destruct (quest ts) as (q & r1) eqn:Q. destruct (quest_sound _ _ _ Q) as (w & -> & W). destruct (opt_params r1) as [(a & r2)|] eqn:P; [|discriminate H]. inversion H; subst.
    destruct (opt_params_sound _ _ _ P) as (v & -> & V). eexists. split; [|eapply TWDecimal; eassumption]. fin.
  - destruct (quest ts) as (q & r1) eqn:Q. destruct (quest_sound _ _ _ Q) as (w & -> & W). destruct (one_param r1) as [(a & r2)|] eqn:P; [|discriminate H]. inversion H; subst.
    destruct (one_param_sound _ _ _ P) as (v & -> & V). eexists. split; [|eapply TWPrecTime; eassumption]. fin.
  - destruct (quest ts) as (q & r1) eqn:Q. destruct (quest_sound _ _ _ Q) as (w & -> & W). destruct (one_param r1) as [(a & r2)|] eqn:P; [|discriminate H]. inversion H; subst.
    destruct (one_param_sound _ _ _ P) as (v & -> & V). eexists. split; [|eapply TWPrecTs; eassumption]. fin.
  - destruct (quest ts) as (q & r1) eqn:Q. destruct (quest_sound _ _ _ Q) as (w & -> & W). destruct (one_param r1) as [(a & r2)|] eqn:P; [|discriminate H]. inversion H; subst.
    destruct (one_param_sound _ _ _ P) as (v & -> & V). eexists. split; [|eapply TWPrecTsTz; eassumption]. fin.
  - destruct (quest ts) as (q & r1) eqn:Q. destruct (quest_sound _ _ _ Q) as (w & -> & W). destruct (opt_param r1) as [(a & r2)|] eqn:P; [|discriminate H]. inversion H; subst.
    destruct (opt_param_sound _ _ _ P) as (v & -> & V). eexists. split; [|eapply TWDay; eassumption]. fin.
  - destruct (quest ts) as (q & r1) eqn:Q. destruct (quest_sound _ _ _ Q) as (w & -> & W). destruct (opt_param r1) as [(a & r2)|] eqn:P; [|discriminate H]. inversion H; subst.
    destruct (opt_param_sound _ _ _ P) as (v & -> & V). eexists. split; [|eapply TWCompound; eassumption]. fin.
  - destruct (quest ts) as (q & r1) eqn:Q. destruct (quest_sound _ _ _ Q) as (w & -> & W).
    destruct r1 as [|([] & o) r1]; try discriminate H. destruct (p_type n r1) as [(e & [|([] & c) r2])|] eqn:P; try discriminate H. inversion H; subst.
    destruct (IH _ _ _ P) as (v & -> & V). eexists. split; [|eapply TWList; eassumption]. fin.
  - destruct (quest ts) as (q & r1) eqn:Q. destruct (quest_sound _ _ _ Q) as (w & -> & W).
    destruct r1 as [|([] & o) r1]; try discriminate H.
    assert (D : (exists d, match p_type n r1 with Some (_, r) => Some r | None => None end = match r1 with
                | (KOParen, _) :: r => match list1 (p_type n) n r with Some (_, (KCParen, _) :: r) => Some r | _ => None end
                | _ => match p_type n r1 with Some (_, r) => Some r | None => None end end /\ d = tt) \/ exists y r2, r1 = (KOParen, y) :: r2).
    { destruct r1 as [|([] & y) r2]; try (left; exists tt; split; reflexivity). right. eauto. }
    destruct D as [(_ & D & _)|(y & r2 & ->)].
    + rewrite <- D in H. clear D. destruct (p_type n r1) as [(d1 & r2)|] eqn:P; [|discriminate H]. destruct r2 as [|([] & a) r2]; try discriminate H.
      destruct (p_type n r2) as [(d2 & [|([] & c) r3])|] eqn:P2; try discriminate H. inversion H; subst.
      destruct (IH _ _ _ P) as (v & -> & V). destruct (IH _ _ _ P2) as (u & -> & U). eexists. split; [|eapply TWFunc1; [exact W|exact V|exact U]]. fin.
    + cbv iota in H. destruct (list1 (p_type n) n r2) as [(ds & [|([] & z) r3])|] eqn:P; try discriminate H.
      destruct r3 as [|([] & a) r3]; try discriminate H. destruct (p_type n r3) as [(d2 & [|([] & c) r4])|] eqn:P2; try discriminate H. inversion H; subst.
      destruct (list1_sound _ _ _ n IH _ _ _ P) as (v & -> & V). destruct (IH _ _ _ P2) as (u & -> & U). eexists. split; [|eapply TWFunc; [exact W|exact V|exact U]]. fin.
  - destruct ts as [|([] & y) ts]; try discriminate H. destruct (quest ts) as (q & r1) eqn:Q. inversion H; subst. destruct (quest_sound _ _ _ Q) as (w & -> & W). eexists. split; [|eapply TWUser; eassumption]. fin.
Qed.

Ltac noh := cbn; intuition discriminate.
Lemma param_head : forall p v r, parameter p v -> head_not [KQMark] (v ++ r).
Proof. intros p v r H. destruct H. noh. Qed.
Lemma mparam_head : forall p v r, maybe_parameter p v -> stop r -> head_not [KQMark] (v ++ r).
Proof. intros p v r H O. destruct H as [|n v H]; [now apply stop_q|destruct H; noh]. Qed.
Lemma mtwo_head : forall p v r, maybe_two p v -> stop r -> head_not [KQMark] (v ++ r).
Proof. intros p v r H O. destruct H as [|n v]; [now apply stop_q|noh]. Qed.
Definition type_kind (k : tk) : bool := match k with
  | KType _ | KFixed _ | KUser | KDecimal | KPrecTime | KPrecTs | KPrecTsTz | KDayType | KCompoundType | KList | KFunc => true | _ => false end.
Lemma type_head : forall d w, type_written d w -> exists k x v, w = (k, x) :: v /\ type_kind k = true.
Proof. intros d w H. destruct H; do 3 eexists; (split; [reflexivity|reflexivity]). Qed.

Lemma p_type_complete : forall n, complete n type_written stop (p_type n).
Proof.
  induction n as [|n IH]; intros d w r H L O; [destruct H; cbn in L; lia|].
  destruct H as [p q x w Q|q x y w Q|k len q x w v Q P|ps q x w v Q P|p q x w v Q P|p q x w v Q P|p q x w v Q P|p q x w v Q P|p q x w v Q P|e q x o c w v Q E|q d d' x o a c w v u Q E E'|q ds d' x o y z a c w v u Q E E'];
    cbn [List.app p_type]; cbn [length] in L; rewrite ?app_length in L; cbn [length] in L; rewrite ?app_length in L; cbn [length] in L; rewrite ?app_length in L; cbn [length] in L;
    asc.
  - rewrite (quest_complete _ _ _ Q (stop_q _ O)). reflexivity.
  - rewrite (quest_complete _ _ _ Q (stop_q _ O)). reflexivity.
  - rewrite (quest_complete _ _ _ Q (param_head _ _ _ P)), (one_param_complete _ _ _ P). reflexivity.
  - rewrite (quest_complete _ _ _ Q (mtwo_head _ _ _ P O)), (opt_params_complete _ _ _ P (stop_o _ O)). reflexivity.
  - rewrite (quest_complete _ _ _ Q (param_head _ _ _ P)), (one_param_complete _ _ _ P). reflexivity.
  - rewrite (quest_complete _ _ _ Q (param_head _ _ _ P)), (one_param_complete _ _ _ P). reflexivity.
  - rewrite (quest_complete _ _ _ Q (param_head _ _ _ P)), (one_param_complete _ _ _ P). reflexivity.
  - rewrite (quest_complete _ _ _ Q (mparam_head _ _ _ P O)), (opt_param_complete _ _ _ P (stop_o _ O)). reflexivity.
  - rewrite (quest_complete _ _ _ Q (mparam_head _ _ _ P O)), (opt_param_complete _ _ _ P (stop_o _ O)). reflexivity.
  - rewrite (quest_complete _ _ _ Q) by noh. rewrite (IH _ _ _ E); [reflexivity|lia|noh].
  - rewrite (quest_complete _ _ _ Q) by noh.
    assert (D : forall A (f : list token -> A) g, match v ++ (KArrow, a) :: u ++ (KCAngle, c) :: r with (KOParen, _) :: r0 => f r0 | _ => g end = g).
    { intros A f g. destruct (type_head _ _ E) as (k & x0 & v0 & -> & I). destruct k; try discriminate I; reflexivity. }
    rewrite D. rewrite (IH _ _ _ E); [|lia|noh]. rewrite (IH _ _ _ E'); [reflexivity|lia|noh].
  - rewrite (quest_complete _ _ _ Q) by noh.
    rewrite (list1_use _ _ n n stop _ _ _ _ IH ltac:(intros; noh) E) by (lia || noh).
    rewrite (IH _ _ _ E'); [reflexivity|lia|noh].
Qed.

(** * values *)

Lemma literal_kind_iff : forall k kd, kind_of_literal k = Some kd <-> In (k, kd) literal_kinds.
Proof.
  intros k kd. unfold literal_kinds. split.
  - destruct k; cbn; intros H; inversion H; subst; tauto.
  - cbn. intros H. repeat (destruct H as [H|H]; [inversion H; reflexivity|]). tauto.
Qed.
Lemma p_literal_sound : sound literal_written p_literal.
Proof.
  intros [|(k & t) ts] a r H; [discriminate H|]. cbn [p_literal] in H. destruct (kind_of_literal k) as [kd|] eqn:K; [|discriminate H]. inversion H; subst.
  exists [(k, t)]. split; [reflexivity|]. constructor. now apply literal_kind_iff.
Qed.
Lemma p_literal_complete : forall m ok, complete m literal_written ok p_literal.
Proof. intros m ok a w r H _ _. destruct H as [k kd t I]. cbn [List.app p_literal]. apply literal_kind_iff in I. now rewrite I. Qed.

Lemma p_elem_eq : forall n ts, p_elem (S n) ts =
  match ts with
  | (KOBracket, _) :: (KCBracket, _) :: r => Some (EList [], r)
  | (KOBracket, _) :: r => match list1 (p_elem n) n r with Some (es, (KCBracket, _) :: r) => Some (EList es, r) | _ => None end
  | _ => match p_literal ts with Some (l, r) => Some (ELit l, r) | None => None end
  end.
Proof. reflexivity. Qed.
Lemma bracket_cases : forall r : list token, (exists y r', r = (KCBracket, y) :: r') \/
  (forall A (f : list token -> A) d, match r with (KCBracket, _) :: r' => f r' | _ => d end = d).
Proof. intros [|([] & y) r']; try (right; reflexivity). left. eauto. Qed.
Lemma p_elem_sound : forall n, sound element_written (p_elem n).
Proof.
  induction n as [|n IH]; intros ts a r H; [discriminate H|]. rewrite p_elem_eq in H.
  assert (D : (exists x r', ts = (KOBracket, x) :: r') \/ match p_literal ts with Some (l, r) => Some (ELit l, r) | None => None end = Some (a, r)).
  { destruct ts as [|([] & x) r']; try (right; exact H). left. eauto. }
  destruct D as [(x & r' & ->)|D].
  - destruct (bracket_cases r') as [(y & r2 & ->)|B].
    + inversion H; subst. eexists [_; _]. split; [reflexivity|constructor].
    + rewrite B in H. destruct (list1 (p_elem n) n r') as [(es & [|([] & y) r2])|] eqn:P; try discriminate H. inversion H; subst.
      destruct (list1_sound _ _ _ n IH _ _ _ P) as (w & -> & W). eexists. split; [|eapply EWList; exact W]. fin.
  - destruct (p_literal ts) as [(l & r')|] eqn:P; [|discriminate D]. inversion D; subst. destruct (p_literal_sound _ _ _ P) as (w & -> & W). exists w. split; [reflexivity|now constructor].
Qed.
Definition any_rest (r : list token) : Prop := True.
Lemma element_head : forall e w, element_written e w -> exists k x v, w = (k, x) :: v /\ (k = KOBracket \/ kind_of_literal k <> None).
Proof.
  intros e w H. destruct H as [l w H|x y|es w x y H]; [|do 3 eexists; split; [reflexivity|left; reflexivity]..].
  destruct H as [k kd t I]. do 3 eexists; split; [reflexivity|right]. apply literal_kind_iff in I. congruence.
Qed.
Lemma commas_element_head : forall es w, commas element_written es w -> exists k x v, w = (k, x) :: v /\ (k = KOBracket \/ kind_of_literal k <> None).
Proof. intros es w H. destruct H as [a w H|a w l v c H _]; destruct (element_head _ _ H) as (k & x & v' & -> & D); do 3 eexists; (split; [reflexivity|exact D]). Qed.
Lemma p_elem_complete : forall n, complete n element_written any_rest (p_elem n).
Proof.
  induction n as [|n IH]; intros e w r H L _; [destruct H as [l w H| |]; [destruct H|..]; cbn in L; lia|]. rewrite p_elem_eq.
  destruct H as [l w H|x y|es w x y H].
  - destruct H as [k kd t I]. cbn [List.app]. assert (K : kind_of_literal k = Some kd) by now apply literal_kind_iff.
    destruct k; try discriminate K; cbn [p_literal]; rewrite K; reflexivity.
  - reflexivity.
  - asc. cbn [length] in L. rewrite app_length in L. cbn [length] in L.
    destruct (commas_element_head _ _ H) as (k & t & v & E & D).
    assert (B : forall A (f : list token -> A) d, match w ++ (KCBracket, y) :: r with (KCBracket, _) :: r' => f r' | _ => d end = d).
    { intros A f d. rewrite E. cbn [List.app]. destruct D as [->|D]; [reflexivity|]. destruct k; try reflexivity. exfalso. apply D. reflexivity. }
    rewrite B. rewrite (list1_use _ _ n n any_rest _ _ _ _ IH ltac:(intros; exact I) H) by (lia || exact I || noh). reflexivity.
Qed.

Lemma typed_iff : forall k t d a, typed k t d = Some a <-> literal_of k t d a.
Proof.
  intros k t d a. split.
  - destruct k; try discriminate; destruct d as [p q| | | | | | | | | |]; try discriminate; try (destruct p; try discriminate);
      cbn [typed]; intros H; inversion H; subst; constructor; cbn; tauto.
  - intros H. destruct H as [| t p q I|k t p q I J|k t ps q I| | | | | | | | | | | | | ]; try reflexivity.
    + cbn in I. repeat (destruct I as [<-|I]; [reflexivity|]). tauto.
    + cbn in I, J. repeat (destruct I as [<-|I]; [repeat (destruct J as [<-|J]; [reflexivity|]); tauto|]). tauto.
    + cbn in I. repeat (destruct I as [<-|I]; [reflexivity|]). tauto.
Qed.
Lemma name_iff : forall k, is_name k = true <-> In k [KIdent; KTruncate; KNonReserved].
Proof. intros k. split; [destruct k; try discriminate; cbn; tauto|]. cbn. intros H. repeat (destruct H as [<-|H]; [reflexivity|]). tauto. Qed.
Lemma p_name_sound : sound name_written p_name.
Proof.
  intros [|(k & t) ts] a r H; [discriminate H|]. cbn [p_name] in H. destruct (is_name k) eqn:K; [|discriminate H]. inversion H; subst.
  exists [(k, a)]. split; [reflexivity|]. constructor. now apply name_iff.
Qed.
Lemma p_name_complete : forall t w r, name_written t w -> p_name (w ++ r) = Some (t, r).
Proof. intros t w r H. destruct H as [k t I]. cbn [List.app p_name]. apply name_iff in I. now rewrite I. Qed.
Lemma p_ident_sound : sound ident_written p_ident.
Proof. intros ts a r H. unfold p_ident in H. repeat (inv1 H). inversion H; subst. eexists [_]. split; [reflexivity|constructor]. Qed.
Lemma p_ident_complete : forall m ok, complete m ident_written ok p_ident.
Proof. intros m ok a w r H _ _. destruct H. reflexivity. Qed.

