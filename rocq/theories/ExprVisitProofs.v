(** Proofs for C19: what [Visit] returns. *)

From Coq Require Import ZArith String List Bool Lia.
From Verif Require Import Base TypesModel LitModel ExprModel ExprOpsModel ExprSpec ExprProofs ExprWireProofs.
Import ListNotations.

Section Visit.
Context {R A : Type}.
Variable visit : A -> expr R -> option (expr R) * A.
Notation vs := (visits visit).
Notation cal := (call visit).

Definition shown (l : list (expr R)) : list (expr R * bool) := map (fun x => (x, true)) l.
Definition both (l : list (expr R * expr R)) : list (expr R * bool) :=
  flat_map (fun p => [(fst p, true); (snd p, true)]) l.
Definition flat2 {T} (l : list (T * T)) : list T := flat_map (fun p => [fst p; snd p]) l.

(** ** the relation *)

Lemma visits_total : forall l st, exists ys ch st', vs st l ys ch st'.
Proof.
  induction l as [|[x b] l IH]; intros st.
  - exists [], false, st. constructor.
  - destruct b.
    + destruct (visit st x) as [o st1] eqn:E. destruct (IH st1) as (ys & ch & st' & H). destruct o as [y|].
      * destruct (is_nil_expr x && is_nil_expr y)%bool eqn:N.
        -- apply andb_prop in N. destruct N as [N1 N2]. apply is_nil_spec in N1, N2. subst.
           exists (blank :: ys), ch, st'. eapply V_nil; eauto.
        -- exists (y :: ys), true, st'. eapply V_answer; eauto. intros [-> ->]. discriminate.
      * exists (x :: ys), ch, st'. eapply V_same; eauto.
    + destruct (IH st) as (ys & ch & st' & H). exists (x :: ys), ch, st'. constructor. auto.
Qed.

Lemma visits_det : forall l st ys ch st' ys2 ch2 st2, vs st l ys ch st' -> vs st l ys2 ch2 st2 ->
  ys = ys2 /\ ch = ch2 /\ st' = st2.
Proof.
  induction l as [|[x b] l IH]; intros st ys ch st' ys2 ch2 st2 H1 H2.
  - inversion H1; subst. inversion H2; subst. auto.
  - inversion H1; subst; inversion H2; subst;
    try (match goal with Ha : visit ?s ?y = _, Hb : visit ?s ?y = _ |- _ => rewrite Ha in Hb; inversion Hb; subst end);
    try (match goal with Ha : visits visit ?s l _ _ _, Hb : visits visit ?s l _ _ _ |- _ =>
       destruct (IH _ _ _ _ _ _ _ Ha Hb) as (-> & -> & ->) end); auto;
    exfalso; match goal with N : ~ (_ /\ _) |- _ => apply N; auto end.
Qed.

Lemma visits_app : forall l1 l2 st ys ch st', vs st (l1 ++ l2) ys ch st' <->
  exists y1 y2 c1 c2 st1, ys = (y1 ++ y2)%list /\ ch = (c1 || c2)%bool /\ vs st l1 y1 c1 st1 /\ vs st1 l2 y2 c2 st'.
Proof.
  induction l1 as [|[x b] l1 IH]; intros l2 st ys ch st'; cbn [app].
  - split.
    + intros H. exists [], ys, false, ch, st. repeat split; auto. constructor.
    + intros (y1 & y2 & c1 & c2 & st1 & -> & -> & H1 & H2). inversion H1; subst. auto.
  - split.
    + intros H. inversion H; subst; match goal with Hr : visits visit _ (l1 ++ l2)%list _ _ _ |- _ =>
        apply IH in Hr; destruct Hr as (y1 & y2 & c1 & c2 & st2 & -> & -> & H1 & H2) end.
      * exists (x :: y1), y2, c1, c2, st2. repeat split; auto. constructor; auto.
      * exists (x :: y1), y2, c1, c2, st2. repeat split; auto. eapply V_same; eauto.
      * exists (y :: y1), y2, true, c2, st2. repeat split; auto. eapply V_answer; eauto.
      * exists (blank :: y1), y2, c1, c2, st2. repeat split; auto. eapply V_nil; eauto.
    + intros (y1 & y2 & c1 & c2 & st1 & -> & -> & H1 & H2).
      inversion H1; subst; cbn [app].
      * constructor. apply IH. eauto 10.
      * eapply V_same; eauto. apply IH. eauto 10.
      * eapply V_answer; eauto. apply IH. eauto 10.
      * eapply V_nil; eauto. apply IH. eauto 10.
Qed.

(** one call *)
Lemma visits_call : forall x l st ys ch st', vs st ((x, true) :: l) ys ch st' ->
  exists y b st1 ys' ch', ys = y :: ys' /\ cal st x = (y, b, st1) /\ vs st1 l ys' ch' st' /\ ch = (b || ch')%bool /\
    (b = false -> y = x).
Proof.
  intros x l st ys ch st' H. unfold call, outcome.
  inversion H as [|? ? ? ? ? ? ?|? ? st1 ? ys0 ? ? E Hr|? ? y st1 ? ys0 ch0 ? E Hr N|? st1 ? ys0 ? ? E Hr]; subst.
  - exists x, false, st1, ys0, ch. rewrite E. repeat split; auto.
  - exists y, true, st1, ys0, ch0. rewrite E. repeat split; auto; try discriminate. f_equal. f_equal.
    destruct (is_nil_expr x && is_nil_expr y)%bool eqn:M; auto. apply andb_prop in M. destruct M as [N1 N2].
    apply is_nil_spec in N1, N2. subst. exfalso. apply N. auto.
  - exists blank, false, st1, ys0, ch. rewrite E. repeat split; auto.
Qed.
Lemma visits_one : forall x st ys ch st', vs st [(x, true)] ys ch st' ->
  exists y, ys = [y] /\ cal st x = (y, ch, st') /\ (ch = false -> y = x).
Proof.
  intros x st ys ch st' H. apply visits_call in H. destruct H as (y & b & st1 & ys' & ch' & -> & E & H & -> & Hn).
  inversion H; subst. rewrite orb_false_r. eauto.
Qed.
Lemma visits_unchanged : forall l st ys st', vs st l ys false st' -> ys = map fst l.
Proof.
  induction l as [|[x b] l IH]; intros st ys st' H; inversion H; subst; cbn [map fst]; auto.
  - f_equal. eauto.
  - f_equal. eauto.
  - f_equal. eauto.
Qed.
Lemma visits_length : forall l st ys ch st', vs st l ys ch st' -> length ys = length l.
Proof. induction 1; cbn [length]; auto. Qed.

(** ** copy on write *)

Lemma set_nth_app : forall T (pre : list T) x y z, set_nth (length pre) y (pre ++ x :: z) = (pre ++ y :: z)%list.
Proof. induction pre; intros; cbn [app length set_nth]; auto. f_equal. auto. Qed.

Lemma fresh_prefix_app : forall T (zero : T) pre rest,
  fresh_prefix zero (length pre) (pre ++ rest) = (pre ++ repeat zero (length rest))%list.
Proof.
  intros. unfold fresh_prefix. rewrite firstn_app, firstn_all, Nat.sub_diag, firstn_O, app_nil_r, app_length. f_equal. f_equal. lia.
Qed.

Lemma loop_some : forall rest all st ys ch st' pre z, vs st (shown rest) ys ch st' -> length z = length rest ->
  visit_loop visit all (length pre) rest (Some (pre ++ z)%list) st = (Some (pre ++ ys)%list, st').
Proof.
  induction rest as [|x rest IH]; intros all st ys ch st' pre z H HL.
  - destruct z; [|discriminate]. cbn [visit_loop]. inversion H; subst. auto.
  - destruct z as [|z0 z]; [discriminate|]. cbn [shown map] in H. apply visits_call in H.
    destruct H as (y & b & st1 & ys' & ch' & -> & E & H & -> & Hn). cbn [visit_loop]. rewrite E. cbn [option_map].
    rewrite set_nth_app.
    replace (S (length pre)) with (length (pre ++ [y])) by (rewrite app_length; cbn [length]; lia).
    replace (pre ++ y :: z)%list with ((pre ++ [y]) ++ z)%list by (rewrite <- app_assoc; auto).
    replace (pre ++ y :: ys')%list with ((pre ++ [y]) ++ ys')%list by (rewrite <- app_assoc; auto).
    eapply IH; eauto.
Qed.

Lemma loop_none : forall rest st ys ch st' pre, vs st (shown rest) ys ch st' ->
  visit_loop visit (pre ++ rest) (length pre) rest None st = (if ch then Some (pre ++ ys)%list else None, st').
Proof.
  induction rest as [|x rest IH]; intros st ys ch st' pre H.
  - cbn [visit_loop]. inversion H; subst. auto.
  - cbn [shown map] in H. apply visits_call in H.
    destruct H as (y & b & st1 & ys' & ch' & -> & E & H & -> & Hn). cbn [visit_loop]. rewrite E. destruct b.
    + cbn [option_map orb]. rewrite fresh_prefix_app. cbn [length repeat]. rewrite set_nth_app.
      replace (S (length pre)) with (length (pre ++ [y])) by (rewrite app_length; cbn [length]; lia).
      replace (pre ++ y :: repeat nil_expr (length rest))%list with ((pre ++ [y]) ++ repeat nil_expr (length rest))%list by (rewrite <- app_assoc; auto).
      replace (pre ++ y :: ys')%list with ((pre ++ [y]) ++ ys')%list by (rewrite <- app_assoc; auto).
      eapply loop_some; eauto. apply repeat_length.
    + cbn [option_map orb]. rewrite (Hn eq_refl) in *. clear Hn.
      replace (S (length pre)) with (length (pre ++ [x])) by (rewrite app_length; cbn [length]; lia).
      replace (pre ++ x :: rest)%list with ((pre ++ [x]) ++ rest)%list by (rewrite <- app_assoc; auto).
      replace (pre ++ x :: ys')%list with ((pre ++ [x]) ++ ys')%list by (rewrite <- app_assoc; auto).
      apply IH. auto.
Qed.
Lemma slice_char : forall l st ys ch st', vs st (shown l) ys ch st' ->
  visit_slice visit l st = (if ch then Some ys else None, st').
Proof. intros. unfold visit_slice. exact (loop_none l st ys ch st' [] H). Qed.

(** arguments *)
Fixpoint put_args (args : list (farg (expr R))) (ys : list (expr R)) : list (farg (expr R)) :=
  match args, ys with
  | [], _ => []
  | AExpr _ :: args', y :: ys' => AExpr y :: put_args args' ys'
  | AExpr x :: args', [] => AExpr x :: args'
  | a :: args', _ => a :: put_args args' ys
  end.

Lemma arg_slots_shown : forall x : expr R, x <> blank -> arg_slots (AExpr x) = [(x, true)].
Proof. intros x H. destruct x; auto. destruct l; auto. exfalso. apply H. reflexivity. Qed.

Definition arg_call (st : A) (a : farg (expr R)) : farg (expr R) * bool * A :=
  match a with
  | AExpr x => if is_nil_expr x then (a, false, st) else let '(y, ch, st') := cal st x in (AExpr y, ch, st')
  | _ => (a, false, st)
  end.
Lemma visits_arg : forall a l st ys ch st', vs st (arg_slots a ++ l) ys ch st' ->
  exists a' y1 b st1 ys' ch', ys = (y1 ++ ys')%list /\ arg_call st a = (a', b, st1) /\ vs st1 l ys' ch' st' /\
    ch = (b || ch')%bool /\ (b = false -> a' = a) /\ arg_shell a' = arg_shell a /\ map fst (arg_slots a') = y1 /\
    (forall rest, put_args (a :: rest) ys = a' :: put_args rest ys').
Proof.
  intros a l st ys ch st' H. destruct a as [s|t|x]; cbn [arg_slots app arg_call] in *.
  - exists (AEnum s), [], false, st, ys, ch. repeat split; auto.
  - exists (AType t), [], false, st, ys, ch. repeat split; auto.
  - destruct (is_nil_expr x) eqn:N.
    + apply is_nil_spec in N. subst. inversion H; subst.
      exists (AExpr (ELit LNil)), [ELit LNil], false, st, ys0, ch. repeat split; auto.
    + apply is_nil_false in N. change (match x with ELit LNil => [(ELit LNil, false)] | _ => [(x, true)] end)
        with (arg_slots (AExpr x)) in H. rewrite (arg_slots_shown x N) in H. apply visits_call in H.
      destruct H as (y & b & st1 & ys' & ch' & -> & E & H & -> & Hn). rewrite E.
      exists (AExpr y), [y], b, st1, ys', ch'. repeat split; auto.
      * intros ->. f_equal. auto.
      * cbn [arg_slots]. destruct y; auto. destruct l0; auto.
Qed.

Lemma args_some : forall rest all st ys ch st' pre z, vs st (flat_map arg_slots rest) ys ch st' -> length z = length rest ->
  visit_args visit all (length pre) rest (Some (pre ++ z)%list) st = (Some (pre ++ put_args rest ys)%list, st').
Proof.
  induction rest as [|x rest IH]; intros all st ys ch st' pre z H HL.
  - destruct z; [|discriminate]. cbn [visit_args]. inversion H; subst. auto.
  - destruct z as [|z0 z]; [discriminate|]. cbn [flat_map] in H. apply visits_arg in H.
    destruct H as (y & y1 & b & st1 & ys' & ch' & E0 & E & H & -> & Hn & Hs & Hf & Hp). cbn [visit_args].
    unfold arg_call in E. rewrite E. cbn [option_map]. rewrite set_nth_app, Hp.
    replace (S (length pre)) with (length (pre ++ [y])) by (rewrite app_length; cbn [length]; lia).
    replace (pre ++ y :: z)%list with ((pre ++ [y]) ++ z)%list by (rewrite <- app_assoc; auto).
    replace (pre ++ y :: put_args rest ys')%list with ((pre ++ [y]) ++ put_args rest ys')%list by (rewrite <- app_assoc; auto).
    eapply IH; eauto.
Qed.
Lemma args_none : forall rest st ys ch st' pre, vs st (flat_map arg_slots rest) ys ch st' ->
  visit_args visit (pre ++ rest) (length pre) rest None st = (if ch then Some (pre ++ put_args rest ys)%list else None, st').
Proof.
  induction rest as [|x rest IH]; intros st ys ch st' pre H.
  - cbn [visit_args]. inversion H; subst. auto.
  - cbn [flat_map] in H. apply visits_arg in H.
    destruct H as (y & y1 & b & st1 & ys' & ch' & E0 & E & H & -> & Hn & Hs & Hf & Hp). cbn [visit_args].
    unfold arg_call in E. rewrite E, Hp. destruct b.
    + cbn [option_map orb]. rewrite fresh_prefix_app. cbn [length repeat]. rewrite set_nth_app.
      replace (S (length pre)) with (length (pre ++ [y])) by (rewrite app_length; cbn [length]; lia).
      replace (pre ++ y :: repeat (AExpr nil_expr) (length rest))%list with ((pre ++ [y]) ++ repeat (AExpr nil_expr) (length rest))%list by (rewrite <- app_assoc; auto).
      replace (pre ++ y :: put_args rest ys')%list with ((pre ++ [y]) ++ put_args rest ys')%list by (rewrite <- app_assoc; auto).
      eapply args_some; eauto. apply repeat_length.
    + cbn [option_map orb]. rewrite (Hn eq_refl) in *. clear Hn.
      replace (S (length pre)) with (length (pre ++ [x])) by (rewrite app_length; cbn [length]; lia).
      replace (pre ++ x :: rest)%list with ((pre ++ [x]) ++ rest)%list by (rewrite <- app_assoc; auto).
      replace (pre ++ x :: put_args rest ys')%list with ((pre ++ [x]) ++ put_args rest ys')%list by (rewrite <- app_assoc; auto).
      apply IH. auto.
Qed.
Lemma put_args_shell : forall args st ys ch st', vs st (flat_map arg_slots args) ys ch st' ->
  map arg_shell (put_args args ys) = map arg_shell args /\ map fst (flat_map arg_slots (put_args args ys)) = ys.
Proof.
  induction args as [|a args IH]; intros st ys ch st' H; cbn [flat_map] in H.
  - inversion H; subst. auto.
  - assert (H0 := H). apply visits_arg in H. destruct H as (y & y1 & b & st1 & ys' & ch' & -> & E & H & -> & Hn & Hs & Hf & Hp).
    rewrite Hp. cbn [map flat_map]. rewrite Hs. destruct (IH _ _ _ _ H) as [I1 I2]. rewrite I1. split; auto.
    rewrite map_app, I2, Hf. auto.
Qed.

(** pairs *)
Lemma pairs_some : forall rest init st ys ch st' pre z, vs st (both rest) ys ch st' -> length z = length rest ->
  exists ps, ys = flat2 ps /\ length ps = length rest /\
  visit_pairs visit init (length pre) rest (Some (pre ++ z)%list) st = (Some (pre ++ ps)%list, st').
Proof.
  induction rest as [|[x x2] rest IH]; intros init st ys ch st' pre z H HL.
  - destruct z; [|discriminate]. cbn [visit_pairs]. inversion H; subst. exists []. auto.
  - destruct z as [|z0 z]; [discriminate|]. cbn [both flat_map app fst snd] in H. apply visits_call in H.
    destruct H as (y & b & st1 & ys1 & ch1 & -> & E & H & -> & Hn). apply visits_call in H.
    destruct H as (y2 & b2 & st2 & ys2 & ch2 & -> & E2 & H & -> & Hn2). cbn [visit_pairs]. rewrite E, E2. cbn [option_map].
    rewrite set_nth_app.
    replace (S (length pre)) with (length (pre ++ [(y, y2)])) by (rewrite app_length; cbn [length]; lia).
    replace (pre ++ (y, y2) :: z)%list with ((pre ++ [(y, y2)]) ++ z)%list by (rewrite <- app_assoc; auto).
    destruct (IH init _ _ _ _ (pre ++ [(y, y2)])%list z H ltac:(cbn [length] in HL; lia)) as (ps & -> & HP & ->).
    exists ((y, y2) :: ps). rewrite <- app_assoc. cbn [length app flat2 flat_map fst snd]. auto.
Qed.
Lemma pairs_none : forall rest init st ys ch st' pre, vs st (both rest) ys ch st' ->
  (forall p r, (pre ++ rest = p ++ r)%list -> exists z, init (length p) = (p ++ z)%list /\ length z = length r) ->
  exists ps, ys = flat2 ps /\ length ps = length rest /\
  visit_pairs visit init (length pre) rest None st = (if ch then Some (pre ++ ps)%list else None, st').
Proof.
  induction rest as [|[x x2] rest IH]; intros init st ys ch st' pre H HI.
  - cbn [visit_pairs]. inversion H; subst. exists []. auto.
  - cbn [both flat_map app fst snd] in H. apply visits_call in H.
    destruct H as (y & b & st1 & ys1 & ch1 & -> & E & H & -> & Hn). apply visits_call in H.
    destruct H as (y2 & b2 & st2 & ys2 & ch2 & -> & E2 & H & -> & Hn2). cbn [visit_pairs]. rewrite E, E2. cbn [option_map].
    destruct (b || b2)%bool eqn:B.
    + destruct (HI pre ((x, x2) :: rest) eq_refl) as (z & Ei & HL). rewrite Ei. destruct z as [|z0 z]; [discriminate|].
      cbn [option_map]. rewrite set_nth_app.
      replace (S (length pre)) with (length (pre ++ [(y, y2)])) by (rewrite app_length; cbn [length]; lia).
      replace (pre ++ (y, y2) :: z)%list with ((pre ++ [(y, y2)]) ++ z)%list by (rewrite <- app_assoc; auto).
      destruct (pairs_some rest init _ _ _ _ (pre ++ [(y, y2)])%list z H ltac:(cbn [length] in HL; lia)) as (ps & -> & HP & ->).
      exists ((y, y2) :: ps). rewrite <- app_assoc, orb_assoc, B. cbn [length app flat2 flat_map fst snd orb]. auto.
    + apply orb_false_iff in B. destruct B as [-> ->]. rewrite (Hn eq_refl), (Hn2 eq_refl) in *. cbn [option_map orb].
      replace (S (length pre)) with (length (pre ++ [(x, x2)])) by (rewrite app_length; cbn [length]; lia).
      destruct (IH init _ _ _ _ (pre ++ [(x, x2)])%list H) as (ps & -> & HP & ->).
      { intros p r Hp. apply HI. rewrite <- Hp, <- app_assoc. auto. }
      exists ((x, x2) :: ps). rewrite <- app_assoc. cbn [length app flat2 flat_map fst snd]. auto.
Qed.

(** switch cases *)
Definition cases_shown (l : list (lit * expr R)) : list (expr R * bool) :=
  flat_map (fun p => [(ELit (fst p), true); (snd p, true)]) l.
Definition cases_flat (l : list (lit * expr R)) : list (expr R) := flat_map (fun p => [ELit (fst p); snd p]) l.

Lemma literal_dec : forall e : expr R, {l | e = ELit l /\ l <> LNil} + {~ is_literal e}.
Proof.
  intros e. destruct e; try (right; intros (l' & H & _); discriminate).
  destruct l; try (left; eexists; split; [reflexivity|discriminate]).
  right. intros (l' & H & N). inversion H; subst. auto.
Qed.

Lemma cases_some : forall rest all st ys ch st' pre z, vs st (cases_shown rest) ys ch st' -> length z = length rest ->
  (keys_literal ys (length rest) -> exists ps, ys = cases_flat ps /\ length ps = length rest /\
    visit_cases visit all (length pre) rest (Some (pre ++ z)%list) st = Ok (Some (pre ++ ps)%list, st')) /\
  (~ keys_literal ys (length rest) -> visit_cases visit all (length pre) rest (Some (pre ++ z)%list) st = Panic).
Proof.
  induction rest as [|[x x2] rest IH]; intros all st ys ch st' pre z H HL.
  - destruct z; [|discriminate]. cbn [visit_cases]. inversion H; subst. split; [|intros K; exfalso; apply K; exact I].
    exists []. auto.
  - destruct z as [|z0 z]; [discriminate|]. cbn [cases_shown flat_map app fst snd] in H. apply visits_call in H.
    destruct H as (y & b & st1 & ys1 & ch1 & -> & E & H & -> & Hn). apply visits_call in H.
    destruct H as (y2 & b2 & st2 & ys2 & ch2 & -> & E2 & H & -> & Hn2). cbn [visit_cases length keys_literal]. rewrite E, E2.
    destruct (literal_dec y) as [(k & -> & Hk)|Hy].
    + destruct (IH all _ _ _ _ (pre ++ [(k, y2)])%list z H ltac:(cbn [length] in HL; lia)) as [I1 I2].
      assert (EQ : match k with
         | LNil => Panic
         | _ => visit_cases visit all (S (length pre)) rest (Some (set_nth (length pre) (k, y2) (pre ++ z0 :: z))) st2
         end = visit_cases visit all (length (pre ++ [(k, y2)])) rest (Some ((pre ++ [(k, y2)]) ++ z)%list) st2).
      { rewrite set_nth_app, app_length, <- app_assoc. cbn [length app]. rewrite Nat.add_1_r. destruct k; auto. congruence. }
      split.
      * intros [_ K]. destruct (I1 K) as (ps & -> & HP & E3). exists ((k, y2) :: ps).
        rewrite <- (app_assoc pre [(k, y2)] ps) in E3. cbn [app] in E3. cbn [cases_flat flat_map app fst snd length].
        split; auto. split; auto. etransitivity; [exact EQ|]. exact E3.
      * intros K. etransitivity; [exact EQ|]. apply I2. intros K'. apply K. split; auto. exists k. auto.
    + split; [intros [K _]; tauto|]. intros _. destruct y; auto. destruct l; auto; exfalso; apply Hy; eexists; split; try reflexivity; discriminate.
Qed.
Lemma cases_none : forall rest st ys ch st' pre, vs st (cases_shown rest) ys ch st' ->
  Forall (fun p => fst p <> LNil) rest ->
  (keys_literal ys (length rest) -> exists ps, ys = cases_flat ps /\ length ps = length rest /\
    visit_cases visit (pre ++ rest) (length pre) rest None st = Ok (if ch then Some (pre ++ ps)%list else None, st')) /\
  (~ keys_literal ys (length rest) -> visit_cases visit (pre ++ rest) (length pre) rest None st = Panic).
Proof.
  induction rest as [|[x x2] rest IH]; intros st ys ch st' pre H HN.
  - cbn [visit_cases]. inversion H; subst. split; [|intros K; exfalso; apply K; exact I].
    exists []. auto.
  - cbn [cases_shown flat_map app fst snd] in H. apply visits_call in H.
    destruct H as (y & b & st1 & ys1 & ch1 & -> & E & H & -> & Hn). apply visits_call in H.
    destruct H as (y2 & b2 & st2 & ys2 & ch2 & -> & E2 & H & -> & Hn2). cbn [visit_cases length keys_literal]. rewrite E, E2.
    inversion HN as [|? ? Hx HN']; subst. cbn [fst] in Hx.
    destruct (b || b2)%bool eqn:B.
    + rewrite fresh_prefix_app. cbn [length repeat].
      destruct (literal_dec y) as [(k & -> & Hk)|Hy].
      * destruct (cases_some rest (pre ++ (x, x2) :: rest)%list _ _ _ _ (pre ++ [(k, y2)])%list (repeat (LNil, nil_expr) (length rest)) H ltac:(apply repeat_length)) as [I1 I2].
        assert (EQ : match k with
           | LNil => Panic
           | _ => visit_cases visit (pre ++ (x, x2) :: rest) (S (length pre)) rest (Some (set_nth (length pre) (k, y2) (pre ++ (LNil, nil_expr) :: repeat (LNil, nil_expr) (length rest)))) st2
           end = visit_cases visit (pre ++ (x, x2) :: rest) (length (pre ++ [(k, y2)])) rest (Some ((pre ++ [(k, y2)]) ++ repeat (LNil, nil_expr) (length rest))%list) st2).
        { rewrite set_nth_app, app_length, <- app_assoc. cbn [length app]. rewrite Nat.add_1_r. destruct k; auto. congruence. }
        split.
        -- intros [_ K]. destruct (I1 K) as (ps & -> & HP & E3). exists ((k, y2) :: ps).
           rewrite <- (app_assoc pre [(k, y2)] ps) in E3. cbn [app] in E3. cbn [cases_flat flat_map app fst snd length].
           rewrite orb_assoc, B. cbn [orb]. split; auto. split; auto. etransitivity; [exact EQ|]. exact E3.
        -- intros K. etransitivity; [exact EQ|]. apply I2. intros K'. apply K. split; auto. exists k. auto.
      * split; [intros [K _]; tauto|]. intros _. destruct y; auto. destruct l; auto; exfalso; apply Hy; eexists; split; try reflexivity; discriminate.
    + apply orb_false_iff in B. destruct B as [-> ->]. rewrite (Hn eq_refl), (Hn2 eq_refl) in *. cbn [orb].
      destruct (IH _ _ _ _ (pre ++ [(x, x2)])%list H HN') as [I1 I2].
      rewrite app_length, <- app_assoc in I1, I2. cbn [length app] in I1, I2. rewrite Nat.add_1_r in I1, I2.
      split.
      * intros [_ K]. destruct (I1 K) as (ps & -> & HP & ->). exists ((x, x2) :: ps).
        rewrite <- app_assoc. cbn [length app cases_flat flat_map fst snd]. auto.
      * intros K. apply I2. intros K'. apply K. split; auto. exists x. auto.
Qed.

(** multi-or-lists *)
Lemma nth_error_mid : forall T (pre : list T) x z, nth_error (pre ++ x :: z) (length pre) = Some x.
Proof. induction pre; intros; cbn; auto. Qed.
Lemma set_cell_mid : forall (pre z : list (list (expr R))) rp x rz y,
  set_cell (length pre) (length rp) y (pre ++ (rp ++ x :: rz) :: z)%list = Ok (pre ++ (rp ++ y :: rz) :: z)%list.
Proof.
  intros. unfold set_cell. rewrite nth_error_mid.
  assert (L : Nat.ltb (length rp) (length (rp ++ x :: rz)) = true) by (apply Nat.ltb_lt; rewrite app_length; cbn [length]; lia).
  rewrite L, set_nth_app, set_nth_app. reflexivity.
Qed.
Lemma row_some : forall rest v all row st ys ch st' v' (pre z : list (list (expr R))) rp rz,
  vs st (shown rest) ys ch st' -> length rz = length rest ->
  visit_row visit v all (length pre) row (length rp) rest (Some (v', (pre ++ (rp ++ rz) :: z)%list)) st =
    Ok (Some (v', (pre ++ (rp ++ ys) :: z)%list), st').
Proof.
  induction rest as [|x rest IH]; intros v all row st ys ch st' v' pre z rp rz H HL.
  - destruct rz; [|discriminate]. inversion H; subst. reflexivity.
  - destruct rz as [|z0 rz]; [discriminate|]. cbn [shown map] in H. apply visits_call in H.
    destruct H as (y & b & st1 & ys' & ch' & -> & E & H & -> & Hn). cbn [visit_row]. rewrite E. cbn [bind].
    rewrite set_cell_mid. cbn [bind].
    replace (S (length rp)) with (length (rp ++ [y])) by (rewrite app_length; cbn [length]; lia).
    replace (rp ++ y :: rz)%list with ((rp ++ [y]) ++ rz)%list by (rewrite <- app_assoc; auto).
    replace (rp ++ y :: ys')%list with ((rp ++ [y]) ++ ys')%list by (rewrite <- app_assoc; auto).
    eapply IH; eauto.
Qed.
Lemma row_none : forall rest v pre row rows st ys ch st' rp, row = (rp ++ rest)%list ->
  vs st (shown rest) ys ch st' ->
  visit_row visit v (pre ++ row :: rows) (length pre) row (length rp) rest None st =
    if ch then Panic else Ok (None, st').
Proof.
  induction rest as [|x rest IH]; intros v pre row rows st ys ch st' rp -> H.
  - inversion H; subst. reflexivity.
  - cbn [shown map] in H. apply visits_call in H.
    destruct H as (y & b & st1 & ys' & ch' & -> & E & H & -> & Hn). cbn [visit_row]. rewrite E. destruct b.
    + cbn [orb]. rewrite firstn_app, firstn_all, Nat.sub_diag, firstn_O, app_nil_r.
      rewrite firstn_app, firstn_all, Nat.sub_diag, firstn_O, app_nil_r, app_length. cbn [length].
      replace (length pre + S (length rows) - length pre)%nat with (S (length rows)) by lia. cbn [repeat].
      destruct rp as [|r0 rp]; cbn [copy_cells bind length].
      * unfold set_cell. rewrite nth_error_mid. reflexivity.
      * unfold set_cell at 1. rewrite nth_error_mid. reflexivity.
    + cbn [orb bind]. replace (S (length rp)) with (length (rp ++ [x])) by (rewrite app_length; cbn [length]; lia).
      eapply IH; eauto. rewrite <- app_assoc. auto.
Qed.

Definition blocks (rows : list (list (expr R))) : list (expr R * bool) := shown (List.concat rows).
Lemma visits_shown_app : forall l1 l2 st ys ch st', vs st (shown (l1 ++ l2)) ys ch st' ->
  exists y1 y2 c1 c2 st1, ys = (y1 ++ y2)%list /\ ch = (c1 || c2)%bool /\ vs st (shown l1) y1 c1 st1 /\ vs st1 (shown l2) y2 c2 st'.
Proof. intros l1 l2 st ys ch st' H. unfold shown in H. rewrite map_app in H. apply visits_app in H. exact H. Qed.

Lemma rows_some : forall rest v all st ys ch st' v' pre, vs st (blocks rest) ys ch st' ->
  exists rs, ys = List.concat rs /\ map (@length _) rs = map (@length _) rest /\
    visit_rows visit v all (length pre) rest (Some (v', (pre ++ repeat [] (length rest))%list)) st =
      Ok (Some (v', (pre ++ rs)%list), st').
Proof.
  induction rest as [|row rest IH]; intros v all st ys ch st' v' pre H.
  - inversion H; subst. exists []. cbn [visit_rows]. auto.
  - unfold blocks in H. cbn [List.concat] in H. apply visits_shown_app in H.
    destruct H as (y1 & y2 & c1 & c2 & st1 & -> & -> & H1 & H2). cbn [visit_rows length repeat].
    rewrite nth_error_mid, set_nth_app.
    change (repeat nil_expr (length row)) with ([] ++ repeat (@nil_expr R) (length row))%list.
    change 0%nat with (length (@nil (expr R))) at 1.
    rewrite (row_some row v all row st y1 c1 st1 v' pre _ [] (repeat nil_expr (length row)) H1) by apply repeat_length.
    cbn [bind app].
    replace (S (length pre)) with (length (pre ++ [y1])) by (rewrite app_length; cbn [length]; lia).
    replace (pre ++ y1 :: repeat [] (length rest))%list with ((pre ++ [y1]) ++ repeat [] (length rest))%list by (rewrite <- app_assoc; auto).
    destruct (IH v all _ _ _ _ v' (pre ++ [y1])%list H2) as (rs & -> & HL & ->).
    exists (y1 :: rs). cbn [List.concat map]. rewrite <- app_assoc, HL. split; auto. split; auto. f_equal.
    rewrite (visits_length _ _ _ _ _ H1). unfold shown. apply map_length.
Qed.
Lemma rows_none : forall rest v st ys ch st' pre, vs st (blocks rest) ys ch st' ->
  visit_rows visit v (pre ++ rest) (length pre) rest None st = if ch then Panic else Ok (None, st').
Proof.
  induction rest as [|row rest IH]; intros v st ys ch st' pre H.
  - inversion H; subst. reflexivity.
  - unfold blocks in H. cbn [List.concat] in H. apply visits_shown_app in H.
    destruct H as (y1 & y2 & c1 & c2 & st1 & -> & -> & H1 & H2). cbn [visit_rows].
    assert (ER := row_none row v pre row rest st y1 c1 st1 [] eq_refl H1). cbn [length] in ER. unfold mo_out in *. rewrite ER. destruct c1; [reflexivity|]. cbn [bind orb].
    replace (S (length pre)) with (length (pre ++ [row])) by (rewrite app_length; cbn [length]; lia).
    replace (pre ++ row :: rest)%list with ((pre ++ [row]) ++ rest)%list by (rewrite <- app_assoc; auto).
    eapply IH; eauto.
Qed.

Lemma multi_char : forall v opts st y1 c1 st1 y2 c2 st2,
  vs st (shown v) y1 c1 st1 -> vs st1 (shown (List.concat opts)) y2 c2 st2 ->
  if c1 then exists v' opts', expr_visit visit (EMultiOr v opts) st = Ok (Some (EMultiOr v' opts'), st2) /\
               v' = y1 /\ List.concat opts' = y2 /\ map (@length _) opts' = map (@length _) opts
  else if c2 then expr_visit visit (EMultiOr v opts) st = Panic
  else expr_visit visit (EMultiOr v opts) st = Ok (None, st2).
Proof.
  intros v opts st y1 c1 st1 y2 c2 st2 H1 H2. cbn [expr_visit]. rewrite (slice_char _ _ _ _ _ H1). destruct c1; cbn [option_map].
  - destruct (rows_some opts v opts _ _ _ _ y1 [] H2) as (rs & E & HL & ER). cbn [length app] in ER. rewrite ER. cbn [bind option_map fst snd].
    exists y1, rs. auto.
  - assert (ER := rows_none opts v _ _ _ _ [] H2). cbn [length app] in ER. unfold mo_out in *. rewrite ER. destruct c2; reflexivity.
Qed.

(** ** shells *)

Lemma shown_fst : forall l, map fst (shown l) = l.
Proof. intros. unfold shown. rewrite map_map. cbn [fst]. apply map_id. Qed.
Lemma both_fst : forall l, map fst (both l) = flat2 l.
Proof. induction l as [|[a b] l IH]; auto. unfold both, flat2 in *. cbn [flat_map app map fst snd]. rewrite IH. auto. Qed.
Lemma cases_fst : forall l, map fst (cases_shown l) = cases_flat l.
Proof. induction l as [|[a b] l IH]; auto. unfold cases_shown, cases_flat in *. cbn [flat_map app map fst snd]. rewrite IH. auto. Qed.
Lemma const_map : forall S T (c : T) (l l' : list S), length l = length l' -> map (fun _ => c) l = map (fun _ => c) l'.
Proof. induction l; destruct l'; intros H; try discriminate; cbn [map]; auto. f_equal. auto. Qed.

Definition rebuilt (e : expr R) (ys : list (expr R)) (e' : expr R) : Prop := shell e' = shell e /\ map fst (slots e') = ys.

Ltac unchanged H := apply visits_unchanged in H.

Theorem visit_char : forall e st ys ch st',
  e <> blank -> (forall v opts, e <> EMultiOr v opts) -> vs st (slots e) ys ch st' ->
  (forall m ifs els, e = ESwitch m ifs els -> Forall (fun p => fst p <> LNil) ifs /\ keys_literal (tl ys) (length ifs)) ->
  if ch then exists e', expr_visit visit e st = Ok (Some e', st') /\ rebuilt e ys e'
  else expr_visit visit e st = Ok (None, st').
Proof.
  intros e st ys ch st' HN HM H HS. unfold rebuilt.
  destruct e; cbn [slots] in H; try (inversion H; subst; reflexivity).
  - inversion H; subst. destruct l; try reflexivity. exfalso. apply HN. reflexivity.
  - cbn [expr_visit]. assert (E := args_none args st ys ch st' [] H). cbn [app length] in E. rewrite E.
    destruct ch; [|reflexivity]. cbn [option_map]. eexists; split; [reflexivity|].
    destruct (put_args_shell _ _ _ _ _ H) as [H1 H2]. cbn [shell slots]. rewrite H1, H2. auto.
  - cbn [expr_visit]. assert (E := args_none args st ys ch st' [] H). cbn [app length] in E. rewrite E.
    destruct ch; [|reflexivity]. cbn [option_map]. eexists; split; [reflexivity|].
    destruct (put_args_shell _ _ _ _ _ H) as [H1 H2]. cbn [shell slots]. rewrite H1, H2. auto.
  - apply visits_app in H. destruct H as (y1 & y2 & c1 & c2 & st1 & -> & -> & H1 & H2).
    destruct (visits_one _ _ _ _ _ H2) as (y & -> & E2 & Hn). cbn [expr_visit].
    destruct (pairs_none ifs (fun _ => ifs) st y1 c1 st1 [] H1) as (ps & Ey & HP & E1).
    { intros p r E. exists r. cbn [app] in E. auto. }
    cbn [length app] in E1. rewrite E1, E2. destruct c1; cbn [orb].
    + eexists; split; [reflexivity|]. cbn [shell slots]. rewrite (const_map _ _ _ ps ifs HP). split; auto.
      rewrite map_app. fold (both ps). rewrite both_fst, Ey. reflexivity.
    + destruct c2; [|reflexivity]. eexists; split; [reflexivity|]. cbn [shell slots]. split; auto.
      rewrite map_app. fold (both ifs). unchanged H1. fold (both ifs) in H1. rewrite H1. reflexivity.
  - destruct (HS m ifs e2 eq_refl) as [HN1 HK] || destruct (HS _ _ _ eq_refl) as [HN1 HK].
    apply visits_call in H. destruct H as (ym & bm & st1 & ys' & ch' & -> & Em & H & -> & Hm).
    apply visits_app in H. destruct H as (y1 & y2 & c1 & c2 & st2 & -> & -> & H1 & H2).
    destruct (visits_one _ _ _ _ _ H2) as (y & -> & E2 & Hn). cbn [expr_visit tl] in *. rewrite Em.
    assert (HK' : keys_literal y1 (length ifs)).
    { assert (L := visits_length _ _ _ _ _ H1). clear - HK L. revert y1 HK L.
      induction ifs as [|p ifs IH]; intros y1 HK L; cbn [length flat_map app] in *; [destruct y1; exact I|].
      destruct y1 as [|a [|b y1]]; try discriminate. cbn [app keys_literal] in *. destruct HK as [K1 K2]. split; auto.
      apply IH; auto. cbn [length] in L. lia. }
    destruct bm.
    + destruct (cases_some ifs ifs st1 y1 c1 st2 [] (repeat (LNil, nil_expr) (length ifs)) H1 ltac:(apply repeat_length)) as [C _].
      destruct (C HK') as (ps & Ey & HP & E1). cbn [length app] in E1. rewrite E1. cbn [bind]. rewrite E2. cbn [orb].
      eexists; split; [reflexivity|]. cbn [shell slots map fst]. rewrite (const_map _ _ _ ps ifs HP). split; auto.
      rewrite map_app. fold (cases_shown ps). rewrite cases_fst, Ey. reflexivity.
    + destruct (cases_none ifs st1 y1 c1 st2 [] H1 HN1) as [C _].
      destruct (C HK') as (ps & Ey & HP & E1). cbn [length app] in E1. rewrite E1. cbn [bind]. rewrite E2. cbn [orb].
      rewrite (Hm eq_refl). destruct c1; cbn [orb].
      * eexists; split; [reflexivity|]. cbn [shell slots map fst]. rewrite (const_map _ _ _ ps ifs HP). split; auto.
        rewrite map_app. fold (cases_shown ps). rewrite cases_fst, Ey. reflexivity.
      * destruct c2; [|reflexivity]. eexists; split; [reflexivity|]. cbn [shell slots map fst]. split; auto.
        rewrite map_app. fold (cases_shown ifs). unchanged H1. fold (cases_shown ifs) in H1. rewrite H1. reflexivity.
  - apply visits_call in H. destruct H as (ym & bm & st1 & ys' & ch' & -> & Em & H & -> & Hm). cbn [expr_visit]. rewrite Em.
    fold (shown opts) in H. destruct bm; cbn [orb].
    + assert (E := loop_some opts opts st1 ys' ch' st' [] (repeat nil_expr (length opts)) H ltac:(apply repeat_length)).
      cbn [length app] in E. rewrite E. cbn [option_map]. eexists; split; [reflexivity|]. cbn [shell slots map fst].
      assert (L := visits_length _ _ _ _ _ H). unfold shown in L. rewrite map_length in L.
      rewrite (const_map _ _ _ ys' opts L). split; auto. fold (shown ys'). rewrite shown_fst. reflexivity.
    + assert (E := loop_none opts st1 ys' ch' st' [] H). cbn [length app] in E. rewrite E. rewrite (Hm eq_refl). destruct ch'; [|reflexivity].
      cbn [option_map]. eexists; split; [reflexivity|]. cbn [shell slots map fst].
      assert (L := visits_length _ _ _ _ _ H). unfold shown in L. rewrite map_length in L.
      rewrite (const_map _ _ _ ys' opts L). split; auto. fold (shown ys'). rewrite shown_fst. reflexivity.
  - exfalso. eapply HM. reflexivity.
  - destruct (visits_one _ _ _ _ _ H) as (y & -> & E & Hn). cbn [expr_visit]. rewrite E. destruct ch; [|reflexivity].
    eexists; split; [reflexivity|]. auto.
  - cbn [expr_visit].
    destruct (pairs_none kvs (fun i => fresh_prefix (nil_expr, nil_expr) i kvs) st ys ch st' [] H) as (ps & Ey & HP & E1).
    { intros p r E. cbn [app] in E. subst kvs. exists (repeat (nil_expr, nil_expr) (length r)). rewrite fresh_prefix_app, repeat_length. auto. }
    cbn [length app] in E1. rewrite E1. destruct ch; [|reflexivity]. cbn [option_map]. eexists; split; [reflexivity|].
    cbn [shell slots]. rewrite (const_map _ _ _ ps kvs HP). split; auto. fold (both ps). rewrite both_fst. auto.
  - cbn [expr_visit]. fold (shown fields) in H. rewrite (slice_char _ _ _ _ _ H). destruct ch; [|reflexivity]. cbn [option_map].
    eexists; split; [reflexivity|]. cbn [shell slots].
    assert (L := visits_length _ _ _ _ _ H). unfold shown in L. rewrite map_length in L.
    rewrite (const_map _ _ _ ys fields L). split; auto. fold (shown ys). rewrite shown_fst. reflexivity.
  - cbn [expr_visit]. fold (shown vals) in H. rewrite (slice_char _ _ _ _ _ H). destruct ch; [|reflexivity]. cbn [option_map].
    eexists; split; [reflexivity|]. cbn [shell slots].
    assert (L := visits_length _ _ _ _ _ H). unfold shown in L. rewrite map_length in L.
    rewrite (const_map _ _ _ ys vals L). split; auto. fold (shown ys). rewrite shown_fst. reflexivity.
  - destruct (visits_one _ _ _ _ _ H) as (y & -> & E & Hn). cbn [expr_visit]. rewrite E. destruct ch; [|reflexivity].
    eexists; split; [reflexivity|]. auto.
  - cbn [expr_visit]. fold (shown needles) in H. rewrite (slice_char _ _ _ _ _ H). destruct ch; [|reflexivity]. cbn [option_map].
    eexists; split; [reflexivity|]. cbn [shell slots].
    assert (L := visits_length _ _ _ _ _ H). unfold shown in L. rewrite map_length in L.
    rewrite (const_map _ _ _ ys needles L). split; auto. fold (shown ys). rewrite shown_fst. reflexivity.
  - destruct (visits_one _ _ _ _ _ H) as (y & -> & E & Hn). cbn [expr_visit]. rewrite E. destruct ch; [|reflexivity].
    eexists; split; [reflexivity|]. auto.
Qed.

Theorem visit_switch_panic : forall m ifs els st ys ch st',
  vs st (slots (ESwitch m ifs els)) ys ch st' ->
  Forall (fun p => fst p <> LNil) ifs -> ~ keys_literal (tl ys) (length ifs) ->
  expr_visit visit (ESwitch m ifs els) st = Panic.
Proof.
  intros m ifs els st ys ch st' H HN HK. cbn [slots] in H.
  apply visits_call in H. destruct H as (ym & bm & st1 & ys' & ch' & -> & Em & H & -> & Hm).
  apply visits_app in H. destruct H as (y1 & y2 & c1 & c2 & st2 & -> & -> & H1 & H2).
  cbn [expr_visit tl] in *. rewrite Em.
  assert (HK' : ~ keys_literal y1 (length ifs)).
  { intros K. apply HK. clear - K. revert y1 K. induction ifs as [|p ifs IH]; intros y1 K; cbn [length] in *; [destruct (y1 ++ y2)%list; exact I|].
    destruct y1 as [|a [|b y1]]; try contradiction. cbn [app keys_literal] in *. destruct K. split; auto. }
  destruct bm.
  - destruct (cases_some ifs ifs st1 y1 c1 st2 [] (repeat (LNil, nil_expr) (length ifs)) H1 ltac:(apply repeat_length)) as [_ C].
    assert (E := C HK'). cbn [length app] in E. rewrite E. reflexivity.
  - destruct (cases_none ifs st1 y1 c1 st2 [] H1 HN) as [_ C].
    assert (E := C HK'). cbn [length app] in E. rewrite E. reflexivity.
Qed.
End Visit.

(** a shell and the expressions in its slots make up the expression *)
Section Shell.
Context {R : Type}.
Notation ex := (expr R).

Lemma args_join : forall args args' : list (farg ex), map arg_shell args = map arg_shell args' ->
  map fst (flat_map arg_slots args) = map fst (flat_map arg_slots args') -> args = args'.
Proof.
  assert (HS : forall x : ex, map fst (arg_slots (AExpr x)) = [x]).
  { intros x. cbn [arg_slots]. destruct x; auto. destruct l; auto. }
  induction args as [|a args IH]; intros [|b args'] H1 H2; try discriminate; auto.
  cbn [map flat_map] in *. rewrite !map_app in H2.
  assert (H3 := f_equal (@tl _) H1). assert (H4 := f_equal (@hd_error _) H1). cbn [tl hd_error] in H3, H4. clear H1.
  destruct a, b; try discriminate H4.
  - cbn [arg_slots map app] in H2. injection H4 as ->. f_equal. apply IH; auto.
  - cbn [arg_slots map app] in H2. injection H4 as ->. f_equal. apply IH; auto.
  - rewrite !HS in H2. cbn [app] in H2. injection H2 as -> H2. f_equal. apply IH; auto.
Qed.
Lemma pairs_join : forall l l' : list (ex * ex), flat2 l = flat2 l' -> l = l'.
Proof.
  induction l as [|[a b] l IH]; intros [|[a' b'] l'] H; try discriminate; auto.
  cbn [flat2 flat_map app fst snd] in H. injection H as -> -> H. f_equal. apply IH. auto.
Qed.
Lemma cases_join : forall l l' : list (lit * ex), cases_flat l = cases_flat l' -> l = l'.
Proof.
  induction l as [|[a b] l IH]; intros [|[a' b'] l'] H; try discriminate; auto.
  cbn [cases_flat flat_map app fst snd] in H. injection H as -> -> H. f_equal. apply IH. auto.
Qed.
Lemma concat_join : forall S T (c : T) (l l' : list (list S)), map (map (fun _ => c)) l = map (map (fun _ => c)) l' ->
  List.concat l = List.concat l' -> l = l'.
Proof.
  induction l as [|a l IH]; intros [|b l'] H1 H2; try discriminate; auto.
  cbn [map List.concat] in *.
  assert (H3 := f_equal (@tl _) H1). assert (H4 := f_equal (@hd_error _) H1). cbn [tl hd_error] in H3, H4. injection H4 as H4.
  assert (HL : length a = length b) by (apply (f_equal (@length _)) in H4; rewrite !map_length in H4; auto).
  assert (a = b /\ List.concat l = List.concat l') as [-> H5].
  { clear - HL H2. revert b HL H2. induction a as [|x a IHa]; intros [|y b] HL H2; try discriminate; auto.
    cbn [app] in H2. injection H2 as -> H2. destruct (IHa b) as [-> H]; auto. }
  f_equal. apply IH; auto.
Qed.

Theorem shell_slots : forall a b : ex, shell a = shell b -> map fst (slots a) = map fst (slots b) -> a = b.
Proof.
  intros a b H1 H2. destruct a, b; try discriminate H1; cbn [shell slots] in *; auto.
  - injection H1 as -> -> H1 -> ->. f_equal. apply args_join; auto.
  - injection H1 as -> -> H1 -> -> -> -> -> -> -> -> ->. f_equal. apply args_join; auto.
  - rewrite !map_app in H2. apply app_inj_tail in H2. destruct H2 as [H2 H3]. cbn [fst] in H3. subst.
    fold (both ifs) in H2. fold (both ifs0) in H2. rewrite !both_fst in H2. apply pairs_join in H2. subst. auto.
  - cbn [map] in H2. rewrite !map_app in H2. injection H2 as -> H2. apply app_inj_tail in H2. destruct H2 as [H2 H3]. cbn [fst] in H3. subst.
    fold (cases_shown ifs) in H2. fold (cases_shown ifs0) in H2. rewrite !cases_fst in H2. apply cases_join in H2. subst. auto.
  - cbn [map fst] in H2. injection H2 as -> H2. fold (shown opts) in H2. fold (shown opts0) in H2. rewrite !shown_fst in H2. subst. auto.
  - injection H1 as H1 H3. fold (shown (v ++ List.concat opts)) in H2. fold (shown (v0 ++ List.concat opts0)) in H2. rewrite !shown_fst in H2.
    assert (E : v :: opts = v0 :: opts0) by (apply (concat_join _ _ (@blank R)); [cbn [map]; f_equal; auto|exact H2]).
    injection E as -> ->. auto.
  - cbn [map fst] in H2. injection H2 as ->. injection H1 as -> ->. auto.
  - injection H1 as -> -> H1. fold (both kvs) in H2. fold (both kvs0) in H2. rewrite !both_fst in H2. apply pairs_join in H2. subst. auto.
  - injection H1 as -> -> H1. fold (shown fields) in H2. fold (shown fields0) in H2. rewrite !shown_fst in H2. subst. auto.
  - injection H1 as -> -> H1. fold (shown vals) in H2. fold (shown vals0) in H2. rewrite !shown_fst in H2. subst. auto.
  - cbn [map fst] in H2. injection H2 as ->. injection H1 as -> -> ->. auto.
  - injection H1 as H1 ->. fold (shown needles) in H2. fold (shown needles0) in H2. rewrite !shown_fst in H2. subst. auto.
  - cbn [map fst] in H2. injection H2 as ->. injection H1 as -> -> ->. auto.
Qed.
End Shell.
