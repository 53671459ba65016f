(** Theorems of C74: cloned aggregate functions are independent. *)

From Coq Require Import List Bool Arith Lia String.
From Verif Require Import Base ExprModel PlanAliasModel PlanAliasSpec PlanAliasProofs CloneModel CloneSpec CloneProofs.
Import ListNotations.

Section Clone.
Context {A S F : Type}.
Variable no_arg : A.
Variable no_sort : S.
Variable spare : nat -> nat.
Notation world := (world A S F).
Notation value := (value A S F).
Notation run := (run no_arg no_sort spare).
Notation do_op := (do_op no_arg no_sort spare).

(** Programs over functions that were built separately, with any clones made on the way, see plain values:
    a program goes through exactly if it does on values, and shows the same. *)
Theorem C74_values : forall os (w : world) x, separate w -> views w x ->
  (forall w', run w os = Ok w' -> separate w' /\ exists y, steps x os y /\ views w' y) /\
  (forall y, steps x os y -> exists w', run w os = Ok w' /\ views w' y).
Proof.
  intros os w [ms vs] K V. destruct (steps_right no_arg no_sort spare os w ms vs K V) as [(w1 & y & E & ST & K1 & V1)|[E N]]; split.
  - intros w' H. rewrite E in H. injection H as <-. eauto.
  - intros z Z. exists w1. split; auto. enough (z = y) by (subst; auto).
    clear - Z ST. revert z Z. induction ST as [x|x o y os z S1 S2 IH]; intros u U; inversion U as [|a b c d e U1 U2]; subst; auto.
    apply IH. enough (c = y) by (subst; auto). clear - S1 U1. destruct S1; inversion U1; subst;
      repeat match goal with H : sets _ _ _ _ |- _ => apply sets_put in H; destruct H as [? ->] end; try reflexivity;
      repeat match goal with H1 : nth_error ?l ?i = Some _, H2 : nth_error ?l ?i = Some _ |- _ => rewrite H1 in H2; injection H2; clear H2; intros; subst end;
      try reflexivity; congruence.
  - intros w' H. destruct E; congruence.
  - intros y Y. destruct (N y Y).
Qed.
(** An operation on an existing function panics exactly if its place does not exist. *)
Theorem C74_panics : forall (w : world) o x, separate w -> views w x ->
  do_op w o = Panic <-> target o < List.length (snd x) /\ forall y, ~ step x o y.
Proof.
  intros w o [ms vs] K V. destruct (step_right no_arg no_sort spare w o ms vs K V) as [(w1 & y & E & ST & _)|[E N]]; cbn [snd]; split.
  - congruence.
  - intros [_ X]. destruct (X _ ST).
  - intros H. destruct E as [_|[_ E]]; [|congruence]. split; auto. destruct V as [_ V]. cbn in V. rewrite <- (F2_len _ _ _ _ _ V).
    apply nth_error_Some. unfold CloneModel.do_op in H. destruct (nth_error (w_funcs w) (target o)); congruence.
  - intros [L _]. destruct E as [E|[E _]]; auto. apply nth_error_None in E. lia.
Qed.

(** A clone shows what its original shows, and has storage of its own. *)
Theorem C74_clone : forall (w : world) k f v, separate w -> nth_error (w_funcs w) k = Some f -> seen w f v ->
  exists w' g, do_op w (Clone k) = Ok w' /\ w_funcs w' = (w_funcs w ++ [g])%list /\ seen w' g v /\ separate w'.
Proof.
  intros w k f v K E SV. assert (AL : exists vs, Forall2 (seen w) (w_funcs w) vs /\ nth_error vs k = Some v).
  { assert (G : forall fs : list (func F), (forall g, In g fs -> In g (w_funcs w)) -> exists vs, Forall2 (seen w) fs vs).
    { induction fs as [|g fs IH]; intros I; [exists []; constructor|]. destruct IH as [vs H]; [intros; apply I; right; auto|].
      destruct K as (KA & KO & KS). assert (IG := I g (or_introl eq_refl)).
      exists (Value (match f_args g with None => None | _ => Some (read (w_args w) (f_args g)) end)
              (match f_opts g with None => None | _ => Some (read (w_opts w) (f_opts g)) end)
              (match f_sorts g with None => None | _ => Some (read (w_sorts w) (f_sorts g)) end) (f_rest g) :: vs).
      constructor; auto. split; [|split; [|split; [|reflexivity]]]; cbn [v_args v_opts v_sorts].
      - apply holds_read; [destruct KA as [V _]; rewrite Forall_forall in V; apply V, in_map; auto|destruct (f_args g); reflexivity].
      - apply holds_read; [destruct KO as [V _]; rewrite Forall_forall in V; apply V, in_map; auto|destruct (f_opts g); reflexivity].
      - apply holds_read; [destruct KS as [V _]; rewrite Forall_forall in V; apply V, in_map; auto|destruct (f_sorts g); reflexivity]. }
    destruct (G (w_funcs w)) as [vs H]; auto. exists vs. split; auto. destruct (F2_nth _ _ _ _ _ _ _ H E) as (u & U & SU). rewrite U.
    apply nth_error_In in E as I. rewrite (seen_fun w f u K I SU), (seen_fun w f v K I SV). reflexivity. }
  destruct AL as (vs & FV & EV).
  destruct (step_right no_arg no_sort spare w (Clone k) (w_msgs w) vs K (conj eq_refl FV)) as [(w1 & y & D & ST & K1 & V1)|[_ N]].
  - assert (D' := D). unfold CloneModel.do_op in D'. cbn [target] in D'. rewrite E in D'. injection D' as D'.
    unfold clone in D'. destruct (copy_slice no_arg _ _) as [ha a']. destruct (copy_slice 0 _ _) as [ho o']. destruct (copy_slice no_sort _ _) as [hs s'].
    exists w1, (Func a' o' s' (f_rest f)). split; auto. assert (WF : w_funcs w1 = (w_funcs w ++ [Func a' o' s' (f_rest f)])%list) by (subst w1; reflexivity).
    split; auto. split; auto. inversion ST as [ms' vs' i u EU X1 X2 X3| | | | | |]; subst. destruct V1 as [_ V1]. cbn [snd] in V1. rewrite WF in V1.
    rewrite EV in EU. injection EU as <-.
    destruct (F2_nth _ _ _ _ _ (List.length (w_funcs w)) (Func a' o' s' (f_rest f)) V1) as (u & U & SU).
    { rewrite nth_error_app2, Nat.sub_diag by lia. reflexivity. }
    rewrite (F2_len _ _ _ _ _ FV), nth_error_app2, Nat.sub_diag in U by lia. injection U as <-. auto.
  - exfalso. apply (N (w_msgs w, (vs ++ [v])%list)). constructor. auto.
Qed.

(** What is done to other functions, clones and originals included, is not seen through a function. *)
Theorem C74_independent : forall os (w w' : world) k f v, separate w -> nth_error (w_funcs w) k = Some f -> seen w f v ->
  run w os = Ok w' -> (forall o, In o os -> target o <> k \/ o = Clone (target o)) ->
  exists f', nth_error (w_funcs w') k = Some f' /\ seen w' f' v.
Proof.
  intros os. induction os as [|o os IH]; intros w w' k f v K E SV H N; cbn [CloneModel.run] in H.
  - injection H as <-. eauto.
  - destruct (do_op w o) as [w1| |] eqn:D; try discriminate. cbn [bind] in H.
    assert (AL : exists vs, Forall2 (seen w) (w_funcs w) vs /\ nth_error vs k = Some v).
    { destruct (C74_clone w k f v K E SV) as (w2 & g & _ & _ & _ & _).
      assert (G : forall fs : list (func F), (forall g, In g fs -> In g (w_funcs w)) -> exists vs, Forall2 (seen w) fs vs).
      { induction fs as [|g' fs IHf]; intros I; [exists []; constructor|]. destruct IHf as [vs H']; [intros; apply I; right; auto|].
        destruct K as (KA & KO & KS). assert (IG := I g' (or_introl eq_refl)).
        exists (Value (match f_args g' with None => None | _ => Some (read (w_args w) (f_args g')) end)
              (match f_opts g' with None => None | _ => Some (read (w_opts w) (f_opts g')) end)
              (match f_sorts g' with None => None | _ => Some (read (w_sorts w) (f_sorts g')) end) (f_rest g') :: vs).
        constructor; auto. split; [|split; [|split; [|reflexivity]]]; cbn [v_args v_opts v_sorts].
        - apply holds_read; [destruct KA as [V _]; rewrite Forall_forall in V; apply V, in_map; auto|destruct (f_args g'); reflexivity].
        - apply holds_read; [destruct KO as [V _]; rewrite Forall_forall in V; apply V, in_map; auto|destruct (f_opts g'); reflexivity].
        - apply holds_read; [destruct KS as [V _]; rewrite Forall_forall in V; apply V, in_map; auto|destruct (f_sorts g'); reflexivity]. }
      destruct (G (w_funcs w)) as [vs H']; auto. exists vs. split; auto. destruct (F2_nth _ _ _ _ _ _ _ H' E) as (u & U & SU). rewrite U.
      apply nth_error_In in E as I. rewrite (seen_fun w f u K I SU), (seen_fun w f v K I SV). reflexivity. }
    destruct AL as (vs & FV & EV).
    destruct (step_right no_arg no_sort spare w o (w_msgs w) vs K (conj eq_refl FV)) as [(w2 & [ms2 vs2] & D' & ST & K2 & [M2 V2])|[[X|[_ X]] _]]; try congruence.
    rewrite D in D'. injection D' as <-. assert (EV2 := step_keeps _ _ _ _ _ ST EV (N o (or_introl eq_refl))). cbn [snd] in EV2, V2.
    assert (LK : k < List.length (w_funcs w1)) by (rewrite (F2_len _ _ _ _ _ V2); apply nth_error_Some; congruence).
    destruct (nth_error (w_funcs w1) k) as [f1|] eqn:E1; [|apply nth_error_None in E1; lia].
    destruct (F2_nth _ _ _ _ _ _ _ V2 E1) as (u & U & SU). rewrite U in EV2. injection EV2 as ->.
    eapply IH; eauto. intros p P. apply N. right. auto.
Qed.

(** An option is found by its name: the first of that name, nothing if there is none; a nil option before it panics. *)
Theorem C74_get_option : forall (w : world) f l name, valid (w_opts w) (f_opts f) -> shows (w_opts w) (f_opts f) l ->
  (forall p, get_option w f name = Ok p <-> option_of (w_msgs w) name l p) /\
  ((forall p, ~ option_of (w_msgs w) name l p) <-> get_option w f name = Panic).
Proof.
  intros w f l name V SH. assert (L := shows_read _ _ _ V SH). unfold get_option. rewrite <- L. split; [intros p; apply find_option_ok|].
  destruct (find_option (w_msgs w) name l) as [p| |] eqn:E.
  - split; [|discriminate]. intros N. apply find_option_ok in E. destruct (N _ E).
  - destruct (find_option_no_err _ _ _ E).
  - split; auto. intros _ p P. apply find_option_ok in P. congruence.
Qed.

(** The options of a clone are its own: false for what they say.  A clone holds the same option messages, so
    editing one through the clone is seen through the original. *)
Theorem C74_option_message_refuted : forall (w : world) k f x r, separate w -> nth_error (w_funcs w) k = Some f ->
  f_opts f = Some x -> 0 < sl_len x -> nth_error (read (w_opts w) (f_opts f)) 0 = Some r -> r < List.length (w_msgs w) ->
  forall name prefs, exists w', run w [Clone k; EditOption (List.length (w_funcs w)) 0 (name, prefs)] = Ok w' /\
    nth_error (w_funcs w') k = Some f /\ get_option w' f name = Ok prefs.
Proof.
  intros w k f x r K E FX L R LR name prefs.
  assert (VD := bank_valid _ _ _ _ (proj1 (proj2 K)) (map_nth_error f_opts _ _ E)).
  assert (LK : k < List.length (w_funcs w)) by (apply nth_error_Some; congruence).
  cbn [CloneModel.run]. unfold CloneModel.do_op at 1. cbn [target]. rewrite E. cbn [bind]. unfold clone.
  destruct (copy_slice no_arg _ _) as [ha a']. destruct (copy_slice 0 _ _) as [ho o'] eqn:CO. destruct (copy_slice no_sort _ _) as [hs s'].
  unfold copy_slice in CO. rewrite FX in CO. apply alloc_spec in CO. destruct CO as (U & V' & RD & (v & -> & _) & _).
  unfold CloneModel.do_op. cbn [target w_funcs]. rewrite nth_error_app2, Nat.sub_diag by lia. cbn [nth_error].
  unfold edit_option. cbn [w_opts w_msgs f_opts]. rewrite RD. rewrite FX in R. rewrite R. apply Nat.ltb_lt in LR as LR'. rewrite LR'. cbn [bind].
  eexists. split; [reflexivity|]. cbn [w_funcs]. split; [rewrite nth_error_app1; auto|].
  unfold get_option. cbn [w_opts w_msgs]. rewrite FX in *. rewrite (untouched_read _ _ _ U VD).
  destruct (read (w_opts w) (Some x)) as [|r0 rs]; [discriminate|]. cbn [nth_error] in R. injection R as ->.
  cbn [find_option]. rewrite put_nth, Nat.eqb_refl, LR', String.eqb_refl. reflexivity.
Qed.
(** Functions built by the constructor are independent: false if they were given the same arguments slice; setting
    an argument of one sets it for the other. *)
Theorem C74_shared_arguments_refuted : forall (w : world) (args o1 o2 s1 s2 : slice) (r1 r2 : F) x j a,
  args = Some x -> valid (w_args w) args -> j < sl_len x ->
  w_funcs w = [construct args o1 s1 r1; construct args o2 s2 r2] ->
  exists w' l, run w [SetArg 0 j a] = Ok w' /\ w_funcs w' = w_funcs w /\
    shows (w_args w') (f_args (construct args o2 s2 r2)) l /\ nth_error l j = Some a.
Proof.
  intros w args o1 o2 s1 s2 r1 r2 x j a -> V L WF. cbn [CloneModel.run]. unfold CloneModel.do_op. cbn [target]. rewrite WF. cbn [nth_error].
  unfold set_arg. cbn [construct f_args].
  assert (K : bank (w_args w) [Some x]).
  { split; [auto|]. intros i k b c N X Y. destruct i as [|[|i]], k as [|[|k]]; cbn in X, Y; congruence. }
  destruct (bank_write _ _ 0 x j a K eq_refl L) as (h' & W & BW & _ & _ & NW). rewrite W. cbn [bind].
  do 2 eexists. split; [reflexivity|]. cbn [w_funcs w_args]. split; [auto|]. split; [exact NW|]. rewrite put_nth, Nat.eqb_refl.
  rewrite (read_len _ _ V). apply Nat.ltb_lt in L. rewrite L. reflexivity.
Qed.
End Clone.
Print Assumptions C74_values.
Print Assumptions C74_panics.
Print Assumptions C74_clone.
Print Assumptions C74_independent.
Print Assumptions C74_get_option.
Print Assumptions C74_option_message_refuted.
Print Assumptions C74_shared_arguments_refuted.

(** ** cases *)

(** two functions with arrays of their own: one with room behind its sorts, one without sorts *)
Definition two_functions : world nat nat nat :=
  World [[7; 8]; [9]] [[0]; [0]] [[1; 2; 99]] [("overflow", ["ERROR"])]%string
    [Func (Some (Sl 0 0 2 2)) (Some (Sl 0 0 1 1)) (Some (Sl 0 0 2 3)) 5; Func (Some (Sl 1 0 1 1)) (Some (Sl 1 0 1 1)) None 6].
Example C74_separate_case : separate two_functions /\
  views two_functions ([("overflow", ["ERROR"])]%string, [Value (Some [7; 8]) (Some [0]) (Some [1; 2]) 5; Value (Some [9]) (Some [0]) None 6]).
Proof.
  split.
  - unfold separate, bank, apart. cbn. repeat split; repeat constructor; cbn; try (eexists; split; [reflexivity|cbn; lia]);
      intros [|[|[|i]]] [|[|[|j]]] a b N X Y; cbn in X, Y; try congruence; injection X as <-; injection Y as <-; cbn; congruence.
  - split; [reflexivity|]. repeat constructor; cbn; try discriminate; intros [|[|i]] L; cbn; auto; lia.
Qed.
Definition go (os : list (op nat nat)) : res (list (list nat * list nat)) :=
  let! w := run 0 0 (fun _ => 1) two_functions os in
  Ok (map (fun f => (read (w_args w) (f_args f), read (w_sorts w) (f_sorts f))) (w_funcs w)).
Example C74_run_case :
  go [Clone 0; SetArg 2 1 50; AddSort 0 3; AddSort 2 4; AddSort 1 6; SetSort 0 0 9; SetArg 0 0 60]
  = Ok [([60; 8], [9; 2; 3]); ([9], [6]); ([7; 50], [1; 2; 4])] /\ go [Clone 1; SetArg 2 1 0] = Panic.
Proof. split; reflexivity. Qed.
(** the hypotheses of [C74_option_message_refuted], [C74_clone] and [C74_shared_arguments_refuted] *)
Example C74_more_cases : nth_error (read (w_opts two_functions) (Some (Sl 0 0 1 1))) 0 = Some 0 /\
  get_option two_functions (Func (Some (Sl 0 0 2 2)) (Some (Sl 0 0 1 1)) None 0) "overflow" = Ok ["ERROR"]%string /\
  valid (w_args two_functions) (Some (Sl 0 0 2 2)).
Proof. repeat split; try reflexivity. exists [7; 8]. split; [reflexivity|cbn; lia]. Qed.
