(** Theorems of C75: the default collection, whatever goroutines ask for it and when. *)

From Coq Require Import List Bool Arith Lia String.
From Verif Require Import Base FMap ExtSetModel LoadModel LoadSpec LoadProofs LoadProps PlanAliasModel OnceModel OnceSpec OnceProofs.
Import ListNotations.

Section Once.
Variable entries : list entry.
Notation schedule := (schedule entries).

(** Under every schedule the files are loaded at most once. *)
Theorem C75_once : forall evs, s_loads (schedule initial evs) <= 1.
Proof. intros evs. eapply inv_loads. apply (schedule_inv entries evs). Qed.

(** Whoever gets an answer gets the one of loading the files alone, in the order of the directory: the error, or
    the one collection, which is whole, and holds besides only files that callers loaded into it. *)
Theorem C75_answer : forall evs i o, nth_error (s_pcs (schedule initial evs)) i = Some (Returned o) ->
  o = Got RErr /\ loads_to empty_coll entries None \/
  o = Got (RPtr 0) /\ exists c us, loads_to empty_coll entries (Some c) /\ (forall f, In f us -> used evs f) /\
    s_heap (schedule initial evs) = [load_all us c].
Proof.
  intros evs i o E. destruct (inv_returned entries _ _ _ _ (schedule_inv entries evs) E) as (-> & _ & c & us & HU & H & [[-> R]|[-> R]]); [right|left]; split; auto.
  exists c, us. auto.
Qed.
(** So all callers get the same, at any two times. *)
Theorem C75_same : forall evs evs' i j o o', nth_error (s_pcs (schedule initial evs)) i = Some (Returned o) ->
  nth_error (s_pcs (schedule initial (evs ++ evs'))) j = Some (Returned o') -> o = o'.
Proof.
  intros evs evs' i j o o' E E'. apply C75_answer in E, E'.
  destruct E as [[-> R]|[-> (c & us & R & _)]], E' as [[-> R']|[-> (c' & us' & R' & _)]]; auto; assert (X := loads_fun _ _ _ _ R R'); discriminate.
Qed.
(** Nobody waits for ever: from any state on, the goroutines that called can all get their answers. *)
Theorem C75_finishes : forall evs, exists is, finished (schedule initial (evs ++ map Run is)).
Proof.
  intros evs. destruct (can_finish entries _ _ (schedule_inv entries evs)) as [is F]. exists is. unfold OnceModel.schedule in *. rewrite fold_left_app. exact F.
Qed.
(** Some goroutine can always go on, and no step is in vain unless it waits for the lock. *)
Theorem C75_progress : forall evs, ~ finished (schedule initial evs) ->
  exists i x, nth_error (s_pcs (schedule initial evs)) i = Some x /\ happen entries (schedule initial evs) (Run i) <> schedule initial evs.
Proof.
  intros evs NF. destruct (can_go entries _ _ (schedule_inv entries evs) NF) as (i & x & E & NR & NL). exists i, x. split; auto. cbn [happen]. rewrite E.
  intros X. assert (W := advance_work entries _ _ _ E NR NL). rewrite X in W. lia.
Qed.
(** What the default files declare stays found whatever callers load besides. *)
Theorem C75_lookups_stay : forall evs i c u n c', nth_error (s_pcs (schedule initial evs)) i = Some (Returned (Got (RPtr 0))) ->
  loads_to empty_coll entries (Some c) -> urn_loaded c u = true -> s_heap (schedule initial evs) = [c'] ->
  get_scalar c' (ExtId u n) = get_scalar c (ExtId u n) /\ get_agg c' (ExtId u n) = get_agg c (ExtId u n) /\
  get_window c' (ExtId u n) = get_window c (ExtId u n) /\ get_type_def c' (ExtId u n) = get_type_def c (ExtId u n) /\
  get_var_def c' (ExtId u n) = get_var_def c (ExtId u n) /\ get_meta c' u = get_meta c u.
Proof.
  intros evs i c u n c' E L UL H. apply C75_answer in E. destruct E as [[X _]|[_ (d & us & R & _ & H')]]; [discriminate|].
  rewrite H in H'. injection H' as ->. assert (X := loads_fun _ _ _ _ L R). injection X as <-.
  destruct (loads_history _ _ c c L eq_refl) as [fs ->]. apply C25_lookups_under_loaded_urn_stable. exact UL.
Qed.

(** The form without an error panics exactly if the files do not load. *)
Theorem C75_no_error : forall evs i o, nth_error (s_pcs (schedule initial evs)) i = Some (Returned o) ->
  (with_no_error o = Panicked <-> loads_to empty_coll entries None) /\ (with_no_error o = Got (RPtr 0) <-> exists c, loads_to empty_coll entries (Some c)).
Proof.
  intros evs i o E. apply C75_answer in E. destruct E as [[-> R]|[-> (c & us & R & _)]]; cbn; split; split; auto; try discriminate; eauto.
  - intros [c R']. assert (X := loads_fun _ _ _ _ R R'). discriminate.
  - intros R'. assert (X := loads_fun _ _ _ _ R R'). discriminate.
Qed.

(** Callers have the default collection to themselves: false.  A file that one loads is there for all others, the
    ones before and the ones after. *)
Theorem C75_private_refuted : forall c f, loads_to empty_coll entries (Some c) -> loadable f c ->
  exists evs i j, nth_error (s_pcs (schedule initial evs)) i = Some (Returned (Got (RPtr 0))) /\
    nth_error (s_pcs (schedule initial evs)) j = Some (Returned (Got (RPtr 0))) /\ i <> j /\ (forall g, used evs g -> False) /\
    s_heap (schedule initial evs) = [c] /\ s_heap (schedule initial (evs ++ [Use i (Some f)])) = [fst (load (Some f) c)] /\
    urn_loaded c (f_urn f) = false /\ urn_loaded (fst (load (Some f) c)) (f_urn f) = true.
Proof.
  intros c f L LF. destruct (can_finish entries _ _ (schedule_inv entries [Call; Call])) as [is F].
  set (evs := [Call; Call] ++ map Run is).
  assert (FE : finished (schedule initial evs)) by (unfold evs, OnceModel.schedule in *; rewrite fold_left_app; exact F).
  assert (NU : forall g, used evs g -> False).
  { intros g [k U]. unfold evs in U. cbn in U. destruct U as [U|[U|U]]; try discriminate. apply in_map_iff in U. destruct U as (x & U & _). discriminate. }
  assert (LEN : forall js s, List.length (s_pcs (fold_left (happen entries) (map Run js) s)) = List.length (s_pcs s)).
  { induction js as [|k js IH]; intros s; cbn [map fold_left]; auto. rewrite IH. cbn [happen]. destruct (nth_error (s_pcs s) k) as [x|]; auto.
    destruct s as [done lock valid r h n pcs]. destruct x as [| | |es p|r'| | | | |o]; cbn [advance]; try (cbn; apply PlanAliasProofs.put_length); auto.
    - destruct lock; cbn; auto. apply PlanAliasProofs.put_length.
    - destruct done; cbn; apply PlanAliasProofs.put_length.
    - destruct es as [|e es]; [cbn; apply PlanAliasProofs.put_length|]. destruct (load_entry e _). cbn. apply PlanAliasProofs.put_length. }
  assert (L2 : List.length (s_pcs (schedule initial evs)) = 2) by (unfold evs, OnceModel.schedule; rewrite fold_left_app, LEN; reflexivity).
  assert (RET : forall k, k < 2 -> nth_error (s_pcs (schedule initial evs)) k = Some (Returned (Got (RPtr 0))) /\ s_heap (schedule initial evs) = [c]).
  { intros k K. destruct (nth_error (s_pcs (schedule initial evs)) k) as [x|] eqn:E; [|apply nth_error_None in E; lia].
    destruct (FE x (nth_error_In _ _ E)) as [o ->]. destruct (C75_answer evs k o E) as [[_ R]|[-> (d & us & R & HU & H)]].
    - assert (X := loads_fun _ _ _ _ L R). discriminate.
    - assert (X := loads_fun _ _ _ _ L R). injection X as <-. split; auto. destruct us as [|g us]; [exact H|]. destruct (NU g). apply HU. left. auto. }
  exists evs, 0, 1. destruct (RET 0 ltac:(lia)) as [E0 H0]. destruct (RET 1 ltac:(lia)) as [E1 _].
  split; auto. split; auto. split; auto. split; auto. split; auto. split.
  - unfold OnceModel.schedule in *. rewrite fold_left_app. cbn [fold_left happen]. rewrite E0.
    destruct (fold_left (happen entries) evs initial) as [done lock valid r h n pcs]. cbn [s_heap] in *. subst h. reflexivity.
  - destruct (C25_load_all_or_nothing f c) as [[LD T]|[N _]]; [|contradiction]. apply load_checks_iff in LF. cbn [load] in *. rewrite LF. cbn [fst].
    unfold load_checks in LF. repeat (apply andb_prop in LF; destruct LF as [LF ?]). split.
    + match goal with H : negb _ = true |- _ => apply negb_true_iff in H; exact H end.
    + unfold urn_loaded. rewrite (proj1 (load_commit_fields f c)). cbn. rewrite String.eqb_refl. reflexivity.
Qed.
End Once.
Print Assumptions C75_once.
Print Assumptions C75_answer.
Print Assumptions C75_same.
Print Assumptions C75_finishes.
Print Assumptions C75_progress.
Print Assumptions C75_lookups_stay.
Print Assumptions C75_no_error.
Print Assumptions C75_private_refuted.

(** ** cases *)

(** a directory with an unsupported file and one that counts; three goroutines, interleaved, one waiting for the lock *)
Definition some_entries : list entry := [Entry "unknown.yaml" Garbled; Entry "functions.yaml" (Holds ex_file)].
Definition three : st := schedule some_entries initial
  ([Call; Call; Run 0; Run 1; Run 0; Run 1; Run 0; Call; Run 0; Run 1; Run 2; Run 0] ++ map Run [0; 0; 0; 2; 0; 1; 0; 1; 0; 1; 2; 1; 1; 2; 2; 2; 2]).
Example C75_three_case : s_pcs three = [Returned (Got (RPtr 0)); Returned (Got (RPtr 0)); Returned (Got (RPtr 0))] /\ s_loads three = 1 /\
  s_heap three = [fst (load (Some ex_file) empty_coll)] /\ loads_to empty_coll some_entries (Some (fst (load (Some ex_file) empty_coll))).
Proof.
  split; [vm_compute; reflexivity|]. split; [vm_compute; reflexivity|]. split; [vm_compute; reflexivity|].
  apply Loads_skip; [discriminate|]. eapply Loads_file; [discriminate|vm_compute; reflexivity|]. apply Loads_end.
Qed.
Example C75_waiting_case : nth_error (s_pcs (schedule some_entries initial [Call; Call; Run 0; Run 1; Run 0; Run 1; Run 1])) 1 = Some Lock.
Proof. reflexivity. Qed.
(** the hypotheses of [C75_private_refuted]; and a directory that does not load *)
Example C75_more_cases : loadable ex_file empty_coll /\ loads_to empty_coll [] (Some empty_coll) /\
  loads_to empty_coll [Entry "a.yaml" (Holds ex_file); Entry "b.yaml" (Holds ex_file)] None.
Proof.
  split; [apply load_checks_iff; vm_compute; reflexivity|]. split; [constructor|].
  eapply Loads_file; [discriminate|vm_compute; reflexivity|]. eapply Loads_refused; [discriminate|vm_compute; reflexivity].
Qed.
