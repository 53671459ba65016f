(** C39, C40: what output mappings and record types share. *)

From Coq Require Import List ZArith String Bool Arith Lia.
From Verif Require Import Base TypesModel ExprModel PlanModel PlanAliasModel PlanSpec PlanProofs PlanAliasSpec PlanAliasProofs.
Import ListNotations.

(** ** C39 *)

(** The slice given out shows the same mapping, is absent exactly when the relation has
    none, and neither later assignments through it reach the relation nor assignments to the
    relation's own slice reach it. *)
Theorem C39_getter_is_a_copy : forall h m l h' s, valid h m -> shows h m l -> output_mapping h m = (h', s) ->
  shows h' s l /\ shows h' m l /\ (s = None <-> m = None) /\
  (forall ws h'', writes h' s ws = Ok h'' -> shows h'' m l) /\
  (forall ws h'', writes h' m ws = Ok h'' -> shows h'' s l).
Proof.
  intros h m l h' s V S E. destruct (mapping_copy h m h' s V E) as (U & V' & R & N & W). rewrite <- (shows_read h m l V S) in R, W.
  assert (S' : shows h' s l) by (rewrite <- R; apply read_shows; auto).
  split; auto. split; [eapply untouched_shows; eauto|]. split; auto. split; auto.
  intros ws h'' HW. destruct m as [v|].
  - unfold output_mapping in E. apply alloc_spec in E as (_ & _ & _ & (w & -> & A & _) & _).
    assert (AV : exists arr, nth_error h (sl_arr v) = Some arr) by (destruct V as (arr & X & _); eauto). destruct AV as [arr AV].
    assert (LV : sl_arr v < List.length h) by (apply nth_error_Some; congruence).
    cbn in S'. destruct S' as [L1 L2]. cbn. split; auto. intros i Hi. rewrite L2 by auto. unfold cell.
    destruct V' as (arr' & X & _). rewrite X.
    rewrite (writes_others _ ws h' v h'' (untouched_valid _ _ (Some v) U V) HW (sl_arr w) arr'); auto. lia.
  - destruct N as [_ N]. rewrite N in * by auto. auto.
Qed.

(** assigning to a cell changes that cell and no other, of any array *)
Theorem C39_assignment : forall A (h : heap A) v i y, valid h (Some v) ->
  (i < sl_len v -> exists h', write h (Some v) i y = Ok h' /\ List.length h' = List.length h /\
     (forall j, j < sl_cap v -> cell h' v j = if Nat.eqb j i then Some y else cell h v j) /\
     (forall b arr, b <> sl_arr v -> nth_error h b = Some arr -> nth_error h' b = Some arr)) /\
  (sl_len v <= i -> write h (Some v) i y = Panic) /\ write h None i y = Panic.
Proof.
  intros A h v i y V. split; [|split; [|reflexivity]].
  - intros L. destruct (write_char A h v i y V L) as (h' & W & L' & _ & O). exists h'. split; auto. split; auto. split; auto.
    intros j Hj. unfold write in W. apply Nat.ltb_lt in L as LB. rewrite LB in W. injection W as <-. destruct V as (arr & E & L1 & L2).
    unfold cell. rewrite (update_nth _ _ _ _ _ _ E), Nat.eqb_refl, E, put_all_nth by (cbn; lia). cbn [List.length].
    destruct (Nat.eqb_spec j i) as [->|N].
    + destruct (Nat.leb_spec (sl_off v + i) (sl_off v + i)); [|lia]. destruct (Nat.ltb_spec (sl_off v + i) (sl_off v + i + 1)); [|lia].
      cbn [andb]. rewrite Nat.sub_diag. reflexivity.
    + destruct (Nat.leb_spec (sl_off v + i) (sl_off v + j)), (Nat.ltb_spec (sl_off v + j) (sl_off v + i + 1)); cbn [andb]; auto; lia.
  - intros L. unfold write. apply Nat.ltb_ge in L. rewrite L. reflexivity.
Qed.

(** Finding: the slice handed to a builder and the one in the emitted message are the
    relation's own. *)
Theorem C39_builder_refuted : exists (h h' : heap Z) given i y l, valid h given /\ shows h (builder_mapping given) l /\
  write h given i y = Ok h' /\ ~ shows h' (builder_mapping given) l.
Proof.
  exists [[0; 1]%Z], [[7; 1]%Z], (Some (Sl 0 0 2 2)), 0, 7%Z, [0; 1]%Z.
  split; [|split; [|split; [reflexivity|]]].
  - eexists. split; [reflexivity|]. cbn. lia.
  - split; auto.
  - intros [_ H]. specialize (H 0 ltac:(cbn; lia)). discriminate H.
Qed.
Theorem C39_message_refuted : exists (h h' : heap Z) own i y l, valid h own /\ shows h own l /\
  write h (emitted_mapping own) i y = Ok h' /\ ~ shows h' own l.
Proof. exact C39_builder_refuted. Qed.

Example C39_example : let h := [[2; 0]%Z] in let '(h', s) := output_mapping h (Some (Sl 0 0 2 2)) in
  exists h'', writes h' s [(0, 9%Z); (1, 8%Z)] = Ok h'' /\ read h'' s = [9; 8]%Z /\ read h'' (Some (Sl 0 0 2 2)) = [2; 0]%Z.
Proof. cbn. eexists. split; [reflexivity|]. split; reflexivity. Qed.

(** ** C40 *)

(** On a safe layout the record type has the columns it should have; it is computed exactly
    when there are such columns; and no array that existed before is changed, so every schema
    anyone holds shows what it showed.  For every allocation policy. *)
Theorem C40_schema : forall spare h r out, safe h r -> has_columns h r out ->
  exists h' s, record spare r h = Ok (h', s) /\ shows h' s out /\ untouched h h'.
Proof.
  intros spare h r out S H. destruct (proj1 (record_right spare r h S) out H) as (h' & s & E & U & V & P & D).
  exists h', s. split; auto. split; auto. rewrite <- D. apply read_shows; auto.
Qed.
Theorem C40_others_unchanged : forall spare h r h' s, safe h r -> record spare r h = Ok (h', s) ->
  untouched h h' /\ (exists out, has_columns h r out /\ shows h' s out) /\
  forall t l, valid h t -> shows h t l -> shows h' t l.
Proof.
  intros spare h r h' s S E. destruct (proj2 (record_right spare r h S) h' s E) as (out & HC & U & V & P & D).
  split; auto. split; [exists out; split; auto; rewrite <- D; apply read_shows; auto|].
  intros t l Vt St. eapply untouched_shows; eauto.
Qed.
(** asking again gives the same columns and changes nothing either *)
Theorem C40_again : forall spare h r h1 s1 out, safe h r -> record spare r h = Ok (h1, s1) -> shows h1 s1 out ->
  exists h2 s2, record spare r h1 = Ok (h2, s2) /\ shows h2 s2 out /\ shows h2 s1 out /\ untouched h1 h2.
Proof.
  intros spare h r h1 s1 out S E Sh. destruct (proj2 (record_right spare r h S) h1 s1 E) as (out' & HC & U & V & P & D).
  rewrite <- (shows_read _ _ _ V Sh) in D. subst out'. destruct (safe_mono h h1 r U S) as [S1 M]. apply M in HC.
  destruct (C40_schema spare h1 r out S1 HC) as (h2 & s2 & E2 & Sh2 & U2). exists h2, s2. repeat split; auto.
  eapply untouched_shows; eauto.
Qed.
(** the columns are those of the value-level record type (C29, C30, C52) *)
Theorem C40_same_columns : forall h r a, layout h r a -> forall out, rel_type r = Ok out <-> has_columns h a out.
Proof. exact layout_columns. Qed.
Theorem C40_record_type : forall spare h r a out, layout h r a -> safe h a ->
  (rel_type r = Ok out <-> exists h' s, record spare a h = Ok (h', s) /\ shows h' s out).
Proof.
  intros spare h r a out L S. rewrite (layout_columns h r a L out). split.
  - intros H. destruct (C40_schema spare h a out S H) as (h' & s & E & Sh & _). eauto.
  - intros (h' & s & E & Sh). destruct (proj2 (record_right spare a h S) h' s E) as (out' & HC & U & V & P & D).
    rewrite <- (shows_read _ _ _ V Sh) in D. subst. auto.
Qed.

(** what appending does: in place exactly if there is room *)
Theorem C40_append : forall A (pad : A) spare h s l ys h' s', valid h s -> shows h s l -> append pad spare h s ys = (h', s') ->
  shows h' s' (l ++ ys) /\
  match s with
  | Some v =>
      if sl_len v + List.length ys <=? sl_cap v then
        s' = Some (Sl (sl_arr v) (sl_off v) (sl_len v + List.length ys) (sl_cap v)) /\ List.length h' = List.length h
      else untouched h h' /\ exists v', s' = Some v' /\ sl_arr v' = List.length h /\ sl_off v' = 0 /\
             sl_cap v' = sl_len v' + spare (sl_len v')
  | None => untouched h h' /\ (ys = [] -> s' = None /\ h' = h)
  end.
Proof.
  intros A pad spare h s l ys h' s' V S E. rewrite (shows_read h s l V S). destruct s as [v|]; cbn [append] in E.
  - destruct (Nat.leb_spec (sl_len v + List.length ys) (sl_cap v)) as [L|L].
    + injection E as <- <-. destruct (extend_read h v ys V L) as [V' R']. split; [rewrite <- R'; apply read_shows; auto|].
      split; auto. apply update_length.
    + apply alloc_spec in E as (U & V' & R & (w & -> & A1 & A2 & A3 & A4) & _). split; [rewrite <- R; apply read_shows; auto|].
      split; auto. exists w. repeat split; auto. congruence.
  - destruct ys as [|y ys].
    + injection E as <- <-. split; [reflexivity|]. split; auto using untouched_refl.
    + apply alloc_spec in E as (U & V' & R & _). split; [rewrite <- R; apply read_shows; auto|]. split; auto. discriminate.
Qed.

(** Findings: with room behind the stored schema of the left side, or with a right side
    without columns, the record type of an outer join changes the schema of the left side. *)
Definition i64 (n : Z) : xtype := XTy (TPrim PrimI64 n 0).
Theorem C40_spare_room_refuted : exists h left_ right_ h' s, 
  valid h left_ /\ shows h left_ [i64 2] /\ valid h right_ /\ tight right_ /\ shows h right_ [i64 2] /\
  record (fun _ => 0) (AJoin None 2 (AStored None left_) (AStored None right_)) h = Ok (h', s) /\ shows h' left_ [i64 1].
Proof.
  exists [[i64 2; XNil]; [i64 2]], (Some (Sl 0 0 1 2)), (Some (Sl 1 0 1 1)), [[i64 1; i64 1]; [i64 2]], (Some (Sl 0 0 2 2)).
  repeat split; cbn; try reflexivity; try (eexists; split; [reflexivity|cbn; lia]); try solve [auto | intros [|[|i]] Hi; try reflexivity; lia].
Qed.
Theorem C40_no_columns_refuted : exists h left_ h' s,
  valid h left_ /\ tight left_ /\ shows h left_ [i64 2] /\
  record (fun _ => 0) (AJoin None 2 (AStored None left_) (AStored None None)) h = Ok (h', s) /\ shows h' left_ [i64 1].
Proof.
  exists [[i64 2]], (Some (Sl 0 0 1 1)), [[i64 1]], (Some (Sl 0 0 1 1)).
  repeat split; cbn; try reflexivity; try (eexists; split; [reflexivity|cbn; lia]); try solve [auto | intros [|[|i]] Hi; try reflexivity; lia].
Qed.
(** and even a cross join writes into a schema that shares the left side's array *)
Theorem C40_shared_array_refuted : exists h left_ other right_ h' s,
  shows h other [i64 2; i64 2] /\
  record (fun _ => 0) (ACat None (AStored None left_) (AStored None right_)) h = Ok (h', s) /\
  shows h' other [i64 2; XTy (TPrim PrimBool 1 0)] /\ valid h other.
Proof.
  exists [[i64 2; i64 2]; [XTy (TPrim PrimBool 1 0)]], (Some (Sl 0 0 1 2)), (Some (Sl 0 0 2 2)), (Some (Sl 1 0 1 1)),
    [[i64 2; XTy (TPrim PrimBool 1 0)]; [XTy (TPrim PrimBool 1 0)]], (Some (Sl 0 0 2 2)).
  repeat split; cbn; try reflexivity; try (eexists; split; [reflexivity|cbn; lia]); try solve [auto | intros [|[|i]] Hi; try reflexivity; lia].
Qed.

(** a safe layout: an outer join of a table and a projection over it *)
Example C40_example : let h := [[i64 2]] in let t := AStored None (Some (Sl 0 0 1 1)) in
  let r := AJoin (Some [2; 0]%Z) 2 t (AProject None t [i64 1]) in
  safe h r /\ has_columns h r [i64 1; i64 1] /\
  exists h' s, record (fun n => n) r h = Ok (h', s) /\ read h' s = [i64 1; i64 1] /\ read h' (Some (Sl 0 0 1 1)) = [i64 2].
Proof.
  cbn. assert (S : shows [[i64 2]] (Some (Sl 0 0 1 1)) [i64 2]).
  { split; auto. }
  assert (V : valid [[i64 2]] (Some (Sl 0 0 1 1))) by (eexists; split; [reflexivity|cbn; lia]).
  assert (T : has_columns [[i64 2]] (AStored None (Some (Sl 0 0 1 1))) [i64 2]) by (econstructor; [exact S|reflexivity]).
  assert (P : has_columns [[i64 2]] (AProject None (AStored None (Some (Sl 0 0 1 1))) [i64 1]) [i64 2; i64 1]) by (econstructor; [exact T|reflexivity]).
  split; [|split].
  - constructor; [constructor; auto; reflexivity|constructor; constructor; auto; reflexivity|].
    intros _ X. inversion X as [| |? ? ? cols ? ? M| | | | | |]; subst. cbn in M. destruct cols; discriminate M.
  - eapply HC_join; [cbn; auto|exact T|exact P| |].
    + apply (JC_outer [i64 2] [i64 2; i64 1] [i64 1] [i64 1; i64 1]); repeat constructor.
    + cbn. repeat constructor; cbn; lia.
  - eexists _, _. split; [reflexivity|]. split; reflexivity.
Qed.

Print Assumptions C39_getter_is_a_copy.
Print Assumptions C39_assignment.
Print Assumptions C40_schema.
Print Assumptions C40_others_unchanged.
Print Assumptions C40_again.
Print Assumptions C40_record_type.
Print Assumptions C40_append.
