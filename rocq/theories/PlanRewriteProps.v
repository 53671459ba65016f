(** Parameter bindings and expression rewriting: the properties C37 and C38 (see
    /verif/properties.jsonl). *)

From Coq Require Import ZArith String Bool Arith Lia List.
From Verif Require Import Base FMap TypesModel LitModel ExprModel ExprOpsModel ExprSpec
  PlanModel PlanOpsModel PlanProofs PlanBuildProofs PlanRewriteSpec PlanRewriteProofs PlanProps.
From Verif Require TypesSpec TypesProofs TypesProps.
Import ListNotations.
Local Open Scope Z_scope.

(** ** C37 *)
Theorem C37_accepted_bindings_are_right : forall r bs, validate_bindings r bs = Ok tt ->
  Forall (fun b => exists t, uses r (fst b) t /\ value_of_type (snd b) t) bs.
Proof. exact validate_sound. Qed.
(** ... and for plain types, "of that type" means equal up to the outer nullability *)
Theorem C37_value_type : forall l u t, lit_type l = Ok u -> TypesSpec.plain u ->
  (value_of_type l t <-> TypesSpec.same_type (with_nullability NullUnspecified u) (with_nullability NullUnspecified t)).
Proof.
  intros l u t H P.
  assert (P' : TypesSpec.plain (with_nullability NullUnspecified u)) by (destruct u; cbn in *; auto).
  destruct (TypesProps.C02_equals_is_structural _ (with_nullability NullUnspecified t) P') as (b & E & S).
  split.
  - intros (u' & Hu & Hv). rewrite H in Hu. inversion Hu; subst u'. rewrite E in Hv. inversion Hv; subst b. apply S. auto.
  - intros Hs. exists u. split; auto. rewrite E. f_equal. apply S. auto.
Qed.
(** every right binding is accepted, if the plan does not use one parameter with two types *)
Theorem C37_right_bindings_are_accepted : forall r bs,
  (forall b t t', In b bs -> uses r (fst b) t -> uses r (fst b) t' -> t = t') ->
  Forall (fun b => exists t, uses r (fst b) t /\ value_of_type (snd b) t) bs -> validate_bindings r bs = Ok tt.
Proof. exact validate_complete. Qed.
Theorem C37_unused_parameter_refused : forall r b bs, (forall t, ~ uses r (fst b) t) -> validate_bindings r (b :: bs) = Err.
Proof. exact validate_unknown. Qed.
Theorem C37_no_bindings : forall r, validate_bindings r [] = Ok tt.
Proof. reflexivity. Qed.
(** the collected table: only used parameters, all of them, with one of the types used *)
Theorem C37_collected : forall r k,
  match fm_get Z.eqb k (collect r []) with
  | Some t => uses r k t
  | None => forall t, ~ uses r k t
  end.
Proof.
  intros r k. destruct (fm_get Z.eqb k (collect r [])) as [t|] eqn:E.
  - apply collect_sound in E as [E|E]; [auto|discriminate].
  - intros t U. eapply collect_complete; eauto.
Qed.
(** the search inside an expression goes through Visit *)
Theorem C37_walk_is_visit : forall e st, e <> blank ->
  (forall m ifs els, e = ESwitch m ifs els -> Forall (fun p => fst p <> LNil) ifs) ->
  expr_visit (fun st (x : expr rel) => (None, (st ++ walk x)%list)) e (st ++ [e]) = Ok (None, (st ++ walk e)%list).
Proof. exact walk_is_visit. Qed.
Theorem C37_walk : forall e x, In x (walk e) <-> occurs e x.
Proof. exact walk_occurs. Qed.

(** *** parameters that are not searched for *)
Definition param7 : expr rel := EParam (TPrim PrimI64 NullRequired 0) 7.
Definition seven_str : expr rel := EParam (TPrim PrimString NullRequired 0) 7.
Definition lit_five : lit := LPrim (VI64 5) (TPrim PrimI64 NullRequired 0).
(** a condition of a read, a grouping expression, the relation of a subquery *)
Theorem C37_unsearched_places_refuted :
  validate_bindings (RRead zero_common (RBase two_cols param7 blank None None) (KNamed ["t"%string] None)) [(7, lit_five)] = Err /\
  validate_bindings (RAgg zero_common table [] [param7] [[0]] None) [(7, lit_five)] = Err /\
  validate_bindings (RProject zero_common table [ESubScalar (RProject (mapped (Some [2])) table [param7] None)] None) [(7, lit_five)] = Err.
Proof. repeat split. Qed.
(** one parameter used with two types: only the last counts *)
Theorem C37_two_types_refuted : exists r b t, uses r (fst b) t /\ value_of_type (snd b) t /\ validate_bindings r [b] = Err.
Proof.
  exists (RProject zero_common table [param7; seven_str] None), (7, lit_five), (TPrim PrimI64 NullRequired 0).
  split; [|split; [|reflexivity]].
  - eapply U_here; [constructor; left; reflexivity|]. apply Oc_self. discriminate.
  - exists (TPrim PrimI64 NullRequired 0). split; reflexivity.
Qed.
Definition bound_plan : rel :=
  RFetch zero_common (RFilter zero_common (RProject zero_common table [ECast (TPrim PrimI64 NullNullable 0) param7 0] None) lit_true None) 0 5 None.
Example C37_example : validate_bindings bound_plan [(7, lit_five); (7, LPrim (VI64 6) (TPrim PrimI64 NullNullable 0))] = Ok tt /\
  validate_bindings bound_plan [(7, LPrim (VString "x") (TPrim PrimString NullRequired 0))] = Err /\
  uses bound_plan 7 (TPrim PrimI64 NullRequired 0).
Proof.
  repeat split. eapply U_below; [constructor|]. eapply U_below; [constructor|]. eapply U_here; [constructor; left; reflexivity|].
  eapply Oc_inside; [left; reflexivity|]. apply Oc_self. discriminate.
Qed.

(** ** C38 *)
Section C38.
Context {A : Type}.
Variable rw : expr rel -> A -> res (option (expr rel) * A).
Variable equals : expr rel -> expr rel -> res bool.

(** the rewrite function is called once on every slot, in order, its answers take the place
    of the old expressions, everything else stays; nothing changed and the same inputs: the
    receiver itself *)
Theorem C38_rewrite : forall r ins a ys ch a',
  (forall c b vs, r <> RRead c b (KVirtual vs)) ->
  answers rw a (rel_slots r) ys ch a' ->
  (arity r = Some (List.length ins) \/ arity r = None) ->
  let kept := forallb snd ins && Nat.eqb (List.length ins) (List.length (get_inputs r)) in
  if ch || negb kept then exists r', rewrite_rel rw equals r ins a = Ok (Some r', a') /\
     rel_shell r' = rel_shell r /\ map fst (rel_slots r') = ys /\ get_inputs r' = map fst ins
  else rewrite_rel rw equals r ins a = Ok (None, a').
Proof. exact (rewrite_char rw equals). Qed.
Theorem C38_result_unique : forall r r', rel_shell r = rel_shell r' -> map fst (rel_slots r) = map fst (rel_slots r') ->
  get_inputs r = get_inputs r' -> r = r'.
Proof. exact shell_unique. Qed.
Theorem C38_answers_or_fails : forall l a, (exists ys ch a', answers rw a l ys ch a') \/ (exists o, fails rw a l o).
Proof. exact (answers_or_fails rw). Qed.
Theorem C38_failure : forall r ins a o, fails rw a (rel_slots r) o -> arity r = Some (List.length ins) ->
  (rewrite_rel rw equals r ins a = Err /\ o = Err) \/ (rewrite_rel rw equals r ins a = Panic /\ o = Panic).
Proof. exact (rewrite_fails rw equals). Qed.
Theorem C38_wrong_inputs : forall r ins a n, arity r = Some n -> n <> 0%nat -> List.length ins <> n ->
  rewrite_rel rw equals r ins a = Err.
Proof. exact (rewrite_arity rw equals). Qed.
(** virtual tables: the rows are looked at only if a filter changed *)
Theorem C38_virtual_table : forall c b vs ins a ys ch a1,
  answers rw a [shown (rb_filter b); shown (rb_best b)] ys ch a1 ->
  if ch then
    forall ys2 ch2 a2, answers rw a1 (map shown (List.concat vs)) ys2 ch2 a2 -> Forall (fun y => y <> blank) ys2 ->
      Forall2 (fun y x => exists t, equals y x = Ok t) ys2 (List.concat vs) ->
      exists vs', rewrite_rel rw equals (RRead c b (KVirtual vs)) ins a =
          Ok (Some (RRead c (RBase (rb_schema b) (nth 0 ys blank) (nth 1 ys blank) (rb_proj b) (rb_adv b)) (KVirtual vs')), a2) /\
        ((Forall2 (fun y x => equals y x = Ok true) ys2 (List.concat vs) /\ vs' = vs) \/
         (~ Forall2 (fun y x => equals y x = Ok true) ys2 (List.concat vs) /\ List.concat vs' = ys2 /\
          map (@List.length _) vs' = map (@List.length _) vs))
  else rewrite_rel rw equals (RRead c b (KVirtual vs)) ins a = Ok (None, a1).
Proof. exact (rewrite_virtual rw equals). Qed.
End C38.
(** Copy: the inputs are replaced, nothing else *)
Theorem C38_copy : forall r ins,
  match arity r with
  | Some 0%nat => rel_copy r ins = Ok r
  | _ => if match arity r with Some n => Nat.eqb (List.length ins) n | None => true end
         then exists r', rel_copy r ins = Ok r' /\ get_inputs r' = ins /\ rel_shell r' = rel_shell r /\ rel_slots r' = rel_slots r
         else rel_copy r ins = Err
  end.
Proof. exact copy_char. Qed.
Theorem C38_inputs : forall i r, In i (get_inputs r) <-> input_of i r.
Proof. exact input_iff. Qed.

(** *** expressions a rewrite does not reach *)
Definition to_nine : expr rel -> unit -> res (option (expr rel) * unit) :=
  fun e u => Ok (match e with ELit LNil => None | _ => Some (lit_i64 9) end, u).
Definition virtual_one : rel := RRead zero_common (RBase two_cols blank blank None None) (KVirtual [[lit_i64 1; lit_str "x"]]).
Definition key_lambda : jkey rel := JKey (FRef (RExpr (lit_i64 1)) (RefSeg [SField 0]) t_i64) (FRef (RExpr (lit_i64 2)) (RefSeg [SField 0]) t_i64) (CmpSimple 1).
Definition sorted_measure : measure rel :=
  Measure (Some (AggF 1 None [] [] (TPrim PrimI64 NullRequired 0) 0 0 [(lit_i64 1, SK_dir 1)])) blank.
Theorem C38_unreached_refuted :
  rewrite_rel to_nine fresh_equals virtual_one [] tt = Ok (None, tt) /\
  rewrite_rel to_nine fresh_equals (RHash zero_common table table [key_lambda] blank 1 None) [(table, true); (table, true)] tt = Ok (None, tt) /\
  rewrite_rel to_nine fresh_equals (RMerge zero_common table table [key_lambda] blank 1 None) [(table, true); (table, true)] tt = Ok (None, tt) /\
  rewrite_rel to_nine fresh_equals (RAgg zero_common table [sorted_measure] [] [] None) [(table, true)] tt = Ok (None, tt).
Proof. repeat split. Qed.
(** the new inputs of a read are ignored, as are those of a leaf extension *)
Example C38_example :
  rewrite_rel to_nine fresh_equals (RProject zero_common table [lit_i64 1; lit_str "x"] None) [(fetched, false)] tt =
    Ok (Some (RProject zero_common fetched [lit_i64 9; lit_i64 9] None), tt) /\
  answers to_nine tt (rel_slots (RProject zero_common table [lit_i64 1; lit_str "x"] None)) [lit_i64 9; lit_i64 9] true tt /\
  rewrite_rel (fun e u => Ok (None, u)) fresh_equals (RProject zero_common table [lit_i64 1] None) [(table, true)] tt = Ok (None, tt).
Proof.
  split; [reflexivity|]. split; [|reflexivity]. eapply An_answer; [reflexivity| |intros [X _]; discriminate X].
  eapply An_answer; [reflexivity|constructor|intros [X _]; discriminate X].
Qed.

Print Assumptions C37_accepted_bindings_are_right.
Print Assumptions C37_right_bindings_are_accepted.
Print Assumptions C37_walk_is_visit.
Print Assumptions C38_rewrite.
Print Assumptions C38_virtual_table.
Print Assumptions C38_failure.
Print Assumptions C38_result_unique.
