(** Theorems of C73: the texts of expressions. *)

From Coq Require Import ZArith Ascii String Bool Lia List.
From Verif Require Import Base FMap TypesModel ExtSetModel LoadModel LitModel ExprModel
  TestPrintModel TestPrintSpec TestPrintProofs TestPrintOneProofs ExprTextModel ExprTextSpec ExprTextProofs.
Import ListNotations.
Local Open Scope string_scope.
Local Open Scope Z_scope.

Section Text.
Variable R : Type.
Variable float_text : Z -> string.
Variable decimal_text : list Z -> Z -> string.
Variable other_text : lit -> string.
Variable lit_panic : lit -> string.
Variable expr_panic : expr R -> string.
Variable rel_text : R -> string.
(** what ValueString says *)
Let says (l : lit) (s : string) : Prop := value_string float_text decimal_text other_text l = Ok s.

(** The text of an expression is the one specified, letter by letter. *)
Theorem C73_text : forall e s,
  shows R says lit_panic expr_panic rel_text e s <-> expr_text R float_text decimal_text other_text lit_panic expr_panic rel_text e = Ok s.
Proof. intros e. apply expr_exact. Qed.

(** Printing panics exactly on the expressions without a text. *)
Theorem C73_panics : forall e,
  no_text R says e <-> expr_text R float_text decimal_text other_text lit_panic expr_panic rel_text e = Panic.
Proof. intros e. apply expr_exact. Qed.

(** All others have one text. *)
Theorem C73_has_text : forall e, ~ no_text R says e <-> exists s, shows R says lit_panic expr_panic rel_text e s /\
  forall s', shows R says lit_panic expr_panic rel_text e s' -> s' = s.
Proof.
  intros e. destruct (expr_exact R float_text decimal_text other_text lit_panic expr_panic rel_text e) as (H & K & N).
  change (value float_text decimal_text other_text) with says in *. rewrite K. split.
  - intros P. destruct (expr_text _ _ _ _ _ _ _ e) as [s| |]; try congruence. exists s. split; [apply H; reflexivity|]. intros s' S. apply H in S. congruence.
  - intros (s & S & _) C. apply H in S. congruence.
Qed.

(** The same for literals. *)
Theorem C73_literal : forall l s,
  shows_literal says lit_panic l s <-> lit_text float_text decimal_text other_text lit_panic l = Ok s.
Proof. intros l. apply lit_exact. Qed.
Theorem C73_literal_panics : forall l,
  no_literal_text says l <-> lit_text float_text decimal_text other_text lit_panic l = Panic.
Proof. intros l. apply lit_exact. Qed.

(** Literals of a single value, of the kinds test cases contain: the type and the value as C69 has it. *)
Theorem C73_single : forall l t, test_literal l -> single_value l t -> exists s, prints_value float_text decimal_text l s /\
  lit_text float_text decimal_text other_text lit_panic l = Ok (type_string t ++ "(" ++ s ++ ")").
Proof.
  intros l t T I. destruct (value_texts float_text decimal_text other_text l T) as (s & E & P). exists s. split; [exact P|].
  apply C73_literal. apply Shows_single; auto.
Qed.

(** Aggregate functions. *)
Theorem C73_aggregate : forall f s,
  shows_aggregate R says lit_panic expr_panic rel_text f s <->
  aggregate_text R float_text decimal_text other_text lit_panic expr_panic rel_text f = Ok s.
Proof.
  intros [ref decl args opts out phase inv sorts] s.
  assert (FA : Forall (exact (shows_argument R (shows R says lit_panic expr_panic rel_text)) (fun a => exists e, a = AExpr e /\ no_text R says e)
    (argument_text R (expr_text R float_text decimal_text other_text lit_panic expr_panic rel_text))) args).
  { apply Forall_forall. intros a _. apply argument_exact. destruct a; auto. apply expr_exact. }
  pose proof (listed_exact _ _ _ _ ", " _ FA) as L. unfold aggregate_text. cbn [ag_decl ag_args ag_out]. split.
  - intros S. inversion S as [x1 x2 x3 x4 x5 x6 x7 x8 a A E1 E2]. apply L in A. destruct A as (ws & -> & ->). reflexivity.
  - intros S. destruct decl as [decl|]; [|discriminate].
    destruct (mapM _ args) as [ws| |] eqn:E; try discriminate. cbn in S. injection S as <-. constructor. apply L. eauto.
Qed.
Theorem C73_aggregate_panics : forall f,
  (ag_decl f = None \/ exists e, In (AExpr e) (ag_args f) /\ no_text R says e) <->
  aggregate_text R float_text decimal_text other_text lit_panic expr_panic rel_text f = Panic.
Proof.
  intros [ref decl args opts out phase inv sorts].
  assert (FA : Forall (exact (shows_argument R (shows R says lit_panic expr_panic rel_text)) (fun a => exists e, a = AExpr e /\ no_text R says e)
    (argument_text R (expr_text R float_text decimal_text other_text lit_panic expr_panic rel_text))) args).
  { apply Forall_forall. intros a _. apply argument_exact. destruct a; auto. apply expr_exact. }
  destruct (mapM_exact _ _ _ _ _ FA) as (_ & K & N). unfold aggregate_text. cbn [ag_decl ag_args ag_out].
  destruct decl as [decl|]; [|split; auto].
  transitivity (Exists (fun a => exists e, a = AExpr e /\ no_text R says e) args).
  - rewrite Exists_exists. split; [intros [D|(e & I & H)]; [discriminate|eauto]|intros (a & I & e & -> & H); right; eauto].
  - rewrite K. destruct (mapM _ args); cbn [bind]; try contradiction; split; congruence.
Qed.

(** Every expression whose parts are all there has a text: false, any field reference that selects by a mask panics. *)
Theorem C73_masked_refuted : forall r m known,
  expr_text R float_text decimal_text other_text lit_panic expr_panic rel_text (ERef r (RefMask m) known) = Panic.
Proof. intros r m known. apply C73_panics. apply No_form. constructor. Qed.

(** Every aggregate function that was read from a message has a text: false, one whose function the
    collection does not have was given no declaration, so it has no name. *)
Theorem C73_custom_aggregate_refuted :
  forall PR rel_schema (conv : option (PR -> eset -> res (R * eset))) canon c base m s f s',
  c_agg c = [] -> agg_from_proto rel_schema conv canon c base m s = Ok (f, s') ->
  aggregate_text R float_text decimal_text other_text lit_panic expr_panic rel_text f = Panic.
Proof.
  intros PR rel_schema conv canon c base m s f s' C H. apply C73_aggregate_panics. left.
  unfold agg_from_proto in H. destruct (pa_out m) as [t|]; [|discriminate].
  destruct (mapS _ (pa_args m) s) as [[args s1]| |]; try discriminate. cbn [bind] in H.
  destruct (mapS _ (pa_sorts m) s1) as [[sorts s2]| |]; try discriminate. cbn [bind] in H.
  unfold resolve_func in H. destruct (decode_func (pa_ref m) s2) as [id|] eqn:D; [|discriminate].
  unfold lookup_agg in H. rewrite D in H. unfold get_agg in H. rewrite C in H.
  assert (N : check_maps id [] (c_simple c) = None) by (unfold check_maps; cbn [fm_get]; destruct (fm_get _ _ _); reflexivity).
  rewrite N in H.
  destruct (custom_variant _ _ _ _) as [v| |]; try discriminate. cbn [bind] in H.
  destruct (get_func_anchor _ _) as [[x1 x2]| |]; try discriminate. cbn [bind] in H.
  destruct (type_from_proto t) as [t'| |]; try discriminate. cbn [bind] in H. injection H as <- _. reflexivity.
Qed.

End Text.
Print Assumptions C73_text.
Print Assumptions C73_panics.
Print Assumptions C73_has_text.
Print Assumptions C73_literal.
Print Assumptions C73_literal_panics.
Print Assumptions C73_single.
Print Assumptions C73_aggregate.
Print Assumptions C73_aggregate_panics.
Print Assumptions C73_masked_refuted.
Print Assumptions C73_custom_aggregate_refuted.

(** ** cases *)

Definition i32 : ty := TPrim PrimI32 NullRequired 0.
Definition one : lit := LPrim (VI32 1) i32.
Definition add : variant := Variant "extension:x" "add" 0 (Impl ["i32"; "i32"] [] "" "" 0).
Definition text (e : expr string) : res string :=
  expr_text string (fun _ => "?") (fun _ _ => "?") (fun _ => "?") (fun _ => "(panic)") (fun _ => "(panic)") (fun r => r) e.

Example C73_scalar_case :
  text (EScalar 1 add [AExpr (ERef RRoot (RefSeg [SField 2; SElem (-1)]) (XTy i32)); AExpr (ELit one); AEnum "X"] [("overflow", ["ERROR"; "SILENT"])] i32)
  = Ok "add(.field(2).[-1] => i32, i32(1), X, {overflow: [ERROR,SILENT]}) => i32".
Proof. reflexivity. Qed.
Example C73_window_case :
  text (EWindow 1 add [AType i32] [("o", ["A"; "B"])] i32 3 2 [ELit one] [(ELit LNil, SK_dir 4); (ELit one, SK_func 7)] 1 None (Some (BFollowing 3)))
  = Ok "add(i32; sort: [{expr: %!s(<nil>), SORT_DIRECTION_DESC_NULLS_LAST},{expr: i32(1), comparison_func_ref: 7}]; [options: {o => [A B]}]; partitions: [i32(1)]; bounds: [, 3 FOLLOWING]; phase: AGGREGATION_PHASE_INITIAL_TO_RESULT, invocation: AGGREGATION_INVOCATION_DISTINCT) => i32".
Proof. reflexivity. Qed.
Example C73_other_cases :
  text (ECast i32 (EIf [(ELit one, ELit (LNull i32))] (ELit LNil)) 9) = Ok "cast(<IfThen>((i32(1)) ?null(i32))<Else>() AS i32, fail: 9)" /\
  text (ESubIn [ELit one; ELit one] "r") = Ok "(i32(1), i32(1)) IN (r)" /\ text (ESubIn [ELit one] "r") = Ok "i32(1) IN (r)" /\
  text (ESubCmp 2 5 (ELit LNil) "r") = Ok "%!s(<nil>) <= ALL(r)" /\
  text (ELambda 2 0 [i32; i32] (EParam i32 1)) = Ok "($0: i32, $1: i32) -> $1:i32" /\
  text (ELit (LList [one; LNil] (TList NullNullable 0 i32))) = Ok "list?<i32>([i32(1) <nil>])" /\
  text (EOr (ELit LNil) []) = Panic /\ text (ECast i32 (EOr (ELit LNil) []) 1) = Ok "cast((panic) AS i32, fail: FAILURE_BEHAVIOR_RETURN_NULL)".
Proof. repeat split; reflexivity. Qed.
(** the hypotheses of [C73_single] *)
Example C73_single_case : test_literal one /\ single_value one i32.
Proof. split; [exact I|constructor]. Qed.
(** the hypotheses of [C73_custom_aggregate_refuted]: a plan's sum over a collection without it; and a declared one *)
Definition sum_id : ext_id := ExtId "extension:x" "sum:i32".
Definition sums : eset := ESet [(1, "extension:x")] [] [] [] [] [(1, sum_id)] [(sum_id, 1)].
Definition sum_msg : paggf unit := PAggF 1 [] [] (Some (PT_i32 2 0)) 3 1 [].
Definition sum_call : aggf string :=
  AggF 1 (Some (Variant "extension:x" "sum" 0 (Impl ["i32"] [] "NONE" "" 0))) [AExpr (ELit one); AEnum "X"] [] i32 3 1 [].
Definition agg_text : aggf string -> res string :=
  aggregate_text string (fun _ => "?") (fun _ _ => "?") (fun _ => "?") (fun _ => "(panic)") (fun _ => "(panic)") (fun r => r).
Example C73_aggregate_cases :
  (exists f s', agg_from_proto (R := string) (fun _ => Err) None (fun s => Some s) (Coll [] [] [] [] [] [] [] []) None sum_msg sums = Ok (f, s')) /\
  agg_text sum_call = Ok "sum(i32(1), X) => i32".
Proof. split; [vm_compute; do 2 eexists; reflexivity|reflexivity]. Qed.
