(** C16: field references.  C17: masks.  C18: expressions on the wire.  C19: visiting.
    C20: equality.  C21: lambda parameters.  C46: checked conditionals.  C47: calls by name. *)

From Coq Require Import ZArith String List Bool Lia.
From Verif Require Import Base FMap TypesModel TypesSpec TypesProofs ExtSetModel ExtSetProofs LoadModel LoadSpec
  LoadProofs LitModel LitSpec LitProofs ExprModel ExprOpsModel ExprSpec ExprProofs ExprWireProofs
  ExprDeclProofs ExprVisitProofs ExprEqProofs ExprEqvProofs ExprBuildProofs.
Import ListNotations.
Local Open Scope Z_scope.

Definition i32 : ty := TPrim PrimI32 2 0.
Definition str : ty := TPrim PrimString 2 0.
Definition five : lit := LPrim (VI32 5) i32.
Definition word : lit := LPrim (VString "k") str.

(** ** C16 *)

(** The type of a path into a type is the type of the part it leads to; a path that leads
    nowhere is an error, and there is no third outcome. *)
Theorem C16_path_type : forall l t, l <> [] -> Forall key_plain l ->
  (exists u, seg_type l (XTy t) = Ok (XTy u) /\ leads t l u) \/
  (seg_type l (XTy t) = Err /\ forall u, ~ leads t l u).
Proof.
  intros l t HN HK. destruct (seg_type_char l (XTy t) HN HK) as [(y & E & H)|(E & H)].
  - apply follows_leads in H. destruct H as (u & -> & H). left. eauto.
  - right. split; auto. intros u HU. apply (H (XTy u)). apply follows_leads. eauto.
Qed.

Definition nest : ty := TStruct 2 0 [i32; TMap 1 0 str (TList 2 0 (TStruct 1 0 [str; i32]))].
Example C16_path_type_nonvacuous :
  let l := [SField 1; SKey word; SElem (-1); SField 1] in
  l <> [] /\ Forall key_plain l /\ leads nest l i32.
Proof.
  cbn. split; [discriminate|]. split.
  - repeat constructor. exists str. split; [constructor|exact I].
  - apply Lead_field with (t := TMap 1 0 str (TList 2 0 (TStruct 1 0 [str; i32]))); [lia|reflexivity|].
    apply Lead_key with (t := str); [constructor|reflexivity|]. apply Lead_elem.
    apply Lead_field with (t := i32); [lia|reflexivity|]. constructor.
Qed.

(** A path leads to one part only. *)
Theorem C16_path_unique : forall l t u u', leads t l u -> leads t l u' -> u = u'.
Proof.
  intros l t u u' H H'.
  assert (A : follows (XTy t) l (XTy u)) by (apply follows_leads; eauto).
  assert (B : follows (XTy t) l (XTy u')) by (apply follows_leads; eauto).
  assert (C := follows_det _ _ _ _ A B). inversion C; auto.
Qed.

(** The same where parts of the type are unknown. *)
Theorem C16_path_type_unknown_parts : forall l x, l <> [] -> Forall key_plain l ->
  (exists y, seg_type l x = Ok y /\ follows x l y) \/ (seg_type l x = Err /\ forall y, ~ follows x l y).
Proof. exact seg_type_char. Qed.

(** [NewFieldRef] answers exactly the references to something, with its type. *)
Theorem C16_new_field_ref : forall R (rel_schema : R -> res (list xtype)) base r l e, Forall key_plain l ->
  (new_field_ref rel_schema r (RefSeg l) base = Ok e <->
   exists t, l <> [] /\ e = ERef r (RefSeg l) t /\
      ((r = RRoot /\ exists cols x, base = Some cols /\ record_type cols x /\ follows x l t) \/
       (exists e0 x, r = RExpr e0 /\ has_type rel_schema e0 x /\ follows x l t))).
Proof.
  intros R rel_schema base r l e HK. rewrite (new_ref_char rel_schema base r (RefSeg l) HK). split.
  - intros (l' & t & E & H). inversion E; subst. eauto.
  - intros (t & H). eauto.
Qed.
Theorem C16_new_field_ref_refused : forall R (rel_schema : R -> res (list xtype)) base r l,
  (forall m, new_field_ref rel_schema r (RefMask m) base = Err) /\
  (r = RRoot -> Forall key_plain l -> new_field_ref rel_schema r (RefSeg l) base <> Panic) /\
  (forall n, new_field_ref rel_schema (ROuter n) (RefSeg l) base = Err /\
             new_field_ref rel_schema (RLambda n) (RefSeg l) base = Err).
Proof.
  intros R rel_schema base r l. split; [reflexivity|]. split.
  - intros -> HK. unfold new_field_ref. destruct l as [|s l]; [discriminate|]. destruct base as [cols|]; [|discriminate].
    destruct (seg_type_char (s :: l) (x_struct NullRequired 0 cols)) as [(y & E & _)|(E & _)]; [discriminate|auto|rewrite E; discriminate|rewrite E; discriminate].
  - intros n. unfold new_field_ref. destruct l; auto.
Qed.
Theorem C16_new_field_ref_from_type : forall R (r : root (expr R)) f t e,
  new_field_ref_from_type r f t = Ok e <->
  e = ERef r f t /\ (exists l, f = RefSeg l /\ l <> []) /\ (r = RRoot \/ exists e0, r = RExpr e0).
Proof.
  intros R r f t e. unfold new_field_ref_from_type. destruct f as [l|m].
  2:{ split; [discriminate|]. intros (_ & (l & H & _) & _). discriminate. }
  destruct l as [|s l]; [split; [discriminate|]; intros (_ & (l & H & HN) & _); inversion H; subst; contradiction|].
  split.
  - intros H. assert (HR : r = RRoot \/ exists e0, r = RExpr e0) by (destruct r; try discriminate; eauto).
    split; [destruct HR as [->|[e0 ->]]; inversion H; auto|]. split; auto. eexists. split; [reflexivity|discriminate].
  - intros (-> & _ & [->|[e0 ->]]); reflexivity.
Qed.

(** A decoded reference carries the type its path leads to. *)
Theorem C16_decoded_reference_type : forall R PR (rel_schema : R -> res (list xtype))
  (conv : option (PR -> eset -> res (R * eset))) canon c base r p s r' l known s',
  expr_from_proto rel_schema conv canon c base (PX_sel r (PRef_direct p)) s = Ok (ERef r' (RefSeg l) known, s') ->
  Forall key_plain l ->
  match r' with
  | RRoot => forall cols, base = Some cols -> exists x, record_type cols x /\ follows x l known
  | RExpr e => exists x, has_type rel_schema e x /\ follows x l known
  | ROuter _ | RLambda _ => known = XNil
  end.
Proof.
  intros R PR rel_schema conv canon c base r p s r' l known s' H HK. cbn [expr_from_proto] in H. unb H. unb H. inversion H; subst. clear H.
  cbn [reference_from_proto] in E0. unb E0.
  assert (NE : forall x t, seg_type a x = Ok t -> a <> []) by (intros x t Q ->; discriminate).
  destruct (nil_root r0) eqn:ER.
  - intros cols HB. rewrite HB in E0. unb E0. inversion E0; subst. exists (x_struct 2 0 cols).
    split; [apply x_struct_spec; reflexivity|]. apply seg_type_iff; eauto.
  - inversion E0; auto.
  - inversion E0; auto.
  - unb E0. unb E0. inversion E0; subst. exists a0. split; [apply has_type_spec; auto|]. apply seg_type_iff; eauto.
Qed.

(** A reference message without root is a reference to the root. *)
Theorem C16_unset_root_is_root : forall R PR (rel_schema : R -> res (list xtype))
  (conv : option (PR -> eset -> res (R * eset))) canon c base f s,
  expr_from_proto rel_schema conv canon c base (PX_sel PRt_unset f) s =
  expr_from_proto rel_schema conv canon c base (PX_sel PRt_root f) s /\
  expr_from_proto rel_schema conv canon c base (PX_sel PRt_unset PRef_unset) s = Ok (ERef RRoot (RefSeg []) XNil, s).
Proof. split; reflexivity. Qed.

(** Paths survive the wire exactly when their keys do. *)
Theorem C16_path_round_trip : forall l,
  Forall key_supported l <-> exists m, seg_to_proto l = Ok m /\ ref_segment_from_proto m = Ok l.
Proof. exact seg_round_trip. Qed.
Example C16_path_round_trip_nonvacuous : Forall key_supported [SField 1; SKey word; SElem (-1)].
Proof. repeat apply Forall_cons; [exact I| |exact I|constructor]. cbn. unfold flagged; auto. Qed.

(** A path message reads exactly when its keys do, and is written back in normal form. *)
Theorem C16_path_messages : forall p,
  (~ seg_readable p /\ seg_from_proto p = Panic) \/
  (seg_readable p /\ exists l, seg_from_proto p = Ok l /\
     ((seg_complete p /\ seg_to_proto l = Ok (seg_normal p)) \/ (~ seg_complete p /\ seg_to_proto l = Panic))).
Proof.
  intros p. destruct (seg_readable_char p) as [[H [l E]]|[H E]]; [right|left; auto].
  split; auto. exists l. split; auto. apply seg_message_round_trip; auto.
Qed.

(** Flattening single segments lists them in order. *)
Theorem C16_flatten_in_order : forall l m, flatten_refs (map (fun s => [s]) l ++ [m])%list = (l ++ m)%list.
Proof. exact flatten_singles. Qed.
(** Segments behind the first of all but the last reference are lost. *)
Theorem C16_flatten_heads : forall refs m, Forall (fun r => r <> []) refs ->
  flatten_refs (refs ++ [m])%list = (flat_map (fun r => firstn 1 r) refs ++ m)%list.
Proof. exact flatten_heads. Qed.
Theorem C16_flatten_keeps_all_refuted : exists refs,
  Forall (fun r => r <> []) refs /\ flatten_refs refs <> List.concat refs.
Proof. exists [[SField 0; SField 1]; [SField 2]]. split; [repeat constructor; discriminate|discriminate]. Qed.

(** ** C17 *)

(** A mask reads back as itself exactly when it has no nil parts; writing any other panics. *)
Theorem C17_mask_round_trip : forall m,
  (mask_ok m /\ exists p, mask_to_proto m = Ok p /\ mask_from_proto p = Ok m) \/
  (~ mask_ok m /\ mask_to_proto m = Panic).
Proof. exact mask_char. Qed.
Example C17_mask_round_trip_nonvacuous : mask_ok
  (Mask [(0, Some (MS_list [MI_elem 3; MI_slice 1 (-1)] (MS_map true "k" (Some (MS_struct [(2, None)]))))); (4, None)] true).
Proof. cbn. intuition discriminate. Qed.
Theorem C17_mask_messages : forall p,
  (mask_readable p /\ exists m, mask_from_proto p = Ok m /\
     ((mask_complete p /\ mask_to_proto m = Ok (mask_normal p)) \/ (~ mask_complete p /\ mask_to_proto m = Panic))) \/
  (~ mask_readable p /\ mask_from_proto p = Panic).
Proof. exact pmask_char. Qed.
Example C17_mask_messages_nonvacuous : mask_complete
  (PMask (Some [(0, Some (PM_list [PI_item 3] (Some (PM_map PK_unset (Some (PM_struct [(2, None)]))))))]) false).
Proof. cbn. intuition discriminate. Qed.

(** ** C18 *)

(** the relations of subqueries survive, in both senses *)
Definition rel_survives {R PR} (rel_to_proto : R -> res PR) (conv : option (PR -> eset -> res (R * eset)))
  (s : eset) (r : R) : Prop :=
  exists p f, rel_to_proto r = Ok p /\ conv = Some f /\ f p s = Ok (r, s).

(** Encoding and decoding gives back the same expression, in the same extension set, for
    the expressions described by [survives], and for no others. *)
Theorem C18_round_trip_iff : forall R PR (rel_to_proto : R -> res PR) rel_schema conv canon c base s,
  (forall f p s r s', conv = Some f -> f p s = Ok (r, s') -> extends s s') ->
  forall e : expr R,
  survives rel_schema canon c base s (rel_survives rel_to_proto conv s) e <->
  exists m, expr_to_proto rel_to_proto e = Ok m /\
            expr_from_proto rel_schema conv canon c base m s = Ok (e, s).
Proof.
  intros R PR rel_to_proto rel_schema conv canon c base s HG e.
  apply round_trip; [|intros r; reflexivity]. intros f E p s0 r s' H. eapply HG; eauto.
Qed.

Theorem C18_aggregate_round_trip_iff : forall R PR (rel_to_proto : R -> res PR) rel_schema conv canon c base s,
  (forall f p s r s', conv = Some f -> f p s = Ok (r, s') -> extends s s') ->
  forall a : aggf R,
  agg_survives rel_schema canon c base s (rel_survives rel_to_proto conv s) a <->
  exists m, agg_to_proto rel_to_proto a = Ok m /\
            agg_from_proto rel_schema conv canon c base m s = Ok (a, s).
Proof.
  intros R PR rel_to_proto rel_schema conv canon c base s HG a.
  apply agg_round_trip; [|intros r; reflexivity]. intros f E p s0 r s' H. eapply HG; eauto.
Qed.

(** an expression with most node kinds, over a set with one known and one unknown function *)
Definition add_id : ext_id := ExtId "extension:x" "add:i32_i32".
Definition add_fn : variant := Variant "extension:x" "add" 0 (Impl ["i32"; "i32"]%string [] "" "" 0).
Definition rank_id : ext_id := ExtId "extension:x" "rank:i32".
Definition two_funcs : eset := ESet [(1, "extension:x"%string)] [] [] [] []
  [(1, add_id); (2, rank_id)] [(add_id, 1); (rank_id, 2)].
Definition one_func : coll := Coll [] [] [(add_id, add_fn)] [] [] [] [] [].
Definition no_coll : coll := Coll [] [] [] [] [] [] [] [].
Definition plain_canon (s : string) : option string := Some s.
Definition cols : list xtype := [XTy i32; XTy nest].
Definition col (i : Z) (t : ty) : expr unit := ERef RRoot (RefSeg [SField i]) (XTy t).
Definition sample_expr : expr unit :=
  EIf [(ESwitch (col 0 i32) [(five, EOr (col 0 i32) [ELit five])] (EMultiOr [col 0 i32] [[ELit five]]),
        EScalar 1 add_fn [AExpr (col 0 i32); AEnum "e"; AType nest] [("o", ["p"])]%string i32)]
    (ECast i32
       (EWindow 2 (Variant "extension:x" "rank" 0 (Impl ["i32"]%string [] "NONE" "PARTITION" 0))
          [AExpr (EMap true 0 [(ELit word, EStruct false 3 [EList true 0 [EParam i32 4]])])] [] i32 3 1
          [ELambda 2 0 [i32] (ERef (RLambda 0) (RefSeg [SField 0]) XNil)]
          [(ERef (RExpr (col 1 nest)) (RefSeg [SField 1; SKey word]) (XTy (TList 2 0 (TStruct 1 0 [str; i32]))), SK_dir 1)]
          2 (Some (BPreceding 3)) None) 1).

Example C18_round_trip_nonvacuous : survives (fun _ : unit => Err) plain_canon one_func (Some cols) two_funcs
  (rel_survives (PR := unit) (fun _ => Err) None two_funcs) sample_expr.
Proof.
  assert (K0 : exists x, record_type cols x /\ follows x [SField 0] (XTy i32)).
  { exists (XTy (TStruct 2 0 [i32; nest])). split; [apply (ST_known 2 0 [i32; nest])|].
    eapply Follow_step; [|constructor]. constructor; [lia|reflexivity]. }
  assert (K1 : exists x, record_type cols x /\ follows x [SField 1] (XTy nest)).
  { exists (XTy (TStruct 2 0 [i32; nest])). split; [apply (ST_known 2 0 [i32; nest])|].
    eapply Follow_step; [|constructor]. constructor; [lia|reflexivity]. }
  assert (C0 : survives (fun _ : unit => Err) plain_canon one_func (Some cols) two_funcs
     (rel_survives (PR := unit) (fun _ => Err) None two_funcs) (col 0 i32)).
  { cbn. split; [exact I|]. split; [repeat constructor|exact K0]. }
  assert (W : flagged 2) by (unfold flagged; auto). assert (W1 : flagged 1) by (unfold flagged; auto).
  assert (WN : wire_type nest) by (cbn; auto 12).
  assert (L5 : supported five) by (cbn; auto). assert (LW : supported word) by (cbn; auto).
  cbn [sample_expr survives All]. repeat match goal with |- _ /\ _ => split end; auto.
  all: try (cbn; auto 10; fail).
  all: try discriminate.
  - apply RF_known with (id := add_id); reflexivity.
  - left. exact WN.
  - apply RF_custom with (id := rank_id) (name := "rank"%string) (words := ["i32"%string]) (args := ["i32"%string]); try reflexivity.
    apply (NP_args "rank" "i32" ["i32"%string]); [|discriminate|].
    + unfold no_char. cbn. intuition discriminate.
    + split; [discriminate|]. split; [|reflexivity]. repeat constructor. unfold no_char. cbn. intuition discriminate.
  - cbn. split; [repeat constructor|reflexivity].
  - cbn. split; [exact I|]. split; [repeat constructor|exact K1].
  - cbn. split; [apply Forall_cons; [exact I|apply Forall_cons; [exact LW|constructor]]|]. exists (XTy nest). split; [constructor|].
    apply Follow_step with (y := XTy (TMap 1 0 str (TList 2 0 (TStruct 1 0 [str; i32])))); [constructor; [lia|reflexivity]|].
    eapply Follow_step; [|constructor]. apply Comp_key with (t := str); [constructor|reflexivity].
Qed.

(** Reading a message keeps every anchor of the set, and every function call read refers to
    a declared function: one of the collection or the one its declaration spells out.
    [S] is what the reader of subqueries guarantees of their relations. *)
Theorem C18_read_calls_are_declared : forall R PR rel_schema
  (conv : option (PR -> eset -> res (R * eset))) canon c base (S : eset -> R -> Prop) m s e s',
  (forall s s' r, keeps s s' -> S s r -> S s' r) ->
  (forall f p s r s', conv = Some f -> f p s = Ok (r, s') ->
     extends s s' /\ (compact s -> fm_len (s_funcs s') < 2 ^ 32 -> compact s' /\ keeps s s' /\ S s' r)) ->
  compact s -> expr_from_proto rel_schema conv canon c base m s = Ok (e, s') -> fm_len (s_funcs s') < 2 ^ 32 ->
  compact s' /\ keeps s s' /\ every_call (names (get_scalar c) s') (names (get_window c) s') (S s') e.
Proof.
  intros R PR rel_schema conv canon c base S m s e s' HK HC HS E HL.
  refine (proj2 (dec_good rel_schema conv canon c base S HK _ m s e s' E) HS HL).
  intros f p Hf s0 y s1 E1. exact (HC f p s0 y s1 Hf E1).
Qed.
Theorem C18_read_aggregate_is_declared : forall R PR rel_schema
  (conv : option (PR -> eset -> res (R * eset))) canon c base m s a s',
  (forall f p s r s', conv = Some f -> f p s = Ok (r, s') ->
     extends s s' /\ (compact s -> fm_len (s_funcs s') < 2 ^ 32 -> compact s' /\ keeps s s')) ->
  compact s -> agg_from_proto rel_schema conv canon c base m s = Ok (a, s') -> fm_len (s_funcs s') < 2 ^ 32 ->
  compact s' /\ keeps s s' /\
  match ag_decl a with
  | Some v => names (get_agg c) s' (ag_ref a) v
  | None => exists v, names (get_agg c) s' (ag_ref a) v
  end.
Proof.
  intros R PR rel_schema conv canon c base m s a s' HC HS E HL.
  assert (G := agg_good (R := R) (PR := PR) rel_schema conv canon c base (fun _ _ => True) (fun _ _ _ _ _ => I)).
  destruct (fun H => G H m s a s' E) as [_ K].
  { intros f p Hf s0 y s1 E1. destruct (HC f p s0 y s1 Hf E1) as [H1 H2]. split; auto. intros Q1 Q2.
    destruct (H2 Q1 Q2). auto. }
  destruct (K HS HL) as (K1 & K2 & _ & _ & K3). auto.
Qed.
Example C18_read_calls_nonvacuous : compact new_set /\ compact two_funcs /\
  exists e s', expr_from_proto (fun _ : unit => Err) (None : option (unit -> _)) plain_canon one_func None
    (PX_scalar 2 [PA_enum "x"] [] (Some (PT_i32 2 0))) two_funcs = Ok (e, s') /\ fm_len (s_funcs s') < 2 ^ 32.
Proof.
  split; [|split].
  - split; intros a id; cbn; [split; discriminate|discriminate].
  - split.
    + intros a id. unfold decode_func. cbn. split.
      * destruct (Z.eqb_spec a 1) as [->|]; [intros H; inversion H; reflexivity|].
        destruct (Z.eqb_spec a 2) as [->|]; [intros H; inversion H; reflexivity|discriminate].
      * destruct (ext_id_eqb id add_id) eqn:E1.
        -- apply ext_id_eqb_spec in E1. subst. intros H; inversion H; subst. reflexivity.
        -- destruct (ext_id_eqb id rank_id) eqn:E2; [|discriminate]. apply ext_id_eqb_spec in E2. subst. intros H; inversion H; subst. reflexivity.
    + intros a id. unfold decode_func. cbn.
      destruct (Z.eqb_spec a 1) as [->|]; [intros _; lia|]. destruct (Z.eqb_spec a 2) as [->|]; [intros _; lia|discriminate].
  - eexists _, _. split; [reflexivity|]. cbn. lia.
Qed.

(** Messages that are no expression are refused with an error. *)
Inductive incomplete {PR} : pexpr PR -> Prop :=
| IN_nil : incomplete PX_nil
| IN_unset : incomplete PX_unset
| IN_enum : incomplete PX_enum
| IN_nested nu v : incomplete (PX_nested_unset nu v)
| IN_subquery : incomplete PX_sub_unset
| IN_cast e fb : incomplete (PX_cast None e fb)
| IN_map nu v : incomplete (PX_map nu v [])
| IN_list nu v : incomplete (PX_list nu v [])
| IN_param : incomplete (PX_param None)
| IN_params body : incomplete (PX_lambda None body)
| IN_body ps : incomplete (PX_lambda (Some ps) PX_nil).
Theorem C18_incomplete_refused : forall R PR (rel_schema : R -> res (list xtype))
  (conv : option (PR -> eset -> res (R * eset))) canon c base m s,
  incomplete m -> expr_from_proto rel_schema conv canon c base m s = Err.
Proof. intros R PR rel_schema conv canon c base m s H. destruct H; try reflexivity. destruct ps as [[? ?] ?]. reflexivity. Qed.
Theorem C18_subqueries_need_a_converter : forall R PR (rel_schema : R -> res (list xtype)) canon c base m s,
  (exists r : PR, m = PX_sub_scalar r \/ (exists ns, m = PX_sub_in ns r) \/ (exists op, m = PX_sub_set op r) \/
     exists red cmp l, m = PX_sub_cmp red cmp l r) ->
  expr_from_proto rel_schema (None : option (PR -> eset -> res (R * eset))) canon c base m s = Err.
Proof. intros R PR rel_schema canon c base m s (r & [->|[[ns ->]|[[op ->]|(red & cmp & l & ->)]]]); reflexivity. Qed.
Theorem C18_undeclared_function_refused : forall R PR (rel_schema : R -> res (list xtype))
  (conv : option (PR -> eset -> res (R * eset))) canon c base ref opts t s,
  decode_func ref s = None ->
  expr_from_proto rel_schema conv canon c base (PX_scalar ref [] opts (Some t)) s = Err /\
  expr_from_proto rel_schema conv canon c base (PX_scalar ref [] opts None) s = Err.
Proof. intros R PR rel_schema conv canon c base ref opts t s H. cbn. unfold resolve_func. rewrite H. auto. Qed.

(** A part that cannot be read makes the whole unreadable, in the same way: an error where
    the part is an error, a panic where it is a panic.  [fails r k]: [k] says which. *)
Inductive fails {A} : res A -> bool -> Prop := F_err : fails Err false | F_panic : fails Panic true.
Lemma fails_bind : forall A B (r : res A) (f : A -> res B) k, fails r k -> fails (bind r f) k.
Proof. intros A B r f k []; constructor. Qed.
Section PartsFail.
Context {R PR : Type}.
Variable rel_schema : R -> res (list xtype).
Variable conv : option (PR -> eset -> res (R * eset)).
Variables (canon : string -> option string) (c : coll) (base : option (list xtype)).
Notation rd := (expr_from_proto rel_schema conv canon c base).
Lemma mapS_head : forall A B (f : A -> eset -> res (B * eset)) x l s k, fails (f x s) k -> fails (mapS f (x :: l) s) k.
Proof. intros A B f x l s k H. cbn. destruct H; constructor. Qed.
Lemma mapS_tail : forall A B (f : A -> eset -> res (B * eset)) x y l s s1 k, f x s = Ok (y, s1) -> fails (mapS f l s1) k -> fails (mapS f (x :: l) s) k.
Proof. intros A B f x y l s s1 k E H. cbn. rewrite E. destruct H; constructor. Qed.
Lemma pairS_fst : forall A B C D (f : A -> eset -> res (C * eset)) (g : B -> eset -> res (D * eset)) a b s k,
  fails (f a s) k -> fails (pairS f g (a, b) s) k.
Proof. intros A B C D f g a b s k H. cbn. destruct H; constructor. Qed.
Lemma pairS_snd : forall A B C D (f : A -> eset -> res (C * eset)) (g : B -> eset -> res (D * eset)) a b s x s1 k,
  f a s = Ok (x, s1) -> fails (g b s1) k -> fails (pairS f g (a, b) s) k.
Proof. intros A B C D f g a b s x s1 k E H. cbn. rewrite E. destruct H; constructor. Qed.
Lemma arg_value_fails : forall p s k, fails (rd p s) k -> fails (farg_from_proto rd (PA_value p) s) k.
Proof. intros p s k H. cbn. destruct H; constructor. Qed.
Lemma root_fails : forall p s k, fails (rd p s) k -> fails (root_from_proto rd (PRt_expr p) s) k.
Proof. intros p s k H. cbn. destruct H; constructor. Qed.

(** the first part that is read *)
Theorem C18_first_part_fails : forall p s k, fails (rd p s) k ->
  (forall f, fails (rd (PX_sel (PRt_expr p) f) s) k) /\
  (forall n l opts out, fails (rd (PX_scalar n (PA_value p :: l) opts out) s) k) /\
  (forall n l opts out ph inv parts sorts bt lo hi,
     fails (rd (PX_window n (PA_value p :: l) opts out ph inv parts sorts bt lo hi) s) k /\
     fails (rd (PX_window n [] opts out ph inv (p :: parts) sorts bt lo hi) s) k /\
     (forall sk l, fails (rd (PX_window n [] opts out ph inv [] ((p, sk) :: l) bt lo hi) s) k)) /\
  (forall ifs, fails (rd (PX_if ifs p) s) k) /\
  (forall ifs els, fails (rd (PX_switch p ifs els) s) k) /\
  (forall l, fails (rd (PX_or p l) s) k) /\
  (forall l l', fails (rd (PX_multi (p :: l) l') s) k /\ fails (rd (PX_multi [] ((p :: l) :: l')) s) k) /\
  (forall t fb, fails (rd (PX_cast (Some t) p fb) s) k) /\
  (forall nu v x l, fails (rd (PX_map nu v ((p, x) :: l)) s) k) /\
  (forall nu v l, fails (rd (PX_struct nu v (p :: l)) s) k /\ fails (rd (PX_list nu v (p :: l)) s) k) /\
  (p <> PX_nil -> forall v, fails (rd (PX_lambda (Some ([], v, 2)) p) s) k) /\
  (forall f l r red cmp, conv = Some f -> fails (rd (PX_sub_in (p :: l) r) s) k /\ fails (rd (PX_sub_cmp red cmp p r) s) k).
Proof.
  intros p s k H.
  split; [intros f; cbn [expr_from_proto]; apply fails_bind, root_fails, H|].
  split; [intros; cbn [expr_from_proto]; apply fails_bind, mapS_head, arg_value_fails, H|].
  split.
  { intros; split; [cbn [expr_from_proto]; apply fails_bind, mapS_head, arg_value_fails, H|]. split.
    - cbn [expr_from_proto mapS bind]. apply fails_bind, mapS_head, H.
    - intros sk l'. cbn [expr_from_proto mapS bind pairS]. destruct H; constructor. }
  split; [intros; cbn [expr_from_proto]; apply fails_bind, H|].
  split; [intros; cbn [expr_from_proto]; apply fails_bind, H|].
  split; [intros; cbn [expr_from_proto]; apply fails_bind, H|].
  split.
  { intros; split; cbn [expr_from_proto].
    - apply fails_bind, mapS_head, H.
    - cbn [mapS bind]. destruct H; constructor. }
  split; [intros; cbn [expr_from_proto]; apply fails_bind, H|].
  split; [intros; cbn [expr_from_proto]; apply fails_bind, mapS_head, pairS_fst, H|].
  split; [intros; split; cbn [expr_from_proto]; apply fails_bind, mapS_head, H|].
  split.
  { intros N v. cbn [expr_from_proto mapM bind negb]. destruct p; try contradiction; cbn [Z.eqb Pos.eqb NullRequired negb]; apply fails_bind, H. }
  intros f l r red cmp ->. split; cbn [expr_from_proto]; apply fails_bind; [apply mapS_head|]; exact H.
Qed.
(** a later one, the first being read *)
Theorem C18_later_part_fails : forall q e p s s1 k, rd q s = Ok (e, s1) -> fails (rd p s1) k ->
  (forall n l opts out, fails (rd (PX_scalar n (PA_value q :: PA_value p :: l) opts out) s) k) /\
  (forall x l, fails (rd (PX_if ((p, x) :: l) q) s) k) /\
  (forall ifs, fails (rd (PX_switch q ifs p) s) k) /\
  (forall l, fails (rd (PX_or q (p :: l)) s) k) /\
  (forall l l', fails (rd (PX_multi (q :: p :: l) l') s) k /\ fails (rd (PX_multi [q] ((p :: l) :: l')) s) k) /\
  (forall nu v l, fails (rd (PX_map nu v ((q, p) :: l)) s) k) /\
  (forall nu v l, fails (rd (PX_struct nu v (q :: p :: l)) s) k /\ fails (rd (PX_list nu v (q :: p :: l)) s) k) /\
  (forall f l r, conv = Some f -> fails (rd (PX_sub_in (q :: p :: l) r) s) k).
Proof.
  intros q e p s s1 k E H.
  split.
  { intros; cbn [expr_from_proto]. apply fails_bind. eapply mapS_tail; [cbn; rewrite E; reflexivity|]. apply mapS_head, arg_value_fails, H. }
  split; [intros; cbn [expr_from_proto]; rewrite E; cbn [bind]; apply fails_bind, mapS_head, pairS_fst, H|].
  split; [intros; cbn [expr_from_proto]; rewrite E; cbn [bind]; apply fails_bind, H|].
  split; [intros; cbn [expr_from_proto]; rewrite E; cbn [bind]; apply fails_bind, mapS_head, H|].
  split.
  { intros; split; cbn [expr_from_proto].
    - apply fails_bind. eapply mapS_tail; [exact E|]. apply mapS_head, H.
    - cbn [mapS]. rewrite E. cbn [bind]. destruct H; constructor. }
  split; [intros; cbn [expr_from_proto]; apply fails_bind, mapS_head; eapply pairS_snd; [exact E|exact H]|].
  split; [intros; split; cbn [expr_from_proto]; apply fails_bind; (eapply mapS_tail; [exact E|]); apply mapS_head, H|].
  intros f l r ->. cbn [expr_from_proto]. apply fails_bind. eapply mapS_tail; [exact E|]. apply mapS_head, H.
Qed.
(** literals, types, sort directions and subqueries in an expression; an argument without a
    value, a sort without a direction and parameters marked nullable are errors *)
Theorem C18_other_parts_fail : forall q e s s1, rd q s = Ok (e, s1) ->
  (forall m k, fails (lit_from_proto m) k -> fails (rd (PX_lit m) s) k /\
     forall els e2 s2 x l, rd els s1 = Ok (e2, s2) -> fails (rd (PX_switch q ((m, x) :: l) els) s) k) /\
  (forall t k, fails (type_from_proto t) k ->
     fails (rd (PX_cast (Some t) q 0) s) k /\ (forall n, fails (rd (PX_param (Some (t, n))) s) k) /\
     (forall n l opts out, fails (rd (PX_scalar n (PA_type t :: l) opts out) s) k) /\
     (forall l v n, q <> PX_nil -> fails (rd (PX_lambda (Some (t :: l, v, n)) q) s) k)) /\
  (forall n l opts out, rd (PX_scalar n (PA_unset :: l) opts out) s = Err) /\
  (forall n opts out ph inv l bt lo hi, rd (PX_window n [] opts out ph inv [] ((q, PSK_unset) :: l) bt lo hi) s = Err) /\
  (forall v n, n <> 2 -> rd (PX_lambda (Some ([], v, n)) q) s = Err) /\
  (forall f r k, conv = Some f -> fails (f r s) k -> fails (rd (PX_sub_scalar r) s) k /\ (forall op, fails (rd (PX_sub_set op r) s) k)) /\
  (forall f r k, conv = Some f -> fails (f r s1) k ->
     fails (rd (PX_sub_in [q] r) s) k /\ forall red cmp, fails (rd (PX_sub_cmp red cmp q r) s) k).
Proof.
  intros q e s s1 E. split.
  { intros m k H. split; [cbn [expr_from_proto]; apply fails_bind, H|].
    intros els e2 s2 x l E2. cbn [expr_from_proto]. rewrite E. cbn [bind]. rewrite E2. cbn [bind].
    apply fails_bind, mapS_head, pairS_fst. unfold liftS. destruct H; constructor. }
  split.
  { intros t k H. split; [cbn [expr_from_proto]; rewrite E; cbn [bind]; apply fails_bind, H|].
    split; [intros; cbn [expr_from_proto]; apply fails_bind, H|].
    split; [intros; cbn [expr_from_proto]; apply fails_bind, mapS_head; cbn; destruct H; constructor|].
    intros l v n N. cbn [expr_from_proto]. destruct q; try contradiction; cbn [mapM]; destruct H; constructor. }
  split; [reflexivity|]. split.
  { intros. cbn [expr_from_proto mapS bind pairS]. rewrite E. reflexivity. }
  split.
  { intros v n N. assert (Z : (n =? NullRequired) = false) by (apply Z.eqb_neq; exact N).
    destruct q; cbn [expr_from_proto mapM bind]; rewrite ?Z; reflexivity. }
  split.
  { intros f r k -> H. split; [|intros op]; cbn [expr_from_proto]; apply fails_bind, H. }
  intros f r k -> H. split; [|intros red cmp]; cbn [expr_from_proto mapS]; rewrite E; cbn [bind]; apply fails_bind, H.
Qed.
End PartsFail.
Example C18_parts_fail_example :
  fails (expr_from_proto (PR := unit) (fun _ : unit => Err) None plain_canon no_coll None PX_enum new_set) false /\
  expr_from_proto (PR := unit) (fun _ : unit => Err) None plain_canon no_coll None
    (PX_struct false 0 [PX_struct false 0 []; PX_enum]) new_set = Err /\
  exists e, expr_from_proto (PR := unit) (fun _ : unit => Err) None plain_canon no_coll None (PX_struct false 0 []) new_set = Ok (e, new_set).
Proof. split; [constructor|]. split; [reflexivity|]. eexists. reflexivity. Qed.

(** Findings: what is built or read, but does not survive. *)
(** a switch without else clause passes the checked constructor; its message is refused *)
Theorem C18_switch_without_else_refuted : exists (e : expr unit) m,
  new_switch (fun _ => Err) (ELit five) (ELit LNil) [(five, ELit word)] = Ok e /\
  expr_to_proto (fun _ => Err) e = Ok m /\
  expr_from_proto (R := unit) (PR := unit) (fun _ => Err) None plain_canon no_coll None m new_set = Err.
Proof. eexists _, _. split; [reflexivity|]. split; reflexivity. Qed.
(** an unknown function without argument types gets another name and another anchor *)
Theorem C18_unknown_function_renamed_refuted : exists s s' v,
  decode_func 1 s = Some (ExtId "u" "f") /\
  expr_from_proto (R := unit) (PR := unit) (fun _ => Err) None plain_canon no_coll None
    (PX_scalar 1 [] [] (Some (PT_i32 2 0))) s = Ok (EScalar 2 v [] [] i32, s') /\
  decode_func 2 s' = Some (ExtId "u" "f:").
Proof.
  exists (ESet [(1, "u"%string)] [] [] [] [] [(1, ExtId "u" "f")] [(ExtId "u" "f", 1)]).
  eexists _, _. split; [reflexivity|]. split; reflexivity.
Qed.
(** argument types that do not parse panic *)
Theorem C18_unknown_function_panics_refuted : exists s,
  expr_from_proto (R := unit) (PR := unit) (fun _ => Err) None (fun _ => None) no_coll None
    (PX_scalar 1 [] [] (Some (PT_i32 2 0))) s = Panic.
Proof. exists (ESet [(1, "u"%string)] [] [] [] [] [(1, ExtId "u" "f:x")] [(ExtId "u" "f:x", 1)]). reflexivity. Qed.

(** ** C19 *)

Section Visiting.
Context {R A : Type}.
Variable visit : A -> expr R -> option (expr R) * A.

(** The visitor sees the operands in order, once each; if nothing changes, the answer is
    the visited expression; otherwise it is the expression with the visitor's answers in
    place of the operands and everything else as before. *)
Theorem C19_visit : forall e st ys ch st',
  e <> blank -> (forall v opts, e <> EMultiOr v opts) -> visits visit st (slots e) ys ch st' ->
  (forall m ifs els, e = ESwitch m ifs els -> Forall (fun p => fst p <> LNil) ifs /\ keys_literal (tl ys) (List.length ifs)) ->
  if ch then exists e', expr_visit visit e st = Ok (Some e', st') /\ shell e' = shell e /\ map fst (slots e') = ys
  else expr_visit visit e st = Ok (None, st').
Proof. intros e st ys ch st'. exact (visit_char visit e st ys ch st'). Qed.
(** A missing expression cannot be visited. *)
Theorem C19_nil_panics : forall st, expr_visit visit (ELit LNil) st = Panic.
Proof. reflexivity. Qed.
(** ... which determines the answer *)
Theorem C19_answer_unique : forall a b : expr R,
  shell a = shell b -> map fst (slots a) = map fst (slots b) -> a = b.
Proof. exact shell_slots. Qed.
Theorem C19_visits_total_deterministic : forall l st,
  exists ys ch st', visits visit st l ys ch st' /\
    (forall ys2 ch2 st2, visits visit st l ys2 ch2 st2 -> ys2 = ys /\ ch2 = ch /\ st2 = st') /\
    List.length ys = List.length l /\ (ch = false -> ys = map fst l).
Proof.
  intros l st. destruct (visits_total visit l st) as (ys & ch & st' & H). exists ys, ch, st'. split; auto. split; [|split].
  - intros ys2 ch2 st2 H2. destruct (visits_det _ _ _ _ _ _ _ _ _ H H2) as (-> & -> & ->). auto.
  - eapply visits_length; eauto.
  - intros ->. eapply visits_unchanged; eauto.
Qed.
(** A switch whose case keys are replaced by something else than literals panics. *)
Theorem C19_switch_keys_must_stay_literals : forall m ifs els st ys ch st',
  visits visit st (slots (ESwitch m ifs els)) ys ch st' ->
  Forall (fun p => fst p <> LNil) ifs -> ~ keys_literal (tl ys) (List.length ifs) ->
  expr_visit visit (ESwitch m ifs els) st = Panic.
Proof. exact (visit_switch_panic visit). Qed.
(** Multi-or-lists: correct when one of the values changes, but a change among the options
    alone panics. *)
Theorem C19_multi_or_list : forall v opts st y1 c1 st1 y2 c2 st2,
  visits visit st (map (fun x => (x, true)) v) y1 c1 st1 ->
  visits visit st1 (map (fun x => (x, true)) (List.concat opts)) y2 c2 st2 ->
  if c1 then exists opts', expr_visit visit (EMultiOr v opts) st = Ok (Some (EMultiOr y1 opts'), st2) /\
               List.concat opts' = y2 /\ map (@List.length _) opts' = map (@List.length _) opts
  else if c2 then expr_visit visit (EMultiOr v opts) st = Panic
  else expr_visit visit (EMultiOr v opts) st = Ok (None, st2).
Proof.
  intros v opts st y1 c1 st1 y2 c2 st2 H1 H2. assert (X := multi_char visit v opts st y1 c1 st1 y2 c2 st2 H1 H2).
  destruct c1; auto. destruct X as (v' & opts' & E & -> & H). eauto.
Qed.
End Visiting.

Theorem C19_multi_or_list_options_refuted : exists (visit : unit -> expr unit -> option (expr unit) * unit) v opts,
  expr_visit visit (EMultiOr v opts) tt = Panic.
Proof.
  exists (fun _ e => (match e with ELit (LPrim (VString _) _) => Some (ELit five) | _ => None end, tt)).
  exists [ELit five], [[ELit word]]. reflexivity.
Qed.

(** Visiting with a visitor that answers its argument gives back the expression. *)
Theorem C19_identity : forall R A (e : expr R) (st : A),
  e <> blank -> (forall m ifs els, e = ESwitch m ifs els -> Forall (fun p => fst p <> LNil) ifs) ->
  expr_visit (fun st _ => (None, st)) e st = Ok (None, st).
Proof.
  intros R A e st HN HS. set (id := fun (st : A) (_ : expr R) => (@None (expr R), st)).
  assert (V : forall l, visits id st l (map fst l) false st).
  { induction l as [|[x b] l IH]; cbn [map fst]; [constructor|]. destruct b; [eapply V_same; [reflexivity|auto]|constructor; auto]. }
  destruct e; try (refine (C19_visit id _ st _ false st HN _ (V _) _); intros; discriminate).
  - refine (C19_visit id _ st _ false st HN _ (V _) _); [intros; discriminate|].
    intros m ifs0 els E. injection E as -> -> ->. assert (HK := HS _ _ _ eq_refl). split; auto.
    cbn [slots map tl]. clear - HK. induction HK as [|[k x] ifs0 H HF IH]; cbn; auto. split; auto.
    exists k. split; auto.
  - assert (X := C19_multi_or_list id v opts st _ false st _ false st (V _) (V _)). exact X.
Qed.
Example C19_nonvacuous :
  let visit := fun (n : nat) (e : expr unit) => (match e with ELit _ => Some (ELit word) | _ => None end, S n) in
  exists ys, visits visit 0%nat (slots (EIf [(ELit five, col 0 i32)] (ELit five))) ys true 3%nat /\
  expr_visit visit (EIf [(ELit five, col 0 i32)] (ELit five)) 0%nat =
    Ok (Some (EIf [(ELit word, col 0 i32)] (ELit word)), 3%nat).
Proof.
  intros visit. exists [ELit word; col 0 i32; ELit word]. split; [|reflexivity].
  cbn. eapply V_answer; [reflexivity| |intros [? ?]; discriminate]. eapply V_same; [reflexivity|].
  eapply V_answer; [reflexivity|constructor|intros [? ?]; discriminate].
Qed.

(** ** C20 *)

Section Equal.
Context {R : Type}.
(** identity of argument interfaces, of mask objects and of relations *)
Variable same_arg : farg (expr R) -> farg (expr R) -> bool.
Variable same_mask : mask -> mask -> bool.
Variable same_rel : R -> R -> bool.
(** the number of arguments of each function *)
Variable arity : Z -> nat.
Hypothesis same_arg_eq : forall a b, same_arg a b = true -> a = b.
Notation equals := (expr_equals same_arg same_mask same_rel).
Notation comp := (comparable same_mask same_rel arity).

(** [Equals] always answers, and answers true exactly for expressions of the same kind with
    the same types and the same parts in the same order. *)
Theorem C20_equality : forall a b, comp a -> comp b ->
  exists c, equals a b = Ok c /\ (c = true <-> same_expr same_mask same_rel a b).
Proof. intros a b HA HB. exact (equals_char same_arg same_mask same_rel arity same_arg_eq a HA b HB). Qed.
Theorem C20_reflexive : forall a, comp a -> equals a a = Ok true.
Proof.
  intros a HA. destruct (C20_equality a a HA HA) as (c & E & H). rewrite E. f_equal. apply H.
  eapply same_refl; eauto.
Qed.
Hypothesis mask_symmetric : forall a b, same_mask a b = true -> same_mask b a = true.
Hypothesis mask_transitive : forall a b c, same_mask a b = true -> same_mask b c = true -> same_mask a c = true.
Hypothesis rel_symmetric : forall a b, same_rel a b = true -> same_rel b a = true.
Hypothesis rel_transitive : forall a b c, same_rel a b = true -> same_rel b c = true -> same_rel a c = true.
Theorem C20_symmetric : forall a b, comp a -> comp b -> equals a b = equals b a.
Proof.
  intros a b HA HB. destruct (C20_equality a b HA HB) as (c & E & H). destruct (C20_equality b a HB HA) as (d & E' & H').
  assert (T : forall x y, same_expr same_mask same_rel x y -> same_expr same_mask same_rel y x).
  { intros x y HX. apply (turns_expr same_mask same_rel) in HX; [apply HX| |].
    - intros m w HW. split; [auto|]. intros z. apply mask_transitive; auto.
    - intros m w HW. split; [auto|]. intros z. apply rel_transitive; auto. }
  rewrite E, E'. f_equal. destruct c, d; auto.
  - symmetry. apply H'. apply T. apply H. auto.
  - apply H. apply T. apply H'. auto.
Qed.
Theorem C20_transitive : forall a b c, comp a -> comp b -> comp c ->
  equals a b = Ok true -> equals b c = Ok true -> equals a c = Ok true.
Proof.
  intros a b c HA HB HC E1 E2. destruct (C20_equality a b HA HB) as (x & X & HX). destruct (C20_equality b c HB HC) as (y & Y & HY).
  destruct (C20_equality a c HA HC) as (z & Z & HZ). rewrite Z. f_equal. apply HZ.
  assert (x = true) by congruence. assert (y = true) by congruence. apply HX in H. apply HY in H0.
  apply (turns_expr same_mask same_rel) in H; [apply H; auto| |].
  - intros m w HW. split; [auto|]. intros v. apply mask_transitive; auto.
  - intros m w HW. split; [auto|]. intros v. apply rel_transitive; auto.
Qed.
End Equal.

Definition never {A} (_ _ : A) : bool := false.
Example C20_nonvacuous :
  let add x y := EScalar 1 add_fn [AExpr x; AExpr y] [] i32 : expr unit in
  let e x := EIf [(ELit five, add (ELit x) (col 0 i32))] (ECast i32 (ELit word) 1) in
  comparable never never (fun _ => 2%nat) (e five) /\ comparable never never (fun _ => 2%nat) (e (LPrim (VI32 6) i32)) /\
  expr_equals never never never (e five) (e five) = Ok true /\
  expr_equals never never never (e five) (e (LPrim (VI32 6) i32)) = Ok false.
Proof.
  assert (C : comparable never never (fun _ => 2%nat) (col 0 i32)).
  { cbn. split; [auto|]. split; [discriminate|]. split; repeat constructor. }
  intros add e.
  assert (D : forall k, comparable never never (fun _ => 2%nat) (e (LPrim (VI32 k) i32))).
  { intros k. cbn. repeat split; auto. }
  split; [apply D|]. split; [apply D|]. split; reflexivity.
Qed.

(** Findings: where the arguments differ in number, equality of scalar functions is neither
    symmetric nor safe. *)
Theorem C20_scalar_arguments_refuted : exists a b : expr unit,
  expr_equals never never never a b = Ok true /\ expr_equals never never never b a = Panic.
Proof.
  exists (EScalar 1 add_fn [] [] i32), (EScalar 1 add_fn [AExpr (ELit five)] [] i32). split; reflexivity.
Qed.
(** an if without else equals one with else, but not the other way round *)
Theorem C20_if_without_else_refuted : exists a b : expr unit,
  expr_equals never never never a b = Ok true /\ expr_equals never never never b a = Ok false.
Proof.
  exists (EIf [(ELit five, ELit five)] blank), (EIf [(ELit five, ELit five)] (ELit five)). split; reflexivity.
Qed.
(** the bounds type (rows or range) of a window is not compared *)
Theorem C20_window_bounds_type_refuted : exists a b : expr unit,
  expr_equals never never never a b = Ok true /\ a <> b.
Proof.
  exists (EWindow 2 add_fn [] [] i32 3 1 [] [] 1 None None), (EWindow 2 add_fn [] [] i32 3 1 [] [] 2 None None).
  split; [reflexivity|discriminate].
Qed.
(** set comparisons without left operand are all equal *)
Theorem C20_set_comparison_refuted : exists a b : expr unit,
  expr_equals never never never a b = Ok true /\ a <> b.
Proof. exists (ESubCmp 1 1 blank tt), (ESubCmp 2 2 blank tt). split; [reflexivity|discriminate]. Qed.

(** ** C21 *)

(** The type of a parameter reference: the [k]-th lambda around, its [i]-th parameter, and
    the path from there. *)
Theorem C21_parameter_type : forall ctx i l k, 0 <= k -> Forall key_plain l ->
  (exists x t, lambda_param_type ctx i l k = Ok x /\ param_type ctx k i t /\ follows (XTy t) l x) \/
  (lambda_param_type ctx i l k = Err /\ forall t x, ~ (param_type ctx k i t /\ follows (XTy t) l x)).
Proof.
  intros ctx i l k HK HP. destruct (lambda_param_type_char ctx i l k HK HP) as [(x & E & t & H1 & H2)|H]; [left|right; auto].
  exists x, t. auto.
Qed.
Theorem C21_parameter_unique : forall ctx k i t t', param_type ctx k i t -> param_type ctx k i t' -> t = t'.
Proof. exact param_type_det. Qed.

(** A builder builds what it describes and nothing else, or fails; it leaves the scopes as
    they were, on success and on an error. *)
Theorem C21_build : forall R (rel_schema : R -> res (list xtype)) short resolve c base b ctx s,
  paths_plain b ->
  (exists e s', build rel_schema short resolve c base b (BState ctx s) = (Ok e, BState ctx s') /\
     forall e' s'', builds rel_schema short resolve c base ctx b s e' s'' <-> e' = e /\ s'' = s') \/
  (exists r st, build rel_schema short resolve c base b (BState ctx s) = (r, st) /\
     (r = Err \/ r = Panic) /\ (r = Err -> b_ctx st = ctx) /\
     forall e' s'', ~ builds rel_schema short resolve c base ctx b s e' s'').
Proof. intros R rel_schema short resolve c base b ctx s H. exact (build_pinned rel_schema short resolve c base b H ctx s). Qed.

(** An error in a part is an error, and a panic a panic, of the whole. *)
Theorem C21_failures_are_reported : forall R (rel_schema : R -> res (list xtype)) short resolve c base b s r st,
  let bld := build rel_schema short resolve c base in
  bld b s = (r, st) -> r = Err \/ r = Panic ->
  (forall t fb, bld (BCast b t fb) s = (r, st)) /\
  (forall id opts args, fst (bld (BScalar id opts (BArgExpr b :: args)) s) = match r with Panic => Panic | _ => Err end) /\
  (forall id opts args ph inv parts sorts bt lo hi,
     fst (bld (BWindow id opts (BArgExpr b :: args) ph inv parts sorts bt lo hi) s) = match r with Panic => Panic | _ => Err end) /\
  (forall id opts ph inv parts sorts bt lo hi,
     fst (bld (BWindow id opts [] ph inv (b :: parts) sorts bt lo hi) s) = match r with Panic => Panic | _ => Err end) /\
  (forall v ps ctx, s = BState (ctx ++ [ps]) (b_set s) ->
     fst (bld (BLambda (Some (2, v, map Some ps)) (Some b)) (BState ctx (b_set s))) = match r with Panic => Panic | _ => Err end).
Proof.
  intros R rel_schema short resolve c base b s r st bld E HR. unfold bld in *.
  split; [intros; rewrite bd_cast, E; destruct HR; subst; reflexivity|].
  assert (HA : forall args, mapB (build_arg rel_schema short resolve c base) (BArgExpr b :: args) s =
            (match r with Panic => Panic | _ => Err end, st)).
  { intros args. cbn [mapB].
    change (build_arg rel_schema short resolve c base (BArgExpr b) s) with
      (bthen (build rel_schema short resolve c base b s) (fun e s1 => (Ok (AExpr e), s1))). rewrite E. destruct HR; subst; reflexivity. }
  split; [intros; rewrite bd_scalar, HA; destruct HR; subst; reflexivity|].
  split; [intros; rewrite bd_window, HA; destruct HR; subst; reflexivity|].
  split.
  - intros. rewrite bd_window. cbn [mapB bthen]. rewrite E. destruct HR; subst; reflexivity.
  - intros v ps ctx HS. cbn [build]. change (negb (2 =? NullRequired)) with false. cbn iota.
    rewrite (proj2 (all_some_iff _ _ ps) eq_refl).
    cbn [b_ctx b_set]. rewrite <- HS, E. destruct HR; subst; reflexivity.
Qed.

(** A lambda without parameters, with parameters that are not required or not given, or
    without a body is refused with an error before anything is built. *)
Theorem C21_malformed_lambda : forall R (rel_schema : R -> res (list xtype)) short resolve c base s n v ts body,
  let bld := build rel_schema short resolve c base in
  bld (BLambda None body) s = (Err, s) /\
  (n <> 2 \/ In None ts \/ body = None -> bld (BLambda (Some (n, v, ts)) body) s = (Err, s)).
Proof.
  intros R rel_schema short resolve c base s n v ts body bld. split; [reflexivity|]. unfold bld. cbn [build].
  intros H. destruct (Z.eqb_spec n NullRequired) as [->|]; [|reflexivity]. cbn [negb].
  destruct H as [H|H]; [exfalso; apply H; reflexivity|].
  destruct (all_some ts) as [ps|] eqn:E; [|reflexivity].
  apply all_some_iff in E. destruct H as [H| ->]; [|reflexivity].
  subst. apply in_map_iff in H as (x & H & _). discriminate.
Qed.
(** Every parameter reference in what was built has the type of the parameter it names. *)
Theorem C21_built_references_are_scoped : forall R (rel_schema : R -> res (list xtype)) short resolve c base b ctx s e s',
  paths_plain b -> closed_parts b ->
  build rel_schema short resolve c base b (BState ctx s) = (Ok e, BState ctx s') -> scoped ctx e.
Proof.
  intros R rel_schema short resolve c base b ctx s e s' HP HC E.
  destruct (C21_build R rel_schema short resolve c base b ctx s HP) as [(e1 & s1 & E1 & H)|(r & st & E1 & [-> | ->] & _)]; try congruence.
  rewrite E in E1. inversion E1; subst. eapply builds_scoped; eauto. apply H. auto.
Qed.
(** inside a lambda in a lambda: the outer lambda's parameter, one step out *)
Definition nested_lambdas : @bld unit :=
  BLambda (Some (2, 0, [Some i32; Some nest]))
    (Some (BLambda (Some (2, 0, [Some str])) (Some (BCast (BLamRef 1 [SField 0] 1) str 1)))).
Example C21_nonvacuous : paths_plain nested_lambdas /\ closed_parts nested_lambdas /\
  build (fun _ => Err) (fun _ => ""%string) (fun _ _ _ => Err) no_coll None nested_lambdas (BState [] new_set) =
    (Ok (ELambda 2 0 [i32; nest] (ELambda 2 0 [str]
       (ECast str (ERef (RLambda 1) (RefSeg [SField 1; SField 0]) (XTy i32)) 1))), BState [] new_set) /\
  param_type [[i32; nest]; [str]] 1 1 nest /\
  build (fun _ => Err) (fun _ => ""%string) (fun _ _ _ => Err) no_coll None
    (BLambda (Some (2, 0, [Some i32])) (Some (BLamRef 0 [] 1) : option (@bld unit))) (BState [] new_set) = (Err, BState [] new_set).
Proof.
  split; [cbn; repeat split; try lia; repeat constructor|]. split; [cbn; auto|]. split; [reflexivity|]. split; [|reflexivity].
  exists [i32; nest]. repeat split; try lia.
Qed.

(** ** C46 *)

(** [NewIfThen] accepts exactly the conditionals whose results all have the type of the
    else clause, and answers that conditional. *)
Theorem C46_if_then : forall R (rel_schema : R -> res (list xtype)) first els more t e,
  has_type rel_schema els (XTy t) -> plain t ->
  (new_if_then rel_schema first els more = Ok e <->
   els <> ELit LNil /\ Forall (if_ok rel_schema t) (first :: more) /\ e = EIf (first :: more) els).
Proof. intros R rel_schema. exact (new_if_iff rel_schema). Qed.
(** and none whose type is unknown in parts *)
Theorem C46_if_then_unknown_type : forall R (rel_schema : R -> res (list xtype)) first els more x e,
  has_type rel_schema els x -> unknown_part x -> new_if_then rel_schema first els more <> Ok e.
Proof. intros R rel_schema. exact (new_if_unknown rel_schema). Qed.
(** [NewSwitch]: the keys have the type of the subject, the results the type of the else
    clause (without one: of the first result); nullability does not count. *)
Theorem C46_switch : forall R (rel_schema : R -> res (list xtype)) m els cases mt out x e,
  has_type rel_schema m (XTy mt) -> plain mt ->
  model_branch els cases x -> has_type rel_schema x (XTy out) -> plain out ->
  (new_switch rel_schema m els cases = Ok e <->
   m <> ELit LNil /\ cases <> [] /\ Forall (case_ok rel_schema mt out) cases /\ e = ESwitch m cases els).
Proof. intros R rel_schema. exact (new_switch_iff rel_schema). Qed.
Example C46_nonvacuous :
  new_if_then (fun _ : unit => Err) (ELit five, col 0 i32) (ELit five) [(ELit word, ELit five)] =
    Ok (EIf [(ELit five, col 0 i32); (ELit word, ELit five)] (ELit five)) /\
  new_if_then (fun _ : unit => Err) (ELit five, ELit word) (ELit five) [] = Err /\
  has_type (fun _ : unit => Err) (ELit five) (XTy i32) /\
  new_switch (fun _ : unit => Err) (col 0 (TPrim PrimI32 1 0)) (ELit word) [(five, col 1 (TPrim PrimString 1 0))] =
    Ok (ESwitch (col 0 (TPrim PrimI32 1 0)) [(five, col 1 (TPrim PrimString 1 0))] (ELit word)) /\
  new_switch (fun _ : unit => Err) (col 0 i32) (ELit word) [(word, ELit word)] = Err /\
  model_branch (ELit word : expr unit) [(five, ELit five)] (ELit word).
Proof.
  split; [reflexivity|]. split; [reflexivity|]. split; [apply has_type_spec; reflexivity|].
  split; [reflexivity|]. split; [reflexivity|]. left. split; [discriminate|reflexivity].
Qed.

(** ** C47 *)

Section Named.
Context {R : Type}.
Variable rel_schema : R -> res (list xtype).
(** how a type is abbreviated in a name, and how a declaration decides its result type *)
Variable short : ty -> string.
Variable resolve : variant -> list xtype -> eset -> res (ty * eset).
Variable c : coll.

(** A call built by name uses the declaration of that name or, failing that, the one whose
    name is completed with the argument types; it carries that declaration's result type and
    the anchor of its full name. *)
Theorem C47_scalar : forall id opts args s e s',
  new_scalar_func rel_schema short resolve c id opts args s = Ok (e, s') <->
  exists v t a, call_resolves rel_schema short resolve (get_scalar c) id args s v t a s' /\ e = EScalar a v args opts t.
Proof. exact (new_scalar_iff rel_schema short resolve c). Qed.
Theorem C47_aggregate : forall id opts inv ph sorts args s e s',
  new_aggregate_func rel_schema short resolve c id opts inv ph sorts args s = Ok (e, s') <->
  exists v t a, call_resolves rel_schema short resolve (get_agg c) id args s v t a s' /\
    e = AggF a (Some v) args opts t ph inv sorts.
Proof. exact (new_agg_iff rel_schema short resolve c). Qed.
(** a window function that cannot be decomposed is only callable from initial to result *)
Theorem C47_window : forall id opts inv ph args s e s',
  new_window_func rel_schema short resolve c id opts inv ph args s = Ok (e, s') <->
  exists v t a, call_resolves rel_schema short resolve (get_window c) id args s v t a s' /\
    (i_decomp (v_impl v) = "NONE"%string -> ph = 3) /\
    e = EWindow a v args opts t ph inv [] [] 0 None None.
Proof. exact (new_window_iff rel_schema short resolve c). Qed.
(** the call is determined *)
Theorem C47_determined : forall get id args s v t a s' v' t' a' s'',
  call_resolves rel_schema short resolve get id args s v t a s' ->
  call_resolves rel_schema short resolve get id args s v' t' a' s'' -> v' = v /\ t' = t /\ a' = a /\ s'' = s'.
Proof.
  intros get id args s v t a s' v' t' a' s'' H1 H2.
  destruct (call_det rel_schema short resolve get id args s v t a s' v' t' a' s'' H1 H2) as (H3 & H4 & H5 & H6); subst; auto.
Qed.
End Named.
Example C47_nonvacuous :
  new_scalar_func (fun _ : unit => Err) (fun _ => "i32"%string) (fun _ _ s => Ok (i32, s)) one_func
    (ExtId "extension:x" "add") [] [AExpr (ELit five); AExpr (col 0 i32)] new_set =
  Ok (EScalar 1 add_fn [AExpr (ELit five); AExpr (col 0 i32)] [] i32, ESet [(1, "extension:x"%string)] [] [] [] [] [(1, add_id)] [(add_id, 1)]).
Proof. reflexivity. Qed.

Print Assumptions C16_path_type.
Print Assumptions C16_path_unique.
Print Assumptions C16_path_type_unknown_parts.
Print Assumptions C16_new_field_ref.
Print Assumptions C16_new_field_ref_refused.
Print Assumptions C16_new_field_ref_from_type.
Print Assumptions C16_decoded_reference_type.
Print Assumptions C16_unset_root_is_root.
Print Assumptions C16_path_round_trip.
Print Assumptions C16_path_messages.
Print Assumptions C16_flatten_in_order.
Print Assumptions C16_flatten_heads.
Print Assumptions C16_flatten_keeps_all_refuted.
Print Assumptions C17_mask_round_trip.
Print Assumptions C17_mask_messages.
Print Assumptions C18_round_trip_iff.
Print Assumptions C18_aggregate_round_trip_iff.
Print Assumptions C18_read_calls_are_declared.
Print Assumptions C18_read_aggregate_is_declared.
Print Assumptions C18_incomplete_refused.
Print Assumptions C18_subqueries_need_a_converter.
Print Assumptions C18_undeclared_function_refused.
Print Assumptions C18_switch_without_else_refuted.
Print Assumptions C18_unknown_function_renamed_refuted.
Print Assumptions C18_unknown_function_panics_refuted.
Print Assumptions C19_visit.
Print Assumptions C19_answer_unique.
Print Assumptions C19_visits_total_deterministic.
Print Assumptions C19_switch_keys_must_stay_literals.
Print Assumptions C19_multi_or_list.
Print Assumptions C19_multi_or_list_options_refuted.
Print Assumptions C19_identity.
Print Assumptions C20_equality.
Print Assumptions C20_reflexive.
Print Assumptions C20_symmetric.
Print Assumptions C20_transitive.
Print Assumptions C20_scalar_arguments_refuted.
Print Assumptions C20_if_without_else_refuted.
Print Assumptions C20_window_bounds_type_refuted.
Print Assumptions C20_set_comparison_refuted.
Print Assumptions C21_parameter_type.
Print Assumptions C21_parameter_unique.
Print Assumptions C21_build.
Print Assumptions C21_failures_are_reported.
Print Assumptions C21_built_references_are_scoped.
Print Assumptions C46_if_then.
Print Assumptions C46_if_then_unknown_type.
Print Assumptions C46_switch.
Print Assumptions C47_scalar.
Print Assumptions C47_aggregate.
Print Assumptions C47_window.
Print Assumptions C47_determined.
Print Assumptions C18_first_part_fails.
Print Assumptions C18_later_part_fails.
Print Assumptions C18_other_parts_fail.
Print Assumptions C19_nil_panics.
Print Assumptions C21_malformed_lambda.
