(** C64, C65: what is read from a file of function test cases. *)

From Coq Require Import ZArith String Ascii Bool Lia List.
From Verif Require FuncTypeProofs.
From Verif Require Import Base FMap TypesModel SigModel DecimalSpec LitModel TimeModel CalModel CalSpec CalTextProofs IntervalModel TextSpec DecTextSpec TestCaseModel TestCaseSpec TestCaseProofs.
Import ListNotations.
Local Open Scope string_scope.
Local Open Scope Z_scope.

(** ** C65: arguments *)

Section Floats.
Variable parse_float : string -> res Z.
Variable to_float32 : Z -> Z.
Notation read_typed_arg := (read_typed_arg parse_float to_float32).
Notation arg_says := (arg_says parse_float to_float32).
Notation element_says := (element_says parse_float to_float32).

(** An argument other than a list is read exactly if its text says a value of the type it declares; what is read is the text, that
    type and that value. *)
Theorem C65_argument : forall a c, ~ is_list a -> read_typed_arg a = Ok c <-> arg_says a c.
Proof. apply arg_iff. Qed.

(** A list is read exactly if its elements say values, all of one type; what is read is the list of them under the type declared.  (Not
    for a null among day-time intervals of a type that is not nullable, see C65_shared_interval.) *)
Theorem C65_list : forall es d null t c, declares d t -> unshared t (existsb has_null es) ->
  read_typed_arg (GList es d null) = Ok c <->
  exists os, Forall2 (element_says t) es os /\ of_one_type (kept os) /\
    c = Case (TList (nul null) 0 t) "" (CLit (LList (kept os) (TList (nul null) 0 t))).
Proof. apply list_iff. Qed.

Theorem C65_undeclared : forall es d null, (forall t, ~ declares d t) -> forall c, read_typed_arg (GList es d null) <> Ok c.
Proof.
  intros es d null H c E. unfold TestCaseModel.read_typed_arg in E. cbn [TestCaseModel.read_arg] in E. apply bind_inv in E. destruct E as (x & E & _).
  apply bind_inv in E. destruct E as (t & E & _). apply declares_iff in E. apply (H t E).
Qed.

(** The value has the type declared for it. *)
Theorem C65_value_of_type : forall a c v, (forall es d null t, a = GList es d null -> declares d t -> unshared t (existsb has_null es)) ->
  read_typed_arg a = Ok c -> c_value c = CLit v -> lit_type v = Ok (c_type c).
Proof.
  intros a c v U E V. destruct a as [text d|text p null|text p null|text null|text null|text ps null|text null|text null|text null|text null|text null|text pt null|k text len null|text pt null|text pt null|text pt null|es d null|name|] eqn:A.
  17:{ assert (E0 := E). unfold TestCaseModel.read_typed_arg in E0. cbn [TestCaseModel.read_arg] in E0. apply bind_inv in E0. destruct E0 as (x & E0 & _).
       apply bind_inv in E0. destruct E0 as (t & E0 & _). apply declares_iff in E0. apply (C65_list _ _ _ _ _ E0 (U _ _ _ _ eq_refl E0)) in E.
       destruct E as (os & _ & _ & ->). cbn in V. injection V as <-. reflexivity. }
  all: apply C65_argument in E; [|intros (? & ? & ? & ?); discriminate].
  all: inversion E; subst; cbn in V; try discriminate V; injection V as <-; cbn [c_type]; try reflexivity.
  all: try match goal with S1 : TestCaseSpec.says_value _ _ ?t _ _ |- _ => inversion S1; subst; reflexivity end.
  all: match goal with O : own_type ?k ?p, S1 : says_own ?k _ _ _ |- _ => unfold own_type in O; cbn [In] in *; destruct S1; cbn; repeat f_equal; intuition congruence end.
Qed.

(** A null among day-time intervals of a type that is not nullable makes the type nullable: the list is read as if the type had
    been declared nullable. *)
Definition shared_kind (k : kind) : Prop := In k [KIntervalDay; KNum; KStr; KNull].
Notation read_elements := (read_elements parse_float to_float32).
Notation read_literal := (read_literal parse_float to_float32).
Definition TI (n q : Z) : ty := TIntervalDay n 0 q.
Lemma shared_literal : forall l n q, shared_kind (t_kind l) -> n = 1 \/ n = 2 ->
  match read_literal (Some (TI n q)) l with
  | Ok (o, c) => read_literal (Some (TI 1 q)) l = Ok (option_map (settle_lit (TI 1 q)) o, Some (TI 1 q)) /\
      c = Some (TI (if null_kind l then 1 else n) q) /\ option_map (settle_lit (TI 1 q)) (option_map (settle_lit (TI 1 q)) o) = option_map (settle_lit (TI 1 q)) o
  | Err => read_literal (Some (TI 1 q)) l = Err
  | Panic => read_literal (Some (TI 1 q)) l = Panic
  end.
Proof.
  intros [k text] n q K N. unfold shared_kind in K. cbn [t_kind] in K. unfold TI. destruct K as [<-|[<-|[<-|[<-|[]]]]]; unfold TestCaseModel.read_literal, null_kind; cbn [t_kind t_text].
  - unfold interval_day_literal. destruct (parse_interval_days (raw_string text)) as [[[[d sec] ss] p]| |]; cbn; auto.
  - cbn. auto.
  - cbn. auto.
  - cbn. auto.
Qed.
Lemma shared_elements : forall ls n q, Forall (fun l => shared_kind (t_kind l)) ls -> n = 1 \/ n = 2 ->
  match read_elements (Some (TI n q)) (map ELit ls) with
  | Ok (vs, c) => read_elements (Some (TI 1 q)) (map ELit ls) = Ok (map (settle_lit (TI 1 q)) vs, Some (TI 1 q)) /\
      c = Some (TI (if existsb null_kind ls then 1 else n) q) /\ map (settle_lit (TI 1 q)) (map (settle_lit (TI 1 q)) vs) = map (settle_lit (TI 1 q)) vs
  | Err => read_elements (Some (TI 1 q)) (map ELit ls) = Err
  | Panic => read_elements (Some (TI 1 q)) (map ELit ls) = Panic
  end.
Proof.
  induction ls as [|l ls IH]; intros n q F N; cbn [map]; [cbn; auto|]. inversion F; subst.
  rewrite !read_elements_cons. cbn [TestCaseModel.read_element]. pose proof (shared_literal l n q H1 N) as L.
  destruct (read_literal (Some (TI n q)) l) as [[o c]| |]; [|rewrite L; reflexivity..]. destruct L as (L1 & -> & L2). rewrite L1. cbn [bind].
  specialize (IH (if null_kind l then 1 else n) q H2). destruct (read_elements _ (map ELit ls)) as [[vs c]| |];
    [|cbn [bind]; rewrite IH by (destruct (null_kind l); auto); reflexivity..].
  destruct IH as (I1 & -> & I2); [destruct (null_kind l); auto|]. rewrite I1. cbn [bind existsb]. split; [|split].
  - destruct o; reflexivity.
  - destruct (null_kind l); cbn [orb]; destruct (existsb null_kind ls); reflexivity.
  - destruct o as [v|]; cbn in L2 |- *; [|exact I2]. injection L2 as L2. rewrite L2. f_equal. exact I2.
Qed.
Theorem C65_shared_interval : forall ls p null, Forall (fun l => shared_kind (t_kind l)) ls -> Exists (fun l => t_kind l = KNull) ls ->
  read_typed_arg (GList (map ELit ls) (DIntervalDay p false) null) = read_typed_arg (GList (map ELit ls) (DIntervalDay p true) null).
Proof.
  intros ls p null F X. unfold TestCaseModel.read_typed_arg. cbn [TestCaseModel.read_arg].
  assert (EX : existsb null_kind ls = true).
  { apply existsb_exists. apply Exists_exists in X. destruct X as (l & I & K). exists l. split; [exact I|]. unfold null_kind. rewrite K. reflexivity. }
  assert (D : (dtype_of (DIntervalDay p false) = Err /\ dtype_of (DIntervalDay p true) = Err) \/ (dtype_of (DIntervalDay p false) = Panic /\ dtype_of (DIntervalDay p true) = Panic) \/
    exists q, dtype_of (DIntervalDay p false) = Ok (TI 2 q) /\ dtype_of (DIntervalDay p true) = Ok (TI 1 q)).
  { destruct p as [p|]; cbn [dtype_of]; [destruct (int_param p) as [q| |]; cbn [bind]|]; [right; right; exists q|left|right; left|right; right; exists 0]; split; reflexivity. }
  destruct D as [[-> ->] | [[-> ->] | (q & -> & ->)]]; [reflexivity..|]. cbn [bind].
  pose proof (shared_elements ls 2 q F ltac:(auto)) as S1. rewrite EX in S1. destruct (read_elements (Some (TI 2 q)) (map ELit ls)) as [[vs c]| |]; [|rewrite S1; reflexivity..].
  destruct S1 as (S1 & -> & S2). rewrite S1. cbn [bind settle]. rewrite S2. reflexivity.
Qed.
Theorem C65_shared_interval_refuted : exists es d t c, declares d t /\ read_typed_arg (GList es d false) = Ok c /\ c_type c <> TList 2 0 t.
Proof.
  exists [ELit (Tlit KIntervalDay "'P1D'"); ELit (Tlit KNull "null")], (DIntervalDay None false), (TIntervalDay 2 0 0). eexists.
  split; [constructor|]. split; [vm_compute; reflexivity|]. cbn. discriminate.
Qed.

(** whole numbers that do not fit the type are cut, not refused *)
Theorem C65_wraps_refuted : exists c, read_typed_arg (GInt "300" PrimI8 false) = Ok c /\ c_value c = CLit (LPrim (VI8 44) (TPrim PrimI8 2 0)).
Proof. eexists. split; vm_compute; reflexivity. Qed.
(** elements of other types are accepted, as long as all are of one type *)
Theorem C65_elements_of_type_refuted :
  (exists c, read_typed_arg (GList [ELit (Tlit KBool "true")] (DPrim PrimI32 false) false) = Ok c /\
     c_value c = CLit (LList [LPrim (VBool true) (TPrim PrimBool 2 0)] (TList 2 0 (TPrim PrimI32 2 0)))) /\
  (exists c, read_typed_arg (GList [ELit (Tlit KStr "'abc'")] (DPrim PrimDate false) false) = Ok c /\
     c_value c = CLit (LList [LPrim (VString "abc") (TPrim PrimString 2 0)] (TList 2 0 (TPrim PrimDate 2 0)))) /\
  (exists c, read_typed_arg (GList [EList [ELit (Tlit KNum "1")]] (DPrim PrimI32 false) false) = Ok c /\
     c_value c = CLit (LList [LList [LPrim (VI32 1) (TPrim PrimI32 2 0)] (TList 2 0 (TPrim PrimI32 2 0))] (TList 2 0 (TPrim PrimI32 2 0)))).
Proof. repeat split; (eexists; split; vm_compute; reflexivity). Qed.
(** numbers in a list of a type that takes no numbers disappear *)
Theorem C65_dropped_refuted : exists c, read_typed_arg (GList [ELit (Tlit KNum "1"); ELit (Tlit KNum "2")] (DPrim PrimBool false) false) = Ok c /\
  c_value c = CLit (LList [] (TList 2 0 (TPrim PrimBool 2 0))).
Proof. eexists. split; vm_compute; reflexivity. Qed.
(** empty inner lists are refused, and in lists of lists of lists they are of the wrong type *)
Theorem C65_empty_inner_refuted :
  read_typed_arg (GList [EList []] (DList (DPrim PrimI32 false) false) false) = Err /\
  exists c, read_typed_arg (GList [EList []] (DList (DList (DPrim PrimI32 false) false) false) false) = Ok c /\
    c_value c = CLit (LList [LList [] (TList 2 0 (TPrim PrimI32 2 0))] (TList 2 0 (TList 2 0 (TList 2 0 (TPrim PrimI32 2 0))))).
Proof. split; [vm_compute; reflexivity|]. eexists. split; vm_compute; reflexivity. Qed.
(** a null beside values of a type that is not nullable is refused, a null alone is not *)
Theorem C65_nulls_refuted :
  read_typed_arg (GList [ELit (Tlit KNum "1"); ELit (Tlit KNull "null")] (DPrim PrimI32 false) false) = Err /\
  exists c, read_typed_arg (GList [ELit (Tlit KNull "null")] (DPrim PrimI32 false) false) = Ok c.
Proof. split; [vm_compute; reflexivity|]. eexists. vm_compute. reflexivity. Qed.
(** characters are not counted for fixedchar, but are for varchar *)
Theorem C65_fixed_length_refuted :
  (exists c, read_typed_arg (GFixed FxChar "'abc'" "2" false) = Ok c /\ c_value c = CLit (LPrim (VFixedChar "abc") (TFixed FxChar 2 0 2))) /\
  read_typed_arg (GFixed FxVarChar "'abc'" "2" false) = Err.
Proof. split; [eexists; split|]; vm_compute; reflexivity. Qed.
(** a parameter of a type that does not fit 32 bits is cut *)
Theorem C65_parameter_wraps_refuted : exists c, read_typed_arg (GDecimal "1.5" (Some ("4294967299", "4294967297")) false) = Ok c /\ c_type c = TDecimal 2 0 3 1.
Proof. eexists. split; vm_compute; reflexivity. Qed.

Example C65_nonvacuous :
  (exists c, read_typed_arg (GDecimal "-12.50" (Some ("6", "3")) true) = Ok c /\ ~ is_list (GDecimal "-12.50" (Some ("6", "3")) true) /\ c_type c = TDecimal 1 0 6 3) /\
  (exists c, read_typed_arg (GIntervalDay "'P1DT2H3.5S'" (Some "3") false) = Ok c /\ c_value c = CLit (LProto (XDaySecond (Idts 1 7203 (IM_precision 3) 500)) (TIntervalDay 2 0 3))) /\
  (exists c, read_typed_arg (GDate "'2024-02-29'" false) = Ok c /\ c_value c = CLit (LPrim (VDate 19782) (TPrim PrimDate 2 0))) /\
  (exists c, read_typed_arg (GList [EList [ELit (Tlit KNum "1"); ELit (Tlit KNum "-2")]; EList [ELit (Tlit KNum "+3")]] (DList (DPrim PrimI16 false) false) true) = Ok c /\
     declares (DList (DPrim PrimI16 false) false) (TList 2 0 (TPrim PrimI16 2 0)) /\
     unshared (TList 2 0 (TPrim PrimI16 2 0)) false /\
     c_value c = CLit (LList [LList [LPrim (VI16 1) (TPrim PrimI16 2 0); LPrim (VI16 (-2)) (TPrim PrimI16 2 0)] (TList 2 0 (TPrim PrimI16 2 0));
                              LList [LPrim (VI16 3) (TPrim PrimI16 2 0)] (TList 2 0 (TPrim PrimI16 2 0))] (TList 1 0 (TList 2 0 (TPrim PrimI16 2 0))))) /\
  read_typed_arg (GInt "9223372036854775808" PrimI64 false) = Err /\ read_typed_arg (GDecimal "123.4" (Some ("3", "1")) false) = Err.
Proof.
  split; [eexists; split; [vm_compute; reflexivity|split; [intros (? & ? & ? & ?); discriminate|reflexivity]]|].
  split; [eexists; split; vm_compute; reflexivity|]. split; [eexists; split; vm_compute; reflexivity|].
  split; [|split; vm_compute; reflexivity]. eexists. split; [vm_compute; reflexivity|].
  split; [constructor; constructor|]. split; [discriminate|reflexivity].
Qed.

(** ** C64: files *)

Notation read_call := (read_call parse_float to_float32).
Notation parse_doc := (parse_doc parse_float to_float32).
Definition reads_arg (a : targ) (c : caselit) : Prop := read_typed_arg a = Ok c.
Definition reads_call (c : aggcall) (p : callparts) : Prop := read_call c = Ok p.

Lemma fm_get_set : forall k k' v (m : fmap string string), fm_get String.eqb k (fm_set String.eqb k' v m) = if String.eqb k k' then Some v else fm_get String.eqb k m.
Proof.
  intros k k' v m. unfold fm_set. cbn [fm_get]. destruct (String.eqb_spec k k') as [->|N]; [try rewrite String.eqb_refl; reflexivity|].
  try (destruct (String.eqb_spec k' k); [congruence|]).
  induction m as [|[x y] m IH]; cbn; [reflexivity|]. destruct (String.eqb_spec k' x) as [->|N2]; cbn.
  - destruct (String.eqb_spec k x); [congruence|]. exact IH.
  - destruct (String.eqb_spec k x); [reflexivity|]. exact IH.
Qed.
Lemma last_of_app : forall n ps k v w, last_of n (ps ++ [(k, v)]) w <-> (n = k /\ w = v) \/ (n <> k /\ last_of n ps w).
Proof.
  intros n ps k v w. split.
  - intros (b & a & E & H). destruct a as [|x a _] using rev_ind.
    + apply app_inj_tail in E. destruct E as [_ E]. injection E as -> ->. auto.
    + rewrite app_comm_cons, app_assoc in E. apply app_inj_tail in E. destruct E as [-> <-]. destruct (string_dec n k) as [->|N].
      * exfalso. apply (H v). apply in_or_app. right. left. reflexivity.
      * right. split; [assumption|]. exists b, a. split; [reflexivity|]. intros u I. apply (H u). apply in_or_app. left. exact I.
  - intros [[-> ->]|(N & b & a & -> & H)].
    + exists ps, []. split; [reflexivity|]. intros u [].
    + exists b, (a ++ [(k, v)])%list. split; [rewrite <- app_assoc; reflexivity|]. intros u I. apply in_app_or in I. destruct I as [I|[I|[]]]; [apply (H u I)|]. congruence.
Qed.
Lemma read_options_says : forall o, options_say o (read_options o).
Proof.
  intros [ps|] n v; cbn [read_options].
  - assert (Q : forall w, fm_get String.eqb n (fold_left (fun m p => fm_set String.eqb (fst p) (snd p) m) ps []) = Some w <-> last_of n ps w).
    { induction ps as [|[k x] ps IH] using rev_ind; intros w.
      - cbn. split; [discriminate|]. intros (b & a & E & _). destruct b; discriminate.
      - rewrite fold_left_app. cbn [fold_left fst snd]. rewrite fm_get_set, last_of_app. destruct (String.eqb_spec n k) as [->|N].
        + split; [intros [= <-]; auto|]. intros [[_ ->]|[N _]]; congruence.
        + rewrite IH. split; [auto|]. intros [[E _]|[_ H]]; [congruence|exact H]. }
    rewrite Q. split; [intros H; exists ps; auto|]. intros (ps' & [= <-] & H). exact H.
  - cbn. split; [discriminate|]. intros (ps & E & _). discriminate.
Qed.

Lemma read_result_iff : forall r o, read_result parse_float to_float32 r = Ok o <-> result_says reads_arg r o.
Proof.
  intros r o. split.
  - destruct r as [a| |]; cbn; [intros H; apply bind_inv in H; destruct H as (c & H & [= <-]); constructor; exact H|intros [= <-]; constructor..].
  - intros H. destruct H as [a c H| |]; cbn; [rewrite H|..]; reflexivity.
Qed.
Lemma mapM_iff : forall A B (f : A -> res B) l m, mapM f l = Ok m <-> Forall2 (fun a b => f a = Ok b) l m.
Proof. intros A B f l m. apply FuncTypeProofs.mapM_ok_forall2. intros; reflexivity. Qed.
Lemma forall2_impl : forall A B (P Q : A -> B -> Prop) l m, (forall a b, P a b -> Q a b) -> Forall2 P l m -> Forall2 Q l m.
Proof. intros A B P Q l m H F. induction F; constructor; auto. Qed.
Lemma forall2_any : forall A B (P Q : A -> B -> Prop) l m, (forall a b, P a b -> exists b', Q a b') -> Forall2 P l m -> exists m', Forall2 Q l m'.
Proof. intros A B P Q l m H F. induction F as [|a b l m H1 _ (m' & IH)]; [eauto|]. destruct (H _ _ H1) as (b' & H2). exists (b' :: m'). auto. Qed.

Notation case_says' := (case_says reads_arg).
Notation agg_case_says' := (agg_case_says reads_arg reads_call).
Notation group_says' := (group_says reads_arg reads_call).
Notation file_says' := (file_says reads_arg reads_call).

Lemma case_read : forall uri d c k, read_case parse_float to_float32 uri d c = Ok k -> case_says' uri d c k.
Proof.
  intros uri d [[[name args] opts] r] k H. cbn [read_case] in H. apply bind_inv in H. destruct H as (cs & F & H). apply bind_inv in H. destruct H as (o & R & [= <-]).
  constructor; [apply mapM_iff; exact F|apply read_result_iff; exact R|apply read_options_says].
Qed.
Lemma case_accepted : forall uri d c k, case_says' uri d c k -> exists k', read_case parse_float to_float32 uri d c = Ok k'.
Proof.
  intros uri d c k H. destruct H as [name args opts r cs o m F R O]. cbn [read_case]. apply mapM_iff in F. rewrite F. cbn [bind]. apply read_result_iff in R. rewrite R. eexists. reflexivity.
Qed.
Lemma agg_case_read : forall uri d c k, read_agg_case parse_float to_float32 uri d c = Ok k -> agg_case_says' uri d c k.
Proof.
  intros uri d [[call opts] r] k H. cbn [read_agg_case] in H. apply bind_inv in H. destruct H as ([[[[name args] cols] table] ts] & F & H).
  apply bind_inv in H. destruct H as (o & R & [= <-]). constructor; [exact F|apply read_result_iff; exact R|apply read_options_says].
Qed.
Lemma agg_case_accepted : forall uri d c k, agg_case_says' uri d c k -> exists k', read_agg_case parse_float to_float32 uri d c = Ok k'.
Proof.
  intros uri d c k H. destruct H as [call opts r name args cols table ts o m F R O]. cbn [read_agg_case]. rewrite F. cbn [bind]. apply read_result_iff in R. rewrite R. eexists. reflexivity.
Qed.
Lemma group_read : forall uri b g ks, read_group parse_float to_float32 b uri g = Ok ks -> group_says' uri b g ks.
Proof.
  intros uri b [[d|] cases|[d|] cases] ks H; cbn [read_group] in H; try discriminate H; destruct b; try discriminate H; apply mapM_iff in H;
    (econstructor; [apply describes_iff; reflexivity|]); (eapply forall2_impl; [|exact H]); cbv beta; intros; [apply case_read|apply agg_case_read]; assumption.
Qed.
Lemma group_accepted : forall uri b g ks, group_says' uri b g ks -> exists ks', read_group parse_float to_float32 b uri g = Ok ks'.
Proof.
  intros uri b g ks H. destruct H as [text d cases ks D F|text d cases ks D F]; cbn [read_group]; apply describes_iff in D; rewrite D.
  - destruct (forall2_any _ _ _ _ _ _ (case_accepted uri d) F) as (m & G). exists m. apply mapM_iff. exact G.
  - destruct (forall2_any _ _ _ _ _ _ (agg_case_accepted uri d) F) as (m & G). exists m. apply mapM_iff. exact G.
Qed.

(** What is read from a file is what it says: version, kind and extension, and its cases in order, each with the extension, the
    description of its group, its function, arguments, result and options. *)
Theorem C64_file : forall d f, parse_doc d = Ok f -> file_says' d f.
Proof.
  intros [agg version incs groups] f H. unfold TestCaseModel.parse_doc in H. unfold TestCaseModel.read_doc in H. cbn [d_includes d_groups d_aggregate d_version] in H.
  destruct incs as [|inc more]; [discriminate|].
  destruct (mapM (read_group parse_float to_float32 agg (raw_string inc)) groups) as [gs| |] eqn:E; cbn [bind] in H; try discriminate H. injection H as <-.
  constructor; [apply unquoted_iff; reflexivity|]. apply mapM_iff in E. eapply forall2_impl; [|exact E]. cbv beta. intros g ks. apply group_read.
Qed.

(** A file is read exactly if it says something. *)
Theorem C64_accepted_iff : forall d, (exists f, parse_doc d = Ok f) <-> (exists f, file_says' d f).
Proof.
  intros d. split; [intros (f & H); exists f; apply C64_file; exact H|]. intros (f & H). destruct H as [agg version inc more groups uri kss U F].
  apply unquoted_iff in U. unfold TestCaseModel.parse_doc, TestCaseModel.read_doc. cbn [d_includes d_groups d_aggregate d_version]. rewrite U.
  destruct (forall2_any _ _ _ _ _ _ (fun g ks => group_accepted uri agg g ks) F) as (m & G). apply mapM_iff in G. rewrite G. eexists. reflexivity.
Qed.

(** Reading never panics. *)
Theorem C64_never_panics : forall d, parse_doc d <> Panic.
Proof. intros d. unfold TestCaseModel.parse_doc. destruct (TestCaseModel.read_doc parse_float to_float32 d); discriminate. Qed.

(** The cases are as many as the text has, whatever is in them. *)
Theorem C64_every_case : forall d f, parse_doc d = Ok f ->
  List.length (f_cases f) = list_sum (map (fun g => match g with GroupScalar _ cs => List.length cs | GroupAgg _ cs => List.length cs end) (d_groups d)) /\
  Forall (fun k => k_uri k = f_uri f /\ k_aggregate k = d_aggregate d) (f_cases f).
Proof.
  intros d f H. apply C64_file in H. destruct H as [agg version inc more groups uri kss U F]. cbn [f_cases d_groups f_uri d_aggregate].
  assert (L : forall A (P : A -> tcase -> Prop) l ks, Forall2 P l ks -> List.length ks = List.length l) by (intros A P l ks G; induction G; cbn; congruence).
  split.
  - induction F as [|g ks gs kss G _ IH]; [reflexivity|]. cbn [List.concat map]. rewrite app_length. cbn [list_sum fold_right] in *. fold list_sum. rewrite IH. f_equal.
    destruct G as [? ? ? ? _ G|? ? ? ? _ G]; eapply L; exact G.
  - induction F as [|g ks gs kss G _ IH]; cbn [List.concat]; [constructor|]. apply Forall_app. split; [|exact IH].
    destruct G as [? ? cs ks _ G|? ? cs ks _ G]; induction G as [|? ? ? ? Q _ IH2]; constructor; auto; destruct Q; auto.
Qed.

(** A group without a description, which the grammar allows, makes the file unreadable. *)
Theorem C64_no_description_refuted : exists cases, parse_doc (Tdoc false "v1.0" ["'/extensions/f.yaml'"] [GroupScalar None cases]) = Err /\
  exists f, parse_doc (Tdoc false "v1.0" ["'/extensions/f.yaml'"] [GroupScalar (Some "# basic") cases]) = Ok f.
Proof. exists []. split; [vm_compute; reflexivity|]. eexists. vm_compute. reflexivity. Qed.

Example C64_nonvacuous : exists f,
  parse_doc (Tdoc false "v1.0" ["'/extensions/functions_arithmetic.yaml'"]
    [GroupScalar (Some "# basic: of small numbers ")
       [("add", [GInt "1" PrimI8 false; GInt "2" PrimI8 false], None, RArg (GInt "3" PrimI8 false));
        ("add", [GInt "120" PrimI8 false; GInt "10" PrimI8 false], Some [("overflow", "SILENT"); ("overflow", "ERROR")], RError)];
     GroupScalar (Some "no hash") [("negate", [GInt "-1" PrimI8 true], None, RUndefined)]]) = Ok f /\
  map (fun k => (k_group k, k_name k, k_result k)) (f_cases f) =
    [("basic: of small numbers", "add", OValue (Case (TPrim PrimI8 2 0) "3" (CLit (LPrim (VI8 3) (TPrim PrimI8 2 0)))));
     ("basic: of small numbers", "add", OError); ("no hash", "negate", OUndefined)] /\
  map (fun k => fm_get String.eqb "overflow" (k_options k)) (f_cases f) = [None; Some "ERROR"; None] /\
  f_uri f = "/extensions/functions_arithmetic.yaml".
Proof. eexists. split; [vm_compute; reflexivity|]. do 2 (split; [vm_compute; reflexivity|]). reflexivity. Qed.
End Floats.

Print Assumptions C64_file.
Print Assumptions C64_accepted_iff.
Print Assumptions C64_never_panics.
Print Assumptions C64_every_case.
Print Assumptions C64_no_description_refuted.
Print Assumptions C65_argument.
Print Assumptions C65_list.
Print Assumptions C65_undeclared.
Print Assumptions C65_value_of_type.
Print Assumptions C65_shared_interval.
Print Assumptions C65_shared_interval_refuted.
Print Assumptions C65_wraps_refuted.
Print Assumptions C65_elements_of_type_refuted.
Print Assumptions C65_dropped_refuted.
Print Assumptions C65_empty_inner_refuted.
Print Assumptions C65_nulls_refuted.
Print Assumptions C65_fixed_length_refuted.
Print Assumptions C65_parameter_wraps_refuted.
