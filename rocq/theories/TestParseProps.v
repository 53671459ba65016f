(** C78: the grammar of function test files, and what is read from the text of one. *)

From Coq Require Import ZArith String Ascii Bool List.
From Verif Require Import Base TypesModel SigModel LitModel TextSpec TestCaseModel TestCaseSpec TestCaseProps FloatModel FloatSpec TestLexModel TestLexSpec TestLexProofs TestNameProofs
  TestParseModel TestParseSpec TestDocProofs.
Import ListNotations.
Local Open Scope string_scope.
Local Open Scope list_scope.

(** A text has the parse tree [d] exactly if its tokens are those [d] is written with. *)
Theorem C78_tree : forall s d, parse_text s = Some d <-> exists l, consists s l /\ file_written d l.
Proof.
  intros s d. unfold parse_text. rewrite p_doc_iff. split.
  - intros H. exists (tokens s). split; [now apply tokens_consists|exact H].
  - intros (l & C & H). apply tokens_consists in C. now subst.
Qed.

(** The same tokens are never the writing of two trees. *)
Theorem C78_unambiguous : forall d d' l, file_written d l -> file_written d' l -> d = d'.
Proof. intros d d' l H H'. apply p_doc_iff in H, H'. congruence. Qed.

Section Hex.
(** what the hexadecimal texts say, of which the grammar has none *)
Variable hex : string -> res Z.
Notation parse_string := (parse_string hex).
Notation parse_float := (parse_float hex).

(** Reading a text: it is one of the grammar, and what is read is what the tree says (C64, C65, C66, C70). *)
Theorem C78_reads : forall s f, parse_string s = Ok f <->
  exists l d, consists s l /\ file_written d l /\ parse_doc parse_float to_float32 d = Ok f.
Proof.
  intros s f. unfold parse_string. split.
  - intros H. destruct (parse_text s) as [d|] eqn:P; [|discriminate H]. apply C78_tree in P. destruct P as (l & C & W). eauto.
  - intros (l & d & C & W & H). assert (P : parse_text s = Some d) by (apply C78_tree; eauto). now rewrite P.
Qed.
Theorem C78_says : forall s f, parse_string s = Ok f ->
  exists l d, consists s l /\ file_written d l /\
    file_says (reads_arg parse_float to_float32) (reads_call parse_float to_float32) d f.
Proof.
  intros s f H. apply C78_reads in H. destruct H as (l & d & C & W & P). exists l, d. split; [exact C|]. split; [exact W|]. now apply C64_file.
Qed.

(** A text is refused exactly if it is not one of the grammar or its tree says nothing; and reading never panics. *)
Theorem C78_refused : forall s, parse_string s = Err <->
  (forall l d, consists s l -> ~ file_written d l) \/
  (exists l d, consists s l /\ file_written d l /\ forall f, parse_doc parse_float to_float32 d <> Ok f).
Proof.
  intros s. unfold parse_string. destruct (parse_text s) as [d|] eqn:P.
  - apply C78_tree in P. destruct P as (l & C & W). split.
    + intros E. right. exists l, d. rewrite E. repeat split; auto. discriminate.
    + intros [N|(l' & d' & C' & W' & N)]; [exfalso; eapply N; eauto|]. assert (l' = l) by (eapply consists_fun; eauto). subst l'.
      assert (d' = d) by (eapply C78_unambiguous; eauto). subst d'. destruct (parse_doc parse_float to_float32 d) as [f| |] eqn:E; [exfalso; eapply N; eauto|reflexivity|].
      exfalso. eapply C64_never_panics; eauto.
  - split; [|reflexivity]. intros _. left. intros l d C W. assert (X : parse_text s = Some d) by (apply C78_tree; eauto). congruence.
Qed.
Theorem C78_never_panics : forall s, parse_string s <> Panic.
Proof. intros s H. unfold parse_string in H. destruct (parse_text s); [|discriminate H]. eapply C64_never_panics; eauto. Qed.

(** Only the tokens matter: not the white space and the comments between them. *)
Theorem C78_only_tokens : forall s s' l, consists s l -> consists s' l -> parse_string s = parse_string s'.
Proof. intros s s' l H H'. apply tokens_consists in H, H'. unfold parse_string, parse_text. now rewrite H, H'. Qed.

(** Every scalar test case has an argument, and every test file a case. *)
Theorem C78_has_arguments : forall s d desc cs name args os r, parse_text s = Some d ->
  In (GroupScalar desc cs) (d_groups d) -> In (name, args, os, r) cs -> args <> [].
Proof.
  intros s d desc cs name args os r H I J. apply C78_tree in H. destruct H as (l & _ & W). destruct W as [a v incs deps gs x1 x2 x3 x4 x5 x6 w u t _ _ _ _ S]. cbn [d_groups] in I.
  assert (G : exists v, group_written (GroupScalar desc cs) v).
  { clear - S I. induction S as [|g w gs v Gg S IH]; [destruct I|]. destruct I as [->|I]; eauto. }
  destruct G as (v0 & G). inversion G as [desc' cs' w' v' D NE Q|]; subst.
  assert (C : exists v, scalar_written (name, args, os, r) v).
  { clear - Q J. induction Q as [|c w cs v Gc Q IH]; [destruct J|]. destruct J as [->|J]; eauto. }
  destruct C as (v1 & C). inversion C as [n2 a2 o2 r2 x y z w2 v2 u2 t2 N V U R]; subst. destruct V; discriminate.
Qed.
Theorem C78_has_cases : forall s d, parse_text s = Some d -> d_groups d <> [] /\
  Forall (fun g => match g with GroupScalar _ cs => cs <> [] | GroupAgg _ cs => cs <> [] end) (d_groups d) /\ d_includes d <> [].
Proof.
  intros s d H. apply C78_tree in H. destruct H as (l & _ & W). destruct W as [a v incs deps gs x1 x2 x3 x4 x5 x6 w u t L _ NE _ S]. cbn [d_groups d_includes].
  split; [exact NE|]. split; [|destruct L; discriminate]. clear NE. induction S as [|g w' gs v' Gg S IH]; constructor; auto. destruct Gg; assumption.
Qed.

(** ** examples and findings *)

Definition newline_text : string := String "010" "".
Fixpoint lines (l : list string) : string := match l with [] => "" | x :: l' => (x ++ newline_text ++ lines l')%string end.
Definition sample (case : string) : string :=
  lines ["### SUBSTRAIT_SCALAR_TEST: v1.0"; "### SUBSTRAIT_INCLUDE: '/extensions/functions_arithmetic.yaml'"; ""; "# basic: examples"; case].
Definition accepted (s : string) : Prop := exists f, parse_string s = Ok f.

Example C78_nonvacuous : exists f,
  parse_string (sample "add(120::i8, 5::i8) [overflow:ERROR] = 125::i8  // fits") = Ok f /\
  f_version f = "v1.0" /\ f_uri f = "/extensions/functions_arithmetic.yaml" /\
  map (fun k => (k_group k, k_name k, k_result k)) (f_cases f) =
    [("basic: examples", "add", OValue (Case (TPrim PrimI8 2 0) "125" (CLit (LPrim (VI8 125) (TPrim PrimI8 2 0)))))].
Proof. eexists. split; [vm_compute; reflexivity|]. repeat split; vm_compute; reflexivity. Qed.

(** A function without arguments cannot be tested in a scalar test file. *)
Theorem C78_no_arguments_refuted : accepted (sample "pi(1::i8) = 3::i8") /\ parse_string (sample "pi() = 3::i8") = Err.
Proof. split; [eexists; vm_compute; reflexivity|vm_compute; reflexivity]. Qed.
(** A string cannot have the look of a date, of a time or of an interval. *)
Theorem C78_date_string_refuted :
  accepted (sample "upper('a-b'::str) = 'A-B'::str") /\ parse_string (sample "upper('2020-01-01'::str) = '2020-01-01'::str") = Err /\
  parse_string (sample "upper('p1y'::str) = 'P1Y'::str") = Err.
Proof. split; [eexists; vm_compute; reflexivity|]. split; vm_compute; reflexivity. Qed.
(** An integer cannot have leading zeros. *)
Theorem C78_leading_zero_refuted : accepted (sample "f1(7::i8) = 7::i8") /\ parse_string (sample "f1(07::i8) = 7::i8") = Err.
Proof. split; [eexists; vm_compute; reflexivity|vm_compute; reflexivity]. Qed.
(** Characters that mean nothing are ignored, so that a misspelt file can be read as something else. *)
Theorem C78_stray_refuted : parse_string (sample "add(~1::i8, 2::i8) = @3::i8;") = parse_string (sample "add(1::i8, 2::i8) = 3::i8") /\
  accepted (sample "add(~1::i8, 2::i8) = @3::i8;").
Proof. split; [vm_compute; reflexivity|eexists; vm_compute; reflexivity]. Qed.
(** An unclosed quote hides the cases after it, and the rest of the file is still accepted. *)
Theorem C78_unclosed_refuted : parse_string (sample (lines ["add(1::i8, 2::i8) = 3::i8"; "'add(1::i8, 2::i8) = 4::i8"; "add(2::i8, 2::i8) = 4::i8"])) =
  parse_string (sample "add(1::i8, 2::i8) = 3::i8").
Proof. vm_compute. reflexivity. Qed.
(** The dependencies of a file are not read. *)
Theorem C78_dependencies_refuted : exists d,
  parse_text (lines ["### SUBSTRAIT_SCALAR_TEST: v1.0"; "### SUBSTRAIT_INCLUDE: '/a.yaml'"; "### SUBSTRAIT_DEPENDENCY: '/b.yaml'"; "# basic"; "f1(1::i8) = 1::i8"]) = Some d /\
  parse_text (lines ["### SUBSTRAIT_SCALAR_TEST: v1.0"; "### SUBSTRAIT_INCLUDE: '/a.yaml'"; "# basic"; "f1(1::i8) = 1::i8"]) = Some d.
Proof. eexists. split; vm_compute; reflexivity. Qed.
End Hex.

(** No number in a file is hexadecimal. *)
Theorem C78_no_hexadecimal : forall s k t, In (k, t) (tokens s) -> In k [KIntLit; KDecLit; KFloatLit; KNaN] -> ~ hexadecimal t.
Proof.
  intros s k t I K (sg & neg & x & c & r & _ & X & ->).
  destruct (numeric_no_x s k _ I) as (N & N'); [cbn in K; destruct K as [<-|[<-|[<-|[<-|[]]]]]; reflexivity|].
  rewrite !chars_app in N, N'. destruct X as [->| ->]; [apply N|apply N']; (apply in_or_app; right; apply in_or_app; right; left; reflexivity).
Qed.
Example C78_no_hexadecimal_nonvacuous : In (KFloatLit, "1.5e3") (tokens "f1(1.5e3::fp64)") /\ tokens "f1(0x10::fp64)" <> [].
Proof. split; [vm_compute; tauto|vm_compute; discriminate]. Qed.

Print Assumptions C78_tree.
Print Assumptions C78_unambiguous.
Print Assumptions C78_reads.
Print Assumptions C78_says.
Print Assumptions C78_refused.
Print Assumptions C78_never_panics.
Print Assumptions C78_only_tokens.
Print Assumptions C78_has_arguments.
Print Assumptions C78_has_cases.
Print Assumptions C78_no_hexadecimal.
Print Assumptions C78_no_arguments_refuted.
Print Assumptions C78_date_string_refuted.
Print Assumptions C78_leading_zero_refuted.
Print Assumptions C78_stray_refuted.
Print Assumptions C78_unclosed_refuted.
Print Assumptions C78_dependencies_refuted.
